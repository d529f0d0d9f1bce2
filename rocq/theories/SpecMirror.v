(** * SpecMirror: mirror images of meshes in floating point.

    Independent of the filter model: only the other Spec files and Flocq's IEEE-754 formats. *)
From Coq Require Import Reals.
From Flocq Require Import Core BinarySingleNaN.
From Verif Require Import Base Mesh Filters Drivers Spec SpecGeo SpecFlt.

Section SPECMIRROR.
Variables (prec emax : Z).
Notation float := (binary_float prec emax).

(** [y] is -[x]: the same bits but for the sign; the sign of a zero is left open. *)
Definition opposite (x y : float) : Prop :=
  y = Bopp x \/ exists s s', x = B754_zero s /\ y = B754_zero s'.

(** The point [q] is the mirror image of the point [p]: the coordinates on the axes in [flip] are
    opposite, the others are the same bits. *)
Definition mirrored (flip : nat -> bool) (p q : list float) : Prop :=
  length p = length q /\
  forall i x y, nth_error p i = Some x -> nth_error q i = Some y -> if flip i then opposite x y else x = y.
End SPECMIRROR.
Arguments opposite {prec emax}.
Arguments mirrored {prec emax}.

(** The mesh [m2] is the mirror image of the mesh [m1]. *)
Definition mirror_image {prec emax Hp Hm cosf d D1 D2} (flip : nat -> bool)
           (m1 : mesh (BO prec emax Hp Hm cosf d) D1) (m2 : mesh (BO prec emax Hp Hm cosf d) D2) : Prop :=
  same_connectivity m1 m2 /\ Forall2 (fun p q => mirrored flip (snd p) (snd q)) (pts m1) (pts m2).

(** The results are mirror images of each other, or both runs fail in the same way. *)
Definition mirror_outcome {prec emax Hp Hm cosf d D1 D2} (flip : nat -> bool)
           (r1 : res (@state (BO prec emax Hp Hm cosf d) D1)) (r2 : res (@state (BO prec emax Hp Hm cosf d) D2)) : Prop :=
  match r1, r2 with
  | Ok (f1, o1), Ok (f2, o2) => f1 = f2 /\ mirror_image flip o1 o2
  | Throw e1, Throw e2 => e1 = e2
  | Undef u1, Undef u2 => u1 = u2
  | OutOfFuel, OutOfFuel => True
  | _, _ => False
  end.
