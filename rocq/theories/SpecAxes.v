(** * SpecAxes: taking other axes: permuting, repeating or leaving out coordinates.

    Independent of the filter model: only the other Spec files. *)
From Verif Require Import Base Mesh Filters Drivers Spec SpecGeo.

(** The arithmetic [O] in dimension [d]. *)
Definition in_dim (O : Ops) (d : nat) : Ops :=
  mkOps (K O) d (kadd O) (ksub O) (kmul O) (kdiv O) (kZ O) (ksqrt O) (kcos2pi O) (kgtb O).

(** The point [q] has as coordinate number [i] the coordinate number [ax i] of [p]. *)
Definition along {A} (ax : nat -> nat) (p q : list A) : Prop :=
  forall i, (i < length q)%nat -> nth_error p (ax i) = nth_error q i.

(** The same mesh drawn along the axes [ax]. *)
Definition axes_image {O d D1 D2} (ax : nat -> nat) (m1 : mesh O D1) (m2 : mesh (in_dim O d) D2) : Prop :=
  same_connectivity m1 m2 /\ Forall2 (fun p q => along ax (snd p) (snd q)) (pts m1) (pts m2).

(** The results are drawings of each other, or both runs fail in the same way. *)
Definition axes_outcome {O d D1 D2} (ax : nat -> nat) (r1 : res (@state O D1)) (r2 : res (@state (in_dim O d) D2)) : Prop :=
  match r1, r2 with
  | Ok (f1, o1), Ok (f2, o2) => f1 = f2 /\ axes_image ax o1 o2
  | Throw e1, Throw e2 => e1 = e2
  | Undef u1, Undef u2 => u1 = u2
  | OutOfFuel, OutOfFuel => True
  | _, _ => False
  end.
