(** * SpecFlt: floating-point coordinates, compared with exact ones.

    Independent of the filter model: only the mesh record, SpecGeo.v and Flocq's IEEE-754 formats. *)
From Coq Require Import Reals.
From Flocq Require Import Core BinarySingleNaN.
From Verif Require Import Base Mesh Filters Spec SpecGeo.

Section SPECFLT.
(** A binary format: [prec] bits of mantissa, largest exponent [emax] (binary64: 53 and 1024,
    binary32: 24 and 128). *)
Variables (prec emax : Z) (Hp : Prec_gt_0 prec) (Hm : Prec_lt_emax prec emax).

(** IEEE-754 arithmetic, round to nearest even, with some cosine [cosf]. *)
Definition BO (cosf : N -> binary_float prec emax) (d : nat) : Ops :=
  mkOps (binary_float prec emax) d
        (@Bplus prec emax Hp Hm mode_NE) (@Bminus prec emax Hp Hm mode_NE)
        (@Bmult prec emax Hp Hm mode_NE) (@Bdiv prec emax Hp Hm mode_NE)
        (fun z => binary_normalize prec emax Hp Hm mode_NE z 0 false)
        (@Bsqrt prec emax Hp Hm mode_NE) cosf (fun a b => Bltb b a).

(** The unit roundoff 2^-prec and half the smallest positive number. *)
Definition unit_roundoff : R := bpow radix2 (- prec).
Definition half_smallest : R := bpow radix2 (2 - emax - prec).

(** Every coordinate number [i] of every point is finite and lies in [lo i, hi i]. *)
Definition in_box {cosf d D} (lo hi : nat -> R) (m : mesh (BO cosf d) D) : Prop :=
  forall id p i x, In (id, p) (pts m) -> nth_error p i = Some x ->
    is_finite x = true /\ (lo i <= B2R x <= hi i)%R.

(** Same ids, edges and faces, and every floating-point coordinate is finite and within [err] of the
    exact one. *)
Definition near {cosf d D1 D2} (err : R) (m1 : mesh (BO cosf d) D1) (m2 : mesh (RO d) D2) : Prop :=
  same_connectivity m1 m2 /\
  Forall2 (fun p q => Forall2 (fun (x : binary_float prec emax) (y : R) => is_finite x = true /\ (Rabs (B2R x - y) <= err)%R)
                              (snd p) (snd q)) (pts m1) (pts m2).

(** The coordinates [p] are finite and have the values [v]. *)
Definition has_coordinates (p : list (binary_float prec emax)) (v : list R) : Prop :=
  Forall2 (fun x y => is_finite x = true /\ B2R x = y) p v.

(** The same mesh with the coordinates taken as real numbers. *)
Definition exact_mesh {cosf d D} (m : mesh (BO cosf d) D) : mesh (RO d) D :=
  Mesh (O := RO d) (map (fun kv => (fst kv, map B2R (snd kv))) (pts m)) (rings m) (cells m) (ecells m) (cdata m).
End SPECFLT.

(** No coordinate is larger than [M] in absolute value. *)
Definition bounded {d D} (M : R) (m : mesh (RO d) D) : Prop :=
  forall id p, In (id, p) (pts m) -> Forall (fun y => (Rabs y <= M)%R) p.

(** How much a scheme can amplify an error of its input: the sum of the absolute values of its weights. *)
Definition amplification (k : kind) : R :=
  match k with CellF CButterfly | EdgeF EButterfly => (3 / 2)%R | _ => 1%R end.
