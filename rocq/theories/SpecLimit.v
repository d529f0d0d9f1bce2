(** * SpecLimit: limit positions of repeated uniform Loop subdivision.

    Independent of the filter model: only the mesh record and the other Spec files. *)
From Coq Require Import Reals.
From Verif Require Import Base Mesh Filters Drivers Spec SpecSub SpecGeo SpecDrive SpecConv.

(** The point [x] that the literature gives as limit of the point [v] under Loop's scheme: with n neighbours and Loop's
    weight b, (3 v + 8 b (sum of the neighbours)) / (3 + 8 n b) inside, and 2/3 v + 1/6 (sum of the two border
    neighbours), the limit of a cubic B-spline curve, on the border. *)
Definition loop_limit {d D} (m : mesh (RO d) D) (v : N) (x : nat -> R) : Prop :=
  (interior_vertex m v ->
     let n := INR (length (ring m v)) in let b := loop_weight (N.of_nat (length (ring m v))) in
     forall i, x i = ((3 * crd m i v + 8 * b * rsum (crd m i) (ring m v)) / (3 + 8 * n * b))%R) /\
  (forall B, border_neighbours m v B -> B <> [] -> forall i, x i = (2 / 3 * crd m i v + 1 / 6 * rsum (crd m i) B)%R).

(** Distance of the point [v] of [m] from the position [x]. *)
Definition off {d D} (m : mesh (RO d) D) (v : N) (x : nat -> R) : R :=
  sqrt (rsum (fun i => (crd m i v - x i) * (crd m i v - x i))%R (seq 0 d)).
