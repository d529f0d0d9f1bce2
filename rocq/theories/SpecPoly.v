(** * SpecPoly: polynomials over a regular piece of the parameter plane.

    Independent of the filter model: only the mesh record and the other Spec files. *)
From Coq Require Import Reals.
From Verif Require Import Base Mesh Filters Drivers Spec SpecSub SpecGeo.

(** [z] is one coordinate of a map into the plane that sends any two triangles with a common edge to the two halves
    of a parallelogram, as on a regular triangular grid. *)
Definition lattice {d D} (m : mesh (RO d) D) (z : N -> R) : Prop :=
  forall a b c e, is_face m a b c -> is_face m b a e -> (z c + z e = z a + z b)%R.

(** The polynomial of degree [n] in two variables with coefficients [q]. *)
Definition bipoly (n : nat) (q : nat -> nat -> R) (x y : R) : R :=
  rsum (fun j => rsum (fun k => q j k * x ^ j * y ^ k)%R (seq 0 (S n - j))) (seq 0 (S n)).

(** Coordinate [i] of the points is [P] of the parameters. *)
Definition graph_of {d D} (m : mesh (RO d) D) (i : nat) (s t : N -> R) (P : R -> R -> R) : Prop :=
  forall v, oget v (pts m) <> None -> crd m i v = P (s v) (t v).

(** One eighth of the second-order part of a quadratic polynomial, summed over the three sides of a triangle. *)
Definition bulge (q : nat -> nat -> R) (s t : N -> R) (a b c : N) : R :=
  let Q x y := (q 2%nat 0%nat * (s y - s x) ^ 2 + q 1%nat 1%nat * (s y - s x) * (t y - t x) + q 0%nat 2%nat * (t y - t x) ^ 2)%R in
  ((Q a b + Q b c + Q c a) / 8)%R.
