(** * SpecShape: the surface as a set of points, integrals over it, orientation, similarity.

    Independent of the filter model: only the mesh record, Spec.v, SpecSub.v and SpecGeo.v; the names of
    the filters and of Update() are those of the API. *)
From Coq Require Import Reals.
From Verif Require Import Base Mesh Filters Drivers Spec SpecSub SpecGeo.

Definition midpoint (p q : list R) : list R := map (fun xy => ((fst xy + snd xy) / 2)%R) (combine p q).

(** A quantity of oriented triangles that does not depend on the corner from which a triangle is read and
    that adds up when a triangle is cut from a corner to the midpoint of the opposite side: area, signed
    volume of the cone over the triangle, integral of any function over the triangle. *)
Definition additive (d : nat) (g : list R -> list R -> list R -> R) : Prop :=
  forall p q r, length p = d -> length q = d -> length r = d ->
    g p q r = g q r p /\ g p q r = (g p (midpoint p q) r + g (midpoint p q) q r)%R.

(** Six times the signed volume of the tetrahedron 0 p q r. *)
Definition det3 (p q r : list R) : R :=
  let x l := nth 0 l 0%R in let y l := nth 1 l 0%R in let z l := nth 2 l 0%R in
  (x p * (y q * z r - z q * y r) - y p * (x q * z r - z q * x r) + z p * (x q * y r - y q * x r))%R.

Section SHAPE.
Context {d : nat} {D : Type}.
Notation mesh := (mesh (RO d) D).

Definition tri_value (g : list R -> list R -> list R -> R) (m : mesh) (t : tri) : R :=
  let '(a, b, c) := t in g (ptof m a) (ptof m b) (ptof m c).
Definition integral (g : list R -> list R -> list R -> R) (m : mesh) : R := rsum (tri_value g m) (tris m).
(** The volume enclosed by a closed oriented surface (d = 3). *)
Definition signed_volume (m : mesh) : R := integral (fun p q r => (det3 p q r / 6)%R) m.

(** The point [x] belongs to the closed triangle [t]; to some triangle of the mesh. *)
Definition in_triangle (m : mesh) (t : tri) (x : nat -> R) : Prop :=
  let '(a, b, c) := t in exists u v w, (0 <= u)%R /\ (0 <= v)%R /\ (0 <= w)%R /\ (u + v + w = 1)%R /\
    forall i, (i < d)%nat -> x i = (u * crd m i a + v * crd m i b + w * crd m i c)%R.
Definition on_surface (m : mesh) (x : nat -> R) : Prop := exists t, In t (tris m) /\ in_triangle m t x.

(** Twice the signed area of the triangle, projected to coordinates [i] and [j]: for d = 2 its orientation,
    for d = 3 the components of its normal. *)
Definition normal (m : mesh) (t : tri) (i j : nat) : R :=
  let '(a, b, c) := t in
  ((crd m i b - crd m i a) * (crd m j c - crd m j a) - (crd m j b - crd m j a) * (crd m i c - crd m i a))%R.

(** [u] in [m'] is [t] in [m], moved and scaled by [s]. *)
Definition scaled (s : R) (m : mesh) (t : tri) (m' : mesh) (u : tri) : Prop :=
  let '(a, b, c) := t in let '(x, y, z) := u in forall i,
    crd m' i y = (crd m' i x + s * (crd m i b - crd m i a))%R /\ crd m' i z = (crd m' i x + s * (crd m i c - crd m i a))%R.

(** [out] is what [n] successive Update() calls of Linear filters make of [inp], each with any admissible
    selection, on the previous output. *)
Inductive linear_chain (inp : mesh) : nat -> mesh -> Prop :=
| linear_0 : linear_chain inp 0 inp
| linear_S n m k f fuel f' out : linear_chain inp n m -> k = CellF CLinear \/ k = EdgeF ELinear ->
    ready k f m -> update k fuel f m = Ok (f', out) -> linear_chain inp (S n) out.

(** All ways to get [out] from [inp] with Linear filters only: Update() calls in a row, the iterative filter,
    the conditional filter with either criterion. *)
Definition linear_run (inp out : mesh) : Prop :=
  (exists n, linear_chain inp n out) \/
  (exists levels fuel sel f', existing inp sel /\ iterative_update CLinear levels fuel sel inp = Ok (f', out)) \/
  (exists maxarea fuel old f f',
     conditional_update fuel (CellF CLinear) (Some (cell_area_criterion (O := RO d) maxarea)) old f inp = Ok (f', out)) \/
  (exists maxlen fuel old f f',
     conditional_update fuel (EdgeF ELinear) (Some (edge_length_criterion (O := RO d) maxlen)) old f inp = Ok (f', out)).
End SHAPE.
