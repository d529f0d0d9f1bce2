(** * SpecDrive: areas, lengths, and what the drivers (criteria, conditional and iterative filter)
    are expected to do.

    Independent of the filter model: only the mesh record, Spec.v, SpecSub.v and SpecGeo.v; the
    names of the filters, of Update() and of the members of a filter object are those of the API. *)
From Coq Require Import Reals Sorted.
From Verif Require Import Base Mesh Filters Spec SpecSub SpecGeo.

Section ANY.
Context {O : Ops} {D : Type}.
Notation mesh := (mesh O D).

(** A map from ids to points of the right dimension. *)
Definition wf_points (m : mesh) : Prop :=
  sorted_keys (pts m) /\ forall id p, oget id (pts m) = Some p -> length p = kdim O.

(** The edges stored in the edge container, with their ids. *)
Definition edges_of (m : mesh) : omap (option dedge) := match ecells m with Some es => es | None => [] end.

(** Same points, same triangles in the same order, same edges. *)
Definition same_shape (m m' : mesh) : Prop :=
  pts m' = pts m /\ tris m' = tris m /\ forall a b, joined m' a b <-> joined m a b.

(** A new filter object of scheme [s] on which the selection [sel] has been set. *)
Definition fresh (sel : list N) : fstate := set_cells_to_be_subdivided new_filter sel.

(** [n] new filter objects of scheme [s] in a row: the first gets the selection [sel], each further
    one what GetCellsToBeSubdivided() of the one before returns.  [f] is the last of them. *)
Inductive pipeline (s : cscheme) : nat -> list N -> mesh -> fstate -> mesh -> Prop :=
| pipe_1 sel inp fuel f out : update (CellF s) fuel (fresh sel) inp = Ok (f, out) -> pipeline s 1 sel inp f out
| pipe_S n sel inp fuel f1 m f out : update (CellF s) fuel (fresh sel) inp = Ok (f1, m) ->
    pipeline s n (csel f1) m f out -> pipeline s (S n) sel inp f out.

(** One adaptive level: the triangles with a selected id are cut into four, their neighbours are
    cut along the shared edges, the others stay; [sel'] lists, ascending, the ids of the four
    children of every triangle that was cut along all of its edges. *)
Definition level (sel : list N) (inp : mesh) (sel' : list N) (out : mesh) : Prop :=
  exists mid Ls,
    subdivision inp out (fun a b => exists i t, In i sel /\ In (i, t) (faces inp) /\ edge_of t a b) mid Ls /\
    StronglySorted N.lt sel' /\
    forall id, In id sel' <->
      exists pid t u, In (id, u) (faces out) /\ child_of inp Ls pid t u /\ nsplit mid t = 3%nat.
Inductive levels : nat -> list N -> mesh -> list N -> mesh -> Prop :=
| levels_0 sel m : levels 0 sel m sel m
| levels_S n sel m sel1 m1 sel2 m2 : level sel m sel1 m1 -> levels n sel1 m1 sel2 m2 -> levels (S n) sel m sel2 m2.
End ANY.

Section REAL.
Context {d : nat} {D : Type}.
Notation mesh := (mesh (RO d) D).

(** (a - o) . (b - o) *)
Definition dot (m : mesh) (o a b : N) : R :=
  rsum (fun i => (crd m i a - crd m i o) * (crd m i b - crd m i o))%R (seq 0 d).
(** Length of the segment from [a] to [b]. *)
Definition seg_length (m : mesh) (a b : N) : R := sqrt (dot m a b b).
(** Area of a triangle in any dimension: half the root of the Gram determinant. *)
Definition tri_area (m : mesh) (t : tri) : R :=
  let '(a, b, c) := t in (1 / 2 * sqrt (dot m a b b * dot m a c c - dot m a b c ^ 2))%R.
Definition total_area (m : mesh) : R := rsum (tri_area m) (tris m).
End REAL.
