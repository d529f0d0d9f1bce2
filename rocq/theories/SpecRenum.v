(** * SpecRenum: two meshes that differ only in the numbering of the new points.

    Independent of the filter model: only the mesh record, Spec.v and SpecSub.v. *)
From Verif Require Import Base Mesh Filters Spec SpecSub.

Definition tmap (r : N -> N) (t : tri) : tri := let '(a, b, c) := t in (r a, r b, r c).

(** The edge {a, b} is in the list. *)
Definition lists_edge (l : list (option dedge)) (a b : N) : Prop := In (Some (a, b)) l \/ In (Some (b, a)) l.

(** The number of non-null entries of a list of edges. *)
Definition entries (l : list (option dedge)) : Z := Z.of_nat (length (filter is_some l)).

Section SPECRENUM.
Context {O : Ops} {D : Type}.
Notation mesh := (mesh O D).

(** [r] renames the points of [m1] to those of [m2] and [r'] back; the points of [inp] keep
    their ids; cell by cell the same triangles, the same edges, the same cell data. *)
Record renumbered (inp : mesh) (r r' : N -> N) (m1 m2 : mesh) : Prop := {
  rn_old : forall id, oget id (pts inp) <> None -> r id = id;
  rn_pts : forall id, oget id (pts m1) <> None -> oget (r id) (pts m2) <> None /\ r' (r id) = id;
  rn_pts' : forall id, oget id (pts m2) <> None -> oget (r' id) (pts m1) <> None /\ r (r' id) = id;
  rn_tris : tris m2 = map (tmap r) (tris m1);
  rn_faces : forall id u, In (id, u) (faces m2) <-> exists t, In (id, t) (faces m1) /\ u = tmap r t;
  rn_joined : forall a b, joined m2 a b <-> exists x y, joined m1 x y /\ a = r x /\ b = r y;
  rn_data : forall id, cell_datum m1 id = cell_datum m2 id
}.

(** Corresponding points have the same coordinates. *)
Definition same_coordinates (r : N -> N) (m1 m2 : mesh) : Prop :=
  forall id p, oget id (pts m1) = Some p -> oget (r id) (pts m2) = Some p.

(** The same for the points that are not points of [inp]. *)
Definition same_new_coordinates (inp : mesh) (r : N -> N) (m1 m2 : mesh) : Prop :=
  forall id p, oget id (pts inp) = None -> oget id (pts m1) = Some p -> oget (r id) (pts m2) = Some p.

(** All edges of the triangles at the edge {a, b} have triangles on both sides. *)
Definition away_from_border (m : mesh) (a b : N) : Prop :=
  forall t x y, In t (tris m) -> edge_of t a b -> edge_of t x y -> interior_edge m x y.
End SPECRENUM.

(** The subdivision scheme of a filter. *)
Definition scheme_of (k : kind) : cscheme :=
  match k with
  | CellF s => s
  | EdgeF ELinear => CLinear | EdgeF ELoop => CLoop | EdgeF EButterfly => CButterfly
  end.
