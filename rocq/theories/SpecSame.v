(** * SpecSame: the same surface with other ids.

    Independent of the filter model: only the mesh record and the other Spec files. *)
From Verif Require Import Base Mesh Filters Drivers Spec SpecSub.

Section SPECSAME.
Context {O : Ops} {D : Type}.
Implicit Types m : mesh O D.

(** [r] renames the points of [m1] to those of [m2] and [r'] back; corresponding points have the same coordinates, and the
    two meshes have the same oriented triangles, whatever the ids of the cells, their order and the points they start with. *)
Record same_surface (r r' : N -> N) m1 m2 : Prop := {
  ss_pts : forall x p, oget x (pts m1) = Some p -> oget (r x) (pts m2) = Some p /\ r' (r x) = x;
  ss_pts' : forall y p, oget y (pts m2) = Some p -> oget (r' y) (pts m1) = Some p /\ r (r' y) = y;
  ss_faces : forall a b c, is_face m1 a b c -> is_face m2 (r a) (r b) (r c);
  ss_faces' : forall a b c, is_face m2 a b c -> is_face m1 (r' a) (r' b) (r' c)
}.

(** Corresponding cells start with corresponding points. *)
Definition same_corners (r : N -> N) m1 m2 : Prop :=
  forall a b c, In (a, b, c) (tris m1) -> In (r a, r b, r c) (tris m2).

(** The filters split corresponding edges. *)
Definition same_edges_split (r : N -> N) (k : kind) (f1 : fstate) m1 (f2 : fstate) m2 : Prop :=
  forall a b, oget a (pts m1) <> None -> oget b (pts m1) <> None -> to_split k f1 m1 a b <-> to_split k f2 m2 (r a) (r b).

(** The triangle (a, b, c), started with any of its points, is selected. *)
Definition picked m (sel : list N) (a b c : N) : Prop :=
  selected m sel (a, b, c) \/ selected m sel (b, c, a) \/ selected m sel (c, a, b).

(** No edge of the scheme's masks is missing: needed for the result to be a function of the surface. *)
Definition unambiguous (s : cscheme) m : Prop :=
  match s with
  | CLinear | CSqrt3 => True
  | CLoop => no_isolated m /\ no_wire m
  | CButterfly => closed m /\ no_wire m
  end.

(** [m1] is a piece of [m2], its points renamed by [r]: a union of connected components, that is, every triangle of [m2] with a
    corner in the piece is a triangle of [m1]. *)
Record piece (r : N -> N) m1 m2 : Prop := {
  pc_pts : forall x p, oget x (pts m1) = Some p -> oget (r x) (pts m2) = Some p;
  pc_inj : forall x y, oget x (pts m1) <> None -> oget y (pts m1) <> None -> r x = r y -> x = y;
  pc_faces : forall a b c, is_face m1 a b c -> is_face m2 (r a) (r b) (r c);
  pc_whole : forall x v w, oget x (pts m1) <> None -> is_face m2 (r x) v w ->
    exists y z, v = r y /\ w = r z /\ is_face m1 x y z
}.

End SPECSAME.
