(** * SpecTurn: a surface turned inside out.

    Independent of the filter model: only the mesh record and the other Spec files. *)
From Verif Require Import Base Mesh Filters Drivers Spec SpecSub.

(** [r] renames the points of [m1] to those of [m2] and [r'] back; corresponding points have the same coordinates, and the
    triangles of [m2] are those of [m1] with the opposite orientation, whatever the ids of the cells, their order and the points they
    start with. *)
Record turned {O : Ops} {D : Type} (r r' : N -> N) (m1 m2 : mesh O D) : Prop := {
  tu_pts : forall x p, oget x (pts m1) = Some p -> oget (r x) (pts m2) = Some p /\ r' (r x) = x;
  tu_pts' : forall y p, oget y (pts m2) = Some p -> oget (r' y) (pts m1) = Some p /\ r (r' y) = y;
  tu_faces : forall a b c, is_face m1 a b c -> is_face m2 (r a) (r c) (r b);
  tu_faces' : forall a b c, is_face m2 a b c -> is_face m1 (r' a) (r' c) (r' b)
}.
