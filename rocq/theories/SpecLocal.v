(** * SpecLocal: which input coordinates a point of the output can depend on.

    Independent of the filter model: only the mesh record, Spec.v and the names of the filters. *)
From Verif Require Import Base Mesh Filters Spec SpecSub.

Section LOCAL.
Context {O : Ops} {D : Type}.
Notation mesh := (mesh O D).

(** [x] is at most one edge away from [c]. *)
Definition within1 (m : mesh) (c x : N) : Prop := x = c \/ joined m c x.
Definition within2 (m : mesh) (a x : N) : Prop := exists c, within1 m a c /\ within1 m c x.

(** The input points that can influence the point inserted on the edge {a, b}. *)
Definition edge_support (k : kind) (m : mesh) (a b x : N) : Prop :=
  match k with
  | CellF CLinear | EdgeF ELinear => x = a \/ x = b
  | CellF CLoop | EdgeF ELoop => x = a \/ x = b \/ is_face m a b x \/ is_face m b a x
  | CellF CButterfly | EdgeF EButterfly => within2 m a x \/ within2 m b x
  | CellF CSqrt3 => False
  end.
(** The input points that can influence the original point [v]. *)
Definition vertex_support (k : kind) (m : mesh) (v x : N) : Prop :=
  match k with CellF CLoop => within1 m v x | _ => x = v end.
End LOCAL.

Definition agree_on {O : Ops} {D1 D2 : Type} (P : N -> Prop) (m1 : mesh O D1) (m2 : mesh O D2) : Prop :=
  forall x, P x -> oget x (pts m1) = oget x (pts m2).
