(** * SpecEndless: the surroundings of a triangle that the Butterfly filter (C107) or the Loop filter (C109)
    reproduces for ever.

    Independent of the filter model: faces and coordinates only. *)
From Coq Require Import Reals.
From Verif Require Import Base Mesh Filters Spec SpecSub SpecGeo.

Section SPECENDLESS.
Context {d : nat} {D : Type}.
Notation mesh := (mesh (RO d) D).

(** [p] lies at v + a (q - v) + b (c - v). *)
Definition placed (m : mesh) (v q c p : N) (a b : R) : Prop :=
  forall i, crd m i p = (crd m i v + a * (crd m i q - crd m i v) + b * (crd m i c - crd m i v))%R.

(** The triangle (v, q, c), its three neighbours over (v, q), (v, c) and (q, c), the next triangle on the far
    side of each neighbour, and the coordinates of all corners relative to v, q, c. *)
Record recurring (m : mesh) (v z q c z' y y' x w1 w2 w3 w4 : N) : Prop := {
  rc_inner : is_face m v q c;
  rc_fan1 : is_face m v z q;
  rc_fan2 : is_face m v c z';
  rc_side1 : is_face m v y z;
  rc_side2 : is_face m v z' y';
  rc_apex : is_face m c q x;
  rc_w1 : is_face m q z w1;
  rc_w2 : is_face m z' c w2;
  rc_w3 : is_face m x q w3;
  rc_w4 : is_face m c x w4;
  rc_z : placed m v q c z (71 / 40) (- 1 / 40);
  rc_z' : placed m v q c z' (- 1 / 40) (71 / 40);
  rc_y : placed m v q c y (- 29 / 5) (- 1 / 5);
  rc_y' : placed m v q c y' (- 1 / 5) (- 29 / 5);
  rc_x : placed m v q c x (5 / 8) (5 / 8);
  rc_p1 : placed m v q c w1 (3 / 4) (- 1 / 4);
  rc_p2 : placed m v q c w2 (- 1 / 4) (3 / 4);
  rc_p3 : placed m v q c w3 (21 / 20) (9 / 20);
  rc_p4 : placed m v q c w4 (9 / 20) (21 / 20)
}.

(** For the Loop filter: the triangle (c, v, q) comes after its neighbours over (v, q) and (v, c) in the list of
    triangles, and its number is not the identifier of a point.  With v as origin, z and z' are
    2 (q + c) + k/2 (q - c) and 2 (q + c) - k/2 (q - c), and x is xi (q + c). *)
Definition listed (l : list tri) (a b e : N) : Prop := In (a, b, e) l \/ In (b, e, a) l \/ In (e, a, b) l.
Record knife_edge (m : mesh) (k xi : R) (v z q c z' x : N) (l1 l2 : list tri) : Prop := {
  ke_tris : tris m = l1 ++ (c, v, q) :: l2;
  ke_fan1 : listed l1 v z q;
  ke_fan2 : listed l1 v c z';
  ke_apex : is_face m c q x;
  ke_late : forall id, oget id (pts m) <> None -> (id < N.of_nat (length l1))%N;
  ke_z : placed m v q c z (2 + k / 2) (2 - k / 2);
  ke_z' : placed m v q c z' (2 - k / 2) (2 + k / 2);
  ke_x : placed m v q c x xi xi
}.
End SPECENDLESS.
