(** * SpecGeo: exact real coordinates, and what the masks of the schemes mean.

    Independent of the filter model: only the mesh record, Spec.v and SpecSub.v. *)
From Coq Require Import Reals.
From Verif Require Import Base Mesh Filters Spec SpecSub.

(** Exact real arithmetic in dimension [d]. *)
Definition RO (d : nat) : Ops :=
  mkOps R d Rplus Rminus Rmult Rdiv IZR sqrt
        (fun n => cos (2 * PI / IZR (Z.of_N n))%R)
        (fun a b => if Rlt_dec b a then true else false).

Definition rsum {A} (g : A -> R) (l : list A) : R := fold_right (fun x s => (g x + s)%R) 0%R l.

Section SPECGEO.
Context {d : nat} {D : Type}.
Notation mesh := (mesh (RO d) D).

(** The point [id] (any point with the right dimension if there is none), and its coordinate [i]. *)
Definition ptof (m : mesh) (id : N) : list R :=
  match oget id (pts m) with Some p => p | None => repeat 0%R d end.
Definition crd (m : mesh) (i : nat) (id : N) : R := nth i (ptof m id) 0%R.

(** The neighbours of [v] along border edges. *)
Definition border_neighbours {O : Ops} {D : Type} (m : Mesh.mesh O D) (v : N) (B : list N) : Prop :=
  NoDup B /\ forall w, In w B <-> border_edge m v w.
Definition interior_vertex {O : Ops} {D : Type} (m : Mesh.mesh O D) (v : N) : Prop :=
  ring m v <> [] /\ forall w, ~ border_edge m v w.

(** At most one fan of triangles at each point: no or exactly two border edges. *)
Definition one_fan {O : Ops} {D : Type} (m : Mesh.mesh O D) (v : N) : Prop :=
  forall B, border_neighbours m v B -> B = [] \/ length B = 2%nat.

(** Loop's weight (C. Loop, 1987). *)
Definition loop_weight (n : N) : R :=
  ((5 / 8 - (3 / 8 + 1 / 4 * cos (2 * PI / IZR (Z.of_N n))) ^ 2) / IZR (Z.of_N n))%R.
(** The weight as documented in itkLoopTriangleCellSubdivisionQuadEdgeMeshFilter.h:45-49. *)
Definition documented_weight (n : N) : R :=
  (1 / IZR (Z.of_N n) * (5 / 8 - (3 / 8 + 1 / 4 * (cos (2 * PI / IZR (Z.of_N n))) ^ 2)))%R.
End SPECGEO.

(** Two meshes, possibly over different coordinates, with the same ids, edges and faces. *)
Definition same_connectivity {O1 O2 D1 D2} (m1 : mesh O1 D1) (m2 : mesh O2 D2) : Prop :=
  okeys (pts m1) = okeys (pts m2) /\ rings m1 = rings m2 /\ cells m1 = cells m2 /\ ecells m1 = ecells m2.

(** [m2] is the image of [m1] under the affine map x |-> M x + t. *)
Definition affine_image {d1 d2 D1 D2} (M : nat -> nat -> R) (t : nat -> R)
           (m1 : mesh (RO d1) D1) (m2 : mesh (RO d2) D2) : Prop :=
  forall id j, oget id (pts m1) <> None -> (j < d2)%nat ->
    crd m2 j id = (t j + rsum (fun i => M j i * crd m1 i id) (seq 0 d1))%R.

(** Every point [x] of the mesh satisfies sum c_i x_i <= h. *)
Definition in_halfspace {d D} (c : nat -> R) (h : R) (m : mesh (RO d) D) : Prop :=
  forall id, oget id (pts m) <> None -> (rsum (fun i => c i * crd m i id) (seq 0 d) <= h)%R.
