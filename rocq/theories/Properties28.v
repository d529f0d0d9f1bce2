(** * Properties28: the drivers do not depend on the choice of units, position and axes (C115).

    Theorems only; proofs are in Simil.v and SimDrive.v. *)
From Coq Require Import Reals Lra.
From Verif Require Import Base Mesh Filters Drivers Samples Spec SpecSub SpecGeo SpecDrive SpecSimil Lists Check CheckGeo CheckDrive Simil.

Open Scope N_scope.

(** C115.  Rotating, reflecting, moving or scaling by [s] a mesh commutes with the conditional filter, if an
    area threshold is multiplied by [s]^2: same outcome for every fuel, so also: one run ends if and only
    if the other does. *)
Theorem C115_area : forall (d1 d2 : nat) (D1 D2 : Type) sc old f (m1 : mesh (RO d1) D1) (m2 : mesh (RO d2) D2) M t s A fuel,
  valid m1 -> valid m2 -> same_connectivity m1 m2 -> affine_image M t m1 m2 -> similarity d1 d2 M s -> (0 < s)%R -> drivable (CellF sc) m1 ->
  image_outcome M t (conditional_update fuel (CellF sc) (Some (cell_area_criterion (O := RO d1) A)) old f m1)
                    (conditional_update fuel (CellF sc) (Some (cell_area_criterion (O := RO d2) (s * s * A)%R)) old f m2).
Proof. exact C115_area_pf. Qed.
Print Assumptions C115_area.

(** The same for the edge filters and a length threshold, which is multiplied by [s]. *)
Theorem C115_length : forall (d1 d2 : nat) (D1 D2 : Type) sc old f (m1 : mesh (RO d1) D1) (m2 : mesh (RO d2) D2) M t s L fuel,
  valid m1 -> valid m2 -> same_connectivity m1 m2 -> affine_image M t m1 m2 -> similarity d1 d2 M s -> (0 < s)%R -> drivable (EdgeF sc) m1 ->
  image_outcome M t (conditional_update fuel (EdgeF sc) (Some (edge_length_criterion (O := RO d1) L)) old f m1)
                    (conditional_update fuel (EdgeF sc) (Some (edge_length_criterion (O := RO d2) (s * L)%R)) old f m2).
Proof. exact C115_length_pf. Qed.
Print Assumptions C115_length.

(** The iterative filter commutes with every affine map. *)
Theorem C115_iterative : forall (d1 d2 : nat) (D1 D2 : Type) sc sel n (m1 : mesh (RO d1) D1) (m2 : mesh (RO d2) D2) M t fuel,
  valid m1 -> valid m2 -> same_connectivity m1 m2 -> affine_image M t m1 m2 -> drivable (CellF sc) m1 -> existing m1 sel ->
  image_outcome M t (iterative_update sc n fuel sel m1) (iterative_update sc n fuel sel m2).
Proof. exact C115_iterative_pf. Qed.
Print Assumptions C115_iterative.

(** A quarter turn about the third axis and a scaling by 3. *)
Definition turn3 (j i : nat) : R :=
  match j, i with 0%nat, 1%nat => -3 | 1%nat, 0%nat => 3 | 2%nat, 2%nat => 3 | _, _ => 0 end%R.
Example C115_ex : forall k t,
  let m1 := rmesh octa in let m2 : mesh (RO 3) N := affine_mesh turn3 t m1 in
  valid m1 /\ valid m2 /\ same_connectivity m1 m2 /\ affine_image turn3 t m1 m2 /\ similarity 3 3 turn3 3 /\ drivable k m1 /\ existing m1 [0; 3].
Proof.
  intros k t. cbv zeta. assert (V : valid (rmesh octa)) by (apply validb_ok; vm_compute; reflexivity).
  split; [exact V|]. split; [apply validb_ok; vm_compute; reflexivity|]. split; [apply affine_mesh_same|]. split; [apply affine_mesh_image|].
  split; [intros x; unfold rsum, turn3; cbn [seq fold_right]; ring|]. split.
  - right; right; right. split; [apply denseb_ok; vm_compute; reflexivity|]. split; [vm_compute; discriminate|].
    split; [intros _; split; [apply no_isolatedb_ok; vm_compute; reflexivity|apply no_wireb_ok; vm_compute; reflexivity]|].
    intros _. apply one_fansb_ok; [exact V|vm_compute; reflexivity].
  - apply existingb_ok. vm_compute. reflexivity.
Qed.
