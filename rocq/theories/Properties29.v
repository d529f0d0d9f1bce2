(** * Properties29: mirror images in floating point (C116), other axes in any arithmetic (C117).

    Theorems only; proofs are in Mirror.v and Axes.v. *)
From Coq Require Import Reals Lra.
From Flocq Require Import Core BinarySingleNaN.
From Verif Require Import Base Mesh Filters Drivers Samples Spec SpecSub SpecGeo SpecDrive SpecFlt SpecMirror SpecAxes Lists Check CheckGeo CheckDrive CheckImage
  Drive DriveProps Mirror Axes Properties12.

Open Scope N_scope.

(** C116.  All seven filters, any binary format, any mesh and selection, also with infinities and NaNs: on a
    mesh mirrored along some axes Update() has the mirrored outcome, bit for bit but for the sign of zeros. *)
Theorem C116 : forall prec emax Hp Hm cosf d D1 D2 k f fuel flip (m1 : mesh (BO prec emax Hp Hm cosf d) D1) (m2 : mesh (BO prec emax Hp Hm cosf d) D2),
  mirror_image flip m1 m2 -> (k = CellF CLoop -> wf_points m1) -> mirror_outcome flip (update k fuel f m1) (update k fuel f m2).
Proof. exact C116_pf. Qed.
Print Assumptions C116.

(** The conditional filter with either criterion and the same threshold. *)
Theorem C116_conditional : forall prec emax Hp Hm cosf d D1 D2 k f old fuel flip T (m1 : mesh (BO prec emax Hp Hm cosf d) D1) (m2 : mesh (BO prec emax Hp Hm cosf d) D2),
  mirror_image flip m1 m2 -> wf_points m1 ->
  mirror_outcome flip (conditional_update fuel k (Some (cell_area_criterion T)) old f m1) (conditional_update fuel k (Some (cell_area_criterion T)) old f m2) /\
  mirror_outcome flip (conditional_update fuel k (Some (edge_length_criterion T)) old f m1) (conditional_update fuel k (Some (edge_length_criterion T)) old f m2).
Proof. exact C116_conditional_pf. Qed.
Print Assumptions C116_conditional.

(** The iterative filter. *)
Theorem C116_iterative : forall prec emax Hp Hm cosf d D1 D2 s n sel fuel flip (m1 : mesh (BO prec emax Hp Hm cosf d) D1) (m2 : mesh (BO prec emax Hp Hm cosf d) D2),
  mirror_image flip m1 m2 -> wf_points m1 ->
  mirror_outcome flip (iterative_update s n fuel sel m1) (iterative_update s n fuel sel m2).
Proof. exact C116_iterative_pf. Qed.
Print Assumptions C116_iterative.

Example C116_ex : forall flip, mirror_image flip (fmesh octa) (flip_mesh flip (fmesh octa)) /\ wf_points (fmesh octa) /\
  (exists f' out, update (CellF CLoop) 100 (sel [0; 3]) (fmesh octa) = Ok (f', out)) /\
  (exists x y : binary_float 53 1024, x <> y /\ opposite x y).
Proof.
  intros flip. split; [apply flip_mesh_image|]. split; [apply valid_wf; apply validb_ok; vm_compute; reflexivity|].
  split; [apply (run_as _ _ _ octa); [apply sorted_NoDup_keys; apply (v_pts_sorted octa); apply validb_ok; vm_compute; reflexivity|apply fmesh_same|vm_compute; exact I]|].
  exists (B754_infinity true), (B754_infinity false). split; [discriminate|left; reflexivity].
Qed.

(** C117.  Any arithmetic: every coordinate of the output is computed from the coordinates on the same axis
    alone, by the same rule on every axis.  Permuting, repeating or leaving out axes commutes with all
    seven filters, bit for bit, and never changes ids, edges, faces or the outcome. *)
Theorem C117 : forall (O : Ops) (d : nat) (D1 D2 : Type) ax k f fuel (m1 : mesh O D1) (m2 : mesh (in_dim O d) D2),
  (forall i, (i < d)%nat -> (ax i < kdim O)%nat) -> wf_points m1 -> wf_points m2 -> axes_image ax m1 m2 ->
  axes_outcome ax (update k fuel f m1) (update k fuel f m2).
Proof. exact C117_pf. Qed.
Print Assumptions C117.

(** The iterative filter. *)
Theorem C117_iterative : forall (O : Ops) (d : nat) (D1 D2 : Type) ax s n sel fuel (m1 : mesh O D1) (m2 : mesh (in_dim O d) D2),
  (forall i, (i < d)%nat -> (ax i < kdim O)%nat) -> wf_points m1 -> wf_points m2 -> axes_image ax m1 m2 ->
  axes_outcome ax (iterative_update s n fuel sel m1) (iterative_update s n fuel sel m2).
Proof. exact C117_iterative_pf. Qed.
Print Assumptions C117_iterative.

(** From three dimensions to two: the first axis becomes the second, the third the first. *)
Example C117_ex : let ax := (fun i => match i with 0 => 2 | _ => 0 end)%nat in let m2 := axes_mesh ax 2 octa in
  (forall i, (i < 2)%nat -> (ax i < kdim Q3)%nat) /\ wf_points octa /\ wf_points m2 /\ axes_image ax octa m2 /\
  match update (CellF CLoop) 100 (sel [0; 3]) octa, update (CellF CLoop) 100 (sel [0; 3]) m2 with
  | Ok (_, o1), Ok (_, o2) => faces o1 = faces o2 /\ nV o1 = nV o2 | _, _ => False end.
Proof.
  cbv zeta. assert (V : valid octa) by (apply validb_ok; vm_compute; reflexivity).
  assert (A : forall i, (i < 2)%nat -> ((match i with 0 => 2 | _ => 0 end)%nat < kdim Q3)%nat) by (intros [|i] Hi; cbn; lia).
  split; [exact A|]. split; [apply valid_wf; exact V|]. split; [apply valid_wf; apply validb_ok; vm_compute; reflexivity|].
  split; [apply axes_mesh_image; [exact A|]; intros id p H; apply (v_pts_dim _ V id); apply sorted_oget; [apply (v_pts_sorted _ V)|exact H]|].
  vm_compute. split; reflexivity.
Qed.
