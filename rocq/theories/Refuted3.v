(** * Refuted3: statements that fail on inputs without triangles (C08, C35, C36, C37) or for a filter
    object that has been used before (C18), with witnesses. *)
From Coq Require Import QArith.
From Verif Require Import Base Mesh Filters Drivers Samples Spec SpecSub SpecGeo SpecDrive Lists Check Struct Refuted.

Open Scope N_scope.

(** Three points without any edge or face; two points joined by an edge without faces. *)
Definition bare : mesh Q3 N :=
  Mesh (number [zpt [0; 0; 0]%Z; zpt [16; 0; 0]%Z; zpt [0; 16; 0]%Z]) [] (Some []) (Some []) None.
Definition wire : mesh Q3 N :=
  set_cells (fst (add_missing_edges (build (number [zpt [0; 0; 0]%Z; zpt [16; 0; 0]%Z]) []) [(0, 1)])) (Some []).

(** C08.  The output of a valid mesh without triangles has no cell container, so it is not valid and
    the next filter dereferences a null pointer. *)
Theorem C08_refuted : exists (m : mesh Q3 N) f' out, valid m /\ dense m /\ ready (CellF CLinear) new_filter m /\
  update (CellF CLinear) 100 new_filter m = Ok (f', out) /\ ~ valid out /\
  update (CellF CLinear) 100 new_filter out = Undef NullDeref.
Proof.
  assert (H : match update (CellF CLinear) 100 new_filter bare with
              | Ok (_, out) => match cells out, update (CellF CLinear) 100 new_filter out with
                               | None, Undef NullDeref => true | _, _ => false end
              | _ => false end = true) by (vm_compute; reflexivity).
  assert (Hv : valid bare) by (apply validb_ok; vm_compute; reflexivity).
  assert (Hd : dense bare) by (apply denseb_ok; vm_compute; reflexivity).
  assert (Hr : ready (CellF CLinear) new_filter bare) by (apply readyb_ok; vm_compute; reflexivity).
  revert H Hv Hd Hr. generalize bare. intros m H Hv Hd Hr. exists m.
  destruct (update (CellF CLinear) 100 new_filter m) as [[f' out]| | |] eqn:E; try discriminate H.
  exists f', out. split; [exact Hv|]. split; [exact Hd|]. split; [exact Hr|]. split; [reflexivity|].
  destruct (cells out) eqn:Ec; [discriminate H|].
  destruct (update (CellF CLinear) 100 new_filter out) as [|e|u|] eqn:E2; try discriminate H.
  destruct u; try discriminate H. split; [|reflexivity].
  intros Hvo. destruct (v_tris _ Hvo) as [cs [Hc _]]. congruence.
Qed.
Print Assumptions C08_refuted.

(** C35, C36.  On a mesh without triangles no area exceeds the (positive) threshold, but the
    conditional filter ends with an exception. *)
Theorem C36_no_triangles_refuted : exists m : mesh Q3 N, valid m /\ dense m /\ tris m = [] /\
  conditional_update 100 (CellF CLinear) (Some (cell_area_criterion (O := Q3) (inject_Z 1))) (SelCells []) new_filter m
  = Throw NoCells.
Proof.
  exists bare. split; [apply validb_ok; vm_compute; reflexivity|].
  split; [apply denseb_ok; vm_compute; reflexivity|]. split; vm_compute; reflexivity.
Qed.
Print Assumptions C36_no_triangles_refuted.
Theorem C35_no_triangles_refuted : exists m : mesh Q3 N, valid m /\ dense m /\
  (forall u, ~ In u (tris m)) /\
  forall k, conditional_update 100 k (Some (cell_area_criterion (O := Q3) (inject_Z 1))) (SelCells []) new_filter m
  = Throw NoCells.
Proof.
  exists bare. split; [apply validb_ok; vm_compute; reflexivity|].
  split; [apply denseb_ok; vm_compute; reflexivity|]. split; [intros u []|]. intros k. vm_compute. reflexivity.
Qed.
Print Assumptions C35_no_triangles_refuted.

(** C37.  A mesh whose only edge is a wire edge longer than the threshold. *)
Theorem C37_no_triangles_refuted : exists (m : mesh Q3 N) u, valid m /\ dense m /\ joined m 0 1 /\
  conditional_update 100 (EdgeF ELinear) (Some (edge_length_criterion (O := Q3) (inject_Z 1))) (SelEdges []) new_filter m
  = Undef u.
Proof.
  exists wire, NullDeref. split; [apply validb_ok; vm_compute; reflexivity|].
  split; [apply denseb_ok; vm_compute; reflexivity|]. split; [vm_compute; auto|]. vm_compute. reflexivity.
Qed.
Print Assumptions C37_no_triangles_refuted.

(** C18.  A uniform run of a Loop filter object that has been used adaptively before leaves every
    original point where it was; a new object moves point 0. *)
Theorem C18_used_filter_refuted : exists (m : mesh Q3 N) f1 out1 f2 out2 f3 out3, valid m /\ dense m /\ no_isolated m /\
  update (CellF CLoop) 100 (sel [0]) m = Ok (f1, out1) /\
  update (CellF CLoop) 100 (set_cells_to_be_subdivided f1 []) m = Ok (f2, out2) /\
  update (CellF CLoop) 100 new_filter m = Ok (f3, out3) /\
  (forall id, oget id (pts m) <> None -> oget id (pts out2) = oget id (pts m)) /\
  oget 0 (pts out3) <> oget 0 (pts m).
Proof.
  destruct C26_stale_uniform_refuted as [m [f1 [o1 [f2 [o2 [f3 [o3 [H1 [H2 [H3 [H4 [H5 [H6 [H7 [H8 _]]]]]]]]]]]]]]].
  exists m, f1, o1, f2, o2, f3, o3. auto 10.
Qed.
Print Assumptions C18_used_filter_refuted.
