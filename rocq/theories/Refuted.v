(** * Refuted: properties a user would expect that are false of the code.

    Each theorem exhibits a concrete input (over Q, three-dimensional points unless said
    otherwise) that satisfies the hypotheses of the property and violates its conclusion.
    The positive parts are in the Properties files. *)
From Coq Require Import QArith.
From Verif Require Import Base Mesh Filters Drivers Samples Spec SpecSub Lists Check.
Open Scope N_scope.

Ltac by_valid := apply validb_ok; vm_compute; reflexivity.
Ltac by_dense := apply denseb_ok; vm_compute; reflexivity.

(** The result of a run that is known to end normally. *)
Definition is_ok {A} (r : res A) : bool := match r with Ok _ => true | _ => false end.
Definition the {O D} (r : res (@state O D)) : @state O D :=
  match r with Ok st => st | _ => (new_filter, empty_mesh) end.
Lemma the_ok {O D} (r : res (@state O D)) : is_ok r = true -> r = Ok (fst (the r), snd (the r)).
Proof. destruct r as [[f m]| | |]; [reflexivity|discriminate..]. Qed.
Ltac by_run := apply the_ok; vm_compute; reflexivity.
Notation out_of k f m := (the (update k 100 f m)).

(** All coordinates of a mesh at the given ids, for readable witnesses. *)
Definition at_ids (m : mesh Q3 N) (l : list N) : list (option (list Q)) := map (fun i => oget i (pts m)) l.

(** ** C24: Butterfly border points depend on interior points.
    Two meshes (a fan of four triangles around the interior point 0, and a fifth triangle)
    that differ only in the interior point. *)
Definition kite : mesh Q3 N :=
  build (number [zpt [0; 0; 0]%Z; zpt [16; 0; 0]%Z; zpt [0; 16; 0]%Z; zpt [-16; 0; 0]%Z; zpt [0; -16; 0]%Z; zpt [16; 16; 0]%Z])
        [[0; 1; 2]; [0; 2; 3]; [0; 3; 4]; [0; 4; 1]; [2; 1; 5]].
Definition kiteb : mesh Q3 N := set_point kite 0 (zpt [0; 0; 16]%Z).
Theorem C24_refuted :
  exists (m1 m2 : mesh Q3 N) a b f1 o1 f2 o2 x,
    valid m1 /\ dense m1 /\ valid m2 /\ dense m2 /\
    rings m1 = rings m2 /\ cells m1 = cells m2 /\ ecells m1 = ecells m2 /\
    (* every point on a border edge has the same coordinates in both *)
    (forall u v, border_edge m1 u v -> oget u (pts m1) = oget u (pts m2)) /\
    border_edge m1 a b /\
    update (CellF CButterfly) 100 new_filter m1 = Ok (f1, o1) /\
    update (CellF CButterfly) 100 new_filter m2 = Ok (f2, o2) /\
    (* x is the new point between a and b in both outputs *)
    joined o1 a x /\ joined o1 x b /\ oget x (pts m1) = None /\
    tris o1 = tris o2 /\ oget x (pts o1) <> oget x (pts o2).
Proof.
  exists kite, kiteb, 1, 5.
  exists (fst (out_of (CellF CButterfly) new_filter kite)), (snd (out_of (CellF CButterfly) new_filter kite)),
    (fst (out_of (CellF CButterfly) new_filter kiteb)), (snd (out_of (CellF CButterfly) new_filter kiteb)), 14.
  split; [by_valid|]. split; [by_dense|]. split; [by_valid|]. split; [by_dense|].
  split; [reflexivity|]. split; [reflexivity|]. split; [reflexivity|].
  split.
  { intros u v [_ H]. assert (Hu : u <> 0).
    { intros ->. destruct H as [[H1 H2]|[H1 H2]]; vm_compute in H1;
      repeat (destruct H1 as [H1|H1]; [first [discriminate H1|injection H1 as <-; apply H2; vm_compute; tauto]|]); destruct H1. }
    change (oget u (pts kite) = oget u (oset 0 (zpt [0; 0; 16]%Z) (pts kite))).
    rewrite oget_oset_other by congruence. reflexivity. }
  split. { split; [vm_compute; tauto|]. left. split; [vm_compute; tauto|]. vm_compute. intros H.
    repeat (destruct H as [H|H]; [discriminate H|]); destruct H. }
  split; [by_run|]. split; [by_run|].
  split; [vm_compute; tauto|]. split; [vm_compute; tauto|]. split; [vm_compute; reflexivity|].
  split; [vm_compute; reflexivity|]. vm_compute. discriminate.
Qed.

(** ** C26: adaptive Loop smooths other points than the vertices of the selected cells. *)

(** A fresh filter smooths every point in its first adaptive run: point 5 does not belong to
    the selected cell 0 = (0, 1, 2) of the strip and moves. *)
Theorem C26_refuted :
  exists (m : mesh Q3 N) f' out,
    valid m /\ dense m /\ no_isolated m /\ existing m [0] /\ In (0, (0, 1, 2)) (faces m) /\
    update (CellF CLoop) 100 (sel [0]) m = Ok (f', out) /\
    oget 5 (pts m) <> None /\ oget 5 (pts out) <> oget 5 (pts m).
Proof.
  exists strip4, (fst (out_of (CellF CLoop) (sel [0]) strip4)), (snd (out_of (CellF CLoop) (sel [0]) strip4)). split; [by_valid|]. split; [by_dense|].
  split; [apply no_isolatedb_ok; vm_compute; reflexivity|]. split; [apply existingb_ok; vm_compute; reflexivity|].
  split; [vm_compute; auto|].
  split; [by_run|]. split; vm_compute; discriminate.
Qed.

(** A filter that was used adaptively before takes the ids of the selected *cells* for ids of
    points: with cell 3 = (3, 4, 5) selected, point 3 moves and points 4 and 5 stay. *)
Theorem C26_cell_ids_refuted :
  exists (m : mesh Q3 N) f1 out1 f' out,
    valid m /\ dense m /\ no_isolated m /\
    update (CellF CLoop) 100 (sel [0]) m = Ok (f1, out1) /\
    existing m [2] /\ In (2, (3, 1, 4)) (faces m) /\
    update (CellF CLoop) 100 (set_cells_to_be_subdivided f1 [2]) m = Ok (f', out) /\
    (* vertices of the selected cell stay, point 2 moves *)
    oget 3 (pts out) = oget 3 (pts m) /\ oget 1 (pts out) = oget 1 (pts m) /\
    oget 4 (pts out) = oget 4 (pts m) /\ oget 2 (pts out) <> oget 2 (pts m).
Proof.
  exists strip4, (fst (out_of (CellF CLoop) (sel [0]) strip4)), (snd (out_of (CellF CLoop) (sel [0]) strip4)),
    (fst (out_of (CellF CLoop) (set_cells_to_be_subdivided (fst (out_of (CellF CLoop) (sel [0]) strip4)) [2]) strip4)), (snd (out_of (CellF CLoop) (set_cells_to_be_subdivided (fst (out_of (CellF CLoop) (sel [0]) strip4)) [2]) strip4)). split; [by_valid|]. split; [by_dense|].
  split; [apply no_isolatedb_ok; vm_compute; reflexivity|].
  split; [by_run|].
  split; [apply existingb_ok; vm_compute; reflexivity|]. split; [vm_compute; auto 10|].
  split; [by_run|].
  repeat (split; [vm_compute; reflexivity|]). vm_compute. discriminate.
Qed.

(** After an adaptive run the selection is cleared and the filter is used uniformly: no point
    is smoothed at all, unlike with a fresh filter. *)
Theorem C26_stale_uniform_refuted :
  exists (m : mesh Q3 N) f1 out1 f2 out2 f3 out3,
    valid m /\ dense m /\ no_isolated m /\
    update (CellF CLoop) 100 (sel [0]) m = Ok (f1, out1) /\
    update (CellF CLoop) 100 (set_cells_to_be_subdivided f1 []) m = Ok (f2, out2) /\
    update (CellF CLoop) 100 new_filter m = Ok (f3, out3) /\
    (forall id, oget id (pts m) <> None -> oget id (pts out2) = oget id (pts m)) /\
    oget 0 (pts out3) <> oget 0 (pts m) /\ cells out2 = cells out3.
Proof.
  exists tetra, (fst (out_of (CellF CLoop) (sel [0]) tetra)), (snd (out_of (CellF CLoop) (sel [0]) tetra)),
    (fst (out_of (CellF CLoop) (set_cells_to_be_subdivided (fst (out_of (CellF CLoop) (sel [0]) tetra)) []) tetra)), (snd (out_of (CellF CLoop) (set_cells_to_be_subdivided (fst (out_of (CellF CLoop) (sel [0]) tetra)) []) tetra)),
    (fst (out_of (CellF CLoop) new_filter tetra)), (snd (out_of (CellF CLoop) new_filter tetra)). split; [by_valid|]. split; [by_dense|].
  split; [apply no_isolatedb_ok; vm_compute; reflexivity|].
  split; [by_run|]. split; [by_run|]. split; [by_run|].
  split; [|split; [vm_compute; discriminate|vm_compute; reflexivity]].
  intros id Hid.
  assert (Hlt : id < 4).
  { change 4 with (osize (pts tetra)). apply (denseb_ok tetra eq_refl). exact Hid. }
  assert (Hc : id = 0 \/ id = 1 \/ id = 2 \/ id = 3) by lia.
  destruct Hc as [-> | [-> | [-> | ->]]]; vm_compute; reflexivity.
Qed.

(** ** C28: isolated points.  Uniform Loop (cell and edge filter) on a valid mesh with an
    isolated point dereferences a null edge. *)
Theorem C28_refuted :
  exists m : mesh Q3 N, valid m /\ dense m /\ oget 4 (pts m) <> None /\ ring m 4 = [] /\
    completes (fun fuel => update (CellF CLoop) fuel new_filter m) (Undef NullDeref) /\
    completes (fun fuel => update (EdgeF ELoop) fuel new_filter m) (Undef NullDeref).
Proof.
  exists mixed. split; [by_valid|]. split; [by_dense|]. split; [vm_compute; discriminate|].
  split; [reflexivity|].
  split; (split; [discriminate|]; exists 0%nat; intros fuel _; vm_compute; reflexivity).
Qed.

(** ** C29: an unknown cell id is neither reported nor ignored. *)
Theorem C29_refuted :
  exists m : mesh Q3 N, valid m /\ dense m /\ no_isolated m /\ ~ existing m [7] /\
    forall s, completes (fun fuel => update (CellF s) fuel (sel [7]) m) (Undef MissingKey).
Proof.
  exists tri2. split; [by_valid|]. split; [by_dense|].
  split; [apply no_isolatedb_ok; vm_compute; reflexivity|]. split.
  - intros H. destruct (H 7 ltac:(cbn; auto)) as [t Ht]. vm_compute in Ht.
    repeat (destruct Ht as [Ht|Ht]; [discriminate Ht|]); destruct Ht.
  - intros s. destruct s; (split; [discriminate|]; exists 0%nat; intros fuel _; vm_compute; reflexivity).
Qed.

(** ** C30: non-contiguous point ids.  On a triangle with ids 0, 1, 4 a new point overwrites
    the original point 4, for every face-split filter. *)
Definition sparse : mesh Q3 N :=
  build [(0, zpt [0; 0; 0]%Z); (1, zpt [16; 0; 0]%Z); (4, zpt [0; 16; 0]%Z)] [[0; 1; 4]].
Theorem C30_refuted :
  exists m : mesh Q3 N, valid m /\
    forall k, In k [CellF CLinear; CellF CButterfly; EdgeF ELinear; EdgeF ELoop; EdgeF EButterfly] ->
    exists f' out, update k 100 new_filter m = Ok (f', out) /\
      oget 4 (pts m) <> None /\ oget 4 (pts out) <> oget 4 (pts m) /\ (nF out < 4 * nF m)%Z.
Proof.
  exists sparse. split; [by_valid|]. intros k Hk.
  repeat (destruct Hk as [<-|Hk]; [do 2 eexists; split; [by_run|]; split; [vm_compute; discriminate|split; [vm_compute; discriminate|vm_compute; reflexivity]]|]).
  destruct Hk.
Qed.

(** ** C31: re-running an adaptive filter. The selection has been replaced by the list of
    refined output cells, which the second run takes for input cells. *)
Theorem C31_refuted :
  exists (m : mesh Q3 N) f' out f'' out',
    valid m /\ dense m /\ existing m [0] /\
    update (CellF CLinear) 100 (sel [0]) m = Ok (f', out) /\
    update (CellF CLinear) 100 f' m = Ok (f'', out') /\
    nF out <> nF out'.
Proof.
  exists torus7, (fst (out_of (CellF CLinear) (sel [0]) torus7)), (snd (out_of (CellF CLinear) (sel [0]) torus7)),
    (fst (out_of (CellF CLinear) (fst (out_of (CellF CLinear) (sel [0]) torus7)) torus7)), (snd (out_of (CellF CLinear) (fst (out_of (CellF CLinear) (sel [0]) torus7)) torus7)). split; [by_valid|]. split; [by_dense|].
  split; [apply existingb_ok; vm_compute; reflexivity|].
  split; [by_run|]. split; [by_run|]. vm_compute. discriminate.
Qed.
(** ... or for ids that do not exist at all. *)
Theorem C31_unknown_refuted :
  exists (m : mesh Q3 N) f' out,
    valid m /\ dense m /\ existing m [0] /\
    update (CellF CLinear) 100 (sel [0]) m = Ok (f', out) /\
    update (CellF CLinear) 100 f' m = Undef MissingKey.
Proof.
  exists tri2, (fst (out_of (CellF CLinear) (sel [0]) tri2)), (snd (out_of (CellF CLinear) (sel [0]) tri2)). split; [by_valid|]. split; [by_dense|].
  split; [apply existingb_ok; vm_compute; reflexivity|].
  split; [by_run|vm_compute; reflexivity].
Qed.

(** ** C40: an edge listed twice (in both orientations): a second point is inserted that no
    cell uses. *)
Theorem C40_refuted :
  exists (m : mesh Q3 N),
    valid m /\ dense m /\ joined m 1 2 /\
    forall s, exists f1 o1 f2 o2,
      update (EdgeF s) 100 (esl [Some (1, 2)]) m = Ok (f1, o1) /\
      update (EdgeF s) 100 (esl [Some (1, 2); Some (2, 1)]) m = Ok (f2, o2) /\
      nV o2 = (nV o1 + 1)%Z /\ nF o1 = nF o2 /\
      exists id, oget id (pts o2) <> None /\ ring o2 id = [].
Proof.
  exists tri2. split; [by_valid|]. split; [by_dense|]. split; [vm_compute; tauto|].
  intros s. destruct s; do 4 eexists; (split; [by_run|]); (split; [by_run|]);
  (split; [vm_compute; reflexivity|]); (split; [vm_compute; reflexivity|]);
  exists 4; (split; [vm_compute; discriminate|vm_compute; reflexivity]).
Qed.

(** ** C43: two triangles on the same three points (a doubly covered triangle; every edge has a
    face on both sides with opposite orientation).  All schemes lose faces, and an adaptive run
    dereferences a null edge. *)
Theorem C43_refuted :
  exists m : mesh Q3 N,
    nF m = 2%Z /\ NoDup (dirs (tris m)) /\ closed m /\ dense m /\ no_isolated m /\
    (forall k, k <> CellF CSqrt3 -> exists f' out, update k 100 new_filter m = Ok (f', out) /\ nF out = 4%Z) /\
    (exists f' out, update (CellF CSqrt3) 100 new_filter m = Ok (f', out) /\ nF out = 2%Z) /\
    (forall s, s <> CSqrt3 -> update (CellF s) 100 (sel [0]) m = Undef NullDeref).
Proof.
  exists pillow. split; [reflexivity|]. split; [apply nodupd_ok; reflexivity|]. split.
  { intros a b H. vm_compute in H. repeat (destruct H as [H|H]; [injection H as <- <-; vm_compute; tauto|]). destruct H. }
  split; [by_dense|]. split; [apply no_isolatedb_ok; vm_compute; reflexivity|].
  split; [|split].
  - intros [s|s] Hs; destruct s; try congruence; (do 2 eexists; split; [by_run|vm_compute; reflexivity]).
  - do 2 eexists; split; [by_run|]; vm_compute; reflexivity.
  - intros s Hs. destruct s; try congruence; vm_compute; reflexivity.
Qed.

(** ** C44: sqrt(3) with a cell id listed twice inserts a second centroid nobody uses. *)
Theorem C44_refuted :
  exists (m : mesh Q3 N) f1 o1 f2 o2 id,
    valid m /\ dense m /\ existing m [1] /\
    update (CellF CSqrt3) 100 (sel [1]) m = Ok (f1, o1) /\
    update (CellF CSqrt3) 100 (sel [1; 1]) m = Ok (f2, o2) /\
    nV o2 = (nV o1 + 1)%Z /\ cells o1 = cells o2 /\
    oget id (pts o2) <> None /\ ring o2 id = [].
Proof.
  exists tri3, (fst (out_of (CellF CSqrt3) (sel [1]) tri3)), (snd (out_of (CellF CSqrt3) (sel [1]) tri3)), (fst (out_of (CellF CSqrt3) (sel [1; 1]) tri3)), (snd (out_of (CellF CSqrt3) (sel [1; 1]) tri3)), 6.
  split; [by_valid|]. split; [by_dense|].
  split; [apply existingb_ok; vm_compute; reflexivity|].
  split; [by_run|]. split; [by_run|].
  split; [vm_compute; reflexivity|]. split; [vm_compute; reflexivity|].
  split; [vm_compute; discriminate|vm_compute; reflexivity].
Qed.

(** ** C46: the conditional filter loses cell data, even when there is nothing to subdivide. *)
Theorem C46_refuted :
  exists (m : mesh Q3 N) f' out,
    valid m /\ dense m /\
    conditional_update 100 (CellF CLinear) (Some (cell_area_criterion (O := Q3) (inject_Z 1000))) (SelCells []) new_filter m = Ok (f', out) /\
    faces out = faces m /\ cell_datum m 0 = Some 10 /\ cell_datum out 0 = None.
Proof.
  exists strip4, (fst (the (conditional_update 100 (CellF CLinear) (Some (cell_area_criterion (O := Q3) (inject_Z 1000))) (SelCells []) new_filter strip4))), (snd (the (conditional_update 100 (CellF CLinear) (Some (cell_area_criterion (O := Q3) (inject_Z 1000))) (SelCells []) new_filter strip4))).
  split; [by_valid|]. split; [by_dense|].
  split; [by_run|]. repeat split; vm_compute; reflexivity.
Qed.

(** ** C49: missing objects are dereferenced, whatever the input. *)
Theorem C49_null_criterion_undefined :
  forall (O : Ops) (D : Type) fuel k old f (m : mesh O D), conditional_update fuel k None old f m = Undef NullDeref.
Proof. reflexivity. Qed.
Theorem C49_refuted :
  exists (m : mesh Q3 N), valid m /\ dense m /\
    (forall k old, conditional_update 100 k None old new_filter m = Undef NullDeref) /\
    (* the same points without a cell container *)
    (forall s, update (CellF s) 100 new_filter (set_cells (set_rings m []) None) = Undef NullDeref).
Proof.
  exists tri2. split; [by_valid|]. split; [by_dense|]. split; [reflexivity|].
  intros s. destruct s; vm_compute; reflexivity.
Qed.

Print Assumptions C24_refuted.
Print Assumptions C26_refuted.
Print Assumptions C26_cell_ids_refuted.
Print Assumptions C26_stale_uniform_refuted.
Print Assumptions C28_refuted.
Print Assumptions C29_refuted.
Print Assumptions C30_refuted.
Print Assumptions C31_refuted.
Print Assumptions C31_unknown_refuted.
Print Assumptions C40_refuted.
Print Assumptions C43_refuted.
Print Assumptions C44_refuted.
Print Assumptions C46_refuted.
Print Assumptions C49_null_criterion_undefined.
Print Assumptions C49_refuted.
