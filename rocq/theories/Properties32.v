(** * Properties32: a separate piece of a mesh is subdivided as if it were alone (C120).

    Theorems only; the proofs are in Piece.v and PieceRun.v. *)
From Coq Require Import Reals QArith.
From Verif Require Import Base Mesh Filters Drivers Samples Spec SpecSub SpecGeo SpecRenum SpecRoot3 SpecDrive SpecConv SpecSame Lists Check CheckGeo CheckDrive CheckRenum CheckRoot3 Face Same Piece PieceRun CheckSame CheckPiece Properties11.

Open Scope N_scope.

(** C120.  [n] levels of the iterative filter without a selection, exact coordinates, all four schemes.  [m1] is a union of connected
    components of [m2], with ids, order of the cells and points to start them with of its own; then the output for [m1] is such a
    piece of the output for [m2], point for point with the same coordinates.  The rest of [m2] is arbitrary: for Butterfly it may
    have a border. *)
Theorem C120 : forall (d : nat) (D : Type) s n (m1 m2 out1 out2 : mesh (RO d) D) r,
  valid m1 -> valid m2 -> dense m1 -> dense m2 -> tris m1 <> [] -> unambiguous s m1 -> (s = CLoop -> no_isolated m2 /\ no_wire m2) ->
  fits s n m1 -> fits s n m2 -> piece r m1 m2 -> after s n m1 out1 -> after s n m2 out2 ->
  exists q, piece q out1 out2 /\ (forall x, oget x (pts m1) <> None -> q x = r x).
Proof. exact C120_pf. Qed.

(** The octahedron in a mesh that also has the strip, four levels of every scheme. *)
Example C120_ex : let m1 := rmesh octa in let m2 := rmesh both in
  valid m1 /\ valid m2 /\ dense m1 /\ dense m2 /\ tris m1 <> [] /\ no_isolated m2 /\ no_wire m2 /\ ~ closed m2 /\ piece (fun x => x + 6) m1 m2 /\
  (forall s, unambiguous s m1 /\ fits s 4 m1 /\ fits s 4 m2 /\ (exists out1, after s 4 m1 out1) /\ exists out2, after s 4 m2 out2).
Proof.
  intros m1 m2. assert (V1 : valid m1) by ex_valid. assert (V2 : valid m2) by ex_valid. assert (D1 : dense m1) by ex_dense. assert (D2 : dense m2) by ex_dense.
  assert (T1 : tris m1 <> []) by (vm_compute; discriminate). assert (T2 : tris m2 <> []) by (vm_compute; discriminate).
  assert (I1 : no_isolated m1) by (apply no_isolatedb_ok; vm_compute; reflexivity). assert (I2 : no_isolated m2) by (apply no_isolatedb_ok; vm_compute; reflexivity).
  assert (W1 : no_wire m1) by (apply no_wireb_ok; vm_compute; reflexivity). assert (W2 : no_wire m2) by (apply no_wireb_ok; vm_compute; reflexivity).
  assert (C1 : closed m1) by (apply closedb_ok; vm_compute; reflexivity).
  assert (F1 : fits CSqrt3 4 m1) by (intros _; vm_compute; reflexivity). assert (F2 : fits CSqrt3 4 m2) by (intros _; vm_compute; reflexivity).
  repeat (split; [assumption|]). split.
  { intros C. assert (H : In (0, 1) (dirs (tris m2))) by (vm_compute; tauto). apply C in H. each_case H. }
  split; [exact (rmesh_piece _ _ _ octa_piece)|].
  intros s. split; [destruct s; cbn; auto|]. split; [intros _; exact (F1 eq_refl)|]. split; [intros _; exact (F2 eq_refl)|].
  split; apply uniform_after; assumption.
Qed.

(** C120, one run of an edge filter without a selection. *)
Theorem C120_edges : forall (d : nat) (D : Type) s (m1 m2 : mesh (RO d) D) f1 f2 g1 g2 out1 out2 r n1 n2,
  valid m1 -> valid m2 -> dense m1 -> dense m2 -> tris m1 <> [] -> ready (EdgeF s) f1 m1 -> ready (EdgeF s) f2 m2 -> no_wire m1 -> no_wire m2 ->
  unambiguous (scheme_of (EdgeF s)) m1 -> piece r m1 m2 -> esel f1 = [] -> esel f2 = [] ->
  update (EdgeF s) n1 f1 m1 = Ok (g1, out1) -> update (EdgeF s) n2 f2 m2 = Ok (g2, out2) ->
  exists q, piece q out1 out2 /\ (forall x, oget x (pts m1) <> None -> q x = r x).
Proof. exact C120_edges_pf. Qed.

Example C120_edges_ex : let m1 := rmesh octa in let m2 := rmesh both in let f := new_filter in
  valid m1 /\ valid m2 /\ dense m1 /\ dense m2 /\ tris m1 <> [] /\ no_wire m1 /\ no_wire m2 /\ piece (fun x => x + 6) m1 m2 /\ esel f = [] /\
  forall s, ready (EdgeF s) f m1 /\ ready (EdgeF s) f m2 /\ unambiguous (scheme_of (EdgeF s)) m1 /\
    (exists g1 out1, update (EdgeF s) 100 f m1 = Ok (g1, out1)) /\ exists g2 out2, update (EdgeF s) 100 f m2 = Ok (g2, out2).
Proof.
  intros m1 m2 f. destruct C120_ex as [V1 [V2 [D1 [D2 [T1 [I2 [W2 [_ [HS HU]]]]]]]]]. destruct (HU CLoop) as [[I1 W1] _].
  repeat (split; [assumption|]). split; [reflexivity|]. intros s.
  split; [apply readyb_ok; destruct s; vm_compute; reflexivity|]. split; [apply readyb_ok; destruct s; vm_compute; reflexivity|].
  split; [destruct s; [exact I|exact (conj I1 W1)|exact (proj1 (HU CButterfly))]|].
  split; [apply (run_real _ _ _ octa)|apply (run_real _ _ _ both)]; [ex_nodup|apply rmesh_same|destruct s; vm_compute; exact I|ex_nodup|apply rmesh_same|destruct s; vm_compute; exact I].
Qed.

(** C120, adaptive runs of the filters that split edges: in the piece corresponding cells start with corresponding points,
    corresponding edges are split, and Loop smooths corresponding points.  What is selected in the rest does not matter. *)
Theorem C120_adaptive : forall (d : nat) (D : Type) k (m1 m2 : mesh (RO d) D) f1 f2 g1 g2 out1 out2 r n1 n2,
  valid m1 -> valid m2 -> dense m1 -> dense m2 -> tris m1 <> [] -> ready k f1 m1 -> ready k f2 m2 -> unambiguous (scheme_of k) m1 -> (k = CellF CLoop -> no_wire m2) ->
  piece r m1 m2 -> same_corners r m1 m2 -> same_edges_split r k f1 m1 f2 m2 ->
  (k = CellF CLoop -> forall x, oget x (pts m1) <> None -> (uniform f1 = true \/ In x (csel f1)) <-> (uniform f2 = true \/ In (r x) (csel f2))) ->
  update k n1 f1 m1 = Ok (g1, out1) -> update k n2 f2 m2 = Ok (g2, out2) ->
  exists q, piece q out1 out2 /\ (forall x, oget x (pts m1) <> None -> q x = r x).
Proof. exact C120_adaptive_pf. Qed.

(** The strip with its first cell selected, alone and beside the octahedron of which one cell is selected too. *)
Example C120_adaptive_ex : let m1 := rmesh strip4 in let m2 := rmesh both in let k := CellF CLoop in let r := fun x => x + 0 in
  valid m1 /\ valid m2 /\ dense m1 /\ dense m2 /\ tris m1 <> [] /\ ready k (sel [0]) m1 /\ ready k (sel [1; 2]) m2 /\ unambiguous (scheme_of k) m1 /\ no_wire m2 /\
  piece r m1 m2 /\ same_corners r m1 m2 /\ same_edges_split r k (sel [0]) m1 (sel [1; 2]) m2 /\
  uniform (sel [0]) = true /\ uniform (sel [1; 2]) = true /\
  (exists g1 out1, update k 100 (sel [0]) m1 = Ok (g1, out1)) /\ exists g2 out2, update k 100 (sel [1; 2]) m2 = Ok (g2, out2).
Proof.
  intros m1 m2 k r. destruct C120_ex as [_ [V2 [_ [D2 [_ [_ [W2 _]]]]]]]. assert (V1 : valid m1) by ex_valid. assert (D1 : dense m1) by ex_dense.
  repeat (split; [assumption|]). split; [vm_compute; discriminate|]. split; [apply readyb_ok; vm_compute; reflexivity|]. split; [apply readyb_ok; vm_compute; reflexivity|].
  split; [split; [apply no_isolatedb_ok|apply no_wireb_ok]; vm_compute; reflexivity|]. split; [exact W2|].
  split; [exact (rmesh_piece _ _ _ strip_piece)|].
  split; [intros a b c H; each_case H; vm_compute; tauto|]. split.
  { assert (S1 : forall t, selected m1 [0] t <-> t = (0, 1, 2)) by (apply selected_one; one_cell).
    assert (S2 : forall t, selected m2 [1; 2] t <-> t = (0, 1, 2) \/ t = (6, 8, 9)).
    { intros t. unfold selected. split.
      - intros [[E _]|[j [Hj Hf]]]; [discriminate|]. destruct Hj as [<-|[<-|[]]]; each_case Hf; auto.
      - intros [->| ->]; right; [exists 1|exists 2]; vm_compute; tauto. }
    assert (B : forall a, oget a (pts m1) <> None -> a < 6) by (intros a Ha; exact (proj1 (D1 a) Ha)).
    intros a b Pa Pb. apply B in Pa. apply B in Pb. unfold k, r. rewrite !N.add_0_r. cbn [to_split]. change (csel (sel [0])) with [0]. change (csel (sel [1; 2])) with [1; 2].
    split; intros [t [Ht He]].
    - apply S1 in Ht. subst t. exists (0, 1, 2). split; [apply S2; auto|exact He].
    - apply S2 in Ht. destruct Ht as [->| ->]; [exists (0, 1, 2); split; [apply S1; reflexivity|exact He]|].
      exfalso. unfold edge_of in He. cbn [tdirs In] in He.
      repeat match goal with H : _ \/ _ |- _ => destruct H as [H|H] | H : False |- _ => destruct H end; apply pair_equal_spec in He; destruct He; lia. }
  split; [reflexivity|]. split; [reflexivity|].
  split; [apply (run_real _ _ _ strip4)|apply (run_real _ _ _ both)]; [ex_nodup|apply rmesh_same|vm_compute; exact I|ex_nodup|apply rmesh_same|vm_compute; exact I].
Qed.

(** C120, adaptive runs of the sqrt(3) filter: in the piece corresponding cells are selected; the points they start with do not matter. *)
Theorem C120_sqrt3 : forall (d : nat) (D : Type) (m1 m2 : mesh (RO d) D) f1 f2 g1 g2 out1 out2 r n1 n2,
  valid m1 -> valid m2 -> dense m1 -> dense m2 -> tris m1 <> [] -> ready3 f1 m1 -> ready3 f2 m2 -> piece r m1 m2 ->
  update (CellF CSqrt3) n1 f1 m1 = Ok (g1, out1) -> update (CellF CSqrt3) n2 f2 m2 = Ok (g2, out2) ->
  (forall a b c, is_face m1 a b c -> picked m1 (csel f1) a b c <-> picked m2 (csel f2) (r a) (r b) (r c)) ->
  exists q, piece q out1 out2 /\ (forall x, oget x (pts m1) <> None -> q x = r x).
Proof. exact @piece_run3. Qed.

(** The octahedron with cell 0 = (0, 1, 2) selected; that is cell 0 = (7, 8, 6) of the whole, of which cell 1 of the strip is selected too. *)
Example C120_sqrt3_ex : let m1 := rmesh octa in let m2 := rmesh both in
  valid m1 /\ valid m2 /\ dense m1 /\ dense m2 /\ tris m1 <> [] /\ ready3 (sel [0]) m1 /\ ready3 (sel [0; 1]) m2 /\ piece (fun x => x + 6) m1 m2 /\
  (forall a b c, is_face m1 a b c -> picked m1 [0] a b c <-> picked m2 [0; 1] (a + 6) (b + 6) (c + 6)) /\
  (exists g1 out1, update (CellF CSqrt3) 100 (sel [0]) m1 = Ok (g1, out1)) /\ exists g2 out2, update (CellF CSqrt3) 100 (sel [0; 1]) m2 = Ok (g2, out2).
Proof.
  intros m1 m2. destruct C120_ex as [V1 [V2 [D1 [D2 [T1 [_ [_ [_ [HS _]]]]]]]]]. repeat (split; [assumption|]).
  assert (S1 : forall t, selected m1 [0] t <-> t = (0, 1, 2)) by (apply selected_one; one_cell).
  assert (S2 : forall t, selected m2 [0; 1] t <-> t = (7, 8, 6) \/ t = (0, 1, 2)).
  { intros t. unfold selected. split.
    - intros [[E _]|[j [Hj Hf]]]; [discriminate|]. destruct Hj as [<-|[<-|[]]]; each_case Hf; auto.
    - intros [->| ->]; right; [exists 0|exists 1]; vm_compute; tauto. }
  split; [apply ready3b_ok; vm_compute; reflexivity|]. split; [apply ready3b_ok; vm_compute; reflexivity|]. split; [exact HS|]. split.
  { intros a b c H. unfold picked. rewrite !S1, !S2. destruct H as [H|[H|H]]; each_case H; vm_compute; intuition congruence. }
  split; [apply (run_real _ _ _ octa)|apply (run_real _ _ _ both)]; [ex_nodup|apply rmesh_same|vm_compute; exact I|ex_nodup|apply rmesh_same|vm_compute; exact I].
Qed.

Print Assumptions C120.
Print Assumptions C120_edges.
Print Assumptions C120_adaptive.
Print Assumptions C120_sqrt3.
