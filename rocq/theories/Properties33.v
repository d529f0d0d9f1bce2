(** * Properties33: turning the input inside out turns the result inside out (C121).

    Theorems only; the proofs are in Turn.v.  The theorem with suffix _refuted shows that adaptive runs of the edge-splitting filters
    do not have the property. *)
From Coq Require Import Reals QArith.
From Verif Require Import Base Mesh Filters Drivers Samples Spec SpecSub SpecGeo SpecRenum SpecRoot3 SpecDrive SpecConv SpecSame SpecTurn Lists Check CheckGeo CheckDrive CheckRenum CheckRoot3 Face Turn CheckSame CheckTurn Properties11.

Open Scope N_scope.

(** C121.  [n] levels of the iterative filter without a selection, exact coordinates, all four schemes.  The second input is the
    first one with every triangle the other way round (and other ids of points and cells); then so is the second output. *)
Theorem C121 : forall (d : nat) (D : Type) s n (m1 m2 out1 out2 : mesh (RO d) D) r r',
  valid m1 -> valid m2 -> dense m1 -> dense m2 -> tris m1 <> [] -> unambiguous s m1 -> unambiguous s m2 -> fits s n m1 -> fits s n m2 ->
  turned r r' m1 m2 -> after s n m1 out1 -> after s n m2 out2 ->
  exists q q', turned q q' out1 out2 /\ (forall x, oget x (pts m1) <> None -> q x = r x).
Proof. exact C121_pf. Qed.

(** The octahedron and the octahedron inside out, four levels of every scheme. *)
Example C121_ex : let m1 := rmesh octa in let m2 := rmesh octat in
  valid m1 /\ valid m2 /\ dense m1 /\ dense m2 /\ tris m1 <> [] /\ turned flip5 flip5 m1 m2 /\ ~ same_surface flip5 flip5 m1 m2 /\
  (forall s, unambiguous s m1 /\ unambiguous s m2 /\ fits s 4 m1 /\ fits s 4 m2 /\ (exists out1, after s 4 m1 out1) /\ exists out2, after s 4 m2 out2).
Proof.
  intros m1 m2. assert (V1 : valid m1) by ex_valid. assert (V2 : valid m2) by ex_valid. assert (D1 : dense m1) by ex_dense. assert (D2 : dense m2) by ex_dense.
  assert (T1 : tris m1 <> []) by (vm_compute; discriminate). assert (T2 : tris m2 <> []) by (vm_compute; discriminate).
  assert (I1 : no_isolated m1) by (apply no_isolatedb_ok; vm_compute; reflexivity). assert (I2 : no_isolated m2) by (apply no_isolatedb_ok; vm_compute; reflexivity).
  assert (W1 : no_wire m1) by (apply no_wireb_ok; vm_compute; reflexivity). assert (W2 : no_wire m2) by (apply no_wireb_ok; vm_compute; reflexivity).
  assert (C1 : closed m1) by (apply closedb_ok; vm_compute; reflexivity). assert (C2 : closed m2) by (apply closedb_ok; vm_compute; reflexivity).
  assert (F1 : fits CSqrt3 4 m1) by (intros _; vm_compute; reflexivity). assert (F2 : fits CSqrt3 4 m2) by (intros _; vm_compute; reflexivity).
  repeat (split; [assumption|]). split; [exact (rmesh_turned _ _ _ _ octa_turned)|]. split.
  { intros H. assert (F : is_face m1 0 1 2) by (vm_compute; tauto). apply (ss_faces _ _ _ _ H) in F. destruct F as [F|[F|F]]; each_case F. }
  intros s. split; [destruct s; cbn; auto|]. split; [destruct s; cbn; auto|]. split; [intros _; exact (F1 eq_refl)|]. split; [intros _; exact (F2 eq_refl)|].
  split; apply uniform_after; assumption.
Qed.

(** C121, one run of an edge filter without a selection. *)
Theorem C121_edges : forall (d : nat) (D : Type) s (m1 m2 : mesh (RO d) D) f1 f2 g1 g2 out1 out2 r r' n1 n2,
  valid m1 -> valid m2 -> dense m1 -> dense m2 -> ready (EdgeF s) f1 m1 -> ready (EdgeF s) f2 m2 -> no_wire m1 -> no_wire m2 ->
  unambiguous (scheme_of (EdgeF s)) m1 -> unambiguous (scheme_of (EdgeF s)) m2 ->
  turned r r' m1 m2 -> esel f1 = [] -> esel f2 = [] ->
  update (EdgeF s) n1 f1 m1 = Ok (g1, out1) -> update (EdgeF s) n2 f2 m2 = Ok (g2, out2) ->
  exists q q', turned q q' out1 out2 /\ (forall x, oget x (pts m1) <> None -> q x = r x).
Proof. exact C121_edges_pf. Qed.

Example C121_edges_ex : let m1 := rmesh octa in let m2 := rmesh octat in let f := new_filter in
  valid m1 /\ valid m2 /\ dense m1 /\ dense m2 /\ no_wire m1 /\ no_wire m2 /\ turned flip5 flip5 m1 m2 /\ esel f = [] /\
  forall s, ready (EdgeF s) f m1 /\ ready (EdgeF s) f m2 /\ unambiguous (scheme_of (EdgeF s)) m1 /\ unambiguous (scheme_of (EdgeF s)) m2 /\
    (exists g1 out1, update (EdgeF s) 100 f m1 = Ok (g1, out1)) /\ exists g2 out2, update (EdgeF s) 100 f m2 = Ok (g2, out2).
Proof.
  intros m1 m2 f. destruct C121_ex as [V1 [V2 [D1 [D2 [_ [HS [_ HU]]]]]]]. destruct (HU CLoop) as [[I1 W1] [[I2 W2] _]].
  repeat (split; [assumption|]). split; [reflexivity|]. intros s.
  split; [apply readyb_ok; destruct s; vm_compute; reflexivity|]. split; [apply readyb_ok; destruct s; vm_compute; reflexivity|].
  split; [destruct s; [exact I|exact (conj I1 W1)|exact (proj1 (HU CButterfly))]|]. split; [destruct s; [exact I|exact (conj I2 W2)|exact (proj1 (proj2 (HU CButterfly)))]|].
  split; [apply (run_real _ _ _ octa)|apply (run_real _ _ _ octat)]; [ex_nodup|apply rmesh_same|destruct s; vm_compute; exact I|ex_nodup|apply rmesh_same|destruct s; vm_compute; exact I].
Qed.

(** C121, adaptive runs of the sqrt(3) filter: corresponding cells are selected. *)
Theorem C121_sqrt3 : forall (d : nat) (D : Type) (m1 m2 : mesh (RO d) D) f1 f2 g1 g2 out1 out2 r r' n1 n2,
  valid m1 -> valid m2 -> dense m1 -> dense m2 -> ready3 f1 m1 -> ready3 f2 m2 -> turned r r' m1 m2 ->
  update (CellF CSqrt3) n1 f1 m1 = Ok (g1, out1) -> update (CellF CSqrt3) n2 f2 m2 = Ok (g2, out2) ->
  (forall a b c, is_face m1 a b c -> picked m1 (csel f1) a b c <-> picked m2 (csel f2) (r a) (r c) (r b)) ->
  exists q q', turned q q' out1 out2 /\ (forall x, oget x (pts m1) <> None -> q x = r x).
Proof. exact @same_run3. Qed.

(** Cell 0 = (0, 1, 2) of the octahedron is cell 1 = (4, 5, 3) of the other. *)
Example C121_sqrt3_ex : let m1 := rmesh octa in let m2 := rmesh octat in
  valid m1 /\ valid m2 /\ dense m1 /\ dense m2 /\ ready3 (sel [0]) m1 /\ ready3 (sel [1]) m2 /\ turned flip5 flip5 m1 m2 /\
  (forall a b c, is_face m1 a b c -> picked m1 [0] a b c <-> picked m2 [1] (flip5 a) (flip5 c) (flip5 b)) /\
  (exists g1 out1, update (CellF CSqrt3) 100 (sel [0]) m1 = Ok (g1, out1)) /\ exists g2 out2, update (CellF CSqrt3) 100 (sel [1]) m2 = Ok (g2, out2).
Proof.
  intros m1 m2. destruct C121_ex as [V1 [V2 [D1 [D2 [_ [HS _]]]]]]. repeat (split; [assumption|]).
  assert (S1 : forall t, selected m1 [0] t <-> t = (0, 1, 2)) by (apply selected_one; one_cell).
  assert (S2 : forall t, selected m2 [1] t <-> t = (4, 5, 3)) by (apply selected_one; one_cell).
  split; [apply ready3b_ok; vm_compute; reflexivity|]. split; [apply ready3b_ok; vm_compute; reflexivity|]. split; [exact HS|]. split.
  { intros a b c H. unfold picked. rewrite !S1, !S2. destruct H as [H|[H|H]]; each_case H; vm_compute; intuition congruence. }
  split; [apply (run_real _ _ _ octa)|apply (run_real _ _ _ octat)]; [ex_nodup|apply rmesh_same|vm_compute; exact I|ex_nodup|apply rmesh_same|vm_compute; exact I].
Qed.

(** The property fails for adaptive runs of the filters that split edges, even if the triangles start with the same point: a triangle with two
    split edges and the same triangle the other way round are cut along different diagonals. *)
Theorem C121_adaptive_refuted : exists (m1 m2 : mesh Q3 N) f g1 g2 out1 out2,
  valid m1 /\ valid m2 /\ dense m1 /\ dense m2 /\ ready (EdgeF ELinear) f m1 /\ ready (EdgeF ELinear) f m2 /\
  turned (fun x => x) (fun x => x) m1 m2 /\ (forall a b c, In (a, b, c) (tris m1) -> In (a, c, b) (tris m2)) /\
  same_edges_split (fun x => x) (EdgeF ELinear) f m1 f m2 /\
  update (EdgeF ELinear) 100 f m1 = Ok (g1, out1) /\ update (EdgeF ELinear) 100 f m2 = Ok (g2, out2) /\
  ~ exists q q', turned q q' out1 out2.
Proof.
  run_of (update (EdgeF ELinear) 100 (esl [Some (0, 1); Some (2, 0)]) tri1). destruct H as [g1 [o1 [R1 [P1 T1]]]].
  run_of (update (EdgeF ELinear) 100 (esl [Some (0, 1); Some (2, 0)]) tri1t). destruct H as [g2 [o2 [R2 [P2 T2]]]].
  exists tri1, tri1t, (esl [Some (0, 1); Some (2, 0)]), g1, g2, o1, o2. split; [ex_valid|]. split; [ex_valid|]. split; [ex_dense|]. split; [ex_dense|].
  split; [apply readyb_ok; vm_compute; reflexivity|]. split; [apply readyb_ok; vm_compute; reflexivity|]. split; [exact tri1_turned|].
  split; [intros a b c H; each_case H; vm_compute; tauto|].
  split; [intros a b _ _; cbn [to_split]; split; (intros [[X _]|X]; [discriminate X|right; exact X])|]. split; [exact R1|]. split; [exact R2|]. clear R1 R2. intros [q [q' H]].
  assert (Q : forall x p, oget x (pts o1) = Some p -> oget (q x) (pts o2) = Some p) by (intros x p Hp; apply (tu_pts _ _ _ _ H x p Hp)).
  rewrite P1, P2 in Q. assert (P : forall x, In x [0; 1; 2; 3; 4] -> q x = x).
  { intros x Hx. cbn in Hx. destruct Hx as [<-|[<-|[<-|[<-|[<-|[]]]]]];
      match goal with |- q ?n = _ => let K := fresh in assert (K := Q n _ eq_refl); apply oget_list in K; cbn [In] in K end;
      repeat match goal with K : _ \/ _ |- _ => destruct K as [K|K] end; congruence || contradiction. }
  assert (F : is_face o1 1 2 3) by (unfold is_face; rewrite T1; cbn; tauto). apply (tu_faces _ _ _ _ H) in F. rewrite !P in F by (cbn; tauto).
  unfold is_face in F. rewrite T2 in F. cbn [In] in F. intuition discriminate.
Qed.

Print Assumptions C121.
Print Assumptions C121_edges.
Print Assumptions C121_sqrt3.
Print Assumptions C121_adaptive_refuted.
