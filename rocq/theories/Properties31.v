(** * Properties31: the result is a function of the surface (C119).

    Theorems only; the proofs are in Same.v.  The two theorems with suffix _refuted show that the hypotheses on starting points and on borders are needed. *)
From Coq Require Import Reals QArith.
From Verif Require Import Base Mesh Filters Drivers Samples Spec SpecSub SpecGeo SpecRenum SpecRoot3 SpecDrive SpecConv SpecSame Lists Check CheckGeo CheckDrive CheckRenum CheckRoot3 Face Same CheckSame Properties11.

Open Scope N_scope.

(** C119.  [n] levels of the iterative filter without a selection, exact coordinates, all four schemes.  The inputs are the same
    surface with other ids of points and cells and other points to start the cells with; then so are the outputs, and the points of
    the input correspond as before. *)
Theorem C119 : forall (d : nat) (D : Type) s n (m1 m2 out1 out2 : mesh (RO d) D) r r',
  valid m1 -> valid m2 -> dense m1 -> dense m2 -> tris m1 <> [] -> unambiguous s m1 -> unambiguous s m2 -> fits s n m1 -> fits s n m2 ->
  same_surface r r' m1 m2 -> after s n m1 out1 -> after s n m2 out2 ->
  exists q q', same_surface q q' out1 out2 /\ (forall x, oget x (pts m1) <> None -> q x = r x).
Proof. exact C119_pf. Qed.
Print Assumptions C119.

(** Two numberings of the octahedron, four levels of every scheme. *)
Example C119_ex : let m1 := rmesh octa in let m2 := rmesh octa' in
  valid m1 /\ valid m2 /\ dense m1 /\ dense m2 /\ tris m1 <> [] /\ same_surface flip5 flip5 m1 m2 /\
  (forall s, unambiguous s m1 /\ unambiguous s m2 /\ fits s 4 m1 /\ fits s 4 m2 /\ (exists out1, after s 4 m1 out1) /\ exists out2, after s 4 m2 out2) /\
  tris m1 <> map (fun t => match t with (a, b, c) => (flip5 a, flip5 b, flip5 c) end) (tris m2).
Proof.
  intros m1 m2. assert (V1 : valid m1) by ex_valid. assert (V2 : valid m2) by ex_valid. assert (D1 : dense m1) by ex_dense. assert (D2 : dense m2) by ex_dense.
  assert (T1 : tris m1 <> []) by (vm_compute; discriminate). assert (T2 : tris m2 <> []) by (vm_compute; discriminate).
  assert (I1 : no_isolated m1) by (apply no_isolatedb_ok; vm_compute; reflexivity). assert (I2 : no_isolated m2) by (apply no_isolatedb_ok; vm_compute; reflexivity).
  assert (W1 : no_wire m1) by (apply no_wireb_ok; vm_compute; reflexivity). assert (W2 : no_wire m2) by (apply no_wireb_ok; vm_compute; reflexivity).
  assert (C1 : closed m1) by (apply closedb_ok; vm_compute; reflexivity). assert (C2 : closed m2) by (apply closedb_ok; vm_compute; reflexivity).
  assert (F1 : fits CSqrt3 4 m1) by (intros _; vm_compute; reflexivity). assert (F2 : fits CSqrt3 4 m2) by (intros _; vm_compute; reflexivity).
  repeat (split; [assumption|]). split; [exact (rmesh_surface _ _ _ _ octa_same)|]. split; [|vm_compute; discriminate].
  intros s. split; [destruct s; cbn; auto|]. split; [destruct s; cbn; auto|]. split; [intros _; exact (F1 eq_refl)|]. split; [intros _; exact (F2 eq_refl)|].
  split; apply uniform_after; assumption.
Qed.

(** C119, one run of an edge filter without a selection. *)
Theorem C119_edges : forall (d : nat) (D : Type) s (m1 m2 : mesh (RO d) D) f1 f2 g1 g2 out1 out2 r r' n1 n2,
  valid m1 -> valid m2 -> dense m1 -> dense m2 -> ready (EdgeF s) f1 m1 -> ready (EdgeF s) f2 m2 -> no_wire m1 -> no_wire m2 ->
  unambiguous (scheme_of (EdgeF s)) m1 -> unambiguous (scheme_of (EdgeF s)) m2 ->
  same_surface r r' m1 m2 -> esel f1 = [] -> esel f2 = [] ->
  update (EdgeF s) n1 f1 m1 = Ok (g1, out1) -> update (EdgeF s) n2 f2 m2 = Ok (g2, out2) ->
  exists q q', same_surface q q' out1 out2 /\ (forall x, oget x (pts m1) <> None -> q x = r x).
Proof. exact C119_edges_pf. Qed.
Print Assumptions C119_edges.

Example C119_edges_ex : let m1 := rmesh octa in let m2 := rmesh octa' in let f := new_filter in
  valid m1 /\ valid m2 /\ dense m1 /\ dense m2 /\ no_wire m1 /\ no_wire m2 /\ same_surface flip5 flip5 m1 m2 /\ esel f = [] /\
  forall s, ready (EdgeF s) f m1 /\ ready (EdgeF s) f m2 /\ unambiguous (scheme_of (EdgeF s)) m1 /\ unambiguous (scheme_of (EdgeF s)) m2 /\
    (exists g1 out1, update (EdgeF s) 100 f m1 = Ok (g1, out1)) /\ exists g2 out2, update (EdgeF s) 100 f m2 = Ok (g2, out2).
Proof.
  intros m1 m2 f. destruct C119_ex as [V1 [V2 [D1 [D2 [_ [HS [HU _]]]]]]]. destruct (HU CLoop) as [[I1 W1] [[I2 W2] _]].
  repeat (split; [assumption|]). split; [reflexivity|]. intros s.
  split; [apply readyb_ok; destruct s; vm_compute; reflexivity|]. split; [apply readyb_ok; destruct s; vm_compute; reflexivity|].
  split; [destruct s; [exact I|exact (conj I1 W1)|exact (proj1 (HU CButterfly))]|]. split; [destruct s; [exact I|exact (conj I2 W2)|exact (proj1 (proj2 (HU CButterfly)))]|].
  split; [apply (run_real _ _ _ octa)|apply (run_real _ _ _ octa')]; [ex_nodup|apply rmesh_same|destruct s; vm_compute; exact I|ex_nodup|apply rmesh_same|destruct s; vm_compute; exact I].
Qed.

(** C119, adaptive runs of the filters that split edges: corresponding cells start with corresponding points, corresponding edges
    are split, and Loop smooths corresponding points. *)
Theorem C119_adaptive : forall (d : nat) (D : Type) k (m1 m2 : mesh (RO d) D) f1 f2 g1 g2 out1 out2 r r' n1 n2,
  valid m1 -> valid m2 -> dense m1 -> dense m2 -> ready k f1 m1 -> ready k f2 m2 -> unambiguous (scheme_of k) m1 -> unambiguous (scheme_of k) m2 ->
  same_surface r r' m1 m2 -> same_corners r m1 m2 -> same_edges_split r k f1 m1 f2 m2 ->
  (k = CellF CLoop -> forall x, oget x (pts m1) <> None -> (uniform f1 = true \/ In x (csel f1)) <-> (uniform f2 = true \/ In (r x) (csel f2))) ->
  update k n1 f1 m1 = Ok (g1, out1) -> update k n2 f2 m2 = Ok (g2, out2) ->
  exists q q', same_surface q q' out1 out2 /\ (forall x, oget x (pts m1) <> None -> q x = r x).
Proof. exact C119_adaptive_pf. Qed.
Print Assumptions C119_adaptive.

(** The strip in two numberings, the Loop filter with the first cell of one and the last of the other selected. *)
Example C119_adaptive_ex : let m1 := rmesh strip4 in let m2 := rmesh strip4' in let k := CellF CLoop in
  valid m1 /\ valid m2 /\ dense m1 /\ dense m2 /\ ready k (sel [0]) m1 /\ ready k (sel [3]) m2 /\ unambiguous (scheme_of k) m1 /\ unambiguous (scheme_of k) m2 /\
  same_surface flip5 flip5 m1 m2 /\ same_corners flip5 m1 m2 /\ same_edges_split flip5 k (sel [0]) m1 (sel [3]) m2 /\
  uniform (sel [0]) = true /\ uniform (sel [3]) = true /\
  (exists g1 out1, update k 100 (sel [0]) m1 = Ok (g1, out1)) /\ exists g2 out2, update k 100 (sel [3]) m2 = Ok (g2, out2).
Proof.
  intros m1 m2 k. assert (V1 : valid m1) by ex_valid. assert (V2 : valid m2) by ex_valid. assert (D1 : dense m1) by ex_dense. assert (D2 : dense m2) by ex_dense.
  repeat (split; [assumption|]). split; [apply readyb_ok; vm_compute; reflexivity|]. split; [apply readyb_ok; vm_compute; reflexivity|].
  split; [split; [apply no_isolatedb_ok|apply no_wireb_ok]; vm_compute; reflexivity|].
  split; [split; [apply no_isolatedb_ok|apply no_wireb_ok]; vm_compute; reflexivity|].
  split; [exact (rmesh_surface _ _ _ _ strip_same)|].
  split; [intros a b c H; each_case H; vm_compute; tauto|]. split.
  { assert (S1 : forall t, selected m1 [0] t <-> t = (0, 1, 2)) by (apply selected_one; one_cell).
    assert (S2 : forall t, selected m2 [3] t <-> t = (5, 4, 3)) by (apply selected_one; one_cell).
    assert (B : forall a, oget a (pts m1) <> None -> a < 6) by (intros a Ha; exact (proj1 (D1 a) Ha)).
    intros a b Pa Pb. apply B in Pa. apply B in Pb. unfold k. cbn [to_split]. change (csel (sel [0])) with [0]. change (csel (sel [3])) with [3].
    unfold flip5. split; intros [t [Ht He]].
    - apply S1 in Ht. subst t. exists (5, 4, 3). split; [apply S2; reflexivity|].
      destruct He as [He|He]; each_case He; vm_compute; tauto.
    - apply S2 in Ht. subst t. exists (0, 1, 2). split; [apply S1; reflexivity|]. unfold edge_of in *. cbn [tdirs In] in *.
      repeat match goal with H : _ \/ _ |- _ => destruct H as [H|H] | H : False |- _ => destruct H end;
        apply pair_equal_spec in He; destruct He as [He1 He2]; first [replace a with 0 by lia|replace a with 1 by lia|replace a with 2 by lia];
        first [replace b with 0 by lia|replace b with 1 by lia|replace b with 2 by lia]; auto 10. }
  split; [reflexivity|]. split; [reflexivity|].
  split; [apply (run_real _ _ _ strip4)|apply (run_real _ _ _ strip4')]; [ex_nodup|apply rmesh_same|vm_compute; exact I|ex_nodup|apply rmesh_same|vm_compute; exact I].
Qed.

(** C119, adaptive runs of the sqrt(3) filter: corresponding cells are selected; the points they start with do not matter. *)
Theorem C119_sqrt3 : forall (d : nat) (D : Type) (m1 m2 : mesh (RO d) D) f1 f2 g1 g2 out1 out2 r r' n1 n2,
  valid m1 -> valid m2 -> dense m1 -> dense m2 -> ready3 f1 m1 -> ready3 f2 m2 -> same_surface r r' m1 m2 ->
  update (CellF CSqrt3) n1 f1 m1 = Ok (g1, out1) -> update (CellF CSqrt3) n2 f2 m2 = Ok (g2, out2) ->
  (forall a b c, is_face m1 a b c -> picked m1 (csel f1) a b c <-> picked m2 (csel f2) (r a) (r b) (r c)) ->
  exists q q', same_surface q q' out1 out2 /\ (forall x, oget x (pts m1) <> None -> q x = r x).
Proof. exact @same_run3. Qed.
Print Assumptions C119_sqrt3.

(** The octahedron in two numberings; cell 0 = (0, 1, 2) of one is cell 1 = (4, 3, 5) of the other. *)
Example C119_sqrt3_ex : let m1 := rmesh octa in let m2 := rmesh octa' in
  valid m1 /\ valid m2 /\ dense m1 /\ dense m2 /\ ready3 (sel [0]) m1 /\ ready3 (sel [1]) m2 /\ same_surface flip5 flip5 m1 m2 /\
  (forall a b c, is_face m1 a b c -> picked m1 [0] a b c <-> picked m2 [1] (flip5 a) (flip5 b) (flip5 c)) /\
  (exists g1 out1, update (CellF CSqrt3) 100 (sel [0]) m1 = Ok (g1, out1)) /\ exists g2 out2, update (CellF CSqrt3) 100 (sel [1]) m2 = Ok (g2, out2).
Proof.
  intros m1 m2. destruct C119_ex as [V1 [V2 [D1 [D2 [_ [HS _]]]]]]. repeat (split; [assumption|]).
  assert (S1 : forall t, selected m1 [0] t <-> t = (0, 1, 2)) by (apply selected_one; one_cell).
  assert (S2 : forall t, selected m2 [1] t <-> t = (4, 3, 5)) by (apply selected_one; one_cell).
  split; [apply ready3b_ok; vm_compute; reflexivity|]. split; [apply ready3b_ok; vm_compute; reflexivity|]. split; [exact HS|]. split.
  { intros a b c H. unfold picked. rewrite !S1, !S2. destruct H as [H|[H|H]]; each_case H; vm_compute; intuition congruence. }
  split; [apply (run_real _ _ _ octa)|apply (run_real _ _ _ octa')]; [ex_nodup|apply rmesh_same|vm_compute; exact I|ex_nodup|apply rmesh_same|vm_compute; exact I].
Qed.

(** C119 without [same_corners]: two of the three edges of one triangle are split; which of the two ways the rest is cut in depends
    on the point the triangle starts with. *)
Theorem C119_corner_refuted : exists (m1 m2 : mesh Q3 N) f g1 g2 out1 out2,
  valid m1 /\ valid m2 /\ dense m1 /\ dense m2 /\ ready (EdgeF ELinear) f m1 /\ ready (EdgeF ELinear) f m2 /\
  same_surface (fun x => x) (fun x => x) m1 m2 /\ same_edges_split (fun x => x) (EdgeF ELinear) f m1 f m2 /\
  update (EdgeF ELinear) 100 f m1 = Ok (g1, out1) /\ update (EdgeF ELinear) 100 f m2 = Ok (g2, out2) /\
  ~ exists q q', same_surface q q' out1 out2.
Proof.
  run_of (update (EdgeF ELinear) 100 (esl [Some (0, 1); Some (2, 0)]) tri1). destruct H as [g1 [o1 [R1 [P1 T1]]]].
  run_of (update (EdgeF ELinear) 100 (esl [Some (0, 1); Some (2, 0)]) tri1'). destruct H as [g2 [o2 [R2 [P2 T2]]]].
  exists tri1, tri1', (esl [Some (0, 1); Some (2, 0)]), g1, g2, o1, o2. split; [ex_valid|]. split; [ex_valid|]. split; [ex_dense|]. split; [ex_dense|].
  split; [apply readyb_ok; vm_compute; reflexivity|]. split; [apply readyb_ok; vm_compute; reflexivity|]. split; [exact tri1_same|].
  split; [intros a b _ _; cbn [to_split]; split; (intros [[X _]|X]; [discriminate X|right; exact X])|]. split; [exact R1|]. split; [exact R2|]. clear R1 R2. intros [q [q' H]].
  assert (Q : forall x p, oget x (pts o1) = Some p -> oget (q x) (pts o2) = Some p) by (intros x p Hp; apply (ss_pts _ _ _ _ H x p Hp)).
  rewrite P1, P2 in Q. assert (P : forall x, In x [0; 1; 2; 3; 4] -> q x = x).
  { intros x Hx. cbn in Hx. destruct Hx as [<-|[<-|[<-|[<-|[<-|[]]]]]];
      match goal with |- q ?n = _ => let K := fresh in assert (K := Q n _ eq_refl); apply oget_list in K; cbn [In] in K end;
      repeat match goal with K : _ \/ _ |- _ => destruct K as [K|K] end; congruence || contradiction. }
  assert (F : is_face o1 1 2 3) by (unfold is_face; rewrite T1; cbn; tauto). apply (ss_faces _ _ _ _ H) in F. rewrite !P in F by (cbn; tauto).
  unfold is_face in F. rewrite T2 in F. cbn [In] in F. intuition discriminate.
Qed.
Print Assumptions C119_corner_refuted.

(** C119 for Butterfly on a mesh with a border: a square cut by a diagonal, subdivided once without a selection.  With its two cells
    in one order the new point of the diagonal is (7/4, 7/4, 0), in the other order it is (9/4, 9/4, 0). *)
Theorem C119_border_refuted : exists (m1 m2 : mesh Q3 N) g1 g2 out1 out2 x p,
  valid m1 /\ valid m2 /\ dense m1 /\ dense m2 /\ no_isolated m1 /\ no_wire m1 /\ no_isolated m2 /\ no_wire m2 /\
  same_surface (fun x => x) (fun x => x) m1 m2 /\ same_corners (fun x => x) m1 m2 /\
  iterative_update CButterfly 1 100 [] m1 = Ok (g1, out1) /\ iterative_update CButterfly 1 100 [] m2 = Ok (g2, out2) /\
  oget x (pts out1) = Some p /\ forall y p', oget y (pts out2) = Some p' -> ~ Forall2 Qeq p p'.
Proof.
  run_of (iterative_update CButterfly 1 100 [] square1). destruct H as [g1 [o1 [R1 [P1 _]]]].
  run_of (iterative_update CButterfly 1 100 [] square2). destruct H as [g2 [o2 [R2 [P2 _]]]].
  exists square1, square2, g1, g2, o1, o2, 6, [7 # 4; 7 # 4; 0]%Q.
  split; [ex_valid|]. split; [ex_valid|]. split; [ex_dense|]. split; [ex_dense|].
  split; [apply no_isolatedb_ok; vm_compute; reflexivity|]. split; [apply no_wireb_ok; vm_compute; reflexivity|].
  split; [apply no_isolatedb_ok; vm_compute; reflexivity|]. split; [apply no_wireb_ok; vm_compute; reflexivity|].
  split; [exact square_same|]. split; [intros a b c H; each_case H; vm_compute; tauto|].
  split; [exact R1|]. split; [exact R2|]. split; [rewrite P1; reflexivity|].
  intros y p' H HF. rewrite P2 in H. apply oget_list in H. each_case H; inversion HF as [|? ? ? ? E _]; vm_compute in E; discriminate.
Qed.
Print Assumptions C119_border_refuted.
