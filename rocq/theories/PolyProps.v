(** * PolyProps: polynomials reproduced by the Butterfly and Loop rules (C112). *)
From Coq Require Import Reals Lra Psatz Permutation QArith Qreals.
From Verif Require Import Base Mesh Filters Drivers Spec SpecSub SpecGeo SpecPoly Lists AddFace SplitTri Split Points Valid Run Update Struct Count Face PtsAny Geo GeoProps Samples Check CheckGeo CheckDrive.
Open Scope R_scope.

Lemma is_face_pts {d D} (m : mesh (RO d) D) a b c : valid m -> is_face m a b c ->
  oget a (pts m) <> None /\ oget b (pts m) <> None /\ oget c (pts m) <> None.
Proof.
  intros Hv H. destruct H as [H|[H|H]]; repeat split; apply (v_verts m (v_sound _ Hv) _ _ H); cbn; auto.
Qed.
Lemma face_rot {d D} (m : mesh (RO d) D) a b c : is_face m a b c -> is_face m b c a.
Proof. unfold is_face. tauto. Qed.

Lemma C112_butterfly_pf : forall (d : nat) (D : Type) k f (inp : mesh (RO d) D) fuel f' out,
  k = CellF CButterfly \/ k = EdgeF EButterfly ->
  valid inp -> dense inp -> ready k f inp -> update k fuel f inp = Ok (f', out) ->
  exists mid Ls, subdivision inp out (to_split k f inp) mid Ls /\
    forall s t q i, lattice inp s -> lattice inp t -> graph_of inp i s t (bipoly 3 q) ->
    forall a b m c e w1 w2 w3 w4, mid a b = Some m ->
      is_face inp a b c -> is_face inp b a e ->
      is_face inp c b w1 -> is_face inp a c w2 -> is_face inp b e w3 -> is_face inp e a w4 ->
      crd out i m = bipoly 3 q ((s a + s b) / 2) ((t a + t b) / 2).
Proof.
  intros d D k f inp fuel f' out Hk Hv Hd Hr E.
  destruct (C19_butterfly_stencil_pf d D k f inp fuel f' out Hk Hv Hd Hr E) as [mid [Ls [Hs H]]].
  exists mid, Ls. split; [exact Hs|]. intros s t q i Ls1 Lt G a b m c e w1 w2 w3 w4 Em F1 F2 F3 F4 F5 F6.
  rewrite (H a b m c e w1 w2 w3 w4 i Em F1 F2 F3 F4 F5 F6).
  destruct (is_face_pts inp _ _ _ Hv F1) as [Pa [Pb Pc]]. destruct (is_face_pts inp _ _ _ Hv F2) as [_ [_ Pe]].
  destruct (is_face_pts inp _ _ _ Hv F3) as [_ [_ P1]]. destruct (is_face_pts inp _ _ _ Hv F4) as [_ [_ P2]].
  destruct (is_face_pts inp _ _ _ Hv F5) as [_ [_ P3]]. destruct (is_face_pts inp _ _ _ Hv F6) as [_ [_ P4]].
  rewrite !G by assumption.
  assert (Z : forall z, lattice inp z -> z e = z a + z b - z c /\ z w1 = z b + z c - z a /\ z w2 = z a + z c - z b /\
                          z w3 = z b + (z a + z b - z c) - z a /\ z w4 = z a + (z a + z b - z c) - z b).
  { intros z Hz. pose proof (Hz _ _ _ _ F1 F2) as X0. pose proof (Hz _ _ _ _ (face_rot _ _ _ _ F1) F3) as X1.
    pose proof (Hz _ _ _ _ (face_rot _ _ _ _ (face_rot _ _ _ _ F1)) F4) as X2.
    pose proof (Hz _ _ _ _ F5 (face_rot _ _ _ _ (face_rot _ _ _ _ F2))) as X3. pose proof (Hz _ _ _ _ F6 (face_rot _ _ _ _ F2)) as X4. lra. }
  destruct (Z s Ls1) as [-> [-> [-> [-> ->]]]]. destruct (Z t Lt) as [-> [-> [-> [-> ->]]]].
  unfold bipoly, rsum; cbn [fold_right seq Nat.sub]. field.
Qed.

(** The three sides of adjacent triangles have the same directions. *)
Lemma bulge_adj {d D} (m : mesh (RO d) D) q s t a b c e : lattice m s -> lattice m t -> is_face m a b c -> is_face m b a e ->
  bulge q s t b a e = bulge q s t a b c.
Proof.
  intros Hs Ht F1 F2. pose proof (Hs _ _ _ _ F1 F2) as X. pose proof (Ht _ _ _ _ F1 F2) as Y.
  unfold bulge. cbv zeta. replace (s e) with (s a + s b - s c) by lra. replace (t e) with (t a + t b - t c) by lra. field.
Qed.

Lemma weight6 : loop_weight 6 = 1 / 16.
Proof.
  unfold loop_weight. change (IZR (Z.of_N 6)) with 6. replace (2 * PI / 6) with (PI / 3) by field. rewrite cos_PI3. field.
Qed.

(** The ring of an interior point lists the faces around it. *)
Lemma ring_faces {d D} (m : mesh (RO d) D) v w : valid m -> no_wire m -> interior_vertex m v -> In w (ring m v) ->
  exists c, is_face m v w c /\ cyc (ring m v) w c.
Proof.
  intros Hv Hw [_ Hi] Hin. assert (Hj : joined m v w) by exact Hin.
  assert (Hdv : In (v, w) (dirs (tris m))).
  { destruct (Hw _ _ Hj) as [X|X]; [exact X|]. destruct (left_set m (v, w)) eqn:El; [apply (valid_left m _ (v_sound _ Hv)); exact El|].
    apply (valid_left_false m _ (v_sound _ Hv)) in El. destruct (Hi w). split; [exact Hj|]. right. split; assumption. }
  destruct (dir_is_face m v w Hdv) as [c Hc]. exists c. split; [exact Hc|].
  apply (v_corners m (v_sound _ Hv)). apply is_face_corner. apply face_rot, face_rot. exact Hc.
Qed.

Lemma ring6 {d D} (m : mesh (RO d) D) v z : valid m -> no_wire m -> interior_vertex m v -> length (ring m v) = 6%nat -> lattice m z ->
  exists w0 w1 w2 w3 w4 w5, ring m v = [w0; w1; w2; w3; w4; w5] /\ is_face m v w0 w1 /\
    z w2 = z w1 - z w0 + z v /\ z w3 = 2 * z v - z w0 /\ z w4 = 2 * z v - z w1 /\ z w5 = z w0 - z w1 + z v.
Proof.
  intros Hv Hw Hi Hl Hz. pose proof (v_ring_nodup m (v_sound _ Hv) v) as Nd. pose proof (ring_faces m v) as RF.
  specialize (fun w => RF w Hv Hw Hi). destruct (ring m v) as [|w0 [|w1 [|w2 [|w3 [|w4 [|w5 [|w6 r]]]]]]]; try discriminate.
  exists w0, w1, w2, w3, w4, w5. split; [reflexivity|].
  assert (S : forall x y, cyc [w0; w1; w2; w3; w4; w5] x y -> In x [w0; w1; w2; w3; w4; w5] -> is_face m v x y).
  { intros x y Hc Hx. destruct (RF x Hx) as [c [Hc1 Hc2]]. rewrite (cyc_fun _ _ _ _ Nd Hc Hc2). exact Hc1. }
  assert (F0 : is_face m v w0 w1) by (apply S; [left; exists [], [w2; w3; w4; w5]; reflexivity|cbn; auto 10]).
  assert (F1 : is_face m v w1 w2) by (apply S; [left; exists [w0], [w3; w4; w5]; reflexivity|cbn; auto 10]).
  assert (F2 : is_face m v w2 w3) by (apply S; [left; exists [w0; w1], [w4; w5]; reflexivity|cbn; auto 10]).
  assert (F3 : is_face m v w3 w4) by (apply S; [left; exists [w0; w1; w2], [w5]; reflexivity|cbn; auto 10]).
  assert (F4 : is_face m v w4 w5) by (apply S; [left; exists [w0; w1; w2; w3], []; reflexivity|cbn; auto 10]).
  split; [exact F0|].
  assert (Q : forall x y u, is_face m v x y -> is_face m v y u -> z u = z y - z x + z v).
  { intros x y u H1 H2. pose proof (Hz _ _ _ _ H2 (face_rot _ _ _ _ (face_rot _ _ _ _ H1))). lra. }
  pose proof (Q _ _ _ F0 F1). pose proof (Q _ _ _ F1 F2). pose proof (Q _ _ _ F2 F3). pose proof (Q _ _ _ F3 F4). lra.
Qed.

Lemma C112_loop_pf : forall (d : nat) (D : Type) k f (inp : mesh (RO d) D) fuel f' out,
  k = CellF CLoop \/ k = EdgeF ELoop ->
  valid inp -> dense inp -> ready k f inp -> update k fuel f inp = Ok (f', out) ->
  exists mid Ls, subdivision inp out (to_split k f inp) mid Ls /\
    forall s t q i, lattice inp s -> lattice inp t -> graph_of inp i s t (bipoly 2 q) ->
    (forall a b m c e, mid a b = Some m -> is_face inp a b c -> is_face inp b a e ->
       crd out i m = bipoly 2 q ((s a + s b) / 2) ((t a + t b) / 2) + bulge q s t a b c) /\
    (k = CellF CLoop -> csel f = [] -> uniform f = true -> no_isolated inp -> no_wire inp ->
     forall v w c, interior_vertex inp v -> length (ring inp v) = 6%nat -> is_face inp v w c ->
       crd out i v = bipoly 2 q (s v) (t v) + bulge q s t v w c) /\
    (forall a b c e, is_face inp a b c -> is_face inp b a e -> bulge q s t b a e = bulge q s t a b c /\ bulge q s t b c a = bulge q s t a b c).
Proof.
  intros d D k f inp fuel f' out Hk Hv Hd Hr E.
  destruct (C17_edge_rule_pf d D k f inp fuel f' out Hk Hv Hd Hr E) as [mid [Ls [Hs H]]].
  exists mid, Ls. split; [exact Hs|]. intros s t q i Ls1 Lt G. split; [|split].
  - intros a b m c e Em F1 F2. destruct (H a b m Em) as [_ [_ [R _]]]. rewrite (R c e i F1 F2).
    destruct (is_face_pts inp _ _ _ Hv F1) as [Pa [Pb Pc]]. destruct (is_face_pts inp _ _ _ Hv F2) as [_ [_ Pe]].
    rewrite !G by assumption. pose proof (Ls1 _ _ _ _ F1 F2) as X. pose proof (Lt _ _ _ _ F1 F2) as Y.
    unfold bulge, bipoly, rsum; cbn [fold_right seq Nat.sub]; cbv zeta.
    replace (s e) with (s a + s b - s c) by lra. replace (t e) with (t a + t b - t c) by lra. field.
  - intros -> Hc Hu Hni Hnw v w c IV Hl F. destruct (is_face_pts inp _ _ _ Hv F) as [Pv [Pw Pc]].
    destruct (C18_vertex_rule_pf d D f inp fuel f' out v i Hv Hd Hni Hc Hu E Pv) as [R _]. rewrite (R IV). clear R. rewrite Hl.
    change (N.of_nat 6) with 6%N. rewrite weight6. change (IZR (Z.of_nat 6)) with 6.
    destruct (ring6 inp v s Hv Hnw IV Hl Ls1) as [w0 [w1 [w2 [w3 [w4 [w5 [Er [F0 [S2 [S3 [S4 S5]]]]]]]]]]].
    destruct (ring6 inp v t Hv Hnw IV Hl Lt) as [x0 [x1 [x2 [x3 [x4 [x5 [Er' [_ [T2 [T3 [T4 T5]]]]]]]]]]].
    assert (Pr : forall u, In u (ring inp v) -> oget u (pts inp) <> None) by (intros u Hin; apply (v_ring_pts inp (v_sound _ Hv) v); exact Hin).
    rewrite Er in Er'. injection Er' as <- <- <- <- <- <-.
    assert (Hin : In w (ring inp v)) by (apply (v_face_edges inp (v_sound _ Hv)), (is_face_dir inp v w c F)).
    assert (Bu : bulge q s t v w c = bulge q s t v w0 w1).
    { assert (Cw : cyc (ring inp v) w c) by (apply (v_corners inp (v_sound _ Hv)), is_face_corner, face_rot, face_rot; exact F).
      pose proof (v_ring_nodup inp (v_sound _ Hv) v) as Nd. rewrite Er in Hin, Cw, Nd.
      assert (C : forall x y, cyc [w0; w1; w2; w3; w4; w5] x y -> w = x -> c = y) by (intros x y Hc1 ->; exact (cyc_fun _ _ _ _ Nd Cw Hc1)).
      cbn [In] in Hin. destruct Hin as [X|[X|[X|[X|[X|[X|[]]]]]]].
      - rewrite (C w0 w1 ltac:(left; exists [], [w2; w3; w4; w5]; reflexivity) (eq_sym X)), <- X. reflexivity.
      - rewrite (C w1 w2 ltac:(left; exists [w0], [w3; w4; w5]; reflexivity) (eq_sym X)), <- X. unfold bulge; cbv zeta. rewrite S2, T2. field.
      - rewrite (C w2 w3 ltac:(left; exists [w0; w1], [w4; w5]; reflexivity) (eq_sym X)), <- X. unfold bulge; cbv zeta. rewrite S2, T2, S3, T3. field.
      - rewrite (C w3 w4 ltac:(left; exists [w0; w1; w2], [w5]; reflexivity) (eq_sym X)), <- X. unfold bulge; cbv zeta. rewrite S4, T4, S3, T3. field.
      - rewrite (C w4 w5 ltac:(left; exists [w0; w1; w2; w3], []; reflexivity) (eq_sym X)), <- X. unfold bulge; cbv zeta. rewrite S4, T4, S5, T5. field.
      - rewrite (C w5 w0 ltac:(right; split; [exists [w0; w1; w2; w3; w4]; reflexivity|exists [w1; w2; w3; w4; w5]; reflexivity]) (eq_sym X)), <- X.
        unfold bulge; cbv zeta. rewrite S5, T5. field. }
    rewrite Bu, Er in *. unfold rsum at 1; cbn [fold_right]. rewrite !G by (auto || (apply Pr; cbn; auto 10)).
    unfold bulge, bipoly, rsum; cbn [fold_right seq Nat.sub]; cbv zeta. rewrite S2, S3, S4, S5, T2, T3, T4, T5. field.
  - intros a b c e F1 F2. split; [exact (bulge_adj inp q s t a b c e Ls1 Lt F1 F2)|]. unfold bulge; cbv zeta. field.
Qed.

(** ** Checker for the examples *)
Definition latticeb (C : list (N * N * N)) (z : N -> Z) : bool :=
  forallb (fun t => forallb (fun u => let '(a, b, c) := t in let '(x, y, e) := u in
    if (N.eqb x b && N.eqb y a)%bool then Z.eqb (z c + z e) (z a + z b) else true) C) C.
Lemma latticeb_ok {d D} (m : mesh (RO d) D) z : latticeb (corners (tris m)) z = true -> lattice m (fun v => IZR (z v)).
Proof.
  intros H a b c e F1 F2. apply is_face_corner in F1, F2. unfold latticeb in H. rewrite forallb_forall in H. specialize (H _ F1). cbn beta iota in H.
  rewrite forallb_forall in H. specialize (H _ F2). cbn beta iota in H. rewrite !N.eqb_refl in H. apply Z.eqb_eq in H. rewrite <- !plus_IZR, H. reflexivity.
Qed.

(** Nine points of a grid, the coordinates x, x^2 + x y - y^2 and x^3 - y: point 0 has six neighbours and the edge
    0-1 all the triangles of the Butterfly rule. *)
Definition grid9 : mesh Q3 N :=
  build (number [zpt [0; 0; 0]%Z; zpt [1; 1; 1]%Z; zpt [0; -1; -1]%Z; zpt [1; -1; 2]%Z; zpt [1; 1; 0]%Z; zpt [-1; -1; -2]%Z; zpt [2; 1; 9]%Z; zpt [0; -1; 1]%Z; zpt [-1; 1; -1]%Z])
        [[0; 1; 2]; [1; 0; 3]; [2; 1; 4]; [0; 2; 5]; [1; 3; 6]; [3; 0; 7]; [0; 5; 8]; [0; 8; 7]]%N.
Definition gs (v : N) : Z := nth (N.to_nat v) [0; 1; 0; 1; 1; -1; 2; 0; -1]%Z 0%Z.
Definition gt (v : N) : Z := nth (N.to_nat v) [0; 0; 1; -1; 1; 1; -1; -1; 0]%Z 0%Z.
Definition cub (j k : nat) : R := match j, k with 3%nat, 0%nat => 1 | 0%nat, 1%nat => -1 | _, _ => 0 end.
Definition qua (j k : nat) : R := match j, k with 2%nat, 0%nat => 1 | 1%nat, 1%nat => 1 | 0%nat, 2%nat => -1 | _, _ => 0 end.

Lemma grid9_pts (P : N -> Prop) : P 0%N -> P 1%N -> P 2%N -> P 3%N -> P 4%N -> P 5%N -> P 6%N -> P 7%N -> P 8%N ->
  forall v, oget v (pts (rmesh grid9)) <> None -> P v.
Proof.
  intros. destruct (N.lt_ge_cases v 9) as [L|L].
  - assert (X : (v = 0 \/ v = 1 \/ v = 2 \/ v = 3 \/ v = 4 \/ v = 5 \/ v = 6 \/ v = 7 \/ v = 8)%N) by lia.
    destruct X as [->|[->|[->|[->|[->|[->|[->|[->| ->]]]]]]]]; assumption.
  - exfalso. destruct (oget v (pts (rmesh grid9))) as [p|] eqn:Ep; [|congruence]. apply oget_In in Ep. rename Ep into Hp. assert (Y : forallb (fun kp => N.ltb (fst kp) 9) (pts (rmesh grid9)) = true) by (vm_compute; reflexivity).
    rewrite forallb_forall in Y. specialize (Y _ Hp). apply N.ltb_lt in Y. cbn in Y. lia.
Qed.

Ltac zval x := let y := eval vm_compute in x in change x with y.
Ltac grid_pt := rewrite crd_q; match goal with |- Q2R ?x = _ => let y := eval vm_compute in x in change x with y end;
  match goal with |- Q2R (?n # 1) = _ => replace (Q2R (n # 1)) with (IZR n) by (unfold Q2R; cbn [Qnum Qden]; lra) end;
  repeat match goal with |- context [gs ?x] => zval (gs x) end; repeat match goal with |- context [gt ?x] => zval (gt x) end;
  unfold bipoly, rsum, cub, qua; cbn [fold_right seq Nat.sub pow]; lra.
Lemma grid9_cubic : graph_of (rmesh grid9) 2 (fun v => IZR (gs v)) (fun v => IZR (gt v)) (bipoly 3 cub).
Proof. unfold graph_of. apply grid9_pts; grid_pt. Qed.
Lemma grid9_quadratic : graph_of (rmesh grid9) 1 (fun v => IZR (gs v)) (fun v => IZR (gt v)) (bipoly 2 qua).
Proof. unfold graph_of. apply grid9_pts; grid_pt. Qed.
