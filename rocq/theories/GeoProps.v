(** * GeoProps: the masks of the schemes, affine invariance, convexity, borders. *)
From Coq Require Import Reals Lra.
From Verif Require Import Base Mesh Filters Spec SpecSub SpecGeo Lists AddFace SplitTri Split Points Valid Run Update Struct Count Face FaceProps Conn Geo.

(** ** Operators next to a face *)
Section OPS.
Context {O : Ops} {D : Type}.
Notation mesh := (mesh O D).
Implicit Types m : mesh.

Lemma is_face_corner m a b c : is_face m a b c -> In (a, b, c) (corners (tris m)).
Proof.
  unfold is_face, corners. intros H. apply in_flat_map.
  destruct H as [H|[H|H]]; eexists; (split; [exact H|cbn; auto]).
Qed.
Lemma is_face_rot m a b c : is_face m a b c -> is_face m b c a.
Proof. unfold is_face. tauto. Qed.
Lemma is_face_dir m a b c : is_face m a b c -> In (a, b) (dirs (tris m)).
Proof. intros H. apply is_face_corner in H. eapply corner_dir_in; eauto. Qed.
Lemma dir_is_face m a b : In (a, b) (dirs (tris m)) -> exists c, is_face m a b c.
Proof.
  intros H. apply dirs_tri in H. destruct H as [[[x y] z] [Ht H]]. cbn in H.
  destruct H as [H|[H|[H|[]]]]; inv H; eexists; unfold is_face; eauto.
Qed.
Lemma face_lnext m a b c : valid m -> is_face m a b c -> lnext m (a, b) = Some (b, c).
Proof.
  intros Hv H. apply is_face_corner in H. unfold lnext, oprev, sym. cbn [fst snd].
  rewrite (cyc_pred_in _ a c); [reflexivity|apply (v_ring_nodup _ Hv)|apply (v_corners _ Hv); exact H].
Qed.
Lemma face_rprev m a b d : valid m -> is_face m b a d -> rprev m (a, b) = Some (b, d).
Proof.
  intros Hv H. apply is_face_rot, is_face_rot, is_face_corner in H. unfold rprev, onext, sym. cbn [fst snd].
  rewrite (cyc_succ_in _ a d); [reflexivity|apply (v_ring_nodup _ Hv)|apply (v_corners _ Hv); exact H].
Qed.
Lemma face_lprev m a b c : valid m -> is_face m a b c -> lprev m (a, b) = Some (c, a).
Proof.
  intros Hv H. apply is_face_rot, is_face_rot, is_face_corner in H. unfold lprev, onext, sym. cbn [fst snd].
  rewrite (cyc_succ_in _ b c); [reflexivity|apply (v_ring_nodup _ Hv)|apply (v_corners _ Hv); exact H].
Qed.
Lemma face_rnext m a b d : valid m -> is_face m b a d -> rnext m (a, b) = Some (d, a).
Proof.
  intros Hv H. apply is_face_corner in H. unfold rnext, oprev, sym. cbn [fst snd].
  rewrite (cyc_pred_in _ b d); [reflexivity|apply (v_ring_nodup _ Hv)|apply (v_corners _ Hv); exact H].
Qed.
Lemma faces_internal m a b c d : valid m -> is_face m a b c -> is_face m b a d -> is_internal m (a, b) = true.
Proof.
  intros Hv H1 H2. unfold is_internal, right_set, sym. cbn [fst snd].
  apply andb_true_intro. split; apply (valid_left _ _ Hv); eapply is_face_dir; eauto.
Qed.
Lemma border_at m a b : valid m -> joined m a b -> (is_at_border m (a, b) = true <-> border_edge m a b).
Proof.
  intros Hv Hj. unfold is_at_border, right_set, sym, border_edge. cbn [fst snd].
  pose proof (valid_left m (a, b) Hv) as H1. pose proof (valid_left m (b, a) Hv) as H2.
  destruct (left_set m (a, b)), (left_set m (b, a)); cbn; intuition congruence.
Qed.
Lemma border_not_internal m a b : valid m -> border_edge m a b -> is_internal m (a, b) = false.
Proof.
  intros Hv [_ H]. unfold is_internal, right_set, sym. cbn [fst snd].
  pose proof (valid_left m (a, b) Hv) as H1. pose proof (valid_left m (b, a) Hv) as H2.
  destruct (left_set m (a, b)), (left_set m (b, a)); try reflexivity. exfalso. intuition.
Qed.
Lemma border_edge_sym m a b : valid m -> border_edge m a b -> border_edge m b a.
Proof. intros Hv [H1 H2]. split; [apply (v_ring_sym _ Hv); exact H1|tauto]. Qed.

Lemma filter_border m v : valid m ->
  NoDup (filter (fun w => is_at_border m (v, w)) (ring m v)) /\
  (forall w, In w (filter (fun w => is_at_border m (v, w)) (ring m v)) <-> border_edge m v w).
Proof.
  intros Hv. split; [apply NoDup_filter; apply (v_ring_nodup _ Hv)|]. intros w. rewrite filter_In. split.
  - intros [H1 H2]. apply border_at; auto.
  - intros H. split; [apply H|]. apply border_at; auto. apply H.
Qed.
End OPS.

(** C16, any arithmetic. *)
Lemma map2_comm {A C} (f : A -> A -> C) l l' : (forall x y, f x y = f y x) -> map2 f l l' = map2 f l' l.
Proof. intros H. revert l'. induction l as [|x l IH]; intros [|y l']; cbn; [reflexivity..|]. rewrite H, IH. reflexivity. Qed.

Lemma C16_midpoint_any_pf : forall (O : Ops) (D : Type) k f (inp : mesh O D) fuel f' out,
  (forall x y, kadd O x y = kadd O y x) -> k = CellF CLinear \/ k = EdgeF ELinear ->
  valid inp -> dense inp -> ready k f inp -> update k fuel f inp = Ok (f', out) ->
  exists mid Ls, subdivision inp out (to_split k f inp) mid Ls /\
    forall a b m, mid a b = Some m -> exists p q,
      oget a (pts inp) = Some p /\ oget b (pts inp) = Some q /\
      oget m (pts out) = Some (map2 (fun x y => kdiv O (kadd O x y) (kZ O 2)) p q).
Proof.
  intros O D k f inp fuel f' out Hcomm Hk Hv Hd Hr E.
  destruct (face_run k f inp fuel f' out Hv Hd Hr E) as [mid [Ls FR]]. exists mid, Ls.
  split; [apply (fr_sub _ _ _ _ _ _ _ FR)|]. intros a b m Hm.
  destruct (fr_new _ _ _ _ _ _ _ FR a b m Hm) as [[x y] [p [He [Hin [Hp Ho]]]]].
  pose proof (ins_dirs inp k f _ Hv Hin Hr) as Hj. cbn [fst snd] in Hj.
  destruct (joined_pts _ _ _ Hv Hj) as [px [py [Hx [Hy _]]]].
  assert (Hlin : linear_point inp (x, y) = Ok p) by (destruct Hk as [-> | ->]; exact Hp).
  unfold linear_point, get_pt in Hlin. cbn [fst snd] in Hlin. rewrite Hx, Hy in Hlin. cbn [rbind] in Hlin.
  apply Ok_inj in Hlin. subst p. unfold midpoint in Ho.
  destruct He as [He|He]; cbn [fst snd] in He; inv He; [eauto|]. exists py, px. split; [exact Hy|]. split; [exact Hx|].
  rewrite Ho. f_equal. apply map2_comm. intros u v. rewrite Hcomm. reflexivity.
Qed.

(** ** Real coordinates *)
Section GEOPROPS.
Context {d : nat} {D : Type}.
Notation mesh := (mesh (RO d) D).
Implicit Types inp out : mesh.

Lemma new_crd k f inp fuel f' out mid Ls a b m i : valid inp -> ready k f inp ->
  face_result k f inp f' out mid Ls -> update k fuel f inp = Ok (f', out) -> mid a b = Some m ->
  exists x y, undirected_eq (x, y) (a, b) /\ joined inp x y /\ In (x, y) (inserted k f inp) /\
    crd out i m = weighted (new_mask k inp (x, y)) (crd inp i).
Proof.
  intros Hv Hr FR E Hm. destruct (fr_new _ _ _ _ _ _ _ FR a b m Hm) as [[x y] [p [He [Hin [Hp Ho]]]]].
  pose proof (ins_dirs inp k f _ Hv Hin Hr) as Hj. cbn [fst snd] in Hj.
  exists x, y. split; [exact He|]. split; [exact Hj|]. split; [exact Hin|].
  rewrite crd_lin, (ptof_get _ _ _ Ho), (new_mask_ok (delta i) k inp (x, y) p Hv (proj1 Hr) Hj Hp).
  apply weighted_ext. intros. rewrite crd_lin. reflexivity.
Qed.
End GEOPROPS.

Lemma C16_midpoint_pf : forall (d : nat) (D : Type) k f (inp : mesh (RO d) D) fuel f' out,
  k = CellF CLinear \/ k = EdgeF ELinear ->
  valid inp -> dense inp -> ready k f inp -> update k fuel f inp = Ok (f', out) ->
  exists mid Ls, subdivision inp out (to_split k f inp) mid Ls /\
    forall a b m i, mid a b = Some m -> crd out i m = ((crd inp i a + crd inp i b) / 2)%R.
Proof.
  intros d D k f inp fuel f' out Hk Hv Hd Hr E.
  destruct (face_run k f inp fuel f' out Hv Hd Hr E) as [mid [Ls FR]]. exists mid, Ls.
  split; [apply (fr_sub _ _ _ _ _ _ _ FR)|]. intros a b m i Hm.
  destruct (new_crd k f inp fuel f' out mid Ls a b m i Hv Hr FR E Hm) as [x [y [He [_ [_ ->]]]]].
  assert (new_mask k inp (x, y) = edge_mask (1 / 2) (x, y)) as -> by (destruct Hk as [-> | ->]; reflexivity).
  unfold weighted, edge_mask. cbn.
  destruct He as [He|He]; cbn [fst snd] in He; inv He; lra.
Qed.

Lemma C17_edge_rule_pf : forall (d : nat) (D : Type) k f (inp : mesh (RO d) D) fuel f' out,
  k = CellF CLoop \/ k = EdgeF ELoop ->
  valid inp -> dense inp -> ready k f inp -> update k fuel f inp = Ok (f', out) ->
  exists mid Ls, subdivision inp out (to_split k f inp) mid Ls /\
    forall a b m, mid a b = Some m ->
      (interior_edge inp a b \/ border_edge inp a b) /\
      (interior_edge inp a b -> exists c e, is_face inp a b c /\ is_face inp b a e) /\
      (forall c e i, is_face inp a b c -> is_face inp b a e ->
         crd out i m = (3 / 8 * crd inp i a + 3 / 8 * crd inp i b + 1 / 8 * crd inp i c + 1 / 8 * crd inp i e)%R) /\
      (border_edge inp a b -> forall i, crd out i m = ((crd inp i a + crd inp i b) / 2)%R).
Proof.
  intros d D k f inp fuel f' out Hk Hv Hd Hr E.
  destruct (face_run k f inp fuel f' out Hv Hd Hr E) as [mid [Ls FR]]. exists mid, Ls.
  split; [apply (fr_sub _ _ _ _ _ _ _ FR)|]. intros a b m Hm.
  assert (HM : forall e, new_mask k inp e = loop_mask inp e) by (destruct Hk as [-> | ->]; reflexivity).
  assert (Hface : In (a, b) (dirs (tris inp)) \/ In (b, a) (dirs (tris inp))).
  { assert (Hts : to_split k f inp a b).
    { apply (sd_dom _ _ _ _ _ (fr_sub _ _ _ _ _ _ _ FR)). congruence. }
    destruct Hk as [->| ->]; [eapply cell_split_face; eauto|].
    destruct Hr as [_ [_ [H1 H2]]]. destruct Hts as [[Hnil Hj]|Hl].
    - apply (H1 Hnil eq_refl). exact Hj.
    - destruct (esel f) as [|o l] eqn:El; [destruct Hl as [[]|[]]|].
      destruct H2 as [_ [_ H2]]; [discriminate|]. specialize (H2 eq_refl).
      destruct Hl as [Hl|Hl]; apply H2 in Hl; tauto. }
  assert (Hj : joined inp a b).
  { destruct Hface as [H|H]; [|apply (v_ring_sym _ Hv)]; apply (v_face_edges _ Hv); exact H. }
  split; [|split; [|split]].
  - pose proof (valid_left inp (a, b) Hv) as H1. pose proof (valid_left inp (b, a) Hv) as H2.
    destruct (left_set inp (a, b)), (left_set inp (b, a)); unfold interior_edge, border_edge; intuition congruence.
  - intros [H1 H2]. apply dir_is_face in H1, H2. destruct H1 as [c Hc], H2 as [e He]. eauto.
  - intros c e i Hc He'.
    destruct (new_crd k f inp fuel f' out mid Ls a b m i Hv Hr FR E Hm) as [x [y [He [_ [_ ->]]]]].
    rewrite HM. unfold loop_mask.
    destruct He as [He|He]; cbn [fst snd] in He; inv He.
    + rewrite (faces_internal inp a b c e Hv Hc He'), (face_lnext inp a b c Hv Hc), (face_rprev inp a b e Hv He').
      unfold weighted. cbn. lra.
    + rewrite (faces_internal inp b a e c Hv He' Hc), (face_lnext inp b a e Hv He'), (face_rprev inp b a c Hv Hc).
      unfold weighted. cbn. lra.
  - intros Hb i.
    destruct (new_crd k f inp fuel f' out mid Ls a b m i Hv Hr FR E Hm) as [x [y [He [_ [_ ->]]]]].
    rewrite HM. unfold loop_mask.
    destruct He as [He|He]; cbn [fst snd] in He; inv He.
    + rewrite (border_not_internal inp a b Hv Hb). unfold weighted, edge_mask. cbn. lra.
    + rewrite (border_not_internal inp b a Hv (border_edge_sym _ _ _ Hv Hb)). unfold weighted, edge_mask. cbn. lra.
Qed.

Lemma C19_butterfly_stencil_pf : forall (d : nat) (D : Type) k f (inp : mesh (RO d) D) fuel f' out,
  k = CellF CButterfly \/ k = EdgeF EButterfly ->
  valid inp -> dense inp -> ready k f inp -> update k fuel f inp = Ok (f', out) ->
  exists mid Ls, subdivision inp out (to_split k f inp) mid Ls /\
    forall a b m c e w1 w2 w3 w4 i, mid a b = Some m ->
      is_face inp a b c -> is_face inp b a e ->
      is_face inp c b w1 -> is_face inp a c w2 -> is_face inp b e w3 -> is_face inp e a w4 ->
      crd out i m = (1 / 2 * (crd inp i a + crd inp i b) + 1 / 8 * (crd inp i c + crd inp i e)
                     - 1 / 16 * (crd inp i w1 + crd inp i w2 + crd inp i w3 + crd inp i w4))%R.
Proof.
  intros d D k f inp fuel f' out Hk Hv Hd Hr E.
  destruct (face_run k f inp fuel f' out Hv Hd Hr E) as [mid [Ls FR]]. exists mid, Ls.
  split; [apply (fr_sub _ _ _ _ _ _ _ FR)|]. intros a b m c e w1 w2 w3 w4 i Hm Hc Hf H1 H2 H3 H4.
  assert (HM : forall e, new_mask k inp e = butterfly_mask inp e) by (destruct Hk as [-> | ->]; reflexivity).
  destruct (new_crd k f inp fuel f' out mid Ls a b m i Hv Hr FR E Hm) as [x [y [He [_ [_ ->]]]]].
  rewrite HM. unfold butterfly_mask.
  destruct He as [He|He]; cbn [fst snd] in He; inv He.
  - rewrite (face_lnext inp a b c Hv Hc), (face_rprev inp a b e Hv Hf), (face_lprev inp a b c Hv Hc), (face_rnext inp a b e Hv Hf).
    cbn [obind].
    rewrite (face_rprev inp b c w1 Hv H1), (face_lnext inp b e w3 Hv H3), (face_rprev inp c a w2 Hv H2), (face_lnext inp e a w4 Hv H4).
    unfold weighted. cbn. lra.
  - rewrite (face_lnext inp b a e Hv Hf), (face_rprev inp b a c Hv Hc), (face_lprev inp b a e Hv Hf), (face_rnext inp b a c Hv Hc).
    cbn [obind].
    rewrite (face_rprev inp a e w4 Hv H4), (face_lnext inp a c w2 Hv H2), (face_rprev inp e b w3 Hv H3), (face_lnext inp c b w1 Hv H1).
    unfold weighted. cbn. lra.
Qed.

(** ** The vertex rule *)
Section VERTEX.
Context {d : nat} {D : Type}.
Notation mesh := (mesh (RO d) D).
Implicit Types inp out : mesh.

Lemma smoothed_crd f inp fuel f' out v i : valid inp -> dense inp -> ready (CellF CLoop) f inp ->
  update (CellF CLoop) fuel f inp = Ok (f', out) -> oget v (pts inp) <> None -> smooths f v = true ->
  crd out i v = weighted (vertex_mask inp v) (crd inp i).
Proof.
  intros Hv Hd Hr E Hin Hs. rewrite crd_lin, (out_lin (delta i) (CellF CLoop) f inp fuel f' out v Hv Hd Hr E).
  - unfold out_mask. pose proof (proj1 (Hd v) Hin) as Hlt. apply N.ltb_lt in Hlt. rewrite Hlt, Hs.
    apply weighted_ext. intros. rewrite crd_lin. reflexivity.
  - destruct (face_run _ f inp fuel f' out Hv Hd Hr E) as [mid [Ls FR]].
    apply (sd_old _ _ _ _ _ (fr_sub _ _ _ _ _ _ _ FR)). exact Hin.
Qed.

Lemma rsum_perm {A} (g : A -> R) l l' : Permutation.Permutation l l' -> rsum g l = rsum g l'.
Proof. induction 1; cbn in *; unfold rsum in *; cbn; lra. Qed.

Lemma border_filter_perm inp v B : valid inp -> border_neighbours inp v B ->
  Permutation.Permutation (filter (fun w => is_at_border inp (v, w)) (ring inp v)) B.
Proof.
  intros Hv [Hn HB]. destruct (filter_border inp v Hv) as [H1 H2].
  apply Permutation.NoDup_Permutation; auto. intros w. rewrite H2, HB. tauto.
Qed.

Lemma vertex_border inp v B g : valid inp -> border_neighbours inp v B -> B <> [] ->
  weighted (vertex_mask inp v) g = (3 / 4 * g v + 1 / 8 * rsum g B)%R.
Proof.
  intros Hv HB Hne. pose proof (border_filter_perm inp v B Hv HB) as HP. unfold vertex_mask.
  destruct (filter (fun w => is_at_border inp (v, w)) (ring inp v)) as [|w W] eqn:EW.
  - apply Permutation.Permutation_nil in HP. congruence.
  - cbn [is_nil]. rewrite weighted_ring, (rsum_perm _ _ _ HP). reflexivity.
Qed.
Lemma vertex_interior inp v g : valid inp -> interior_vertex inp v ->
  weighted (vertex_mask inp v) g =
  ((1 - IZR (Z.of_nat (length (ring inp v))) * loop_weight (N.of_nat (length (ring inp v)))) * g v
   + loop_weight (N.of_nat (length (ring inp v))) * rsum g (ring inp v))%R.
Proof.
  intros Hv [_ Hi]. unfold vertex_mask.
  destruct (filter (fun w => is_at_border inp (v, w)) (ring inp v)) as [|w W] eqn:EW.
  - cbn [is_nil]. rewrite weighted_ring, nat_N_Z. reflexivity.
  - exfalso. destruct (filter_border inp v Hv) as [_ H2]. apply (Hi w). apply H2. rewrite EW. cbn. auto.
Qed.
End VERTEX.

Lemma C18_vertex_rule_pf : forall (d : nat) (D : Type) f (inp : mesh (RO d) D) fuel f' out v i,
  valid inp -> dense inp -> no_isolated inp -> csel f = [] -> uniform f = true ->
  update (CellF CLoop) fuel f inp = Ok (f', out) -> oget v (pts inp) <> None ->
  let n := length (ring inp v) in
  let beta := loop_weight (N.of_nat n) in
  (interior_vertex inp v ->
     crd out i v = ((1 - IZR (Z.of_nat n) * beta) * crd inp i v + beta * rsum (crd inp i) (ring inp v))%R) /\
  (forall B, border_neighbours inp v B -> B <> [] ->
     crd out i v = (3 / 4 * crd inp i v + 1 / 8 * rsum (crd inp i) B)%R).
Proof.
  intros d D f inp fuel f' out v i Hv Hd Hni Hc Hu E Hin n beta.
  assert (Hr : ready (CellF CLoop) f inp).
  { split; [discriminate|]. split; [intros _; exact Hni|]. cbn. rewrite Hc. intros j []. }
  assert (Hs : smooths f v = true) by (unfold smooths; rewrite Hu; reflexivity).
  pose proof (smoothed_crd f inp fuel f' out v i Hv Hd Hr E Hin Hs) as ->. split.
  - intros Hi. apply vertex_interior; assumption.
  - intros B HB Hne. apply vertex_border; assumption.
Qed.

(** ** Loop's weight *)
Lemma C22_weight_bounds_pf : forall n : N, 1 <= n ->
  (0 < loop_weight n /\ 15 / 64 <= IZR (Z.of_N n) * loop_weight n <= 39 / 64)%R.
Proof.
  intros n Hn. unfold loop_weight. set (x := cos (2 * PI / IZR (Z.of_N n))).
  assert (Hx : (-1 <= x <= 1)%R) by (unfold x; split; apply COS_bound).
  assert (Hp : (0 < IZR (Z.of_N n))%R) by (apply IZR_lt; lia).
  assert (Hs : (15 / 64 <= 5 / 8 - (3 / 8 + 1 / 4 * x) ^ 2 <= 39 / 64)%R) by nra.
  split; [|replace (IZR (Z.of_N n) * ((5 / 8 - (3 / 8 + 1 / 4 * x) ^ 2) / IZR (Z.of_N n)))%R with (5 / 8 - (3 / 8 + 1 / 4 * x) ^ 2)%R; [exact Hs|]].
  - apply Rdiv_lt_0_compat; lra.
  - field. lra.
Qed.

Lemma C25_weights_differ_pf : forall n : N, 1 <= n -> (documented_weight n < loop_weight n)%R.
Proof.
  intros n Hn. unfold documented_weight, loop_weight. set (x := cos (2 * PI / IZR (Z.of_N n))).
  assert (Hp : (0 < IZR (Z.of_N n))%R) by (apply IZR_lt; lia).
  replace (1 / IZR (Z.of_N n) * (5 / 8 - (3 / 8 + 1 / 4 * x ^ 2)))%R with ((5 / 8 - (3 / 8 + 1 / 4 * x ^ 2)) / IZR (Z.of_N n))%R by (field; lra).
  unfold Rdiv. apply Rmult_lt_compat_r; [apply Rinv_0_lt_compat; exact Hp|]. fold (Rdiv 5 8). nra.
Qed.

Lemma cos_third : cos (2 * PI / 3) = (- (1 / 2))%R.
Proof.
  replace (2 * PI / 3)%R with (2 * (PI / 3))%R by lra. rewrite cos_2a_cos, cos_PI3. lra.
Qed.
Lemma C25_refuted_pf : exists n : N, documented_weight n = (1 / 16)%R /\ loop_weight n = (3 / 16)%R.
Proof. exists 3. unfold documented_weight, loop_weight. cbn [Z.of_N]. rewrite cos_third. split; lra. Qed.

Lemma C25_documented_rule_pf : forall (d : nat) (D : Type) f (inp : mesh (RO d) D) fuel f' out v i,
  valid inp -> dense inp -> no_isolated inp -> csel f = [] -> uniform f = true ->
  update (CellF CLoop) fuel f inp = Ok (f', out) -> oget v (pts inp) <> None -> interior_vertex inp v ->
  let n := length (ring inp v) in
  let beta := documented_weight (N.of_nat n) in
  crd out i v = ((1 - IZR (Z.of_nat n) * beta) * crd inp i v + beta * rsum (crd inp i) (ring inp v))%R <->
  (IZR (Z.of_nat n) * crd inp i v)%R = rsum (crd inp i) (ring inp v).
Proof.
  intros d D f inp fuel f' out v i Hv Hd Hni Hc Hu E Hin Hi n beta.
  destruct (C18_vertex_rule_pf d D f inp fuel f' out v i Hv Hd Hni Hc Hu E Hin) as [H18 _].
  rewrite (H18 Hi). fold n.
  assert (Hn : 1 <= N.of_nat n) by (destruct Hi as [Hne _]; unfold n; destruct (ring inp v); [congruence|cbn [length]; lia]).
  pose proof (C25_weights_differ_pf _ Hn) as Hlt. fold beta in Hlt. set (b := loop_weight (N.of_nat n)) in *.
  set (S := rsum (crd inp i) (ring inp v)). set (N := IZR (Z.of_nat n)). set (x := crd inp i v).
  split; intros H.
  - assert (Hz : ((b - beta) * (S - N * x) = 0)%R) by lra.
    apply Rmult_integral in Hz. destruct Hz as [Hz|Hz]; lra.
  - replace S with (N * x)%R by exact H. lra.
Qed.

(** ** Affine invariance and convexity *)
Section SAME.
Context {O1 O2 : Ops} {D1 D2 : Type}.
Variable m1 : mesh O1 D1.
Variable m2 : mesh O2 D2.
Hypothesis HS : same_connectivity m1 m2.

Lemma same_ring v : ring m1 v = ring m2 v.
Proof. unfold ring. destruct HS as [_ [-> _]]. reflexivity. Qed.
Lemma same_faces : faces m1 = faces m2.
Proof. unfold faces. destruct HS as [_ [_ [-> _]]]. reflexivity. Qed.
Lemma same_left e : left_set m1 e = left_set m2 e.
Proof. unfold left_set, left, cells_list. destruct HS as [_ [_ [-> _]]]. reflexivity. Qed.
Lemma same_has id : oget id (pts m1) <> None <-> oget id (pts m2) <> None.
Proof. rewrite !oget_Some_key. destruct HS as [-> _]. tauto. Qed.
Lemma same_size : osize (pts m1) = osize (pts m2).
Proof.
  destruct HS as [H _]. unfold osize. rewrite <- (map_length fst (pts m1)), <- (map_length fst (pts m2)).
  unfold okeys in H. rewrite H. reflexivity.
Qed.
Lemma same_dense : dense m1 -> dense m2.
Proof. intros H id. rewrite <- same_has, <- same_size. apply H. Qed.
Lemma same_isolated : no_isolated m1 -> no_isolated m2.
Proof. intros H id Hid. rewrite <- same_ring. apply H. apply same_has. exact Hid. Qed.
Lemma same_wire : no_wire m1 -> no_wire m2.
Proof.
  intros H a b Hj. unfold joined in *. rewrite <- same_ring in Hj. unfold tris. rewrite <- same_faces. apply H. exact Hj.
Qed.
Lemma same_ready k f : ready k f m1 -> ready k f m2.
Proof.
  intros [H1 [H2 H3]]. split; [exact H1|]. split; [intros H; apply same_isolated; auto|].
  destruct k as [s|s].
  - intros i Hi. rewrite <- same_faces. apply H3. exact Hi.
  - destruct H3 as [H4 H5]. split; [intros Ha Hb; apply same_wire; auto|].
    intros Hne. destruct (H5 Hne) as [H6 [H7 H8]]. split; [|split; [exact H7|]].
    + intros a b Hab. unfold joined. rewrite <- same_ring. apply H6. exact Hab.
    + intros Hs a b Hab. unfold tris. rewrite <- same_faces. apply (H8 Hs). exact Hab.
Qed.
Lemma same_onext e : onext m1 e = onext m2 e.
Proof. unfold onext. rewrite same_ring. reflexivity. Qed.
Lemma same_oprev e : oprev m1 e = oprev m2 e.
Proof. unfold oprev. rewrite same_ring. reflexivity. Qed.
Lemma same_lnext e : lnext m1 e = lnext m2 e.
Proof. apply same_oprev. Qed.
Lemma same_rprev e : rprev m1 e = rprev m2 e.
Proof. apply same_onext. Qed.
Lemma same_internal e : is_internal m1 e = is_internal m2 e.
Proof. unfold is_internal, right_set. rewrite !same_left. reflexivity. Qed.
Lemma same_at_border e : is_at_border m1 e = is_at_border m2 e.
Proof. unfold is_at_border, right_set. rewrite !same_left. reflexivity. Qed.
Lemma same_obind o (f g : dedge -> option dedge) : (forall e, f e = g e) -> obind o f = obind o g.
Proof. intros H. destruct o; cbn; auto. Qed.
Lemma same_new_mask k e : new_mask k m1 e = new_mask k m2 e.
Proof.
  assert (HL : loop_mask m1 e = loop_mask m2 e).
  { unfold loop_mask. rewrite same_internal, same_lnext, same_rprev. reflexivity. }
  assert (HB : butterfly_mask m1 e = butterfly_mask m2 e).
  { unfold butterfly_mask, lprev, rnext. rewrite same_lnext, same_rprev, same_onext, same_oprev.
    rewrite !(same_obind _ _ _ same_lnext), !(same_obind _ _ _ same_rprev). reflexivity. }
  destruct k as [[| | |]|[| |]]; cbn [new_mask]; auto.
Qed.
Lemma same_vertex_mask v : vertex_mask m1 v = vertex_mask m2 v.
Proof.
  unfold vertex_mask. rewrite same_ring.
  assert (filter (fun w => is_at_border m1 (v, w)) (ring m2 v) = filter (fun w => is_at_border m2 (v, w)) (ring m2 v)) as ->.
  { apply filter_ext. intros w. apply same_at_border. }
  reflexivity.
Qed.
Lemma same_out_mask k f id : out_mask k f m1 id = out_mask k f m2 id.
Proof.
  unfold out_mask. rewrite same_size.
  assert (inserted k f m1 = inserted k f m2) as ->.
  { apply (inserted_same k k f f m1 m2); auto; try apply HS. destruct k; exact I. }
  destruct (N.ltb id (osize (pts m2))).
  - destruct k as [[| | |]|]; auto. destruct (smooths f id); auto. apply same_vertex_mask.
  - destruct (nth_error (inserted k f m2) (N.to_nat (id - osize (pts m2)))); auto. apply same_new_mask.
Qed.
Lemma same_border a b : border_edge m1 a b <-> border_edge m2 a b.
Proof. unfold border_edge, joined, tris. rewrite same_ring, same_faces. tauto. Qed.
End SAME.

Section MASK_FACTS.
Context {O : Ops} {D : Type}.
Notation mesh := (mesh O D).
Implicit Types inp : mesh.

Lemma onext_some' inp a b : joined inp a b -> exists x, onext inp (a, b) = Some (a, x) /\ joined inp a x.
Proof.
  intros H. destruct (succ_in_In _ _ H) as [x Hx]. exists x. unfold onext. cbn [fst snd]. rewrite Hx.
  split; [reflexivity|eapply succ_joined; eauto].
Qed.
Lemma oprev_some' inp a b : joined inp a b -> exists x, oprev inp (a, b) = Some (a, x) /\ joined inp a x.
Proof.
  intros H. destruct (pred_in_In _ _ H) as [x Hx]. exists x. unfold oprev. cbn [fst snd]. rewrite Hx.
  split; [reflexivity|eapply pred_joined; eauto].
Qed.

Lemma new_mask_facts k inp e : valid inp -> k <> CellF CSqrt3 -> joined inp (fst e) (snd e) ->
  wtotal (new_mask k inp e) = 1%R /\
  (forall w x, In (w, x) (new_mask k inp e) -> oget x (pts inp) <> None) /\
  (k <> CellF CButterfly -> k <> EdgeF EButterfly -> forall w x, In (w, x) (new_mask k inp e) -> (0 <= w)%R).
Proof.
  intros Hv Hk Hj. destruct e as [a b]. cbn [fst snd] in Hj.
  pose proof (v_ring_sym _ Hv _ _ Hj) as Hj'.
  pose proof (v_ring_pts _ Hv _ _ Hj) as Pb. pose proof (v_ring_pts _ Hv _ _ Hj') as Pa.
  destruct (oprev_some' inp b a Hj') as [x [Ex Hx]]. destruct (onext_some' inp b a Hj') as [y [Ey Hy]].
  destruct (onext_some' inp a b Hj) as [z [Ez Hz]]. destruct (oprev_some' inp a b Hj) as [w [Ew Hw]].
  destruct (onext_some' inp x b (v_ring_sym _ Hv _ _ Hx)) as [x' [Ex' Hx']].
  destruct (oprev_some' inp y b (v_ring_sym _ Hv _ _ Hy)) as [y' [Ey' Hy']].
  destruct (onext_some' inp a z Hz) as [z' [Ez' Hz']].
  destruct (oprev_some' inp a w Hw) as [w' [Ew' Hw']].
  assert (HP : forall u v, joined inp u v -> oget v (pts inp) <> None) by (intros; eapply (v_ring_pts _ Hv); eauto).
  assert (HL : wtotal (linear_mask inp (a, b)) = 1%R /\
    (forall w x, In (w, x) (linear_mask inp (a, b)) -> oget x (pts inp) <> None /\ (0 <= w)%R)).
  { unfold linear_mask, edge_mask, wtotal. cbn. split; [lra|]. intros u v H. decompose [or] H; try tauto; inv H0 || inv H1;
    (split; [assumption|lra]). }
  assert (HLo : wtotal (loop_mask inp (a, b)) = 1%R /\
    (forall w x, In (w, x) (loop_mask inp (a, b)) -> oget x (pts inp) <> None /\ (0 <= w)%R)).
  { unfold loop_mask. destruct (is_internal inp (a, b)); [|exact HL].
    unfold lnext, rprev, sym. cbn [fst snd]. rewrite Ex, Ey. unfold wtotal. cbn. split; [lra|].
    intros u v H. destruct H as [H|[H|[H|[H|[]]]]]; inv H; (split; [eauto|lra]). }
  assert (HB : wtotal (butterfly_mask inp (a, b)) = 1%R /\
    (forall w x, In (w, x) (butterfly_mask inp (a, b)) -> oget x (pts inp) <> None)).
  { unfold butterfly_mask, lnext, rprev, lprev, rnext, sym. cbn [fst snd]. rewrite Ex, Ey, Ez, Ew.
    cbn [option_map obind fst snd]. rewrite Ex', Ey', Ez', Ew'. unfold wtotal. cbn. split; [lra|].
    intros u v H. destruct H as [H|[H|[H|[H|[H|[H|[H|[H|[]]]]]]]]]; inv H; eauto. }
  destruct k as [[| | |]|[| |]]; cbn [new_mask];
    first [congruence
          |split; [apply HL|split; [intros u v H; apply (proj2 HL u v H)|intros _ _ u v H; apply (proj2 HL u v H)]]
          |split; [apply HLo|split; [intros u v H; apply (proj2 HLo u v H)|intros _ _ u v H; apply (proj2 HLo u v H)]]
          |split; [apply HB|split; [intros u v H; apply (proj2 HB u v H)|intros; congruence]]].
Qed.
End MASK_FACTS.

Lemma out_dim {O : Ops} {D : Type} k f (inp : mesh O D) fuel f' out id p :
  valid inp -> dense inp -> ready k f inp -> update k fuel f inp = Ok (f', out) ->
  oget id (pts out) = Some p -> length p = kdim O.
Proof.
  intros Hv Hd Hr E Hp.
  destruct (update_split_inv k f inp fuel f' out Hv Hd Hr E) as [P0 [[_ Hpts _ _] [[_ Hc] [_ [_ Hval]]]]].
  rewrite Hpts, oget_app in Hp. destruct (oget id P0) as [q|] eqn:Eq.
  - inv Hp. eapply Hc; eauto.
  - apply oget_In in Hp.
    assert (In p (map (val_of (new_point k inp)) (inserted k f inp))).
    { clear - Hp. revert Hp. generalize (osize (pts inp)).
      induction (map (val_of (new_point k inp)) (inserted k f inp)) as [|x l IH]; intros n H; [destruct H|].
      rewrite idx_from_cons in H. destruct H as [H|H]; [inv H; cbn; auto|right; eapply IH; exact H]. }
    apply in_map_iff in H. destruct H as [e [<- He]]. apply Hval. exact He.
Qed.

Section OUT_FACTS.
Context {d : nat} {D : Type}.
Notation mesh := (mesh (RO d) D).
Implicit Types inp out : mesh.

Lemma out_ptof_length k f inp fuel f' out id : valid inp -> dense inp -> ready k f inp ->
  update k fuel f inp = Ok (f', out) -> length (ptof out id) = d.
Proof.
  intros Hv Hd Hr E. unfold ptof. destruct (oget id (pts out)) as [p|] eqn:Ep; [|apply repeat_length].
  exact (out_dim k f inp fuel f' out id p Hv Hd Hr E Ep).
Qed.

Lemma vertex_mask_facts inp v : valid inp -> oget v (pts inp) <> None -> ring inp v <> [] -> one_fan inp v ->
  wtotal (vertex_mask inp v) = 1%R /\
  forall w x, In (w, x) (vertex_mask inp v) -> oget x (pts inp) <> None /\ (0 <= w)%R.
Proof.
  intros Hv Hin Hne Hf. unfold vertex_mask. set (r := ring inp v). set (B := filter _ r).
  assert (HB : border_neighbours inp v B) by (apply filter_border; exact Hv).
  assert (Hr : forall x, In x r -> oget x (pts inp) <> None) by (intros x Hx; apply (v_ring_pts _ Hv v); exact Hx).
  assert (Hn : 1 <= N.of_nat (length r)) by (unfold r; destruct (ring inp v); [congruence|cbn [length]; lia]).
  destruct (C22_weight_bounds_pf _ Hn) as [H0 [H1 H2]]. set (bt := loop_weight (N.of_nat (length r))) in *.
  destruct (Hf B HB) as [E|E].
  - rewrite E. cbn [is_nil]. rewrite wtotal_ring. split; [rewrite nat_N_Z; lra|].
    intros w x [H|H].
    + inv H. split; [exact Hin|lra].
    + apply in_map_iff in H. destruct H as [y [Hy Hyr]]. inv Hy. split; [auto|lra].
  - destruct B as [|b0 B'] eqn:EB; [discriminate|]. cbn [is_nil]. rewrite wtotal_ring, E. split; [cbn; lra|].
    intros w x [H|H].
    + inv H. split; [exact Hin|lra].
    + apply in_map_iff in H. destruct H as [y [Hy Hyr]]. inv Hy. split; [|lra].
      apply Hr. unfold B in EB. rewrite <- EB in Hyr. apply filter_In in Hyr. apply Hyr.
Qed.

Lemma out_mask_facts k f inp fuel f' out id : valid inp -> dense inp -> ready k f inp ->
  (k = CellF CLoop -> forall v, one_fan inp v) ->
  update k fuel f inp = Ok (f', out) -> oget id (pts out) <> None ->
  wtotal (out_mask k f inp id) = 1%R /\
  (forall w x, In (w, x) (out_mask k f inp id) -> oget x (pts inp) <> None) /\
  (k <> CellF CButterfly -> k <> EdgeF EButterfly -> forall w x, In (w, x) (out_mask k f inp id) -> (0 <= w)%R).
Proof.
  intros Hv Hd Hr Hfan E Hid. unfold out_mask. destruct (N.ltb_spec id (osize (pts inp))) as [Hlt|Hge].
  - assert (Hin : oget id (pts inp) <> None) by (apply Hd; exact Hlt).
    assert (Hone : wtotal [(1%R, id)] = 1%R /\ (forall w x, In (w, x) [(1%R, id)] -> oget x (pts inp) <> None) /\
      (k <> CellF CButterfly -> k <> EdgeF EButterfly -> forall w x, In (w, x) [(1%R, id)] -> (0 <= w)%R)).
    { unfold wtotal. cbn. split; [lra|]. split; [intros w x [H|[]]; inv H; exact Hin|intros _ _ w x [H|[]]; inv H; lra]. }
    destruct k as [[| | |]|]; auto. destruct (smooths f id); auto.
    destruct (vertex_mask_facts inp id Hv Hin) as [H1 H2]; [|auto|].
    + destruct Hr as [_ [Hl _]]. apply Hl; [left; reflexivity|exact Hin].
    + split; [exact H1|]. split; [intros w x H; apply (H2 w x H)|intros _ _ w x H; apply (H2 w x H)].
  - destruct (face_run k f inp fuel f' out Hv Hd Hr E) as [mid [Ls FR]].
    assert (Hlt' : id < osize (pts out)) by (apply (fr_dense _ _ _ _ _ _ _ FR); exact Hid).
    pose proof (fr_count _ _ _ _ _ _ _ FR) as Hc. unfold nV in Hc. unfold osize in *.
    destruct (nth_error (inserted k f inp) (N.to_nat (id - N.of_nat (length (pts inp))))) as [e|] eqn:En.
    + apply nth_error_In in En. apply new_mask_facts; auto; [apply Hr|eapply ins_dirs; eauto].
    + exfalso. apply nth_error_None in En. lia.
Qed.
End OUT_FACTS.

Lemma C21_affine_pf : forall (d1 d2 : nat) (D1 D2 : Type) k f (m1 : mesh (RO d1) D1) (m2 : mesh (RO d2) D2)
    M t n1 n2 f1 o1 f2 o2,
  valid m1 -> dense m1 -> ready k f m1 -> valid m2 -> same_connectivity m1 m2 ->
  (k = CellF CLoop -> forall v, one_fan m1 v) ->
  affine_image M t m1 m2 ->
  update k n1 f m1 = Ok (f1, o1) -> update k n2 f m2 = Ok (f2, o2) ->
  same_connectivity o1 o2 /\ affine_image M t o1 o2.
Proof.
  intros d1 d2 D1 D2 k f m1 m2 M t n1 n2 f1 o1 f2 o2 Hv1 Hd1 Hr1 Hv2 HS Hfan HA E1 E2.
  pose proof (same_dense _ _ HS Hd1) as Hd2. pose proof (same_ready _ _ HS k f Hr1) as Hr2.
  assert (HC : same_connectivity o1 o2).
  { destruct HS as [S1 [S2 [S3 S4]]].
    destruct (C48_connectivity_pf _ _ _ _ k k f f m1 m2 n1 n2 f1 o1 f2 o2) as [H1 [H2 [H3 [H4 _]]]]; auto.
    - destruct k; exact I.
    - repeat split; assumption. }
  split; [exact HC|]. intros id j Hid Hj.
  assert (Hid2 : oget id (pts o2) <> None) by (apply (same_has _ _ HC); exact Hid).
  rewrite crd_lin, (out_lin (delta j) k f m2 n2 f2 o2 id Hv2 Hd2 Hr2 E2 Hid2), <- (same_out_mask m1 m2 HS k f id).
  destruct (out_mask_facts k f m1 n1 f1 o1 id Hv1 Hd1 Hr1 Hfan E1 Hid) as [HT [HP _]].
  rewrite (weighted_affine _ (t j) (fun x => lin (M j) (ptof m1 x))).
  - rewrite HT, <- (out_lin (M j) k f m1 n1 f1 o1 id Hv1 Hd1 Hr1 E1 Hid), lin_rsum.
    assert (length (ptof o1 id) = d1) as ->.
    { apply (out_ptof_length k f m1 n1 f1 o1 id Hv1 Hd1 Hr1 E1). }
    unfold crd. lra.
  - intros w x Hx. rewrite lin_delta. change (nth j (ptof m2 x) 0%R) with (crd m2 j x).
    rewrite (HA x j (HP w x Hx) Hj), lin_rsum, (ptof_length m1 x Hv1). reflexivity.
Qed.

Lemma C22_convex_pf : forall (d : nat) (D : Type) k f (inp : mesh (RO d) D) fuel f' out c h,
  k <> CellF CButterfly -> k <> EdgeF EButterfly ->
  valid inp -> dense inp -> ready k f inp -> (k = CellF CLoop -> forall v, one_fan inp v) ->
  in_halfspace c h inp -> update k fuel f inp = Ok (f', out) -> in_halfspace c h out.
Proof.
  intros d D k f inp fuel f' out c h Hk1 Hk2 Hv Hd Hr Hfan Hh E id Hid.
  assert (Hl : rsum (fun i => c i * crd out i id)%R (seq 0 d) = lin c (ptof out id)).
  { rewrite lin_rsum, (out_ptof_length k f inp fuel f' out id Hv Hd Hr E). reflexivity. }
  rewrite Hl, (out_lin c k f inp fuel f' out id Hv Hd Hr E Hid).
  destruct (out_mask_facts k f inp fuel f' out id Hv Hd Hr Hfan E Hid) as [HT [HP HN]].
  apply weighted_le; [|exact HT]. intros w x Hx. split; [eapply HN; eauto|].
  rewrite lin_rsum, (ptof_length inp x Hv). apply Hh. eapply HP; eauto.
Qed.

(** ** Borders depend on borders only (any arithmetic) *)
Section BORDER.
Context {O : Ops} {D1 D2 : Type}.
Variable m1 : mesh O D1.
Variable m2 : mesh O D2.
Hypothesis HS : same_connectivity m1 m2.
Hypothesis Hv1 : valid m1.
Hypothesis Hag : forall v w, border_edge m1 v w -> oget v (pts m1) = oget v (pts m2).

Lemma smooth_sums_same v : forall r bpt nb o1 n1 o2 n2 b1 k1 p1 c1 b2 k2 p2 c2,
  (forall w, In w r -> joined m1 v w) ->
  smooth_sums m1 v r bpt nb o1 n1 = Ok (b1, k1, p1, c1) ->
  smooth_sums m2 v r bpt nb o2 n2 = Ok (b2, k2, p2, c2) -> b1 = b2 /\ k1 = k2.
Proof.
  induction r as [|w r IH]; intros bpt nb o1 n1 o2 n2 b1 k1 p1 c1 b2 k2 p2 c2 Hr; cbn [smooth_sums].
  - intros H1 H2. split; congruence.
  - destruct (elem_pt m1 w) as [q1| | |] eqn:E1; try discriminate.
    destruct (elem_pt m2 w) as [q2| | |] eqn:E2; try discriminate. cbn [rbind].
    rewrite <- (same_at_border m1 m2 HS). destruct (is_at_border m1 (v, w)) eqn:Eb.
    + assert (q1 = q2) as <-.
      { assert (Hb : border_edge m1 w v).
        { apply border_edge_sym; [exact Hv1|]. apply border_at; auto. apply Hr. cbn. auto. }
        apply Hag in Hb. unfold elem_pt in E1, E2. rewrite Hb in E1. destruct (oget w (pts m2)); congruence. }
      intros H1 H2. eapply IH; [|exact H1|exact H2]. intros; apply Hr; cbn; auto.
    + intros H1 H2. eapply IH; [|exact H1|exact H2]. intros; apply Hr; cbn; auto.
Qed.

Lemma smooth_sums_count v : forall r (bpt : list (K O)) nb opt nn b k p c,
  smooth_sums m1 v r bpt nb opt nn = Ok (b, k, p, c) ->
  k = nb + N.of_nat (length (filter (fun w => is_at_border m1 (v, w)) r)).
Proof.
  induction r as [|w r IH]; intros bpt nb opt nn b k p c; cbn [smooth_sums filter].
  - intros H. assert (k = nb) as -> by congruence. cbn. lia.
  - destruct (elem_pt m1 w) as [q1| | |]; try discriminate. cbn [rbind].
    destruct (is_at_border m1 (v, w)); intros H; apply IH in H; cbn [length]; lia.
Qed.

Lemma smoothing_same v w p q1 q2 : border_edge m1 v w ->
  smoothing_point m1 v p = Ok q1 -> smoothing_point m2 v p = Ok q2 -> q1 = q2.
Proof.
  intros Hb. unfold smoothing_point. rewrite <- (same_ring m1 m2 HS v).
  destruct (ring m1 v) as [|r0 r'] eqn:Er; [discriminate|]. rewrite <- Er. set (r := ring m1 v).
  destruct (smooth_sums m1 v r pzero 0 pzero 0) as [[[[b1 k1] o1] c1]| | |] eqn:E1; try discriminate.
  destruct (smooth_sums m2 v r pzero 0 pzero 0) as [[[[b2 k2] o2] c2]| | |] eqn:E2; try discriminate.
  cbn [rbind].
  destruct (smooth_sums_same v r _ _ _ _ _ _ _ _ _ _ _ _ _ _ (fun w H => H) E1 E2) as [<- <-].
  pose proof (smooth_sums_count v r _ _ _ _ _ _ _ _ E1) as Hc.
  assert (Hne : N.eqb k1 0 = false).
  { apply N.eqb_neq. rewrite Hc. intros H.
    assert (Hin : In w (filter (fun w => is_at_border m1 (v, w)) r)).
    { apply filter_border; assumption. }
    destruct (filter (fun w => is_at_border m1 (v, w)) r); [destruct Hin|cbn [length] in H; lia]. }
  rewrite Hne. congruence.
Qed.
End BORDER.

Lemma C23_border_pf : forall (O : Ops) (D1 D2 : Type) f (m1 : mesh O D1) (m2 : mesh O D2) n1 n2 f1 o1 f2 o2,
  valid m1 -> dense m1 -> ready (CellF CLoop) f m1 -> valid m2 -> same_connectivity m1 m2 ->
  (forall v w, border_edge m1 v w -> oget v (pts m1) = oget v (pts m2)) ->
  update (CellF CLoop) n1 f m1 = Ok (f1, o1) -> update (CellF CLoop) n2 f m2 = Ok (f2, o2) ->
  (forall v w, border_edge m1 v w -> oget v (pts o1) = oget v (pts o2)) /\
  exists mid Ls, subdivision m1 o1 (to_split (CellF CLoop) f m1) mid Ls /\
    forall a b m, border_edge m1 a b -> mid a b = Some m -> oget m (pts o1) = oget m (pts o2).
Proof.
  intros O D1 D2 f m1 m2 n1 n2 f1 o1 f2 o2 Hv1 Hd1 Hr1 Hv2 HS Hag E1 E2.
  pose proof (same_dense _ _ HS Hd1) as Hd2. pose proof (same_ready _ _ HS _ f Hr1) as Hr2.
  destruct (face_run _ f m1 n1 f1 o1 Hv1 Hd1 Hr1 E1) as [mid [Ls FR1]].
  destruct (face_run _ f m2 n2 f2 o2 Hv2 Hd2 Hr2 E2) as [mid2 [Ls2 FR2]].
  split.
  - intros v w Hb. pose proof (Hag v w Hb) as Hp.
    assert (Hin : oget v (pts m1) <> None).
    { apply (v_ring_pts _ Hv1 w). apply (v_ring_sym _ Hv1). apply Hb. }
    destruct (oget v (pts m1)) as [p|] eqn:Ep1; [|congruence]. symmetry in Hp.
    pose proof (fr_old_loop _ _ _ _ _ _ _ FR1 v p Ep1 eq_refl) as H1.
    pose proof (fr_old_loop _ _ _ _ _ _ _ FR2 v p Hp eq_refl) as H2.
    destruct (smooths f v); [|congruence].
    assert (Ho1 : oget v (pts o1) <> None) by (apply (sd_old _ _ _ _ _ (fr_sub _ _ _ _ _ _ _ FR1)); congruence).
    assert (Ho2 : oget v (pts o2) <> None) by (apply (sd_old _ _ _ _ _ (fr_sub _ _ _ _ _ _ _ FR2)); congruence).
    destruct (oget v (pts o1)) as [q1|]; [|congruence]. destruct (oget v (pts o2)) as [q2|]; [|congruence].
    f_equal. eapply (smoothing_same m1 m2 HS Hv1 Hag); eauto.
  - exists mid, Ls. split; [apply (fr_sub _ _ _ _ _ _ _ FR1)|]. intros a b m Hb Hm.
    assert (Hmid : mid2 = mid).
    { rewrite (fr_mid _ _ _ _ _ _ _ FR1), (fr_mid _ _ _ _ _ _ _ FR2), (same_size _ _ HS).
      f_equal. symmetry. apply (inserted_same (CellF CLoop) (CellF CLoop) f f m1 m2); auto; try apply HS; exact I. }
    destruct (fr_new _ _ _ _ _ _ _ FR1 a b m Hm) as [[x y] [p [He [Hin1 [Hp Ho]]]]].
    pose proof Hm as Hm2. rewrite <- Hmid in Hm2.
    destruct (fr_new _ _ _ _ _ _ _ FR2 a b m Hm2) as [[x2 y2] [p2 [He2 [Hin2 [Hp2 Ho2]]]]].
    assert (Heq : (x2, y2) = (x, y)).
    { assert (Hi : inserted (CellF CLoop) f m1 = inserted (CellF CLoop) f m2).
      { apply (inserted_same (CellF CLoop) (CellF CLoop) f f m1 m2); auto; try apply HS; exact I. }
      rewrite <- Hi in Hin2. apply In_nth_error in Hin1, Hin2. destruct Hin1 as [i Hi1], Hin2 as [j Hj1].
      assert (i = j); [|congruence].
      destruct (update_split_inv _ f m1 n1 f1 o1 Hv1 Hd1 Hr1 E1) as [P0 [_ [_ [_ [HI _]]]]].
      eapply HI; [exact Hi1|exact Hj1|].
      destruct He as [He|He], He2 as [He2|He2]; cbn [fst snd] in *; inv He; inv He2; unfold undirected_eq; cbn; auto. }
    inv Heq.
    assert (Hbxy : border_edge m1 x y).
    { destruct He as [He|He]; cbn [fst snd] in He; inv He; [exact Hb|apply border_edge_sym; assumption]. }
    rewrite Ho, Ho2. f_equal.
    cbn [new_point cell_point] in Hp, Hp2. unfold loop_point in Hp, Hp2.
    rewrite <- (same_internal m1 m2 HS), (border_not_internal m1 x y Hv1 Hbxy) in Hp2.
    rewrite (border_not_internal m1 x y Hv1 Hbxy) in Hp.
    rewrite <- (same_at_border m1 m2 HS) in Hp2.
    destruct (is_at_border m1 (x, y)); [|discriminate].
    assert (Hx : get_pt m1 x = get_pt m2 x) by (unfold get_pt; rewrite (Hag x y Hbxy); reflexivity).
    assert (Hy : get_pt m1 y = get_pt m2 y).
    { unfold get_pt. rewrite (Hag y x (border_edge_sym _ _ _ Hv1 Hbxy)). reflexivity. }
    cbn [fst snd] in *. rewrite Hx, Hy in Hp. rewrite Hp in Hp2. congruence.
Qed.
