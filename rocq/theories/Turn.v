(** * Turn: turning the input inside out turns the result inside out (C121). *)
From Coq Require Import Reals Lra Permutation.
From Verif Require Import Base Mesh Filters Drivers Spec SpecSub SpecGeo SpecRenum SpecRoot3 SpecDrive SpecConv SpecSame SpecTurn Lists AddFace SplitTri Split Points Valid Run Update Struct Count Face FaceProps PtsAny
  Conn Geo GeoProps Renum RenumProps Gaps Cond Root3 Root3Run Root3Main Root3Props Iter Conv.

Definition carry (r : N -> N) (V1 : N) (I1 : list dedge) (V2 : N) (I2 : list dedge) (x : N) : N :=
  if x <? V1 then r x
  else match nth_error I1 (N.to_nat (x - V1)) with
       | Some e => match sp V2 I2 (r (fst e)) (r (snd e)) with Some y => y | None => x end
       | None => x
       end.

Lemma same_sym {O : Ops} {D : Type} r r' (m1 m2 : mesh O D) : turned r r' m1 m2 -> turned r' r m2 m1.
Proof. intros [H1 H2 H3 H4]. constructor; auto. Qed.

Section SURF.
Context {O : Ops} {D : Type}.
Variables (m1 m2 : mesh O D) (r r' : N -> N).
Hypothesis (V1 : valid m1) (V2 : valid m2) (HS : turned r r' m1 m2).

Lemma ss_has x : oget x (pts m1) <> None -> oget (r x) (pts m2) <> None /\ r' (r x) = x.
Proof. intros H. destruct (oget x (pts m1)) as [p|] eqn:E; [|congruence]. destruct (tu_pts _ _ _ _ HS x p E) as [E2 E3]. split; [congruence|exact E3]. Qed.
Lemma ss_inj x y : oget x (pts m1) <> None -> oget y (pts m1) <> None -> r x = r y -> x = y.
Proof. intros Hx Hy E. destruct (ss_has x Hx) as [_ E1], (ss_has y Hy) as [_ E2]. congruence. Qed.
Lemma face_pts a b c : is_face m1 a b c -> oget a (pts m1) <> None /\ oget b (pts m1) <> None /\ oget c (pts m1) <> None.
Proof.
  intros [H|[H|H]]; repeat split; apply (v_verts _ V1 _ _ H); cbn; auto.
Qed.
Lemma ss_face_iff a b c : oget a (pts m1) <> None -> oget b (pts m1) <> None -> oget c (pts m1) <> None ->
  is_face m1 a b c <-> is_face m2 (r a) (r c) (r b).
Proof.
  intros Ha Hb Hc. split; [apply (tu_faces _ _ _ _ HS)|]. intros H. apply (tu_faces' _ _ _ _ HS) in H.
  destruct (ss_has a Ha) as [_ Ea], (ss_has b Hb) as [_ Eb], (ss_has c Hc) as [_ Ec]. rewrite Ea, Eb, Ec in H. exact H.
Qed.
Lemma ss_dir a b : oget a (pts m1) <> None -> oget b (pts m1) <> None ->
  In (a, b) (dirs (tris m1)) <-> In (r b, r a) (dirs (tris m2)).
Proof.
  intros Ha Hb. split; intros H.
  - apply dir_is_face in H. destruct H as [c H]. apply (tu_faces _ _ _ _ HS) in H. apply is_face_rot, is_face_rot in H. eapply is_face_dir; eauto.
  - apply dir_is_face in H. destruct H as [c H]. apply (tu_faces' _ _ _ _ HS) in H.
    destruct (ss_has a Ha) as [_ Ea], (ss_has b Hb) as [_ Eb]. rewrite Ea, Eb in H. apply is_face_rot, is_face_rot in H. eapply is_face_dir; eauto.
Qed.
Lemma joined_pts a b : joined m1 a b -> oget a (pts m1) <> None /\ oget b (pts m1) <> None.
Proof. intros H. split; [apply (v_ring_pts _ V1 b); apply (v_ring_sym _ V1); exact H|apply (v_ring_pts _ V1 a); exact H]. Qed.
Lemma ss_joined a b : no_wire m1 -> no_wire m2 -> oget a (pts m1) <> None -> oget b (pts m1) <> None ->
  joined m1 a b <-> joined m2 (r a) (r b).
Proof.
  intros W1 W2 Ha Hb. split; intros H.
  - apply W1 in H. destruct H as [H|H]; apply ss_dir in H; auto; apply (v_face_edges _ V2) in H; [apply (v_ring_sym _ V2); exact H|exact H].
  - apply W2 in H. destruct H as [H|H]; apply ss_dir in H; auto; apply (v_face_edges _ V1) in H; [apply (v_ring_sym _ V1); exact H|exact H].
Qed.
Lemma ss_border a b : no_wire m1 -> no_wire m2 -> oget a (pts m1) <> None -> oget b (pts m1) <> None ->
  border_edge m1 a b <-> border_edge m2 (r a) (r b).
Proof.
  intros W1 W2 Ha Hb. unfold border_edge. rewrite (ss_joined a b W1 W2 Ha Hb), (ss_dir a b Ha Hb), (ss_dir b a Hb Ha). tauto.
Qed.
Lemma ss_left a b : oget a (pts m1) <> None -> oget b (pts m1) <> None -> left_set m1 (a, b) = left_set m2 (r b, r a).
Proof.
  intros Ha Hb. pose proof (valid_left m1 (a, b) V1) as L1. pose proof (valid_left m2 (r b, r a) V2) as L2. pose proof (ss_dir a b Ha Hb) as H.
  destruct (left_set m1 (a, b)), (left_set m2 (r b, r a)); try reflexivity; exfalso; intuition congruence.
Qed.
End SURF.

(** ** Masks *)
Section MASK.
Context {d : nat} {D : Type}.
Notation mesh := (mesh (RO d) D).
Variables (m1 m2 : mesh) (r r' : N -> N).
Hypothesis (V1 : valid m1) (V2 : valid m2) (HS : turned r r' m1 m2).
Variable g1 g2 : N -> R.
Hypothesis Hg : forall x, oget x (pts m1) <> None -> g2 (r x) = g1 x.

Lemma face_back a b : oget a (pts m1) <> None -> oget b (pts m1) <> None -> In (a, b) (dirs (tris m1)) ->
  exists c, is_face m1 a b c /\ is_face m2 (r b) (r a) (r c) /\ oget c (pts m1) <> None.
Proof.
  intros Ha Hb H. apply dir_is_face in H. destruct H as [c H]. exists c. split; [exact H|]. split; [apply is_face_rot, is_face_rot; apply (tu_faces _ _ _ _ HS); exact H|].
  apply (face_pts m1 V1 _ _ _ H).
Qed.

Lemma mask_same k a b : k <> CellF CSqrt3 -> oget a (pts m1) <> None -> oget b (pts m1) <> None ->
  (scheme_of k = CButterfly -> closed m1 /\ closed m2 /\ In (a, b) (dirs (tris m1))) ->
  weighted (new_mask k m2 (r b, r a)) g2 = weighted (new_mask k m1 (a, b)) g1.
Proof.
  intros Hk Ha Hb Hc.
  assert (HL : forall w, weighted (edge_mask w (r b, r a)) g2 = weighted (edge_mask w (a, b)) g1).
  { intros w. unfold weighted, edge_mask. cbn. rewrite !Hg by assumption. ring. }
  assert (HLo : weighted (loop_mask m2 (r b, r a)) g2 = weighted (loop_mask m1 (a, b)) g1).
  { unfold loop_mask. assert (Ei : is_internal m2 (r b, r a) = is_internal m1 (a, b)).
    { unfold is_internal, right_set, sym. cbn [fst snd]. rewrite (ss_left m1 m2 r r' V1 V2 HS a b Ha Hb), (ss_left m1 m2 r r' V1 V2 HS b a Hb Ha). reflexivity. }
    rewrite Ei. destruct (is_internal m1 (a, b)) eqn:E; [|apply HL].
    unfold is_internal, right_set, sym in E. cbn [fst snd] in E. apply andb_prop in E. destruct E as [E1 E2].
    apply (valid_left _ _ V1) in E1. apply (valid_left _ _ V1) in E2.
    destruct (face_back a b Ha Hb E1) as [x [F1 [G1 X1]]]. destruct (face_back b a Hb Ha E2) as [y [F2 [G2 X2]]].
    rewrite (face_lnext _ _ _ _ V1 F1), (face_rprev _ _ _ _ V1 F2), (face_lnext _ _ _ _ V2 G1), (face_rprev _ _ _ _ V2 G2).
    unfold weighted, edge_mask. cbn. rewrite !Hg by assumption. ring. }
  assert (HB : scheme_of k = CButterfly -> weighted (butterfly_mask m2 (r b, r a)) g2 = weighted (butterfly_mask m1 (a, b)) g1).
  { intros Es. destruct (Hc Es) as [C1 [C2 Hin]]. pose proof (C1 _ _ Hin) as Hin'.
    destruct (face_back a b Ha Hb Hin) as [x [F1 [G1 X1]]]. destruct (face_back b a Hb Ha Hin') as [y [F2 [G2 X2]]].
    assert (W : forall u v w, is_face m1 u v w -> exists z, is_face m1 v u z /\ is_face m2 (r u) (r v) (r z) /\ oget z (pts m1) <> None).
    { intros u v w F. destruct (face_pts m1 V1 _ _ _ F) as [P1 [P2 _]]. apply face_back; auto. apply C1. eapply is_face_dir; eauto. }
    destruct (W b x a) as [w1 [A1 [B1 Y1]]]; [apply is_face_rot; exact F1|].
    destruct (W x a b) as [w2 [A2 [B2 Y2]]]; [apply is_face_rot, is_face_rot; exact F1|].
    destruct (W a y b) as [w3 [A3 [B3 Y3]]]; [apply is_face_rot; exact F2|].
    destruct (W y b a) as [w4 [A4 [B4 Y4]]]; [apply is_face_rot, is_face_rot; exact F2|].
    unfold butterfly_mask.
    rewrite (face_lnext _ _ _ _ V1 F1), (face_rprev _ _ _ _ V1 F2), (face_lnext _ _ _ _ V2 G1), (face_rprev _ _ _ _ V2 G2).
    rewrite (face_lprev _ _ _ _ V1 F1), (face_rnext _ _ _ _ V1 F2), (face_lprev _ _ _ _ V2 G1), (face_rnext _ _ _ _ V2 G2).
    cbn [obind].
    rewrite (face_rprev _ _ _ _ V1 A1), (face_lnext _ _ _ _ V1 A4), (face_rprev _ _ _ _ V1 A2), (face_lnext _ _ _ _ V1 A3).
    rewrite (face_rprev _ _ _ _ V2 B2), (face_lnext _ _ _ _ V2 B3), (face_rprev _ _ _ _ V2 B1), (face_lnext _ _ _ _ V2 B4).
    unfold weighted, edge_mask. cbn. rewrite !Hg by assumption. ring. }
  destruct k as [[]|[]]; cbn [new_mask]; try (apply HL); try exact HLo; try (apply HB; reflexivity). congruence.
Qed.

Lemma ring_same v : no_wire m1 -> no_wire m2 -> oget v (pts m1) <> None -> Permutation (ring m2 (r v)) (map r (ring m1 v)).
Proof.
  intros W1 W2 Hp. apply NoDup_Permutation.
  - apply (v_ring_nodup _ V2).
  - apply NoDup_map_in; [|apply (v_ring_nodup _ V1)]. intros x y Hx Hy E.
    apply (ss_inj m1 m2 r r' HS); [apply (v_ring_pts _ V1 v x Hx)|apply (v_ring_pts _ V1 v y Hy)|exact E].
  - intros y. rewrite in_map_iff. split.
    + intros Hy. assert (Py : oget y (pts m2) <> None) by (apply (v_ring_pts _ V2 (r v)); exact Hy).
      destruct (ss_has m2 m1 r' r (same_sym _ _ _ _ HS) y Py) as [P1 E]. exists (r' y). split; [exact E|].
      apply (ss_joined m1 m2 r r' V1 V2 HS v (r' y) W1 W2 Hp P1). rewrite E. exact Hy.
    + intros [x [<- Hx]]. apply (ss_joined m1 m2 r r' V1 V2 HS v x W1 W2 Hp); [apply (v_ring_pts _ V1 v x Hx)|exact Hx].
Qed.

Lemma border_same v : no_wire m1 -> no_wire m2 -> oget v (pts m1) <> None ->
  Permutation (filter (fun w => is_at_border m2 (r v, w)) (ring m2 (r v))) (map r (filter (fun w => is_at_border m1 (v, w)) (ring m1 v))).
Proof.
  intros W1 W2 Hp. destruct (filter_border m1 v V1) as [N1 H1]. destruct (filter_border m2 (r v) V2) as [N2 H2].
  assert (Hb : forall x, border_edge m1 v x -> oget x (pts m1) <> None) by (intros x [J _]; apply (v_ring_pts _ V1 v x J)).
  apply NoDup_Permutation; [exact N2| |].
  - apply NoDup_map_in; [|exact N1]. intros x y Hx Hy E. apply H1 in Hx. apply H1 in Hy. apply (ss_inj m1 m2 r r' HS); auto.
  - intros y. rewrite H2, in_map_iff. split.
    + intros Hy. assert (Py : oget y (pts m2) <> None) by (destruct Hy as [J _]; apply (v_ring_pts _ V2 (r v)); exact J).
      destruct (ss_has m2 m1 r' r (same_sym _ _ _ _ HS) y Py) as [P1 E]. exists (r' y). split; [exact E|]. apply H1.
      apply (ss_border m1 m2 r r' V1 V2 HS v (r' y) W1 W2 Hp P1). rewrite E. exact Hy.
    + intros [x [<- Hx]]. apply H1 in Hx. apply (ss_border m1 m2 r r' V1 V2 HS v x W1 W2 Hp); auto.
Qed.

Lemma vertex_same v : no_wire m1 -> no_wire m2 -> oget v (pts m1) <> None -> weighted (vertex_mask m2 (r v)) g2 = weighted (vertex_mask m1 v) g1.
Proof.
  intros W1 W2 Hp. pose proof (ring_same v W1 W2 Hp) as PR. pose proof (border_same v W1 W2 Hp) as PB. unfold vertex_mask.
  set (B1 := filter (fun w => is_at_border m1 (v, w)) (ring m1 v)) in *. set (B2 := filter (fun w => is_at_border m2 (r v, w)) (ring m2 (r v))) in *.
  assert (EN : is_nil B2 = is_nil B1).
  { pose proof (Permutation_length PB) as L. rewrite map_length in L. destruct B1, B2; cbn in L; try discriminate; reflexivity. }
  pose proof (Permutation_length PR) as LR. rewrite map_length in LR. rewrite EN, LR. destruct (is_nil B1).
  - rewrite !weighted_ring, (rsum_perm g2 _ _ PR), rsum_map, Hg by exact Hp. f_equal. f_equal. apply rsum_ext. intros x Hx. apply Hg. apply (v_ring_pts _ V1 v x Hx).
  - rewrite !weighted_ring, (rsum_perm g2 _ _ PB), rsum_map, Hg by exact Hp. f_equal. f_equal. apply rsum_ext. intros x Hx. apply Hg.
    unfold B1 in Hx. apply filter_In in Hx. apply (v_ring_pts _ V1 v x (proj1 Hx)).
Qed.
End MASK.

(** ** One run of a face-split filter: from the first mesh to the second *)
Section STEP.
Context {d : nat} {D : Type}.
Notation mesh := (mesh (RO d) D).
Variables (k : kind) (f1 f2 g1 g2 : fstate) (m1 m2 out1 out2 : mesh) (r r' : N -> N) (n1 n2 : nat).
Variables (mid1 mid2 : N -> N -> option N) (Ls1 Ls2 : list (list tri)).
Hypothesis (V1 : valid m1) (V2 : valid m2) (D1 : dense m1) (D2 : dense m2) (R1 : ready k f1 m1) (R2 : ready k f2 m2).
Hypothesis (HS : turned r r' m1 m2).
Hypothesis (E1 : update k n1 f1 m1 = Ok (g1, out1)) (E2 : update k n2 f2 m2 = Ok (g2, out2)).
Hypothesis (F1 : face_result k f1 m1 g1 out1 mid1 Ls1) (F2 : face_result k f2 m2 g2 out2 mid2 Ls2).
Hypothesis (HD : same_edges_split r k f1 m1 f2 m2).
Hypothesis (HA : forall a b, In (a, b) (dirs (tris m1)) -> to_split k f1 m1 a b).
Hypothesis (U1 : unambiguous (scheme_of k) m1) (U2 : unambiguous (scheme_of k) m2).
Hypothesis (HL : k = CellF CLoop -> forall x, oget x (pts m1) <> None -> smooths f1 x = smooths f2 (r x)).

Let q := carry r (osize (pts m1)) (inserted k f1 m1) (osize (pts m2)) (inserted k f2 m2).

Lemma q_old x : oget x (pts m1) <> None -> q x = r x.
Proof. intros H. unfold q, carry. apply D1 in H. apply N.ltb_lt in H. rewrite H. reflexivity. Qed.

Lemma mid_pts a b x : mid1 a b = Some x -> oget a (pts m1) <> None /\ oget b (pts m1) <> None.
Proof.
  intros H. destruct (fr_new _ _ _ _ _ _ _ F1 a b x H) as [e [p [Hu [Hi _]]]]. pose proof (ins_dirs m1 k f1 e V1 Hi R1) as J.
  destruct (joined_pts m1 V1 _ _ J) as [P1 P2]. destruct e as [u v]. cbn [fst snd] in *. destruct Hu as [Hu|Hu]; injection Hu as -> ->; auto.
Qed.

Lemma q_mid a b x : mid1 a b = Some x -> mid2 (r a) (r b) = Some (q x).
Proof.
  intros E. destruct (mid_pts a b x E) as [Pa Pb].
  assert (H2 : mid2 (r a) (r b) <> None).
  { apply (sd_dom _ _ _ _ _ (fr_sub _ _ _ _ _ _ _ F2)). apply (HD a b Pa Pb). apply (sd_dom _ _ _ _ _ (fr_sub _ _ _ _ _ _ _ F1)). congruence. }
  destruct (mid2 (r a) (r b)) as [y|] eqn:Ey; [|congruence]. f_equal.
  rewrite (fr_mid _ _ _ _ _ _ _ F1) in E. rewrite (fr_mid _ _ _ _ _ _ _ F2) in Ey.
  pose proof (inserted_udistinct k f1 m1 V1 R1) as U. apply (sp_Some _ _ _ _ _ U) in E. destruct E as [Hx [e [He Hu]]].
  unfold q, carry. destruct (N.ltb_spec x (osize (pts m1))); [lia|]. rewrite He.
  assert (Es : sp (osize (pts m2)) (inserted k f2 m2) (r (fst e)) (r (snd e)) = Some y).
  { destruct e as [u v]. cbn [fst snd]. destruct Hu as [Hu|Hu]; cbn in Hu; injection Hu as -> ->; [exact Ey|].
    rewrite sp_sym_any. exact Ey. }
  rewrite Es. reflexivity.
Qed.

Lemma mid_same a b : oget a (pts m1) <> None -> oget b (pts m1) <> None -> mid2 (r a) (r b) = option_map q (mid1 a b).
Proof.
  intros Pa Pb. destruct (mid1 a b) as [x|] eqn:E; cbn [option_map]; [apply q_mid; exact E|].
  destruct (mid2 (r a) (r b)) as [y|] eqn:Ey; [exfalso|reflexivity].
  assert (H : mid2 (r a) (r b) <> None) by congruence. apply (sd_dom _ _ _ _ _ (fr_sub _ _ _ _ _ _ _ F2)) in H. apply (HD a b Pa Pb) in H.
  apply (sd_dom _ _ _ _ _ (fr_sub _ _ _ _ _ _ _ F1)) in H. congruence.
Qed.

Lemma split_face (O' : Ops) (D' : Type) (m : Mesh.mesh O' D') kk ff gg (o : Mesh.mesh O' D') mid Ls t w : face_result kk ff m gg o mid Ls -> In t (tris m) -> In w (split_tri mid t) -> In w (tris o).
Proof.
  intros F Ht Hw. rewrite (sd_tris _ _ _ _ _ (fr_sub _ _ _ _ _ _ _ F)), (fr_Ls _ _ _ _ _ _ _ F). apply in_concat.
  exists (split_tri mid t). split; [apply in_map; exact Ht|exact Hw].
Qed.

Lemma tri_face a b c : In (a, b, c) (tris out1) -> is_face out2 (q a) (q c) (q b).
Proof.
  intros H. rewrite (sd_tris _ _ _ _ _ (fr_sub _ _ _ _ _ _ _ F1)), (fr_Ls _ _ _ _ _ _ _ F1) in H. apply in_concat in H.
  destruct H as [L [HL1 Hw]]. apply in_map_iff in HL1. destruct HL1 as [[[x y] z] [<- Ht]]. cbn [split_tri] in Hw.
  assert (Fx : is_face m1 x y z) by (left; exact Ht). destruct (face_pts m1 V1 _ _ _ Fx) as [Px [Py Pz]].
  assert (Hm : In (tmap q (a, b, c)) (split_triangle (r x) (r y) (r z) (mid2 (r x) (r y)) (mid2 (r y) (r z)) (mid2 (r z) (r x)))).
  { rewrite (mid_same x y Px Py), (mid_same y z Py Pz), (mid_same z x Pz Px), <- (q_old x Px), <- (q_old y Py), <- (q_old z Pz), split_triangle_map.
    apply in_map. exact Hw. }
  cbn [tmap] in Hm.
  assert (HA' : forall u v, In (u, v) (dirs (tris m1)) -> exists w, mid2 (r u) (r v) = Some w /\ mid2 (r v) (r u) = Some w).
  { intros u v Huv. apply HA in Huv. apply (sd_dom _ _ _ _ _ (fr_sub _ _ _ _ _ _ _ F1)) in Huv.
    destruct (mid1 u v) as [w|] eqn:Ew; [|congruence]. exists (q w). apply q_mid in Ew. split; [exact Ew|].
    rewrite (sd_sym _ _ _ _ _ (fr_sub _ _ _ _ _ _ _ F2)). exact Ew. }
  destruct (HA' x y) as [e0 [M0 M0']]; [apply (is_face_dir _ _ _ _ Fx)|]. destruct (HA' y z) as [e1 [M1 M1']]; [apply (is_face_dir _ _ _ x); apply is_face_rot; exact Fx|].
  destruct (HA' z x) as [e2 [M2 M2']]; [apply (is_face_dir _ _ _ y); apply is_face_rot, is_face_rot; exact Fx|]. rewrite M0, M1, M2 in Hm.
  assert (G : is_face m2 (r x) (r z) (r y)) by (apply (tu_faces _ _ _ _ HS); exact Fx).
  assert (S2 : forall t w, In t (tris m2) -> In w (split_tri mid2 t) -> In w (tris out2)) by (intros t w T1 T2; eapply split_face; eauto).
  destruct G as [G|[G|G]]; pose proof (fun w => S2 _ w G) as S3; cbn [split_tri] in S3; rewrite M0', M1', M2' in S3;
    cbn in Hm, S3; destruct Hm as [Hm|[Hm|[Hm|[Hm|[]]]]]; injection Hm as <- <- <-; unfold is_face;
    first [left; apply S3; tauto | right; left; apply S3; tauto | right; right; apply S3; tauto].
Qed.

Lemma new_case x : oget x (pts out1) <> None -> oget x (pts m1) = None -> exists a b, mid1 a b = Some x.
Proof. intros H1 H2. apply (sd_new _ _ _ _ _ (fr_sub _ _ _ _ _ _ _ F1)). auto. Qed.

Lemma q_has x : oget x (pts out1) <> None -> oget (q x) (pts out2) <> None.
Proof.
  intros H. destruct (oget x (pts m1)) as [p|] eqn:Ex.
  - assert (Px : oget x (pts m1) <> None) by congruence. rewrite (q_old x Px). apply (sd_old _ _ _ _ _ (fr_sub _ _ _ _ _ _ _ F2)).
    apply (ss_has m1 m2 r r' HS x Px).
  - destruct (new_case x H Ex) as [a [b Hm]]. apply q_mid in Hm.
    apply (sd_new _ _ _ _ _ (fr_sub _ _ _ _ _ _ _ F2) (q x)). eauto.
Qed.

Lemma out_mask_same c x : oget x (pts out1) <> None ->
  weighted (out_mask k f2 m2 (q x)) (fun y => lin c (ptof m2 y)) = weighted (out_mask k f1 m1 x) (fun y => lin c (ptof m1 y)).
Proof.
  intros H. set (h1 := fun y => lin c (ptof m1 y)). set (h2 := fun y => lin c (ptof m2 y)).
  assert (Hg : forall y, oget y (pts m1) <> None -> h2 (r y) = h1 y).
  { intros y Hy. unfold h1, h2. destruct (oget y (pts m1)) as [p|] eqn:Ey; [|congruence].
    destruct (tu_pts _ _ _ _ HS y p Ey) as [E _]. rewrite (ptof_get m1 y p Ey), (ptof_get m2 (r y) p E). reflexivity. }
  assert (Hk : k <> CellF CSqrt3) by apply R1.
  destruct (oget x (pts m1)) as [p|] eqn:Ex.
  - assert (Px : oget x (pts m1) <> None) by congruence. rewrite (q_old x Px). destruct (ss_has m1 m2 r r' HS x Px) as [Px2 _].
    unfold out_mask. assert (L1 : (x <? osize (pts m1)) = true) by (apply N.ltb_lt; apply D1; exact Px).
    assert (L2 : (r x <? osize (pts m2)) = true) by (apply N.ltb_lt; apply D2; exact Px2). rewrite L1, L2.
    assert (H1 : weighted [(1%R, r x)] h2 = weighted [(1%R, x)] h1) by (unfold weighted; cbn; rewrite Hg by exact Px; reflexivity).
    destruct (kind_eq_dec k (CellF CLoop)) as [Ek|Ek].
    + rewrite Ek. rewrite (HL Ek x Px). destruct (smooths f2 (r x)); [|exact H1].
      rewrite Ek in U1, U2. cbn in U1, U2. apply (vertex_same m1 m2 r r' V1 V2 HS h1 h2 Hg); [apply U1|apply U2|exact Px].
    + destruct k as [[]|]; try exact H1. congruence.
  - destruct (new_case x H Ex) as [a [b Hm]]. destruct (mid_pts _ _ _ Hm) as [Pa Pb]. pose proof (q_mid a b x Hm) as Hm2.
    pose proof (inserted_udistinct k f1 m1 V1 R1) as UD1. pose proof (inserted_udistinct k f2 m2 V2 R2) as UD2.
    rewrite (fr_mid _ _ _ _ _ _ _ F1) in Hm. rewrite (fr_mid _ _ _ _ _ _ _ F2) in Hm2.
    apply (sp_Some _ _ _ _ _ UD1) in Hm. apply (sp_Some _ _ _ _ _ UD2) in Hm2.
    destruct Hm as [G1 [e1 [N1 Q1]]], Hm2 as [G2 [e2 [N2 Q2]]]. unfold out_mask.
    destruct (N.ltb_spec x (osize (pts m1))); [lia|]. destruct (N.ltb_spec (q x) (osize (pts m2))); [lia|]. rewrite N1, N2.
    pose proof (ins_dirs m1 k f1 e1 V1 (nth_error_In _ _ N1) R1) as J1. pose proof (ins_dirs m2 k f2 e2 V2 (nth_error_In _ _ N2) R2) as J2.
    destruct e1 as [u v]. cbn [fst snd] in J1. destruct (joined_pts m1 V1 _ _ J1) as [Pu Pv].
    assert (HB : scheme_of k = CButterfly -> closed m1 /\ closed m2 /\ In (u, v) (dirs (tris m1))).
    { intros E. rewrite E in U1, U2. cbn in U1, U2. destruct U1 as [C1 W1], U2 as [C2 W2]. split; [exact C1|]. split; [exact C2|].
      destruct (W1 _ _ J1) as [X|X]; [exact X|apply C1; exact X]. }
    rewrite <- (mask_same m1 m2 r r' V1 V2 HS h1 h2 Hg k u v Hk Pu Pv HB).
    assert (Hcase : e2 = (r u, r v) \/ e2 = (r v, r u)).
    { destruct e2 as [s t]. unfold undirected_eq in Q1, Q2. cbn [fst snd] in Q1, Q2.
      destruct Q1 as [Q1|Q1]; injection Q1 as -> ->; destruct Q2 as [Q2|Q2]; injection Q2 as -> ->; auto. }
    destruct Hcase as [->| ->]; [|reflexivity]. apply (mask_sym k m2 (r u) (r v) h2 V2 J2).
    intros E. destruct (HB E) as [_ [C2 X]]. apply (ss_dir m1 m2 r r' HS u v Pu Pv) in X.
    assert (I : interior_edge m2 (r u) (r v)) by (split; [apply C2; exact X|exact X]). exact (closed_away m2 _ _ C2 I).
Qed.

Lemma q_point x p : oget x (pts out1) = Some p -> oget (q x) (pts out2) = Some p.
Proof.
  intros Hp. assert (Hx : oget x (pts out1) <> None) by congruence. pose proof (q_has x Hx) as Hq.
  destruct (oget (q x) (pts out2)) as [p2|] eqn:Ep; [|congruence]. f_equal. symmetry.
  pose proof (out_ptof_length k f1 m1 n1 g1 out1 x V1 D1 R1 E1) as L1.
  assert (Hq2 : oget (q x) (pts out2) <> None) by congruence.
  pose proof (out_ptof_length k f2 m2 n2 g2 out2 (q x) V2 D2 R2 E2) as L2.
  rewrite (ptof_get _ _ _ Hp) in L1. rewrite (ptof_get _ _ _ Ep) in L2.
  apply (point_ext (d := d)); [exact L1|exact L2|]. intros c.
  rewrite <- (ptof_get _ _ _ Hp), <- (ptof_get _ _ _ Ep).
  rewrite (out_lin c k f1 m1 n1 g1 out1 x V1 D1 R1 E1 Hx), (out_lin c k f2 m2 n2 g2 out2 (q x) V2 D2 R2 E2 Hq2).
  symmetry. apply out_mask_same. exact Hx.
Qed.
Lemma q_face a b c : is_face out1 a b c -> is_face out2 (q a) (q c) (q b).
Proof. intros [H|[H|H]]; apply tri_face in H; unfold is_face in *; tauto. Qed.
End STEP.

Lemma split_back {d D} r r' k f1 (m1 : mesh (RO d) D) f2 m2 : turned r r' m1 m2 -> same_edges_split r k f1 m1 f2 m2 -> same_edges_split r' k f2 m2 f1 m1.
Proof.
  intros HS HD a b Pa Pb. destruct (ss_has m2 m1 r' r (same_sym _ _ _ _ HS) a Pa) as [Qa Ea], (ss_has m2 m1 r' r (same_sym _ _ _ _ HS) b Pb) as [Qb Eb].
  rewrite (HD _ _ Qa Qb), Ea, Eb. tauto.
Qed.

Lemma same_run {d D} k (m1 m2 : mesh (RO d) D) f1 f2 g1 g2 out1 out2 r r' n1 n2 :
  valid m1 -> valid m2 -> dense m1 -> dense m2 -> ready k f1 m1 -> ready k f2 m2 -> turned r r' m1 m2 ->
  update k n1 f1 m1 = Ok (g1, out1) -> update k n2 f2 m2 = Ok (g2, out2) -> same_edges_split r k f1 m1 f2 m2 ->
  (forall a b, In (a, b) (dirs (tris m1)) -> to_split k f1 m1 a b) ->
  unambiguous (scheme_of k) m1 -> unambiguous (scheme_of k) m2 ->
  (k = CellF CLoop -> forall x, oget x (pts m1) <> None -> smooths f1 x = smooths f2 (r x)) ->
  exists q q', turned q q' out1 out2 /\ (forall x, oget x (pts m1) <> None -> q x = r x).
Proof.
  intros V1 V2 D1 D2 R1 R2 HS E1 E2 HD HT U1 U2 HL.
  destruct (face_run k f1 m1 n1 g1 out1 V1 D1 R1 E1) as [mid1 [Ls1 F1]]. destruct (face_run k f2 m2 n2 g2 out2 V2 D2 R2 E2) as [mid2 [Ls2 F2]].
  pose proof (same_sym _ _ _ _ HS) as HS'. pose proof (split_back _ _ _ _ _ _ _ HS HD) as HD'.
  assert (HT' : forall a b, In (a, b) (dirs (tris m2)) -> to_split k f2 m2 a b).
  { intros a b H. assert (P : oget a (pts m2) <> None /\ oget b (pts m2) <> None) by (apply (joined_pts m2 V2); apply (v_face_edges _ V2); exact H).
    destruct P as [Pa Pb]. apply (HD' a b Pa Pb). apply (ss_dir m2 m1 r' r HS' a b Pa Pb) in H. apply HT in H.
    apply (sd_dom _ _ _ _ _ (fr_sub _ _ _ _ _ _ _ F1)) in H. apply (sd_dom _ _ _ _ _ (fr_sub _ _ _ _ _ _ _ F1)).
    rewrite (sd_sym _ _ _ _ _ (fr_sub _ _ _ _ _ _ _ F1)). exact H. }
  assert (HL' : k = CellF CLoop -> forall x, oget x (pts m2) <> None -> smooths f2 x = smooths f1 (r' x)).
  { intros Ek x Px. destruct (ss_has m2 m1 r' r HS' x Px) as [Q E]. rewrite (HL Ek _ Q), E. reflexivity. }
  set (q := carry r (osize (pts m1)) (inserted k f1 m1) (osize (pts m2)) (inserted k f2 m2)).
  set (q' := carry r' (osize (pts m2)) (inserted k f2 m2) (osize (pts m1)) (inserted k f1 m1)).
  assert (Hinv : forall x, oget x (pts out1) <> None -> q' (q x) = x).
  { intros x Hx. destruct (oget x (pts m1)) as [p|] eqn:Ex.
    - assert (Px : oget x (pts m1) <> None) by congruence. destruct (ss_has m1 m2 r r' HS x Px) as [P2 Er].
      unfold q, q'. rewrite (q_old k f1 f2 m1 m2 r D1 x Px), (q_old k f2 f1 m2 m1 r' D2 _ P2). exact Er.
    - destruct (new_case k f1 g1 m1 out1 mid1 Ls1 F1 x Hx Ex) as [a [b Hm]].
      destruct (mid_pts k f1 g1 m1 out1 mid1 Ls1 V1 R1 F1 a b x Hm) as [Pa Pb].
      destruct (ss_has m1 m2 r r' HS a Pa) as [_ Ea], (ss_has m1 m2 r r' HS b Pb) as [_ Eb].
      assert (M2 : mid2 (r a) (r b) = Some (q x)) by (exact (q_mid k f1 f2 g1 g2 m1 m2 out1 out2 r mid1 mid2 Ls1 Ls2 V1 R1 F1 F2 HD HT HL _ _ _ Hm)).
      assert (M1 : mid1 (r' (r a)) (r' (r b)) = Some (q' (q x))) by (exact (q_mid k f2 f1 g2 g1 m2 m1 out2 out1 r' mid2 mid1 Ls2 Ls1 V2 R2 F2 F1 HD' HT' HL' _ _ _ M2)). rewrite Ea, Eb in M1. congruence. }
  assert (Hinv' : forall y, oget y (pts out2) <> None -> q (q' y) = y).
  { intros x Hx. destruct (oget x (pts m2)) as [p|] eqn:Ex.
    - assert (Px : oget x (pts m2) <> None) by congruence. destruct (ss_has m2 m1 r' r HS' x Px) as [P2 Er].
      unfold q, q'. rewrite (q_old k f2 f1 m2 m1 r' D2 x Px), (q_old k f1 f2 m1 m2 r D1 _ P2). exact Er.
    - destruct (new_case k f2 g2 m2 out2 mid2 Ls2 F2 x Hx Ex) as [a [b Hm]].
      destruct (mid_pts k f2 g2 m2 out2 mid2 Ls2 V2 R2 F2 a b x Hm) as [Pa Pb].
      destruct (ss_has m2 m1 r' r HS' a Pa) as [_ Ea], (ss_has m2 m1 r' r HS' b Pb) as [_ Eb].
      assert (M1 : mid1 (r' a) (r' b) = Some (q' x)) by (exact (q_mid k f2 f1 g2 g1 m2 m1 out2 out1 r' mid2 mid1 Ls2 Ls1 V2 R2 F2 F1 HD' HT' HL' _ _ _ Hm)).
      assert (M2 : mid2 (r (r' a)) (r (r' b)) = Some (q (q' x))) by (exact (q_mid k f1 f2 g1 g2 m1 m2 out1 out2 r mid1 mid2 Ls1 Ls2 V1 R1 F1 F2 HD HT HL _ _ _ M1)). rewrite Ea, Eb in M2. congruence. }
  exists q, q'. split.
  - constructor.
    + intros x p Hp. split; [|apply Hinv; congruence]. exact (q_point k f1 f2 g1 g2 m1 m2 out1 out2 r r' n1 n2 mid1 mid2 Ls1 Ls2 V1 V2 D1 D2 R1 R2 HS E1 E2 F1 F2 HD HT U1 U2 HL x p Hp).
    + intros y p Hp. split; [|apply Hinv'; congruence]. exact (q_point k f2 f1 g2 g1 m2 m1 out2 out1 r' r n2 n1 mid2 mid1 Ls2 Ls1 V2 V1 D2 D1 R2 R1 HS' E2 E1 F2 F1 HD' HT' U2 U1 HL' y p Hp).
    + intros a b c H. exact (q_face k f1 f2 g1 g2 m1 m2 out1 out2 r r' mid1 mid2 Ls1 Ls2 V1 D1 R1 HS F1 F2 HD HT HL a b c H).
    + intros a b c H. exact (q_face k f2 f1 g2 g1 m2 m1 out2 out1 r' r mid2 mid1 Ls2 Ls1 V2 D2 R2 HS' F2 F1 HD' HT' HL' a b c H).
  - intros x Px. exact (q_old k f1 f2 m1 m2 r D1 x Px).
Qed.

(** ** The sqrt(3) filter *)
Definition rot (t : tri) (a b c : N) : Prop := t = (a, b, c) \/ t = (b, c, a) \/ t = (c, a, b).
Lemma face_rot {O : Ops} {D : Type} (m : mesh O D) a b c : is_face m a b c -> exists t, In t (tris m) /\ rot t a b c.
Proof. unfold rot. intros [H|[H|H]]; eauto. Qed.
Lemma rot_tdirs t a b c : rot t a b c -> In (a, b) (tdirs t) /\ In (b, c) (tdirs t) /\ In (c, a) (tdirs t).
Proof. intros [->|[->| ->]]; cbn; tauto. Qed.
Lemma picked_rot {O : Ops} {D : Type} (m : mesh O D) sel t a b c : valid m -> In t (tris m) -> rot t a b c -> picked m sel a b c <-> selected m sel t.
Proof.
  intros V Ht Hr. split.
  - intros H. assert (K : exists u, rot u a b c /\ selected m sel u) by (unfold rot; destruct H as [H|[H|H]]; eauto).
    destruct K as [u [Hu Hs]]. assert (Iu : In u (tris m)).
    { destruct Hs as [[_ Hs]|[i [_ Hs]]]; [exact Hs|]. unfold tris. apply (in_map snd) in Hs. exact Hs. }
    assert (E : t = u) by (apply (v_notwin _ V t u Ht Iu); destruct Hr as [->|[->| ->]], Hu as [->|[->| ->]]; unfold same_verts; cbn; intros; tauto).
    rewrite E. exact Hs.
  - intros H. unfold picked. destruct Hr as [->|[->| ->]]; auto.
Qed.

Definition carry3 {O : Ops} {D : Type} (r : N -> N) (f1 : fstate) (m1 : mesh O D) (f2 : fstate) (m2 : mesh O D) (x : N) : N :=
  if x <? osize (pts m1) then r x
  else match nth_error (visited m1 (csel f1)) (N.to_nat (x - osize (pts m1))) with
       | Some (a, b, _) => match cenE (tris m2) (cenm m2 f2) (r b, r a) with Some g => g | None => x end
       | None => x
       end.

Section STEP3.
Context {d : nat} {D : Type}.
Notation mesh := (mesh (RO d) D).
Variables (m1 m2 out1 out2 : mesh) (f1 f2 g1 g2 : fstate) (r r' : N -> N).
Hypothesis (V1 : valid m1) (V2 : valid m2) (D1 : dense m1) (D2 : dense m2) (S1 : NoDup (csel f1)) (S2 : NoDup (csel f2)).
Hypothesis (R1 : root3_result f1 m1 g1 out1 (cenm m1 f1)) (R2 : root3_result f2 m2 g2 out2 (cenm m2 f2)).
Hypothesis HS : turned r r' m1 m2.
Hypothesis HP : forall a b c, is_face m1 a b c -> picked m1 (csel f1) a b c <-> picked m2 (csel f2) (r a) (r c) (r b).
Notation q := (carry3 r f1 m1 f2 m2).

Lemma q3_old x : oget x (pts m1) <> None -> q x = r x.
Proof. intros H. unfold carry3. assert (L : (x <? osize (pts m1)) = true) by (apply N.ltb_lt; apply D1; exact H). rewrite L. reflexivity. Qed.

(** The partner of a triangle and its centre. *)
Lemma partner a b c : In (a, b, c) (tris m1) -> exists t2, In t2 (tris m2) /\ rot t2 (r a) (r c) (r b) /\
  (forall g, cenm m1 f1 (a, b, c) = Some g -> cenm m2 f2 t2 = Some (q g)) /\ (cenm m1 f1 (a, b, c) = None -> cenm m2 f2 t2 = None).
Proof.
  intros Ht. assert (F : is_face m1 a b c) by (left; exact Ht). destruct (face_rot _ _ _ _ (tu_faces _ _ _ _ HS _ _ _ F)) as [t2 [H2 Hr2]].
  exists t2. split; [exact H2|]. split; [exact Hr2|].
  assert (HSel : selected m1 (csel f1) (a, b, c) <-> selected m2 (csel f2) t2).
  { rewrite <- (picked_rot m2 _ t2 _ _ _ V2 H2 Hr2), <- (HP _ _ _ F), (picked_rot m1 _ (a, b, c) a b c V1 Ht); [tauto|left; reflexivity]. }
  pose proof (r3_dom _ _ _ _ (rr_sub _ _ _ _ _ R1) _ Ht) as X1. pose proof (r3_dom _ _ _ _ (rr_sub _ _ _ _ _ R2) _ H2) as X2. split.
  - intros g Hg. assert (Hs : selected m2 (csel f2) t2) by (apply HSel; apply X1; congruence). apply X2 in Hs.
    destruct (cenm m2 f2 t2) as [h|] eqn:Eh; [|congruence]. f_equal.
    apply cenm_Some in Hg; auto. destruct Hg as [i [Hi ->]]. unfold carry3.
    destruct (N.ltb_spec (osize (pts m1) + N.of_nat i) (osize (pts m1))); [lia|].
    replace (N.to_nat (osize (pts m1) + N.of_nat i - osize (pts m1))) with i by lia. rewrite Hi.
    rewrite (cenE_face _ _ _ (cenm_centring m2 f2 V2 D2 S2) t2 _ H2 (proj2 (proj2 (rot_tdirs _ _ _ _ Hr2)))), Eh. reflexivity.
  - intros Hn. destruct (cenm m2 f2 t2) as [h|]; [|reflexivity]. exfalso.
    assert (Hs : selected m2 (csel f2) t2) by (apply X2; congruence). apply HSel in Hs. apply X1 in Hs. congruence.
Qed.
Lemma tri_pts a b c : In (a, b, c) (tris m1) -> oget a (pts m1) <> None /\ oget b (pts m1) <> None /\ oget c (pts m1) <> None.
Proof. intros H. repeat split; apply (v_verts _ V1 _ _ H); cbn; auto. Qed.
Lemma q3_centred a b h : centred m1 (cenm m1 f1) a b h -> centred m2 (cenm m2 f2) (r b) (r a) (q h).
Proof.
  intros [[[x y] z] [Hu [Hd Hc]]]. destruct (partner x y z Hu) as [t2 [H2 [Hr [Hg _]]]]. exists t2. split; [exact H2|].
  destruct (rot_tdirs _ _ _ _ Hr) as [T1 [T2 T3]]. split; [|apply Hg; exact Hc].
  cbn in Hd. destruct Hd as [E|[E|[E|[]]]]; injection E as <- <-; assumption.
Qed.
Lemma q3_back a b h : oget a (pts m1) <> None -> oget b (pts m1) <> None -> centred m2 (cenm m2 f2) (r b) (r a) h ->
  exists g, centred m1 (cenm m1 f1) a b g.
Proof.
  intros Pa Pb [u [Hu [Hd Hc]]]. assert (J : In (a, b) (dirs (tris m1))) by (apply (ss_dir m1 m2 r r' HS a b Pa Pb); apply dirs_tri; eauto).
  apply dirs_tri in J. destruct J as [[[x y] z] [Ht Hd1]]. destruct (partner x y z Ht) as [t2 [H2 [Hr [Hg Hn]]]].
  assert (Ed : In (r b, r a) (tdirs t2)).
  { destruct (rot_tdirs _ _ _ _ Hr) as [T1 [T2 T3]]. cbn in Hd1. destruct Hd1 as [E|[E|[E|[]]]]; injection E as <- <-; assumption. }
  assert (E : t2 = u) by (apply (c_unique _ _ _ (cenm_centring m2 f2 V2 D2 S2) t2 u (r b, r a)); assumption). subst u.
  destruct (cenm m1 f1 (x, y, z)) as [g|] eqn:Eg; [|rewrite (Hn eq_refl) in Hc; discriminate].
  exists g, (x, y, z). auto.
Qed.

Lemma q3_tri a b c : In (a, b, c) (tris out1) -> is_face out2 (q a) (q c) (q b).
Proof.
  intros H. apply (r3_faces _ _ _ _ (rr_sub _ _ _ _ _ R1)) in H. destruct H as [[[x y] z] [Ht H]].
  destruct (partner x y z Ht) as [t2 [H2 [Hr [Hg Hn]]]]. destruct (tri_pts _ _ _ Ht) as [Px [Py Pz]].
  assert (Pd : forall u v, In (u, v) (tdirs (x, y, z)) -> oget u (pts m1) <> None /\ oget v (pts m1) <> None /\ In (r v, r u) (tdirs t2)).
  { destruct (rot_tdirs _ _ _ _ Hr) as [T1 [T2 T3]]. intros u v Hd. cbn in Hd. destruct Hd as [E|[E|[E|[]]]]; injection E as <- <-; auto. }
  assert (FF := r3_faces _ _ _ _ (rr_sub _ _ _ _ _ R2)).
  destruct H as [[Hc E]|[[g [u [v [Hc [Hd [Hno E]]]]]]|[g [h [u [v [Hc [Hd [Hce E]]]]]]]]].
  - injection E as -> -> ->. assert (I : In t2 (tris out2)) by (apply FF; exists t2; split; [exact H2|left; split; [apply Hn; exact Hc|reflexivity]]).
    rewrite !q3_old by assumption. unfold is_face. destruct Hr as [->|[->| ->]]; auto.
  - injection E as -> -> ->. destruct (Pd _ _ Hd) as [Pu [Pv Hd2]]. rewrite (q3_old u Pu), (q3_old v Pv). right; right. apply FF. exists t2. split; [exact H2|].
    right; left. exists (q g), (r v), (r u). split; [apply Hg; exact Hc|]. split; [exact Hd2|]. split; [|reflexivity].
    intros h Hh. apply q3_back in Hh; auto. destruct Hh as [g' Hg']. exact (Hno _ Hg').
  - injection E as -> -> ->. destruct (Pd _ _ Hd) as [Pu [Pv Hd2]]. rewrite (q3_old v Pv). right; right. apply FF.
    assert (Hce2 : centred m2 (cenm m2 f2) (r v) (r u) (q g)) by (apply q3_centred; exists (x, y, z); auto).
    apply q3_centred in Hce. destruct Hce as [t3 [H3 [Hd3 Hc3]]]. exists t3. split; [exact H3|].
    right; right. exists (q h), (q g), (r u), (r v). auto.
Qed.
Lemma q3_face a b c : is_face out1 a b c -> is_face out2 (q a) (q c) (q b).
Proof. intros [H|[H|H]]; apply q3_tri in H; unfold is_face in *; tauto. Qed.

Lemma new_case3 x : oget x (pts out1) <> None -> oget x (pts m1) = None -> exists t, In t (tris m1) /\ cenm m1 f1 t = Some x.
Proof. intros H1 H2. apply (r3_new _ _ _ _ (rr_sub _ _ _ _ _ R1)). auto. Qed.
Lemma q3_cpt a b c t2 : In (a, b, c) (tris m1) -> In t2 (tris m2) -> rot t2 (r a) (r c) (r b) -> cpt m2 t2 = cpt m1 (a, b, c).
Proof.
  intros Ht H2 Hr. destruct (centre_ok m1 _ V1 Ht) as [_ L1]. destruct (centre_ok m2 _ V2 H2) as [_ L2].
  apply (point_ext (d := d)); [exact L2|exact L1|]. intros c'. rewrite (lin_cpt c' m1 a b c V1 Ht). destruct (tri_pts _ _ _ Ht) as [Pa [Pb Pc]].
  assert (Hg : forall y, oget y (pts m1) <> None -> lin c' (ptof m2 (r y)) = lin c' (ptof m1 y)).
  { intros y Hy. destruct (oget y (pts m1)) as [p|] eqn:Ey; [|congruence].
    destruct (tu_pts _ _ _ _ HS y p Ey) as [E _]. rewrite (ptof_get m1 y p Ey), (ptof_get m2 (r y) p E). reflexivity. }
  destruct Hr as [->|[->| ->]]; rewrite (lin_cpt c' m2 _ _ _ V2 H2), !Hg by assumption; lra.
Qed.
Lemma q3_point x p : oget x (pts out1) = Some p -> oget (q x) (pts out2) = Some p.
Proof.
  intros Hp. destruct (oget x (pts m1)) as [p0|] eqn:Ex.
  - rewrite (rr_old _ _ _ _ _ R1 x p0 Ex) in Hp. injection Hp as ->. rewrite q3_old by congruence.
    apply (rr_old _ _ _ _ _ R2). apply (tu_pts _ _ _ _ HS). exact Ex.
  - destruct (new_case3 x) as [[[a b] c] [Ht Hc]]; [congruence|exact Ex|]. rewrite (rr_new _ _ _ _ _ R1 _ _ Ht Hc) in Hp. injection Hp as <-.
    destruct (partner a b c Ht) as [t2 [H2 [Hr [Hg _]]]]. rewrite (rr_new _ _ _ _ _ R2 _ _ H2 (Hg x Hc)). f_equal. eapply q3_cpt; eauto.
Qed.
End STEP3.

Lemma picked_back {d D} r r' (m1 m2 : mesh (RO d) D) f1 f2 : valid m2 -> turned r r' m1 m2 ->
  (forall a b c, is_face m1 a b c -> picked m1 (csel f1) a b c <-> picked m2 (csel f2) (r a) (r c) (r b)) ->
  (forall a b c, is_face m2 a b c -> picked m2 (csel f2) a b c <-> picked m1 (csel f1) (r' a) (r' c) (r' b)).
Proof.
  intros V2 HS HP a b c F. pose proof (same_sym _ _ _ _ HS) as HS'. destruct (face_pts m2 V2 _ _ _ F) as [Pa [Pb Pc]].
  destruct (ss_has m2 m1 r' r HS' a Pa) as [_ Ea], (ss_has m2 m1 r' r HS' b Pb) as [_ Eb], (ss_has m2 m1 r' r HS' c Pc) as [_ Ec].
  rewrite (HP _ _ _ (tu_faces' _ _ _ _ HS _ _ _ F)), Ea, Eb, Ec. tauto.
Qed.

Lemma q3_inv {d D} (m1 m2 out1 out2 : mesh (RO d) D) f1 f2 g1 g2 r r' :
  valid m1 -> valid m2 -> dense m1 -> dense m2 -> NoDup (csel f1) -> NoDup (csel f2) ->
  root3_result f1 m1 g1 out1 (cenm m1 f1) -> root3_result f2 m2 g2 out2 (cenm m2 f2) -> turned r r' m1 m2 ->
  (forall a b c, is_face m1 a b c -> picked m1 (csel f1) a b c <-> picked m2 (csel f2) (r a) (r c) (r b)) ->
  forall x, oget x (pts out1) <> None -> carry3 r' f2 m2 f1 m1 (carry3 r f1 m1 f2 m2 x) = x.
Proof.
  intros V1 V2 D1 D2 S1 S2 R1 R2 HS HP x Hx. pose proof (same_sym _ _ _ _ HS) as HS'. destruct (oget x (pts m1)) as [p|] eqn:Ex.
  - assert (Px : oget x (pts m1) <> None) by congruence. destruct (ss_has m1 m2 r r' HS x Px) as [P2 Er].
    rewrite (q3_old m1 m2 f1 f2 r D1 x Px), (q3_old m2 m1 f2 f1 r' D2 _ P2). exact Er.
  - destruct (new_case3 m1 out1 f1 g1 R1 x Hx Ex) as [[[a b] c] [Ht Hc]].
    assert (C1 : centred m1 (cenm m1 f1) a b x) by (exists (a, b, c); cbn; auto).
    pose proof (q3_centred m1 m2 out1 out2 f1 f2 g1 g2 r r' V1 V2 D2 S1 S2 R1 R2 HS HP a b x C1) as C2.
    pose proof (q3_centred m2 m1 out2 out1 f2 f1 g2 g1 r' r V2 V1 D1 S2 S1 R2 R1 HS' (picked_back _ _ _ _ _ _ V2 HS HP) _ _ _ C2) as C3.
    destruct (tri_pts m1 V1 _ _ _ Ht) as [Pa [Pb _]]. destruct (ss_has m1 m2 r r' HS a Pa) as [_ Ea], (ss_has m1 m2 r r' HS b Pb) as [_ Eb].
    rewrite Ea, Eb in C3. destruct C1 as [u [Hu [Hd Hu2]]], C3 as [v [Hv [Hd' Hv2]]].
    assert (E : u = v) by (apply (c_unique _ _ _ (cenm_centring m1 f1 V1 D1 S1) u v (a, b)); assumption). subst v. congruence.
Qed.

Lemma same_run3 {d D} (m1 m2 : mesh (RO d) D) f1 f2 g1 g2 out1 out2 r r' n1 n2 :
  valid m1 -> valid m2 -> dense m1 -> dense m2 -> ready3 f1 m1 -> ready3 f2 m2 -> turned r r' m1 m2 ->
  update (CellF CSqrt3) n1 f1 m1 = Ok (g1, out1) -> update (CellF CSqrt3) n2 f2 m2 = Ok (g2, out2) ->
  (forall a b c, is_face m1 a b c -> picked m1 (csel f1) a b c <-> picked m2 (csel f2) (r a) (r c) (r b)) ->
  exists q q', turned q q' out1 out2 /\ (forall x, oget x (pts m1) <> None -> q x = r x).
Proof.
  intros V1 V2 D1 D2 Y1 Y2 HS E1 E2 HP. pose proof (root3_run f1 m1 n1 g1 out1 V1 D1 Y1 E1) as R1. pose proof (root3_run f2 m2 n2 g2 out2 V2 D2 Y2 E2) as R2.
  assert (S1 : NoDup (csel f1)) by apply Y1. assert (S2 : NoDup (csel f2)) by apply Y2.
  pose proof (same_sym _ _ _ _ HS) as HS'. pose proof (picked_back _ _ _ _ _ _ V2 HS HP) as HP'.
  exists (carry3 r f1 m1 f2 m2), (carry3 r' f2 m2 f1 m1). split.
  - constructor.
    + intros x p Hp. split; [eapply q3_point; eauto|]. apply (q3_inv m1 m2 out1 out2 f1 f2 g1 g2); auto; congruence.
    + intros x p Hp. split; [eapply q3_point; eauto|]. apply (q3_inv m2 m1 out2 out1 f2 f1 g2 g1); auto; congruence.
    + intros a b c H. eapply (q3_face m1 m2 out1 out2); eauto.
    + intros a b c H. eapply (q3_face m2 m1 out2 out1); eauto.
  - intros x Px. apply q3_old; auto.
Qed.

(** ** Uniform runs and several levels *)
Lemma split_uniform {d D} s f (m : mesh (RO d) D) a b : csel f = [] ->
  to_split (CellF s) f m a b <-> In (a, b) (dirs (tris m)) \/ In (b, a) (dirs (tris m)).
Proof.
  intros Hc. cbn [to_split]. split.
  - intros [t [Ht He]]. rewrite Hc in Ht. destruct Ht as [[_ Ht]|[i [[] _]]]. destruct He as [He|He]; [left|right]; apply dirs_tri; eauto.
  - intros [H|H]; apply dirs_tri in H; destruct H as [t [Ht He]]; exists t; (split; [left; auto|]); [left|right]; exact He.
Qed.
Lemma same_uniform {d D} s f1 f2 (m1 m2 : mesh (RO d) D) r r' : turned r r' m1 m2 -> csel f1 = [] -> csel f2 = [] ->
  same_edges_split r (CellF s) f1 m1 f2 m2.
Proof.
  intros HS C1 C2 a b Pa Pb. rewrite (split_uniform s f1 m1 a b C1), (split_uniform s f2 m2 (r a) (r b) C2).
  rewrite (ss_dir m1 m2 r r' HS a b Pa Pb), (ss_dir m1 m2 r r' HS b a Pb Pa). tauto.
Qed.
Lemma picked_uniform {d D} (m : mesh (RO d) D) a b c : picked m [] a b c <-> is_face m a b c.
Proof.
  unfold picked, selected, is_face. split.
  - intros [[[_ H]|[i [[] _]]]|[[[_ H]|[i [[] _]]]|[[_ H]|[i [[] _]]]]]; auto.
  - intros [H|[H|H]]; auto.
Qed.

Lemma same_uniform_run {d D} s (m1 m2 : mesh (RO d) D) g1 g2 out1 out2 r r' n1 n2 :
  valid m1 -> valid m2 -> dense m1 -> dense m2 -> unambiguous s m1 -> unambiguous s m2 ->
  (s = CSqrt3 -> (nV m1 + nF m1 < 2 ^ 64)%Z /\ (nV m2 + nF m2 < 2 ^ 64)%Z) -> turned r r' m1 m2 ->
  update (CellF s) n1 (fresh []) m1 = Ok (g1, out1) -> update (CellF s) n2 (fresh []) m2 = Ok (g2, out2) ->
  exists q q', turned q q' out1 out2 /\ (forall x, oget x (pts m1) <> None -> q x = r x).
Proof.
  intros V1 V2 D1 D2 U1 U2 H3 HS E1 E2.
  assert (Hk : s = CSqrt3 \/ s <> CSqrt3) by (destruct s; auto; right; discriminate). destruct Hk as [->|Hk].
  - destruct (H3 eq_refl) as [B1 B2].
    apply (same_run3 m1 m2 (fresh []) (fresh []) g1 g2 out1 out2 r r' n1 n2); auto.
    + split; [intros i []|]. split; [constructor|exact B1].
    + split; [intros i []|]. split; [constructor|exact B2].
    + intros a b c F. rewrite !(picked_uniform (d := d)). split; [intros _; apply (tu_faces _ _ _ _ HS); exact F|intros _; exact F].
  - assert (I1 : s = CLoop -> no_isolated m1) by (intros ->; apply U1). assert (I2 : s = CLoop -> no_isolated m2) by (intros ->; apply U2).
    apply (same_run (CellF s) m1 m2 (fresh []) (fresh []) g1 g2 out1 out2 r r' n1 n2); auto.
    + apply ready_uniform; auto.
    + apply ready_uniform; auto.
    + apply (same_uniform s _ _ m1 m2 r r' HS); reflexivity.
    + intros a b H. apply split_uniform; auto.
Qed.

Definition able2 {d D} (s : cscheme) (n : nat) (m : mesh (RO d) D) : Prop := valid m /\ dense m /\ tris m <> [] /\ unambiguous s m /\ fits s n m.
Lemma able2_step {d D} s n (m : mesh (RO d) D) fuel f' out : able2 s (S n) m -> update (CellF s) fuel (fresh []) m = Ok (f', out) ->
  able2 s n out /\ csel f' = [].
Proof.
  intros [Hv [Hd [Hne [Ht Hf]]]] E.
  assert (Hk : s = CSqrt3 \/ s <> CSqrt3) by (destruct s; auto; right; discriminate). destruct Hk as [->|Hk].
  - specialize (Hf eq_refl). assert (Hp : (3 ^ Z.of_nat (S n) = 3 * 3 ^ Z.of_nat n)%Z) by (rewrite Nat2Z.inj_succ, Z.pow_succ_r by lia; reflexivity).
    assert (Hp1 : (1 <= 3 ^ Z.of_nat n)%Z) by (pose proof (Z.pow_pos_nonneg 3 (Z.of_nat n)); lia). rewrite Hp in Hf. assert (HF : (0 <= nF m)%Z) by (unfold nF; lia).
    assert (Hr : ready3 (fresh []) m) by (split; [intros i []|]; split; [constructor|]; nia).
    pose proof (root3_run _ m fuel f' out Hv Hd Hr E) as RR. destruct (rr_valid _ _ _ _ _ RR Hne) as [V1 V2]. split.
    + split; [exact V1|]. split; [exact V2|]. split; [exact (tris_out3 _ _ _ _ _ Hv RR Hne)|]. split; [exact I|].
      intros _. rewrite (rr_nF _ _ _ _ _ RR), (rr_nV _ _ _ _ _ RR), (ksel_all m (fresh []) eq_refl Hv). nia.
    + destruct (csel f') as [|i l] eqn:Ec; [reflexivity|]. exfalso. destruct (proj1 (rr_csel _ _ _ _ _ RR i)) as [Hw _]; [rewrite Ec; cbn; auto|]. apply Hw. reflexivity.
  - assert (Hl : s = CLoop -> no_isolated m) by (intros ->; apply Ht).
    assert (Hr : ready (CellF s) (fresh []) m) by (apply ready_uniform; auto).
    destruct (step_ok _ _ _ _ _ _ Hv Hd Hne Hr E) as [V1 [V2 [V3 [V4 V5]]]]. split.
    + split; [exact V1|]. split; [exact V2|]. split; [exact V3|]. split; [|intros X; contradiction].
      destruct s; cbn [unambiguous] in *; try exact I.
      * destruct Ht as [T1 T2]. auto.
      * split; [|exact V4]. destruct (C06_all_pf _ _ _ _ m fuel f' out Hv Hd Hr E) as [mid [Ls [_ [_ [X _]]]]]. apply X. apply Ht.
    + destruct (face_run _ _ _ _ _ _ Hv Hd Hr E) as [mid [Ls FR]]. destruct (csel f') as [|i l] eqn:Ec; [reflexivity|]. exfalso.
      destruct (proj1 (fr_csel _ _ _ _ _ _ _ FR i)) as [Hw _]; [rewrite Ec; cbn; auto|discriminate].
Qed.
Lemma pipe_lev2 {d D} s n (m : mesh (RO d) D) f out : pipeline s n [] m f out -> able2 s n m -> lev s n m out.
Proof.
  intros H. remember (@nil N) as sel eqn:Es. induction H as [sel m fuel f out E|n sel m fuel f1 m' f out E H IH]; intros A; subst sel.
  - econstructor; [exact E|constructor].
  - destruct (able2_step s n m fuel f1 m' A E) as [A1 C1]. econstructor; [exact E|]. apply (IH C1 A1).
Qed.
Lemma after_lev2 {d D} s n (m out : mesh (RO d) D) : after s n m out -> able2 s n m -> lev s n m out.
Proof.
  intros H A. destruct n as [|n]; [cbn in H; subst; constructor|]. destruct H as [fuel [f H]]. unfold iterative_update in H.
  replace (Nat.max 1 (S n)) with (S n) in H by lia. apply (pipe_lev2 s (S n) m f out); auto. eapply iter_pipe. exact H.
Qed.
Lemma same_lev {d D} s n (m1 m2 out1 out2 : mesh (RO d) D) r r' : lev s n m1 out1 -> lev s n m2 out2 -> able2 s n m1 -> able2 s n m2 -> turned r r' m1 m2 ->
  exists q q', turned q q' out1 out2 /\ (forall x, oget x (pts m1) <> None -> q x = r x).
Proof.
  intros H. revert m2 out2 r r'. induction H as [m|n m1 fuel f m out E H IH]; intros m2 out2 r r' H2 A1 A2 HS.
  - inversion H2; subst. exists r, r'. auto.
  - inversion H2; subst. destruct (able2_step _ _ _ _ _ _ A1 E) as [B1 _]. destruct (able2_step _ _ _ _ _ _ A2 H1) as [B2 _].
    assert (Keep : forall id, oget id (pts m1) <> None -> oget id (pts m) <> None).
    { destruct A1 as [Hv [Hd _]]. destruct (C03_any_filter_pf _ D (CellF s) (fresh []) m1 fuel f m (v_pts_sorted _ Hv) (v_pts_dim _ Hv) Hd E) as [_ [_ [_ K]]]. exact K. }
    assert (Fit : forall x : mesh (RO d) D, able2 s (S n) x -> s = CSqrt3 -> (nV x + nF x < 2 ^ 64)%Z).
    { intros x [_ [_ [_ [_ Hf]]]] Es. specialize (Hf Es). rewrite Nat2Z.inj_succ, Z.pow_succ_r in Hf by lia.
      assert (Hp1 : (1 <= 3 ^ Z.of_nat n)%Z) by (pose proof (Z.pow_pos_nonneg 3 (Z.of_nat n)); lia). assert (HF : (0 <= nF x)%Z) by (unfold nF; lia). nia. }
    destruct A1 as [Va [Da [Na [Ua Fa]]]] eqn:EA1, A2 as [Vb [Db [Nb [Ub Fb]]]] eqn:EA2.
    destruct (same_uniform_run s m1 m2 f f0 m m0 r r' fuel fuel0 Va Vb Da Db Ua Ub) as [q [q' [HQ Hq]]]; auto.
    destruct (IH m0 out2 q q' H3 B1 B2 HQ) as [p [p' [HQ' Hq']]]. exists p, p'. split; [exact HQ'|].
    intros x Px. rewrite (Hq' x (Keep x Px)). apply Hq. exact Px.
Qed.

Lemma C121_pf : forall (d : nat) (D : Type) s n (m1 m2 out1 out2 : mesh (RO d) D) r r',
  valid m1 -> valid m2 -> dense m1 -> dense m2 -> tris m1 <> [] -> unambiguous s m1 -> unambiguous s m2 -> fits s n m1 -> fits s n m2 ->
  turned r r' m1 m2 -> after s n m1 out1 -> after s n m2 out2 ->
  exists q q', turned q q' out1 out2 /\ (forall x, oget x (pts m1) <> None -> q x = r x).
Proof.
  intros d D s n m1 m2 out1 out2 r r' V1 V2 D1 D2 N1 U1 U2 F1 F2 HS A1 A2.
  assert (N2 : tris m2 <> []).
  { intros E. destruct (tris m1) as [|[[a b] c] T] eqn:ET; [congruence|]. assert (F : is_face m1 a b c) by (left; rewrite ET; cbn; auto).
    apply (tu_faces _ _ _ _ HS) in F. unfold is_face in F. rewrite E in F. cbn in F. tauto. }
  assert (B1 : able2 s n m1) by (exact (conj V1 (conj D1 (conj N1 (conj U1 F1))))). assert (B2 : able2 s n m2) by (exact (conj V2 (conj D2 (conj N2 (conj U2 F2))))). 
  apply (same_lev s n m1 m2 out1 out2 r r'); auto; apply after_lev2; auto.
Qed.

Lemma C121_edges_pf : forall (d : nat) (D : Type) s (m1 m2 : mesh (RO d) D) f1 f2 g1 g2 out1 out2 r r' n1 n2,
  valid m1 -> valid m2 -> dense m1 -> dense m2 -> ready (EdgeF s) f1 m1 -> ready (EdgeF s) f2 m2 -> no_wire m1 -> no_wire m2 ->
  unambiguous (scheme_of (EdgeF s)) m1 -> unambiguous (scheme_of (EdgeF s)) m2 ->
  turned r r' m1 m2 -> esel f1 = [] -> esel f2 = [] ->
  update (EdgeF s) n1 f1 m1 = Ok (g1, out1) -> update (EdgeF s) n2 f2 m2 = Ok (g2, out2) ->
  exists q q', turned q q' out1 out2 /\ (forall x, oget x (pts m1) <> None -> q x = r x).
Proof.
  intros d D s m1 m2 f1 f2 g1 g2 out1 out2 r r' n1 n2 V1 V2 D1 D2 R1 R2 W1 W2 U1 U2 HS Z1 Z2 E1 E2.
  apply (same_run (EdgeF s) m1 m2 f1 f2 g1 g2 out1 out2 r r' n1 n2); auto.
  - intros a b Pa Pb. cbn [to_split]. rewrite Z1, Z2. cbn [In]. rewrite (ss_joined m1 m2 r r' V1 V2 HS a b W1 W2 Pa Pb). tauto.
  - intros a b H. cbn [to_split]. left. split; [exact Z1|]. apply (v_face_edges _ V1). exact H.
  - discriminate.
Qed.
