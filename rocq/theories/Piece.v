(** * Piece: a piece of a mesh is subdivided as if it were alone (C119, C120). *)
From Coq Require Import Reals Lra Permutation.
From Verif Require Import Base Mesh Filters Drivers Spec SpecSub SpecGeo SpecRenum SpecRoot3 SpecDrive SpecConv SpecSame Lists AddFace SplitTri Split Points Valid Run Update Struct Count Face FaceProps PtsAny
  Conn Geo GeoProps Renum RenumProps Gaps Cond Root3 Root3Run Root3Main Root3Props Iter Conv.

Definition carry (r : N -> N) (V1 : N) (I1 : list dedge) (V2 : N) (I2 : list dedge) (x : N) : N :=
  if x <? V1 then r x
  else match nth_error I1 (N.to_nat (x - V1)) with
       | Some e => match sp V2 I2 (r (fst e)) (r (snd e)) with Some y => y | None => x end
       | None => x
       end.

Section SURF.
Context {O : Ops} {D : Type}.
Variables (m1 m2 : mesh O D) (r : N -> N).
Hypothesis (V1 : valid m1) (V2 : valid m2) (HS : piece r m1 m2).

Lemma ss_has x : oget x (pts m1) <> None -> oget (r x) (pts m2) <> None.
Proof. intros H. destruct (oget x (pts m1)) as [p|] eqn:E; [|congruence]. rewrite (pc_pts _ _ _ HS x p E). discriminate. Qed.
Lemma ss_inj x y : oget x (pts m1) <> None -> oget y (pts m1) <> None -> r x = r y -> x = y.
Proof. apply (pc_inj _ _ _ HS). Qed.
Lemma face_pts a b c : is_face m1 a b c -> oget a (pts m1) <> None /\ oget b (pts m1) <> None /\ oget c (pts m1) <> None.
Proof.
  intros [H|[H|H]]; repeat split; apply (v_verts _ V1 _ _ H); cbn; auto.
Qed.
Lemma ss_face_iff a b c : oget a (pts m1) <> None -> oget b (pts m1) <> None -> oget c (pts m1) <> None ->
  is_face m1 a b c <-> is_face m2 (r a) (r b) (r c).
Proof.
  intros Ha Hb Hc. split; [apply (pc_faces _ _ _ HS)|]. intros H. destruct (pc_whole _ _ _ HS a _ _ Ha H) as [y [z [E1 [E2 F]]]].
  destruct (face_pts _ _ _ F) as [_ [Py Pz]]. apply ss_inj in E1; auto. apply ss_inj in E2; auto. subst. exact F.
Qed.
(** Neighbours in the second mesh of points of the first are points of the first. *)
Lemma dir_back x v : oget x (pts m1) <> None -> In (r x, v) (dirs (tris m2)) \/ In (v, r x) (dirs (tris m2)) -> exists y, v = r y /\ oget y (pts m1) <> None.
Proof.
  intros Px [H|H]; apply dir_is_face in H; destruct H as [c H].
  - destruct (pc_whole _ _ _ HS x _ _ Px H) as [y [z [E [_ F]]]]. exists y. split; [exact E|apply (face_pts _ _ _ F)].
  - apply is_face_rot in H. destruct (pc_whole _ _ _ HS x _ _ Px H) as [y [z [_ [E F]]]]. exists z. split; [exact E|apply (face_pts _ _ _ F)].
Qed.
Lemma ss_dir a b : oget a (pts m1) <> None -> oget b (pts m1) <> None ->
  In (a, b) (dirs (tris m1)) <-> In (r a, r b) (dirs (tris m2)).
Proof.
  intros Ha Hb. split; intros H.
  - apply dir_is_face in H. destruct H as [c H]. apply (pc_faces _ _ _ HS) in H. eapply is_face_dir; eauto.
  - apply dir_is_face in H. destruct H as [c H]. destruct (pc_whole _ _ _ HS a _ _ Ha H) as [y [z [E1 [E2 F]]]].
    destruct (face_pts _ _ _ F) as [_ [Py Pz]]. apply ss_inj in E1; auto. subst. eapply is_face_dir; eauto.
Qed.
Lemma joined_pts a b : joined m1 a b -> oget a (pts m1) <> None /\ oget b (pts m1) <> None.
Proof. intros H. split; [apply (v_ring_pts _ V1 b); apply (v_ring_sym _ V1); exact H|apply (v_ring_pts _ V1 a); exact H]. Qed.
Lemma ss_joined a b : no_wire m1 -> no_wire m2 -> oget a (pts m1) <> None -> oget b (pts m1) <> None ->
  joined m1 a b <-> joined m2 (r a) (r b).
Proof.
  intros W1 W2 Ha Hb. split; intros H.
  - apply W1 in H. destruct H as [H|H]; apply ss_dir in H; auto; apply (v_face_edges _ V2) in H; [exact H|apply (v_ring_sym _ V2); exact H].
  - apply W2 in H. destruct H as [H|H]; apply ss_dir in H; auto; apply (v_face_edges _ V1) in H; [exact H|apply (v_ring_sym _ V1); exact H].
Qed.
Lemma ss_border a b : no_wire m1 -> no_wire m2 -> oget a (pts m1) <> None -> oget b (pts m1) <> None ->
  border_edge m1 a b <-> border_edge m2 (r a) (r b).
Proof.
  intros W1 W2 Ha Hb. unfold border_edge. rewrite (ss_joined a b W1 W2 Ha Hb), (ss_dir a b Ha Hb), (ss_dir b a Hb Ha). tauto.
Qed.
Lemma ss_left a b : oget a (pts m1) <> None -> oget b (pts m1) <> None -> left_set m1 (a, b) = left_set m2 (r a, r b).
Proof.
  intros Ha Hb. pose proof (valid_left m1 (a, b) V1) as L1. pose proof (valid_left m2 (r a, r b) V2) as L2. pose proof (ss_dir a b Ha Hb) as H.
  destruct (left_set m1 (a, b)), (left_set m2 (r a, r b)); try reflexivity; exfalso; intuition congruence.
Qed.
End SURF.

(** ** Masks *)
Section MASK.
Context {d : nat} {D : Type}.
Notation mesh := (mesh (RO d) D).
Variables (m1 m2 : mesh) (r : N -> N).
Hypothesis (V1 : valid m1) (V2 : valid m2) (HS : piece r m1 m2).
Variable g1 g2 : N -> R.
Hypothesis Hg : forall x, oget x (pts m1) <> None -> g2 (r x) = g1 x.

Lemma face_back a b : oget a (pts m1) <> None -> oget b (pts m1) <> None -> In (a, b) (dirs (tris m1)) ->
  exists c, is_face m1 a b c /\ is_face m2 (r a) (r b) (r c) /\ oget c (pts m1) <> None.
Proof.
  intros Ha Hb H. apply dir_is_face in H. destruct H as [c H]. exists c. split; [exact H|]. split; [apply (pc_faces _ _ _ HS); exact H|].
  apply (face_pts m1 V1 _ _ _ H).
Qed.

Lemma mask_same k a b : k <> CellF CSqrt3 -> oget a (pts m1) <> None -> oget b (pts m1) <> None ->
  (scheme_of k = CButterfly -> closed m1 /\ In (a, b) (dirs (tris m1))) ->
  weighted (new_mask k m2 (r a, r b)) g2 = weighted (new_mask k m1 (a, b)) g1.
Proof.
  intros Hk Ha Hb Hc.
  assert (HL : forall w, weighted (edge_mask w (r a, r b)) g2 = weighted (edge_mask w (a, b)) g1).
  { intros w. unfold weighted, edge_mask. cbn. rewrite !Hg by assumption. reflexivity. }
  assert (HLo : weighted (loop_mask m2 (r a, r b)) g2 = weighted (loop_mask m1 (a, b)) g1).
  { unfold loop_mask. assert (Ei : is_internal m2 (r a, r b) = is_internal m1 (a, b)).
    { unfold is_internal, right_set, sym. cbn [fst snd]. rewrite (ss_left m1 m2 r V1 V2 HS a b Ha Hb), (ss_left m1 m2 r V1 V2 HS b a Hb Ha). reflexivity. }
    rewrite Ei. destruct (is_internal m1 (a, b)) eqn:E; [|apply HL].
    unfold is_internal, right_set, sym in E. cbn [fst snd] in E. apply andb_prop in E. destruct E as [E1 E2].
    apply (valid_left _ _ V1) in E1. apply (valid_left _ _ V1) in E2.
    destruct (face_back a b Ha Hb E1) as [x [F1 [G1 X1]]]. destruct (face_back b a Hb Ha E2) as [y [F2 [G2 X2]]].
    rewrite (face_lnext _ _ _ _ V1 F1), (face_rprev _ _ _ _ V1 F2), (face_lnext _ _ _ _ V2 G1), (face_rprev _ _ _ _ V2 G2).
    unfold weighted, edge_mask. cbn. rewrite !Hg by assumption. reflexivity. }
  assert (HB : scheme_of k = CButterfly -> weighted (butterfly_mask m2 (r a, r b)) g2 = weighted (butterfly_mask m1 (a, b)) g1).
  { intros Es. destruct (Hc Es) as [C1 Hin]. pose proof (C1 _ _ Hin) as Hin'.
    destruct (face_back a b Ha Hb Hin) as [x [F1 [G1 X1]]]. destruct (face_back b a Hb Ha Hin') as [y [F2 [G2 X2]]].
    assert (W : forall u v w, is_face m1 u v w -> exists z, is_face m1 v u z /\ is_face m2 (r v) (r u) (r z) /\ oget z (pts m1) <> None).
    { intros u v w F. destruct (face_pts m1 V1 _ _ _ F) as [P1 [P2 _]]. apply face_back; auto. apply C1. eapply is_face_dir; eauto. }
    destruct (W b x a) as [w1 [A1 [B1 Y1]]]; [apply is_face_rot; exact F1|].
    destruct (W x a b) as [w2 [A2 [B2 Y2]]]; [apply is_face_rot, is_face_rot; exact F1|].
    destruct (W a y b) as [w3 [A3 [B3 Y3]]]; [apply is_face_rot; exact F2|].
    destruct (W y b a) as [w4 [A4 [B4 Y4]]]; [apply is_face_rot, is_face_rot; exact F2|].
    unfold butterfly_mask.
    rewrite (face_lnext _ _ _ _ V1 F1), (face_rprev _ _ _ _ V1 F2), (face_lnext _ _ _ _ V2 G1), (face_rprev _ _ _ _ V2 G2).
    rewrite (face_lprev _ _ _ _ V1 F1), (face_rnext _ _ _ _ V1 F2), (face_lprev _ _ _ _ V2 G1), (face_rnext _ _ _ _ V2 G2).
    cbn [obind].
    rewrite (face_rprev _ _ _ _ V1 A1), (face_lnext _ _ _ _ V1 A4), (face_rprev _ _ _ _ V1 A2), (face_lnext _ _ _ _ V1 A3).
    rewrite (face_rprev _ _ _ _ V2 B1), (face_lnext _ _ _ _ V2 B4), (face_rprev _ _ _ _ V2 B2), (face_lnext _ _ _ _ V2 B3).
    unfold weighted, edge_mask. cbn. rewrite !Hg by assumption. reflexivity. }
  destruct k as [[]|[]]; cbn [new_mask]; try (apply HL); try exact HLo; try (apply HB; reflexivity). congruence.
Qed.

Lemma ring_same v : no_wire m1 -> no_wire m2 -> oget v (pts m1) <> None -> Permutation (ring m2 (r v)) (map r (ring m1 v)).
Proof.
  intros W1 W2 Hp. apply NoDup_Permutation.
  - apply (v_ring_nodup _ V2).
  - apply NoDup_map_in; [|apply (v_ring_nodup _ V1)]. intros x y Hx Hy E.
    apply (ss_inj m1 m2 r HS); [apply (v_ring_pts _ V1 v x Hx)|apply (v_ring_pts _ V1 v y Hy)|exact E].
  - intros y. rewrite in_map_iff. split.
    + intros Hy. destruct (dir_back m1 m2 r V1 HS v y Hp (W2 _ _ Hy)) as [x [-> Px]]. exists x. split; [reflexivity|].
      apply (ss_joined m1 m2 r V1 V2 HS v x W1 W2 Hp Px). exact Hy.
    + intros [x [<- Hx]]. apply (ss_joined m1 m2 r V1 V2 HS v x W1 W2 Hp); [apply (v_ring_pts _ V1 v x Hx)|exact Hx].
Qed.

Lemma border_same v : no_wire m1 -> no_wire m2 -> oget v (pts m1) <> None ->
  Permutation (filter (fun w => is_at_border m2 (r v, w)) (ring m2 (r v))) (map r (filter (fun w => is_at_border m1 (v, w)) (ring m1 v))).
Proof.
  intros W1 W2 Hp. destruct (filter_border m1 v V1) as [N1 H1]. destruct (filter_border m2 (r v) V2) as [N2 H2].
  assert (Hb : forall x, border_edge m1 v x -> oget x (pts m1) <> None) by (intros x [J _]; apply (v_ring_pts _ V1 v x J)).
  apply NoDup_Permutation; [exact N2| |].
  - apply NoDup_map_in; [|exact N1]. intros x y Hx Hy E. apply H1 in Hx. apply H1 in Hy. apply (ss_inj m1 m2 r HS); auto.
  - intros y. rewrite H2, in_map_iff. split.
    + intros Hy. destruct (dir_back m1 m2 r V1 HS v y Hp (W2 _ _ (proj1 Hy))) as [x [-> Px]]. exists x. split; [reflexivity|]. apply H1.
      apply (ss_border m1 m2 r V1 V2 HS v x W1 W2 Hp Px). exact Hy.
    + intros [x [<- Hx]]. apply H1 in Hx. apply (ss_border m1 m2 r V1 V2 HS v x W1 W2 Hp); auto.
Qed.

Lemma vertex_same v : no_wire m1 -> no_wire m2 -> oget v (pts m1) <> None -> weighted (vertex_mask m2 (r v)) g2 = weighted (vertex_mask m1 v) g1.
Proof.
  intros W1 W2 Hp. pose proof (ring_same v W1 W2 Hp) as PR. pose proof (border_same v W1 W2 Hp) as PB. unfold vertex_mask.
  set (B1 := filter (fun w => is_at_border m1 (v, w)) (ring m1 v)) in *. set (B2 := filter (fun w => is_at_border m2 (r v, w)) (ring m2 (r v))) in *.
  assert (EN : is_nil B2 = is_nil B1).
  { pose proof (Permutation_length PB) as L. rewrite map_length in L. destruct B1, B2; cbn in L; try discriminate; reflexivity. }
  pose proof (Permutation_length PR) as LR. rewrite map_length in LR. rewrite EN, LR. destruct (is_nil B1).
  - rewrite !weighted_ring, (rsum_perm g2 _ _ PR), rsum_map, Hg by exact Hp. f_equal. f_equal. apply rsum_ext. intros x Hx. apply Hg. apply (v_ring_pts _ V1 v x Hx).
  - rewrite !weighted_ring, (rsum_perm g2 _ _ PB), rsum_map, Hg by exact Hp. f_equal. f_equal. apply rsum_ext. intros x Hx. apply Hg.
    unfold B1 in Hx. apply filter_In in Hx. apply (v_ring_pts _ V1 v x (proj1 Hx)).
Qed.
End MASK.

Definition rot (t : tri) (a b c : N) : Prop := t = (a, b, c) \/ t = (b, c, a) \/ t = (c, a, b).
Lemma face_rot {O : Ops} {D : Type} (m : mesh O D) a b c : is_face m a b c -> exists t, In t (tris m) /\ rot t a b c.
Proof. unfold rot. intros [H|[H|H]]; eauto. Qed.

(** A triangle of the second mesh with a corner in the piece is a triangle of the piece. *)
Lemma touch {O : Ops} {D : Type} (m1 m2 : mesh O D) r (HS : piece r m1 m2) v t2 : oget v (pts m1) <> None -> In t2 (tris m2) -> In (r v) (tverts t2) ->
  exists a b c, In (a, b, c) (tris m1) /\ rot t2 (r a) (r b) (r c).
Proof.
  destruct t2 as [[i j] l]. intros Pv Ht Hin.
  assert (F : exists y z, is_face m1 v y z /\ rot (i, j, l) (r v) (r y) (r z)).
  { assert (F : is_face m2 i j l) by (left; exact Ht). unfold rot. cbn in Hin. destruct Hin as [Hv'|[Hv'|[Hv'|[]]]].
    - rewrite Hv' in F. destruct (pc_whole _ _ _ HS v _ _ Pv F) as [y [z [-> [-> G]]]]. rewrite Hv'. exists y, z. auto.
    - apply is_face_rot in F. rewrite Hv' in F. destruct (pc_whole _ _ _ HS v _ _ Pv F) as [y [z [-> [-> G]]]]. rewrite Hv'. exists y, z. auto.
    - apply is_face_rot, is_face_rot in F. rewrite Hv' in F. destruct (pc_whole _ _ _ HS v _ _ Pv F) as [y [z [-> [-> G]]]]. rewrite Hv'. exists y, z. auto. }
  destruct F as [y [z [G Hr]]]. destruct (face_rot _ _ _ _ G) as [t1 [Ht1 Hr1]].
  destruct Hr1 as [->|[->| ->]]; do 3 eexists; (split; [exact Ht1|]); unfold rot in *; tauto.
Qed.

(** ** One run of a face-split filter: from the first mesh to the second *)
Section STEP.
Context {d : nat} {D : Type}.
Notation mesh := (mesh (RO d) D).
Variables (k : kind) (f1 f2 g1 g2 : fstate) (m1 m2 out1 out2 : mesh) (r : N -> N) (n1 n2 : nat).
Variables (mid1 mid2 : N -> N -> option N) (Ls1 Ls2 : list (list tri)).
Hypothesis (V1 : valid m1) (V2 : valid m2) (D1 : dense m1) (D2 : dense m2) (R1 : ready k f1 m1) (R2 : ready k f2 m2).
Hypothesis (HS : piece r m1 m2).
Hypothesis (E1 : update k n1 f1 m1 = Ok (g1, out1)) (E2 : update k n2 f2 m2 = Ok (g2, out2)).
Hypothesis (F1 : face_result k f1 m1 g1 out1 mid1 Ls1) (F2 : face_result k f2 m2 g2 out2 mid2 Ls2).
Hypothesis (HD : same_edges_split r k f1 m1 f2 m2).
Hypothesis (HT : same_corners r m1 m2 \/ forall a b, In (a, b) (dirs (tris m1)) -> to_split k f1 m1 a b).
Hypothesis (U1 : unambiguous (scheme_of k) m1) (U2 : k = CellF CLoop -> no_wire m2).
Hypothesis (VO : valid out1).
Hypothesis (HL : k = CellF CLoop -> forall x, oget x (pts m1) <> None -> smooths f1 x = smooths f2 (r x)).

Let q := carry r (osize (pts m1)) (inserted k f1 m1) (osize (pts m2)) (inserted k f2 m2).

Lemma q_old x : oget x (pts m1) <> None -> q x = r x.
Proof. intros H. unfold q, carry. apply D1 in H. apply N.ltb_lt in H. rewrite H. reflexivity. Qed.

Lemma mid_pts a b x : mid1 a b = Some x -> oget a (pts m1) <> None /\ oget b (pts m1) <> None.
Proof.
  intros H. destruct (fr_new _ _ _ _ _ _ _ F1 a b x H) as [e [p [Hu [Hi _]]]]. pose proof (ins_dirs m1 k f1 e V1 Hi R1) as J.
  destruct (joined_pts m1 V1 _ _ J) as [P1 P2]. destruct e as [u v]. cbn [fst snd] in *. destruct Hu as [Hu|Hu]; injection Hu as -> ->; auto.
Qed.

Lemma q_mid a b x : mid1 a b = Some x -> mid2 (r a) (r b) = Some (q x).
Proof.
  intros E. destruct (mid_pts a b x E) as [Pa Pb].
  assert (H2 : mid2 (r a) (r b) <> None).
  { apply (sd_dom _ _ _ _ _ (fr_sub _ _ _ _ _ _ _ F2)). apply (HD a b Pa Pb). apply (sd_dom _ _ _ _ _ (fr_sub _ _ _ _ _ _ _ F1)). congruence. }
  destruct (mid2 (r a) (r b)) as [y|] eqn:Ey; [|congruence]. f_equal.
  rewrite (fr_mid _ _ _ _ _ _ _ F1) in E. rewrite (fr_mid _ _ _ _ _ _ _ F2) in Ey.
  pose proof (inserted_udistinct k f1 m1 V1 R1) as U. apply (sp_Some _ _ _ _ _ U) in E. destruct E as [Hx [e [He Hu]]].
  unfold q, carry. destruct (N.ltb_spec x (osize (pts m1))); [lia|]. rewrite He.
  assert (Es : sp (osize (pts m2)) (inserted k f2 m2) (r (fst e)) (r (snd e)) = Some y).
  { destruct e as [u v]. cbn [fst snd]. destruct Hu as [Hu|Hu]; cbn in Hu; injection Hu as -> ->; [exact Ey|].
    rewrite sp_sym_any. exact Ey. }
  rewrite Es. reflexivity.
Qed.

Lemma mid_same a b : oget a (pts m1) <> None -> oget b (pts m1) <> None -> mid2 (r a) (r b) = option_map q (mid1 a b).
Proof.
  intros Pa Pb. destruct (mid1 a b) as [x|] eqn:E; cbn [option_map]; [apply q_mid; exact E|].
  destruct (mid2 (r a) (r b)) as [y|] eqn:Ey; [exfalso|reflexivity].
  assert (H : mid2 (r a) (r b) <> None) by congruence. apply (sd_dom _ _ _ _ _ (fr_sub _ _ _ _ _ _ _ F2)) in H. apply (HD a b Pa Pb) in H.
  apply (sd_dom _ _ _ _ _ (fr_sub _ _ _ _ _ _ _ F1)) in H. congruence.
Qed.

Lemma split_face (O' : Ops) (D' : Type) (m : Mesh.mesh O' D') kk ff gg (o : Mesh.mesh O' D') mid Ls t w : face_result kk ff m gg o mid Ls -> In t (tris m) -> In w (split_tri mid t) -> In w (tris o).
Proof.
  intros F Ht Hw. rewrite (sd_tris _ _ _ _ _ (fr_sub _ _ _ _ _ _ _ F)), (fr_Ls _ _ _ _ _ _ _ F). apply in_concat.
  exists (split_tri mid t). split; [apply in_map; exact Ht|exact Hw].
Qed.

Lemma tri_face a b c : In (a, b, c) (tris out1) -> is_face out2 (q a) (q b) (q c).
Proof.
  intros H. rewrite (sd_tris _ _ _ _ _ (fr_sub _ _ _ _ _ _ _ F1)), (fr_Ls _ _ _ _ _ _ _ F1) in H. apply in_concat in H.
  destruct H as [L [HL1 Hw]]. apply in_map_iff in HL1. destruct HL1 as [[[x y] z] [<- Ht]]. cbn [split_tri] in Hw.
  assert (Fx : is_face m1 x y z) by (left; exact Ht). destruct (face_pts m1 V1 _ _ _ Fx) as [Px [Py Pz]].
  assert (Hm : In (tmap q (a, b, c)) (split_triangle (r x) (r y) (r z) (mid2 (r x) (r y)) (mid2 (r y) (r z)) (mid2 (r z) (r x)))).
  { rewrite (mid_same x y Px Py), (mid_same y z Py Pz), (mid_same z x Pz Px), <- (q_old x Px), <- (q_old y Py), <- (q_old z Pz), split_triangle_map.
    apply in_map. exact Hw. }
  cbn [tmap] in Hm.
  assert (Hin : forall t, In t (tris m2) -> In (q a, q b, q c) (split_tri mid2 t) -> is_face out2 (q a) (q b) (q c)).
  { intros t T1 T2. left. eapply split_face; eauto. }
  destruct HT as [HC|HA].
  - apply (Hin (r x, r y, r z)); [apply HC; exact Ht|exact Hm].
  - assert (HA' : forall u v, In (u, v) (dirs (tris m1)) -> exists w, mid2 (r u) (r v) = Some w).
    { intros u v Huv. apply HA in Huv. apply (sd_dom _ _ _ _ _ (fr_sub _ _ _ _ _ _ _ F1)) in Huv.
      destruct (mid1 u v) as [w|] eqn:Ew; [|congruence]. exists (q w). apply q_mid. exact Ew. }
    destruct (HA' x y) as [e0 M0]; [apply (is_face_dir _ _ _ _ Fx)|]. destruct (HA' y z) as [e1 M1]; [apply (is_face_dir _ _ _ x); apply is_face_rot; exact Fx|].
    destruct (HA' z x) as [e2 M2]; [apply (is_face_dir _ _ _ y); apply is_face_rot, is_face_rot; exact Fx|]. rewrite M0, M1, M2 in Hm.
    assert (G : is_face m2 (r x) (r y) (r z)) by (apply (pc_faces _ _ _ HS); exact Fx).
    assert (S2 : forall t w, In t (tris m2) -> In w (split_tri mid2 t) -> In w (tris out2)) by (intros t w T1 T2; eapply split_face; eauto).
    destruct G as [G|[G|G]]; pose proof (fun w => S2 _ w G) as S3; cbn [split_tri] in S3; rewrite M0, M1, M2 in S3;
      cbn in Hm, S3; destruct Hm as [Hm|[Hm|[Hm|[Hm|[]]]]]; injection Hm as <- <- <-; unfold is_face;
      first [left; apply S3; tauto | right; left; apply S3; tauto | right; right; apply S3; tauto].
Qed.

Lemma new_case x : oget x (pts out1) <> None -> oget x (pts m1) = None -> exists a b, mid1 a b = Some x.
Proof. intros H1 H2. apply (sd_new _ _ _ _ _ (fr_sub _ _ _ _ _ _ _ F1)). auto. Qed.

Lemma q_has x : oget x (pts out1) <> None -> oget (q x) (pts out2) <> None.
Proof.
  intros H. destruct (oget x (pts m1)) as [p|] eqn:Ex.
  - assert (Px : oget x (pts m1) <> None) by congruence. rewrite (q_old x Px). apply (sd_old _ _ _ _ _ (fr_sub _ _ _ _ _ _ _ F2)).
    apply (ss_has m1 m2 r HS x Px).
  - destruct (new_case x H Ex) as [a [b Hm]]. apply q_mid in Hm.
    apply (sd_new _ _ _ _ _ (fr_sub _ _ _ _ _ _ _ F2) (q x)). eauto.
Qed.

Lemma out_mask_same c x : oget x (pts out1) <> None ->
  weighted (out_mask k f2 m2 (q x)) (fun y => lin c (ptof m2 y)) = weighted (out_mask k f1 m1 x) (fun y => lin c (ptof m1 y)).
Proof.
  intros H. set (h1 := fun y => lin c (ptof m1 y)). set (h2 := fun y => lin c (ptof m2 y)).
  assert (Hg : forall y, oget y (pts m1) <> None -> h2 (r y) = h1 y).
  { intros y Hy. unfold h1, h2. destruct (oget y (pts m1)) as [p|] eqn:Ey; [|congruence].
    pose proof (pc_pts _ _ _ HS y p Ey) as E. rewrite (ptof_get m1 y p Ey), (ptof_get m2 (r y) p E). reflexivity. }
  assert (Hk : k <> CellF CSqrt3) by apply R1.
  destruct (oget x (pts m1)) as [p|] eqn:Ex.
  - assert (Px : oget x (pts m1) <> None) by congruence. rewrite (q_old x Px). pose proof (ss_has m1 m2 r HS x Px) as Px2.
    unfold out_mask. assert (L1 : (x <? osize (pts m1)) = true) by (apply N.ltb_lt; apply D1; exact Px).
    assert (L2 : (r x <? osize (pts m2)) = true) by (apply N.ltb_lt; apply D2; exact Px2). rewrite L1, L2.
    assert (H1 : weighted [(1%R, r x)] h2 = weighted [(1%R, x)] h1) by (unfold weighted; cbn; rewrite Hg by exact Px; reflexivity).
    destruct (kind_eq_dec k (CellF CLoop)) as [Ek|Ek].
    + rewrite Ek. rewrite (HL Ek x Px). destruct (smooths f2 (r x)); [|exact H1].
      rewrite Ek in U1. cbn in U1. apply (vertex_same m1 m2 r V1 V2 HS h1 h2 Hg); [apply U1|apply U2; exact Ek|exact Px].
    + destruct k as [[]|]; try exact H1. congruence.
  - destruct (new_case x H Ex) as [a [b Hm]]. destruct (mid_pts _ _ _ Hm) as [Pa Pb]. pose proof (q_mid a b x Hm) as Hm2.
    pose proof (inserted_udistinct k f1 m1 V1 R1) as UD1. pose proof (inserted_udistinct k f2 m2 V2 R2) as UD2.
    rewrite (fr_mid _ _ _ _ _ _ _ F1) in Hm. rewrite (fr_mid _ _ _ _ _ _ _ F2) in Hm2.
    apply (sp_Some _ _ _ _ _ UD1) in Hm. apply (sp_Some _ _ _ _ _ UD2) in Hm2.
    destruct Hm as [G1 [e1 [N1 Q1]]], Hm2 as [G2 [e2 [N2 Q2]]]. unfold out_mask.
    destruct (N.ltb_spec x (osize (pts m1))); [lia|]. destruct (N.ltb_spec (q x) (osize (pts m2))); [lia|]. rewrite N1, N2.
    pose proof (ins_dirs m1 k f1 e1 V1 (nth_error_In _ _ N1) R1) as J1. pose proof (ins_dirs m2 k f2 e2 V2 (nth_error_In _ _ N2) R2) as J2.
    destruct e1 as [u v]. cbn [fst snd] in J1. destruct (joined_pts m1 V1 _ _ J1) as [Pu Pv].
    assert (HB : scheme_of k = CButterfly -> closed m1 /\ In (u, v) (dirs (tris m1))).
    { intros E. rewrite E in U1. cbn in U1. destruct U1 as [C1 W1]. split; [exact C1|].
      destruct (W1 _ _ J1) as [X|X]; [exact X|apply C1; exact X]. }
    rewrite <- (mask_same m1 m2 r V1 V2 HS h1 h2 Hg k u v Hk Pu Pv HB).
    assert (Hcase : e2 = (r u, r v) \/ e2 = (r v, r u)).
    { destruct e2 as [s t]. unfold undirected_eq in Q1, Q2. cbn [fst snd] in Q1, Q2.
      destruct Q1 as [Q1|Q1]; injection Q1 as -> ->; destruct Q2 as [Q2|Q2]; injection Q2 as -> ->; auto. }
    destruct Hcase as [->| ->]; [reflexivity|]. apply (mask_sym k m2 (r v) (r u) h2 V2 J2).
    intros E. destruct (HB E) as [C1 X]. pose proof (C1 _ _ X) as X'. apply (ss_dir m1 m2 r V1 HS u v Pu Pv) in X. apply (ss_dir m1 m2 r V1 HS v u Pv Pu) in X'.
    split; [|split; assumption]. intros [[i0 j0] k0] s t Ht He1 He2.
    assert (K : exists a' b' c', is_face m1 a' b' c' /\ rot (i0, j0, k0) (r a') (r b') (r c')).
    { assert (Fw : forall b' c', is_face m2 (r v) b' c' -> exists y' z', b' = r y' /\ c' = r z' /\ is_face m1 v y' z') by (intros b' c'; apply (pc_whole _ _ _ HS v); exact Pv).
      assert (F : is_face m2 i0 j0 k0) by (left; exact Ht). unfold rot.
      assert (Hv : i0 = r v \/ j0 = r v \/ k0 = r v) by (destruct He1 as [He1|He1]; cbn in He1; destruct He1 as [He1|[He1|[He1|[]]]]; injection He1 as ? ?; auto).
      destruct Hv as [Hv|[Hv|Hv]].
      - rewrite Hv in F. destruct (Fw _ _ F) as [y' [z' [-> [-> G]]]]. rewrite Hv. exists v, y', z'. auto.
      - apply is_face_rot in F. rewrite Hv in F. destruct (Fw _ _ F) as [y' [z' [-> [-> G]]]]. rewrite Hv. exists v, y', z'. auto.
      - apply is_face_rot, is_face_rot in F. rewrite Hv in F. destruct (Fw _ _ F) as [y' [z' [-> [-> G]]]]. rewrite Hv. exists v, y', z'. auto. }
    destruct K as [a' [b' [c' [G Hr]]]]. destruct (face_pts m1 V1 _ _ _ G) as [Pa' [Pb' Pc']].
    assert (Int : forall i j, In (i, j) (dirs (tris m1)) -> oget i (pts m1) <> None -> oget j (pts m1) <> None -> interior_edge m2 (r i) (r j) /\ interior_edge m2 (r j) (r i)).
    { intros i j Hij Pi Pj. pose proof (C1 _ _ Hij) as Hji. apply (ss_dir m1 m2 r V1 HS i j Pi Pj) in Hij. apply (ss_dir m1 m2 r V1 HS j i Pj Pi) in Hji. split; split; assumption. }
    assert (Gab : In (a', b') (dirs (tris m1))) by (eapply is_face_dir; exact G).
    assert (Gbc : In (b', c') (dirs (tris m1))) by (eapply is_face_dir; apply is_face_rot; exact G).
    assert (Gca : In (c', a') (dirs (tris m1))) by (eapply is_face_dir; apply is_face_rot, is_face_rot; exact G).
    assert (He3 : edge_of (r a', r b', r c') s t) by (unfold edge_of in *; destruct Hr as [R|[R|R]]; rewrite R in He2; cbn in *; tauto).
    destruct He3 as [He3|He3]; cbn in He3; destruct He3 as [He3|[He3|[He3|[]]]]; injection He3 as <- <-; first [apply (Int _ _ Gab Pa' Pb')|apply (Int _ _ Gbc Pb' Pc')|apply (Int _ _ Gca Pc' Pa')].
Qed.

Lemma q_point x p : oget x (pts out1) = Some p -> oget (q x) (pts out2) = Some p.
Proof.
  intros Hp. assert (Hx : oget x (pts out1) <> None) by congruence. pose proof (q_has x Hx) as Hq.
  destruct (oget (q x) (pts out2)) as [p2|] eqn:Ep; [|congruence]. f_equal. symmetry.
  pose proof (out_ptof_length k f1 m1 n1 g1 out1 x V1 D1 R1 E1) as L1.
  assert (Hq2 : oget (q x) (pts out2) <> None) by congruence.
  pose proof (out_ptof_length k f2 m2 n2 g2 out2 (q x) V2 D2 R2 E2) as L2.
  rewrite (ptof_get _ _ _ Hp) in L1. rewrite (ptof_get _ _ _ Ep) in L2.
  apply (point_ext (d := d)); [exact L1|exact L2|]. intros c.
  rewrite <- (ptof_get _ _ _ Hp), <- (ptof_get _ _ _ Ep).
  rewrite (out_lin c k f1 m1 n1 g1 out1 x V1 D1 R1 E1 Hx), (out_lin c k f2 m2 n2 g2 out2 (q x) V2 D2 R2 E2 Hq2).
  symmetry. apply out_mask_same. exact Hx.
Qed.
Lemma q_face a b c : is_face out1 a b c -> is_face out2 (q a) (q b) (q c).
Proof. intros [H|[H|H]]; apply tri_face in H; unfold is_face in *; tauto. Qed.

Lemma q_new a b x : mid1 a b = Some x -> oget (q x) (pts m2) = None.
Proof. intros H. apply q_mid in H. apply (sd_new _ _ _ _ _ (fr_sub _ _ _ _ _ _ _ F2)). eauto. Qed.
Lemma q_inj x y : oget x (pts out1) <> None -> oget y (pts out1) <> None -> q x = q y -> x = y.
Proof.
  intros Hx Hy E. destruct (oget x (pts m1)) as [p|] eqn:Ex, (oget y (pts m1)) as [p'|] eqn:Ey.
  - apply (pc_inj _ _ _ HS); [congruence|congruence|]. rewrite <- (q_old x), <- (q_old y) by congruence. exact E.
  - exfalso. destruct (new_case y Hy Ey) as [a [b Hm]]. apply q_new in Hm. rewrite <- E, q_old in Hm by congruence.
    apply (ss_has m1 m2 r HS x); [congruence|exact Hm].
  - exfalso. destruct (new_case x Hx Ex) as [a [b Hm]]. apply q_new in Hm. rewrite E, q_old in Hm by congruence.
    apply (ss_has m1 m2 r HS y); [congruence|exact Hm].
  - destruct (new_case x Hx Ex) as [a [b Hm]], (new_case y Hy Ey) as [a' [b' Hm']].
    destruct (mid_pts _ _ _ Hm) as [Pa Pb], (mid_pts _ _ _ Hm') as [Pa' Pb'].
    pose proof (q_mid _ _ _ Hm) as M. pose proof (q_mid _ _ _ Hm') as M'. rewrite E in M.
    destruct (sd_inj _ _ _ _ _ (fr_sub _ _ _ _ _ _ _ F2) _ _ _ _ _ M M') as [X|X]; cbn [fst snd] in X; apply pair_equal_spec in X; destruct X as [X1 X2];
      apply (pc_inj _ _ _ HS) in X1; auto; apply (pc_inj _ _ _ HS) in X2; auto; subst.
    + congruence.
    + rewrite (sd_sym _ _ _ _ _ (fr_sub _ _ _ _ _ _ _ F1)) in Hm. congruence.
Qed.

Lemma split_corner (mid : N -> N -> option N) a b c w v : In w (split_triangle a b c (mid a b) (mid b c) (mid c a)) -> In v (tverts w) ->
  In v [a; b; c] \/ exists x y, In (x, y) (tdirs (a, b, c)) /\ mid x y = Some v.
Proof.
  assert (H : forall u x y, u = mid x y -> In (x, y) (tdirs (a, b, c)) -> forall e, u = Some e -> exists x y, In (x, y) (tdirs (a, b, c)) /\ mid x y = Some e)
    by (intros u x y -> Hi e He; eauto).
  pose proof (H _ a b eq_refl ltac:(cbn; auto)) as H0. pose proof (H _ b c eq_refl ltac:(cbn; auto)) as H1. pose proof (H _ c a eq_refl ltac:(cbn; auto)) as H2.
  destruct (mid a b) as [e0|], (mid b c) as [e1|], (mid c a) as [e2|]; intros Hw Hv; cbn in Hw;
    repeat match goal with X : _ \/ _ |- _ => destruct X as [X|X] | X : False |- _ => destruct X end; subst w; cbn in Hv;
    repeat match goal with X : _ \/ _ |- _ => destruct X as [X|X] | X : False |- _ => destruct X end; subst v; cbn [In]; auto.
Qed.

(** A triangle of the second output with a corner in the piece comes from a triangle of the piece. *)
Lemma source_tri x w : oget x (pts out1) <> None -> In w (tris out2) -> In (q x) (tverts w) ->
  exists a b c t2, In (a, b, c) (tris m1) /\ In t2 (tris m2) /\ rot t2 (r a) (r b) (r c) /\ In w (split_tri mid2 t2).
Proof.
  intros Hx Hw Hv. rewrite (sd_tris _ _ _ _ _ (fr_sub _ _ _ _ _ _ _ F2)), (fr_Ls _ _ _ _ _ _ _ F2) in Hw. apply in_concat in Hw.
  destruct Hw as [L [HL1 Hw]]. apply in_map_iff in HL1. destruct HL1 as [[[i j] l] [<- Ht]].
  assert (K : exists v, oget v (pts m1) <> None /\ In (r v) [i; j; l]).
  { destruct (split_corner mid2 i j l w (q x) Hw Hv) as [H|[s [t [Hd Hm]]]].
    - assert (Po : oget (q x) (pts m2) <> None) by (apply (v_verts _ V2 _ _ Ht); exact H).
      destruct (oget x (pts m1)) as [p|] eqn:Ex.
      + assert (Px : oget x (pts m1) <> None) by congruence. exists x. split; [exact Px|]. rewrite <- (q_old x Px). exact H.
      + exfalso. destruct (new_case x Hx Ex) as [a [b Hm]]. apply q_new in Hm. contradiction.
    - assert (Pn : oget (q x) (pts m2) = None) by (apply (sd_new _ _ _ _ _ (fr_sub _ _ _ _ _ _ _ F2)); eauto).
      destruct (oget x (pts m1)) as [p|] eqn:Ex.
      + exfalso. rewrite q_old in Pn by congruence. apply (ss_has m1 m2 r HS x); [congruence|exact Pn].
      + destruct (new_case x Hx Ex) as [a [b Hm1]]. destruct (mid_pts _ _ _ Hm1) as [Pa Pb]. apply q_mid in Hm1.
        exists a. split; [exact Pa|].
        destruct (sd_inj _ _ _ _ _ (fr_sub _ _ _ _ _ _ _ F2) _ _ _ _ _ Hm1 Hm) as [X|X]; cbn [fst snd] in X; apply pair_equal_spec in X; destruct X as [X1 X2]; rewrite X1;
          cbn in Hd; destruct Hd as [Hd|[Hd|[Hd|[]]]]; injection Hd as <- <-; cbn; auto. }
  destruct K as [v [Pv Hin]].
  destruct (touch m1 m2 r HS v (i, j, l) Pv Ht Hin) as [a [b [c [Ht1 Hr]]]]. exists a, b, c, (i, j, l). auto.
Qed.
Lemma q_child x w : oget x (pts out1) <> None -> In w (tris out2) -> In (q x) (tverts w) -> exists a b c, In (a, b, c) (tris out1) /\ rot w (q a) (q b) (q c).
Proof.
  intros Hx Hw Hv. destruct (source_tri x w Hx Hw Hv) as [a [b [c [t2 [Ht [H2 [Hr Hs]]]]]]]. clear Hw Hv.
  assert (Fx : is_face m1 a b c) by (left; exact Ht). destruct (face_pts m1 V1 _ _ _ Fx) as [Pa [Pb Pc]].
  assert (S1 : forall w, In w (split_triangle a b c (mid1 a b) (mid1 b c) (mid1 c a)) -> In w (tris out1)) by (intros u Hu; exact (split_face _ _ m1 k f1 g1 out1 mid1 Ls1 (a, b, c) u F1 Ht Hu)).
  assert (Eq : split_triangle (r a) (r b) (r c) (mid2 (r a) (r b)) (mid2 (r b) (r c)) (mid2 (r c) (r a)) = map (tmap q) (split_triangle a b c (mid1 a b) (mid1 b c) (mid1 c a))).
  { rewrite (mid_same a b Pa Pb), (mid_same b c Pb Pc), (mid_same c a Pc Pa), <- (q_old a Pa), <- (q_old b Pb), <- (q_old c Pc), split_triangle_map. reflexivity. }
  assert (Fin : forall u, In u (split_triangle (r a) (r b) (r c) (mid2 (r a) (r b)) (mid2 (r b) (r c)) (mid2 (r c) (r a))) -> rot w (fst (fst u)) (snd (fst u)) (snd u) -> exists a b c, In (a, b, c) (tris out1) /\ rot w (q a) (q b) (q c)).
  { intros u Hu Hrot. rewrite Eq in Hu. apply in_map_iff in Hu. destruct Hu as [[[x0 y0] z0] [<- Hu]]. exists x0, y0, z0. split; [apply S1; exact Hu|exact Hrot]. }
  destruct HT as [HC|HA].
  - assert (E : t2 = (r a, r b, r c)) by (apply (v_notwin _ V2 _ _ H2 (HC _ _ _ Ht)); destruct Hr as [->|[->| ->]]; unfold same_verts; cbn; intros; tauto).
    subst t2. apply (Fin w Hs). destruct w as [[x0 y0] z0]. left. reflexivity.
  - assert (HA' : forall u v, In (u, v) (dirs (tris m1)) -> exists w, mid2 (r u) (r v) = Some w).
    { intros u v Huv. apply HA in Huv. apply (sd_dom _ _ _ _ _ (fr_sub _ _ _ _ _ _ _ F1)) in Huv.
      destruct (mid1 u v) as [w0|] eqn:Ew; [|congruence]. exists (q w0). apply q_mid. exact Ew. }
    destruct (HA' a b) as [e0 M0]; [apply (is_face_dir _ _ _ _ Fx)|]. destruct (HA' b c) as [e1 M1]; [apply (is_face_dir _ _ _ a); apply is_face_rot; exact Fx|].
    destruct (HA' c a) as [e2 M2]; [apply (is_face_dir _ _ _ b); apply is_face_rot, is_face_rot; exact Fx|]. rewrite M0, M1, M2 in Fin. cbn in Fin.
    destruct Hr as [->|[->| ->]]; cbn [split_tri] in Hs; rewrite M0, M1, M2 in Hs; cbn in Hs; destruct Hs as [<-|[<-|[<-|[<-|[]]]]];
      match goal with |- exists x y z, _ /\ rot (?A, ?B, ?C) _ _ _ =>
        first [apply (Fin (A, B, C)); [tauto|left; reflexivity] | apply (Fin (B, C, A)); [tauto|right; right; reflexivity] | apply (Fin (C, A, B)); [tauto|right; left; reflexivity]] end.
Qed.
Lemma q_whole x v w : oget x (pts out1) <> None -> is_face out2 (q x) v w -> exists y z, v = q y /\ w = q z /\ is_face out1 x y z.
Proof.
  intros Hx H. destruct (face_rot _ _ _ _ H) as [t [Ht Hr]].
  destruct (q_child x t Hx Ht) as [a [b [c [Hc Hr2]]]]; [destruct Hr as [->|[->| ->]]; cbn; auto|].
  assert (P : oget a (pts out1) <> None /\ oget b (pts out1) <> None /\ oget c (pts out1) <> None) by (repeat split; apply (v_verts _ VO _ _ Hc); cbn; auto).
  destruct P as [Pa [Pb Pc]].
  destruct Hr as [->|[->| ->]], Hr2 as [E|[E|E]]; injection E as A B C;
    repeat match goal with X : q x = q _ |- _ => apply q_inj in X; [|assumption|assumption] end; subst;
    do 2 eexists; (split; [eassumption || reflexivity|]); (split; [eassumption || reflexivity|]); unfold is_face; auto.
Qed.
End STEP.

(** ** The sqrt(3) filter *)
Lemma rot_tdirs t a b c : rot t a b c -> In (a, b) (tdirs t) /\ In (b, c) (tdirs t) /\ In (c, a) (tdirs t).
Proof. intros [->|[->| ->]]; cbn; tauto. Qed.
Lemma picked_rot {O : Ops} {D : Type} (m : mesh O D) sel t a b c : valid m -> In t (tris m) -> rot t a b c -> picked m sel a b c <-> selected m sel t.
Proof.
  intros V Ht Hr. split.
  - intros H. assert (K : exists u, rot u a b c /\ selected m sel u) by (unfold rot; destruct H as [H|[H|H]]; eauto).
    destruct K as [u [Hu Hs]]. assert (Iu : In u (tris m)).
    { destruct Hs as [[_ Hs]|[i [_ Hs]]]; [exact Hs|]. unfold tris. apply (in_map snd) in Hs. exact Hs. }
    assert (E : t = u) by (apply (v_notwin _ V t u Ht Iu); destruct Hr as [->|[->| ->]], Hu as [->|[->| ->]]; unfold same_verts; cbn; intros; tauto).
    rewrite E. exact Hs.
  - intros H. unfold picked. destruct Hr as [->|[->| ->]]; auto.
Qed.

Definition carry3 {O : Ops} {D : Type} (r : N -> N) (f1 : fstate) (m1 : mesh O D) (f2 : fstate) (m2 : mesh O D) (x : N) : N :=
  if x <? osize (pts m1) then r x
  else match nth_error (visited m1 (csel f1)) (N.to_nat (x - osize (pts m1))) with
       | Some (a, b, _) => match cenE (tris m2) (cenm m2 f2) (r a, r b) with Some g => g | None => x end
       | None => x
       end.

Section STEP3.
Context {d : nat} {D : Type}.
Notation mesh := (mesh (RO d) D).
Variables (m1 m2 out1 out2 : mesh) (f1 f2 g1 g2 : fstate) (r : N -> N).
Hypothesis (V1 : valid m1) (V2 : valid m2) (D1 : dense m1) (D2 : dense m2) (S1 : NoDup (csel f1)) (S2 : NoDup (csel f2)).
Hypothesis (R1 : root3_result f1 m1 g1 out1 (cenm m1 f1)) (R2 : root3_result f2 m2 g2 out2 (cenm m2 f2)).
Hypothesis HS : piece r m1 m2.
Hypothesis HP : forall a b c, is_face m1 a b c -> picked m1 (csel f1) a b c <-> picked m2 (csel f2) (r a) (r b) (r c).
Notation q := (carry3 r f1 m1 f2 m2).

Lemma q3_old x : oget x (pts m1) <> None -> q x = r x.
Proof. intros H. unfold carry3. assert (L : (x <? osize (pts m1)) = true) by (apply N.ltb_lt; apply D1; exact H). rewrite L. reflexivity. Qed.

(** The partner of a triangle and its centre. *)
Lemma partner a b c : In (a, b, c) (tris m1) -> exists t2, In t2 (tris m2) /\ rot t2 (r a) (r b) (r c) /\
  (forall g, cenm m1 f1 (a, b, c) = Some g -> cenm m2 f2 t2 = Some (q g)) /\ (cenm m1 f1 (a, b, c) = None -> cenm m2 f2 t2 = None).
Proof.
  intros Ht. assert (F : is_face m1 a b c) by (left; exact Ht). destruct (face_rot _ _ _ _ (pc_faces _ _ _ HS _ _ _ F)) as [t2 [H2 Hr2]].
  exists t2. split; [exact H2|]. split; [exact Hr2|].
  assert (HSel : selected m1 (csel f1) (a, b, c) <-> selected m2 (csel f2) t2).
  { rewrite <- (picked_rot m2 _ t2 _ _ _ V2 H2 Hr2), <- (HP _ _ _ F), (picked_rot m1 _ (a, b, c) a b c V1 Ht); [tauto|left; reflexivity]. }
  pose proof (r3_dom _ _ _ _ (rr_sub _ _ _ _ _ R1) _ Ht) as X1. pose proof (r3_dom _ _ _ _ (rr_sub _ _ _ _ _ R2) _ H2) as X2. split.
  - intros g Hg. assert (Hs : selected m2 (csel f2) t2) by (apply HSel; apply X1; congruence). apply X2 in Hs.
    destruct (cenm m2 f2 t2) as [h|] eqn:Eh; [|congruence]. f_equal.
    apply cenm_Some in Hg; auto. destruct Hg as [i [Hi ->]]. unfold carry3.
    destruct (N.ltb_spec (osize (pts m1) + N.of_nat i) (osize (pts m1))); [lia|].
    replace (N.to_nat (osize (pts m1) + N.of_nat i - osize (pts m1))) with i by lia. rewrite Hi.
    rewrite (cenE_face _ _ _ (cenm_centring m2 f2 V2 D2 S2) t2 _ H2 (proj1 (rot_tdirs _ _ _ _ Hr2))), Eh. reflexivity.
  - intros Hn. destruct (cenm m2 f2 t2) as [h|]; [|reflexivity]. exfalso.
    assert (Hs : selected m2 (csel f2) t2) by (apply X2; congruence). apply HSel in Hs. apply X1 in Hs. congruence.
Qed.
Lemma tri_pts a b c : In (a, b, c) (tris m1) -> oget a (pts m1) <> None /\ oget b (pts m1) <> None /\ oget c (pts m1) <> None.
Proof. intros H. repeat split; apply (v_verts _ V1 _ _ H); cbn; auto. Qed.
Lemma q3_centred a b h : centred m1 (cenm m1 f1) a b h -> centred m2 (cenm m2 f2) (r a) (r b) (q h).
Proof.
  intros [[[x y] z] [Hu [Hd Hc]]]. destruct (partner x y z Hu) as [t2 [H2 [Hr [Hg _]]]]. exists t2. split; [exact H2|].
  destruct (rot_tdirs _ _ _ _ Hr) as [T1 [T2 T3]]. split; [|apply Hg; exact Hc].
  cbn in Hd. destruct Hd as [E|[E|[E|[]]]]; injection E as <- <-; assumption.
Qed.
Lemma q3_back a b h : oget a (pts m1) <> None -> oget b (pts m1) <> None -> centred m2 (cenm m2 f2) (r a) (r b) h ->
  exists g, centred m1 (cenm m1 f1) a b g.
Proof.
  intros Pa Pb [u [Hu [Hd Hc]]]. assert (J : In (a, b) (dirs (tris m1))) by (apply (ss_dir m1 m2 r V1 HS a b Pa Pb); apply dirs_tri; eauto).
  apply dirs_tri in J. destruct J as [[[x y] z] [Ht Hd1]]. destruct (partner x y z Ht) as [t2 [H2 [Hr [Hg Hn]]]].
  assert (Ed : In (r a, r b) (tdirs t2)).
  { destruct (rot_tdirs _ _ _ _ Hr) as [T1 [T2 T3]]. cbn in Hd1. destruct Hd1 as [E|[E|[E|[]]]]; injection E as <- <-; assumption. }
  assert (E : t2 = u) by (apply (c_unique _ _ _ (cenm_centring m2 f2 V2 D2 S2) t2 u (r a, r b)); assumption). subst u.
  destruct (cenm m1 f1 (x, y, z)) as [g|] eqn:Eg; [|rewrite (Hn eq_refl) in Hc; discriminate].
  exists g, (x, y, z). auto.
Qed.

Lemma q3_tri a b c : In (a, b, c) (tris out1) -> is_face out2 (q a) (q b) (q c).
Proof.
  intros H. apply (r3_faces _ _ _ _ (rr_sub _ _ _ _ _ R1)) in H. destruct H as [[[x y] z] [Ht H]].
  destruct (partner x y z Ht) as [t2 [H2 [Hr [Hg Hn]]]]. destruct (tri_pts _ _ _ Ht) as [Px [Py Pz]].
  assert (Pd : forall u v, In (u, v) (tdirs (x, y, z)) -> oget u (pts m1) <> None /\ oget v (pts m1) <> None /\ In (r u, r v) (tdirs t2)).
  { destruct (rot_tdirs _ _ _ _ Hr) as [T1 [T2 T3]]. intros u v Hd. cbn in Hd. destruct Hd as [E|[E|[E|[]]]]; injection E as <- <-; auto. }
  assert (FF := r3_faces _ _ _ _ (rr_sub _ _ _ _ _ R2)).
  destruct H as [[Hc E]|[[g [u [v [Hc [Hd [Hno E]]]]]]|[g [h [u [v [Hc [Hd [Hce E]]]]]]]]].
  - injection E as -> -> ->. assert (I : In t2 (tris out2)) by (apply FF; exists t2; split; [exact H2|left; split; [apply Hn; exact Hc|reflexivity]]).
    rewrite !q3_old by assumption. unfold is_face. destruct Hr as [->|[->| ->]]; auto.
  - injection E as -> -> ->. destruct (Pd _ _ Hd) as [Pu [Pv Hd2]]. rewrite (q3_old u Pu), (q3_old v Pv). left. apply FF. exists t2. split; [exact H2|].
    right; left. exists (q g), (r u), (r v). split; [apply Hg; exact Hc|]. split; [exact Hd2|]. split; [|reflexivity].
    intros h Hh. apply q3_back in Hh; auto. destruct Hh as [g' Hg']. exact (Hno _ Hg').
  - injection E as -> -> ->. destruct (Pd _ _ Hd) as [Pu [Pv Hd2]]. rewrite (q3_old v Pv). left. apply FF. exists t2. split; [exact H2|].
    right; right. exists (q g), (q h), (r u), (r v). split; [apply Hg; exact Hc|]. split; [exact Hd2|]. split; [|reflexivity].
    apply q3_centred. exact Hce.
Qed.
Lemma q3_face a b c : is_face out1 a b c -> is_face out2 (q a) (q b) (q c).
Proof. intros [H|[H|H]]; apply q3_tri in H; unfold is_face in *; tauto. Qed.

Lemma new_case3 x : oget x (pts out1) <> None -> oget x (pts m1) = None -> exists t, In t (tris m1) /\ cenm m1 f1 t = Some x.
Proof. intros H1 H2. apply (r3_new _ _ _ _ (rr_sub _ _ _ _ _ R1)). auto. Qed.
Lemma q3_cpt a b c t2 : In (a, b, c) (tris m1) -> In t2 (tris m2) -> rot t2 (r a) (r b) (r c) -> cpt m2 t2 = cpt m1 (a, b, c).
Proof.
  intros Ht H2 Hr. destruct (centre_ok m1 _ V1 Ht) as [_ L1]. destruct (centre_ok m2 _ V2 H2) as [_ L2].
  apply (point_ext (d := d)); [exact L2|exact L1|]. intros c'. rewrite (lin_cpt c' m1 a b c V1 Ht). destruct (tri_pts _ _ _ Ht) as [Pa [Pb Pc]].
  assert (Hg : forall y, oget y (pts m1) <> None -> lin c' (ptof m2 (r y)) = lin c' (ptof m1 y)).
  { intros y Hy. destruct (oget y (pts m1)) as [p|] eqn:Ey; [|congruence].
    pose proof (pc_pts _ _ _ HS y p Ey) as E. rewrite (ptof_get m1 y p Ey), (ptof_get m2 (r y) p E). reflexivity. }
  destruct Hr as [->|[->| ->]]; rewrite (lin_cpt c' m2 _ _ _ V2 H2), !Hg by assumption; lra.
Qed.
Lemma q3_point x p : oget x (pts out1) = Some p -> oget (q x) (pts out2) = Some p.
Proof.
  intros Hp. destruct (oget x (pts m1)) as [p0|] eqn:Ex.
  - rewrite (rr_old _ _ _ _ _ R1 x p0 Ex) in Hp. injection Hp as ->. rewrite q3_old by congruence.
    apply (rr_old _ _ _ _ _ R2). apply (pc_pts _ _ _ HS). exact Ex.
  - destruct (new_case3 x) as [[[a b] c] [Ht Hc]]; [congruence|exact Ex|]. rewrite (rr_new _ _ _ _ _ R1 _ _ Ht Hc) in Hp. injection Hp as <-.
    destruct (partner a b c Ht) as [t2 [H2 [Hr [Hg _]]]]. rewrite (rr_new _ _ _ _ _ R2 _ _ H2 (Hg x Hc)). f_equal. eapply q3_cpt; eauto.
Qed.

Lemma q3_new t x : In t (tris m1) -> cenm m1 f1 t = Some x -> oget (q x) (pts m2) = None.
Proof.
  destruct t as [[a b] c]. intros Ht Hc. destruct (partner a b c Ht) as [t2 [H2 [_ [Hg _]]]].
  apply (r3_new _ _ _ _ (rr_sub _ _ _ _ _ R2)). exists t2. auto.
Qed.
Lemma rot_same a b c a' b' c' t2 : In (a, b, c) (tris m1) -> In (a', b', c') (tris m1) -> rot t2 (r a) (r b) (r c) -> rot t2 (r a') (r b') (r c') -> (a, b, c) = (a', b', c').
Proof.
  intros H H' Hr Hr'. destruct (tri_pts _ _ _ H) as [Pa [Pb Pc]], (tri_pts _ _ _ H') as [Pa' [Pb' Pc']].
  apply (v_notwin _ V1 _ _ H H').
  destruct Hr as [->|[->| ->]], Hr' as [E|[E|E]]; injection E as X Y Z; apply (pc_inj _ _ _ HS) in X; auto; apply (pc_inj _ _ _ HS) in Y; auto; apply (pc_inj _ _ _ HS) in Z; auto;
    subst; unfold same_verts; cbn; intros; tauto.
Qed.
Lemma q3_inj x y : oget x (pts out1) <> None -> oget y (pts out1) <> None -> q x = q y -> x = y.
Proof.
  intros Hx Hy E. destruct (oget x (pts m1)) as [p|] eqn:Ex, (oget y (pts m1)) as [p'|] eqn:Ey.
  - apply (pc_inj _ _ _ HS); [congruence|congruence|]. rewrite <- (q3_old x), <- (q3_old y) by congruence. exact E.
  - exfalso. destruct (new_case3 y Hy Ey) as [t [Ht Hm]]. apply q3_new in Hm; [|exact Ht]. rewrite <- E, q3_old in Hm by congruence.
    apply (ss_has m1 m2 r HS x); [congruence|exact Hm].
  - exfalso. destruct (new_case3 x Hx Ex) as [t [Ht Hm]]. apply q3_new in Hm; [|exact Ht]. rewrite E, q3_old in Hm by congruence.
    apply (ss_has m1 m2 r HS y); [congruence|exact Hm].
  - destruct (new_case3 x Hx Ex) as [[[a b] c] [Ht Hm]], (new_case3 y Hy Ey) as [[[a' b'] c'] [Ht' Hm']].
    destruct (partner a b c Ht) as [t2 [H2 [Hr [Hg _]]]], (partner a' b' c' Ht') as [t2' [H2' [Hr' [Hg' _]]]].
    specialize (Hg _ Hm). specialize (Hg' _ Hm'). rewrite <- E in Hg'.
    pose proof (r3_inj _ _ _ _ (rr_sub _ _ _ _ _ R2) _ _ _ H2 H2' Hg Hg') as X. subst t2'.
    pose proof (rot_same _ _ _ _ _ _ t2 Ht Ht' Hr Hr') as X. rewrite X in Hm. congruence.
Qed.
Lemma partner_of a b c t2 : In (a, b, c) (tris m1) -> In t2 (tris m2) -> rot t2 (r a) (r b) (r c) ->
  (forall g, cenm m1 f1 (a, b, c) = Some g -> cenm m2 f2 t2 = Some (q g)) /\ (cenm m1 f1 (a, b, c) = None -> cenm m2 f2 t2 = None).
Proof.
  intros Ht H2 Hr. destruct (partner a b c Ht) as [t3 [H3 [Hr3 X]]].
  assert (E : t2 = t3) by (apply (v_notwin _ V2 _ _ H2 H3); destruct Hr as [->|[->| ->]], Hr3 as [->|[->| ->]]; unfold same_verts; cbn; intros; tauto).
  subst t3. exact X.
Qed.
Lemma rot_dir_back (a b c : N) t2 u v : rot t2 (r a) (r b) (r c) -> In (u, v) (tdirs t2) -> exists u' v', u = r u' /\ v = r v' /\ In (u', v') (tdirs (a, b, c)).
Proof.
  intros Hr Hd. destruct Hr as [->|[->| ->]]; cbn in Hd; destruct Hd as [E|[E|[E|[]]]]; injection E as <- <-; cbn; do 2 eexists; (split; [reflexivity|]); (split; [reflexivity|]); auto.
Qed.
(** A new point of the first output is the centre of a triangle of the second mesh that belongs to the piece. *)
Lemma touch_new x t2 : oget x (pts out1) <> None -> In t2 (tris m2) -> cenm m2 f2 t2 = Some (q x) ->
  exists a b c, In (a, b, c) (tris m1) /\ rot t2 (r a) (r b) (r c).
Proof.
  intros Hx H2 Hc. assert (Pn : oget (q x) (pts m2) = None) by (apply (r3_new _ _ _ _ (rr_sub _ _ _ _ _ R2)); eauto).
  destruct (oget x (pts m1)) as [p|] eqn:Ex.
  - exfalso. rewrite q3_old in Pn by congruence. apply (ss_has m1 m2 r HS x); [congruence|exact Pn].
  - destruct (new_case3 x Hx Ex) as [[[a b] c] [Ht Hm]]. destruct (partner a b c Ht) as [t3 [H3 [Hr3 [Hg _]]]].
    pose proof (r3_inj _ _ _ _ (rr_sub _ _ _ _ _ R2) _ _ _ H2 H3 Hc (Hg _ Hm)) as X. subst t3. eauto.
Qed.
Lemma touch_old x t2 : oget x (pts out1) <> None -> In t2 (tris m2) -> In (q x) (tverts t2) ->
  exists a b c, In (a, b, c) (tris m1) /\ rot t2 (r a) (r b) (r c).
Proof.
  intros Hx H2 Hv. destruct (oget x (pts m1)) as [p|] eqn:Ex.
  - apply (touch m1 m2 r HS x); [congruence|exact H2|]. rewrite <- q3_old by congruence. exact Hv.
  - exfalso. destruct (new_case3 x Hx Ex) as [t [Ht Hm]]. apply q3_new in Hm; [|exact Ht]. apply (v_verts _ V2 _ _ H2) in Hv. contradiction.
Qed.
Lemma dir_vert u v t : In (u, v) (tdirs t) -> In u (tverts t) /\ In v (tverts t).
Proof. destruct t as [[a b] c]. cbn. intros [E|[E|[E|[]]]]; injection E as <- <-; auto. Qed.

Lemma q3_child x w : oget x (pts out1) <> None -> In w (tris out2) -> In (q x) (tverts w) -> exists a b c, In (a, b, c) (tris out1) /\ rot w (q a) (q b) (q c).
Proof.
  intros Hx Hw Hv. apply (r3_faces _ _ _ _ (rr_sub _ _ _ _ _ R2)) in Hw. destruct Hw as [t2 [H2 Hw]].
  assert (T : exists a b c, In (a, b, c) (tris m1) /\ rot t2 (r a) (r b) (r c)).
  { destruct Hw as [[_ ->]|[[g [u [v [Hc [Hd [_ ->]]]]]]|[g [h [u [v [Hc [Hd [Hce ->]]]]]]]]].
    - apply (touch_old x); assumption.
    - destruct (dir_vert _ _ _ Hd) as [Du Dv]. cbn in Hv. destruct Hv as [E|[E|[E|[]]]]; [rewrite E in Du|rewrite E in Dv|rewrite E in Hc]; eauto using touch_old, touch_new.
    - destruct (dir_vert _ _ _ Hd) as [Du Dv]. cbn in Hv. destruct Hv as [E|[E|[E|[]]]]; [rewrite E in Hc| |rewrite E in Dv]; eauto using touch_old, touch_new.
      destruct Hce as [t3 [H3 [Hd3 Hc3]]]. rewrite E in Hc3. destruct (touch_new x t3 Hx H3 Hc3) as [a [b [c [Ht Hr]]]].
      destruct (rot_dir_back a b c t3 _ _ Hr Hd3) as [v' [u' [-> [-> Hd1]]]]. apply (touch m1 m2 r HS v'); [|exact H2|exact Dv].
      apply (v_verts _ V1 _ _ Ht). apply (dir_vert _ _ _ Hd1). }
  destruct T as [a [b [c [Ht Hr]]]]. destruct (partner_of a b c t2 Ht H2 Hr) as [Hg Hn]. destruct (tri_pts _ _ _ Ht) as [Pa [Pb Pc]].
  assert (FF := r3_faces _ _ _ _ (rr_sub _ _ _ _ _ R1)). clear Hv.
  assert (Pd : forall u v, In (u, v) (tdirs (a, b, c)) -> oget u (pts m1) <> None /\ oget v (pts m1) <> None)
    by (intros u v Hd; apply dir_vert in Hd; split; apply (v_verts _ V1 _ _ Ht); apply Hd).
  destruct Hw as [[Hc ->]|[[g [u [v [Hc [Hd [Hno ->]]]]]]|[g [h [u [v [Hc [Hd [Hce ->]]]]]]]]].
  - exists a, b, c. split; [|rewrite !q3_old by assumption; exact Hr]. apply FF. exists (a, b, c). split; [exact Ht|]. left. split; [|reflexivity].
    destruct (cenm m1 f1 (a, b, c)) as [g|]; [|reflexivity]. rewrite (Hg g eq_refl) in Hc. discriminate.
  - destruct (rot_dir_back a b c t2 u v Hr Hd) as [u' [v' [-> [-> Hd1]]]]. destruct (Pd _ _ Hd1) as [Pu Pv].
    destruct (cenm m1 f1 (a, b, c)) as [g'|] eqn:Eg; [|rewrite (Hn eq_refl) in Hc; discriminate]. rewrite (Hg g' eq_refl) in Hc. injection Hc as <-.
    exists u', v', g'. split; [|rewrite (q3_old u' Pu), (q3_old v' Pv); left; reflexivity]. apply FF. exists (a, b, c). split; [exact Ht|]. right; left.
    exists g', u', v'. split; [exact Eg|]. split; [exact Hd1|]. split; [|reflexivity]. intros h Hh. apply q3_centred in Hh. exact (Hno _ Hh).
  - destruct (rot_dir_back a b c t2 u v Hr Hd) as [u' [v' [-> [-> Hd1]]]]. destruct (Pd _ _ Hd1) as [Pu Pv].
    destruct (cenm m1 f1 (a, b, c)) as [g'|] eqn:Eg; [|rewrite (Hn eq_refl) in Hc; discriminate]. rewrite (Hg g' eq_refl) in Hc. injection Hc as <-.
    destruct (q3_back v' u' h Pv Pu Hce) as [h' Hh']. pose proof (q3_centred _ _ _ Hh') as Hh2.
    assert (Eh : h = q h').
    { destruct Hce as [t3 [H3 [D3 C3]]], Hh2 as [t4 [H4 [D4 C4]]].
      assert (E : t3 = t4) by (apply (c_unique _ _ _ (cenm_centring m2 f2 V2 D2 S2) t3 t4 (r v', r u')); assumption). subst t4. congruence. }
    subst h. exists g', h', v'. split; [|rewrite (q3_old v' Pv); left; reflexivity]. apply FF. exists (a, b, c). split; [exact Ht|]. right; right.
    exists g', h', u', v'. auto.
Qed.
Hypothesis (VO : valid out1).
Lemma q3_whole x v w : oget x (pts out1) <> None -> is_face out2 (q x) v w -> exists y z, v = q y /\ w = q z /\ is_face out1 x y z.
Proof.
  intros Hx H. destruct (face_rot _ _ _ _ H) as [t [Ht Hr]].
  destruct (q3_child x t Hx Ht) as [a [b [c [Hc Hr2]]]]; [destruct Hr as [->|[->| ->]]; cbn; auto|].
  assert (P : oget a (pts out1) <> None /\ oget b (pts out1) <> None /\ oget c (pts out1) <> None) by (repeat split; apply (v_verts _ VO _ _ Hc); cbn; auto).
  destruct P as [Pa [Pb Pc]].
  destruct Hr as [->|[->| ->]], Hr2 as [E|[E|E]]; injection E as A B C;
    repeat match goal with X : q x = q _ |- _ => apply q3_inj in X; [|assumption|assumption] end; subst;
    do 2 eexists; (split; [eassumption || reflexivity|]); (split; [eassumption || reflexivity|]); unfold is_face; auto.
Qed.
End STEP3.

