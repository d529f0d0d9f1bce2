(** * CondLoop: the conditional filter around the Loop edge filter ends (C103). *)
From Coq Require Import Reals Lra Psatz Permutation.
From Verif Require Import Base Mesh Filters Drivers Spec SpecSub SpecGeo SpecDrive Lists AddFace SplitTri Split Points Valid Run Update Struct Count Face PtsAny Geo GeoProps Conn Drive Area Cond FaceProps DriveProps Conv.
Open Scope R_scope.

(** ** Squared distances in coordinates *)
Definition D2 (d : nat) (p q : nat -> R) : R := sq d (fun i => p i - q i).
Lemma D2_sym d p q : D2 d p q = D2 d q p.
Proof. unfold D2, sq. apply rsum_ext. intros. ring. Qed.
Lemma D2_pos d p q : 0 <= D2 d p q.
Proof. apply sq_pos. Qed.

(** The point that Loop's rule makes of an edge [v] [w] with third corners [z] and [B]. *)
Definition at_edge (e v w z B : nat -> R) : Prop := forall i, e i = 3 / 8 * v i + 3 / 8 * w i + 1 / 8 * z i + 1 / 8 * B i.
Lemma at_edge_sym e v w z B : at_edge e v w z B -> at_edge e w v z B.
Proof. intros H i. rewrite (H i). ring. Qed.

Lemma rsum3 {A} (f g h : A -> R) x y z l : rsum (fun i => x * f i + y * g i + z * h i) l = x * rsum f l + y * rsum g l + z * rsum h l.
Proof. rewrite rsum_plus, rsum_plus, !rsum_scal. reflexivity. Qed.

Lemma half_len d e v w z B M : at_edge e v w z B -> D2 d w v <= M -> D2 d z v <= M -> D2 d B v <= M -> D2 d e v <= 25 / 64 * M.
Proof.
  intros H H1 H2 H3.
  apply Rle_trans with (15 / 64 * D2 d w v + 5 / 64 * D2 d z v + 5 / 64 * D2 d B v); [|lra].
  unfold D2, sq. rewrite <- rsum3. apply rsum_le. intros i _. rewrite (H i).
  set (x := w i - v i). set (y := z i - v i). set (t := B i - v i).
  replace (3 / 8 * v i + 3 / 8 * w i + 1 / 8 * z i + 1 / 8 * B i - v i) with (3 / 8 * x + 1 / 8 * y + 1 / 8 * t) by (unfold x, y, t; field).
  pose proof (Rle_0_sqr (x - y)). pose proof (Rle_0_sqr (x - t)). pose proof (Rle_0_sqr (y - t)). unfold Rsqr in *. nra.
Qed.
Lemma median_len d e v w z B : at_edge e v w z B ->
  D2 d e z <= 7 / 16 * D2 d v z + 7 / 16 * D2 d w z + 1 / 16 * D2 d v B + 1 / 16 * D2 d w B - 1 / 4 * D2 d v w.
Proof.
  intros H.
  replace (7 / 16 * D2 d v z + 7 / 16 * D2 d w z + 1 / 16 * D2 d v B + 1 / 16 * D2 d w B - 1 / 4 * D2 d v w)
    with ((7 / 16 * D2 d v z + 7 / 16 * D2 d w z + 1 / 16 * D2 d v B) + 1 / 16 * D2 d w B + (- (1 / 4)) * D2 d v w) by ring.
  unfold D2, sq. rewrite <- rsum3, <- !rsum_scal, <- !rsum_plus. apply rsum_le. intros i _. rewrite (H i).
  set (m := (v i + w i) / 2).
  pose proof (Rle_0_sqr ((m - z i) - (B i - m))) as S. unfold Rsqr, m in S. nra.
Qed.
Lemma mids_len d e0 e1 v w z B0 B1 M : at_edge e0 v w z B0 -> at_edge e1 w z v B1 -> D2 d z v <= M -> D2 d B0 w <= M -> D2 d B1 w <= M ->
  D2 d e1 e0 <= 1 / 4 * M.
Proof.
  intros H0 H1 M1 M2 M3.
  apply Rle_trans with (1 / 8 * D2 d z v + 1 / 16 * D2 d B0 w + 1 / 16 * D2 d B1 w); [|lra].
  unfold D2, sq. rewrite <- rsum3. apply rsum_le. intros i _. rewrite (H0 i), (H1 i).
  set (x := z i - v i). set (y := B0 i - w i). set (t := B1 i - w i).
  match goal with |- ?l * _ <= _ => replace l with (1 / 4 * x - 1 / 8 * y + 1 / 8 * t) by (unfold x, y, t; field) end.
  pose proof (Rle_0_sqr (x + y)). pose proof (Rle_0_sqr (x - t)). pose proof (Rle_0_sqr (y + t)). unfold Rsqr in *. nra.
Qed.

Section LOOPEDGE.
Context {d : nat} {D : Type}.
Notation mesh := (mesh (RO d) D).
Implicit Types m inp out : mesh.
Notation P m x := (fun i => crd m i x).

Lemma dot_D2 m a b : dot m a b b = D2 d (P m b) (P m a).
Proof. reflexivity. Qed.

(** ** Children of one triangle *)
Section CHILD.
Variables (inp out : mesh) (mid : N -> N -> option N) (a b c : N) (L2 M2 : R).
Hypothesis Hold : forall x, In x [a; b; c] -> forall i, crd out i x = crd inp i x.
Hypothesis Hmid : forall v w z e, (v, w, z) = (a, b, c) \/ (v, w, z) = (b, c, a) \/ (v, w, z) = (c, a, b) -> mid v w = Some e ->
  exists B, at_edge (P out e) (P inp v) (P inp w) (P inp z) B /\ D2 d B (P inp v) <= M2 /\ D2 d B (P inp w) <= M2.
Hypothesis Hlen : forall x y, In (x, y) (tdirs (a, b, c)) -> D2 d (P inp y) (P inp x) <= M2.
Hypothesis Hcut : forall x y, In (x, y) (tdirs (a, b, c)) -> mid x y <> None -> L2 < D2 d (P inp y) (P inp x).
Hypothesis Hkeep : forall x y, In (x, y) (tdirs (a, b, c)) -> mid x y = None -> D2 d (P inp y) (P inp x) <= L2.
Hypothesis HL0 : 0 <= L2.

Let good (x y : N) : Prop := D2 d (P out x) (P out y) <= L2 \/ D2 d (P out x) (P out y) <= 9 / 16 * M2 + 3 / 16 * L2.
Lemma good_sym x y : good x y -> good y x.
Proof. unfold good. rewrite (D2_sym d (P out x)). auto. Qed.

(** The same facts for any rotation [v w z] of the triangle. *)
Definition rot (v w z : N) : Prop := (v, w, z) = (a, b, c) \/ (v, w, z) = (b, c, a) \/ (v, w, z) = (c, a, b).
Lemma rot1 v w z : rot v w z -> rot w z v.
Proof. unfold rot. intros [E|[E|E]]; inv E; auto. Qed.
Lemma rot_dir v w z : rot v w z -> In (v, w) (tdirs (a, b, c)).
Proof. unfold rot. intros [E|[E|E]]; inv E; cbn; auto. Qed.
Lemma rot_old v w z : rot v w z -> forall i, crd out i v = crd inp i v.
Proof. intros H. apply Hold. destruct H as [E|[E|E]]; inv E; cbn; auto. Qed.
Lemma D2_out v w z p : rot v w z -> D2 d p (P out v) = D2 d p (P inp v).
Proof. intros H. unfold D2, sq. apply rsum_ext. intros i _. rewrite (rot_old _ _ _ H i). reflexivity. Qed.
Lemma sides v w z : rot v w z -> D2 d (P inp w) (P inp v) <= M2 /\ D2 d (P inp z) (P inp w) <= M2 /\ D2 d (P inp v) (P inp z) <= M2.
Proof.
  intros H. pose proof (rot1 _ _ _ H) as H1. pose proof (rot1 _ _ _ H1) as H2.
  repeat split; apply Hlen; eapply rot_dir; eassumption.
Qed.

Lemma keep_good v w z : rot v w z -> mid v w = None -> good v w.
Proof.
  intros H E. left. rewrite (D2_sym d), (D2_out v w z _ H), D2_sym, (D2_out w z v _ (rot1 _ _ _ H)), D2_sym.
  apply Hkeep; [eapply rot_dir; exact H|exact E].
Qed.
Lemma half_good v w z e : rot v w z -> mid v w = Some e -> good v e /\ good w e.
Proof.
  intros H E. destruct (Hmid v w z e H E) as [B [HB [B1 B2]]]. destruct (sides v w z H) as [S1 [S2 S3]]. pose proof (D2_pos d (P inp w) (P inp v)) as S0. split; apply good_sym; right.
  - rewrite (D2_out v w z _ H). apply Rle_trans with (25 / 64 * M2); [|lra].
    eapply half_len; [exact HB|exact S1| |exact B1]. rewrite D2_sym. exact S3.
  - rewrite (D2_out w z v _ (rot1 _ _ _ H)). apply Rle_trans with (25 / 64 * M2); [|lra].
    eapply half_len; [apply at_edge_sym; exact HB| |exact S2|exact B2]. rewrite D2_sym. exact S1.
Qed.
Lemma median_good v w z e : rot v w z -> mid v w = Some e -> mid w z = None \/ mid z v = None -> good e z.
Proof.
  intros H E K. destruct (Hmid v w z e H E) as [B [HB [B1 B2]]]. destruct (sides v w z H) as [S1 [S2 S3]]. pose proof (D2_pos d (P inp w) (P inp v)) as S0. right.
  pose proof (rot1 _ _ _ H) as H1. pose proof (rot1 _ _ _ H1) as H2.
  rewrite (D2_out z v w _ H2). eapply Rle_trans; [apply median_len; exact HB|].
  assert (C : L2 < D2 d (P inp w) (P inp v)) by (apply Hcut; [eapply rot_dir; exact H|congruence]).
  rewrite (D2_sym d (P inp v) (P inp w)), (D2_sym d (P inp v) B), (D2_sym d (P inp w) B), (D2_sym d (P inp w) (P inp z)).
  destruct K as [K|K].
  - assert (D2 d (P inp z) (P inp w) <= L2) by (apply Hkeep; [eapply rot_dir; exact H1|exact K]). lra.
  - assert (D2 d (P inp v) (P inp z) <= L2) by (apply Hkeep; [eapply rot_dir; exact H2|exact K]). lra.
Qed.
Lemma mids_good v w z e0 e1 : rot v w z -> mid v w = Some e0 -> mid w z = Some e1 -> good e0 e1.
Proof.
  intros H E0 E1. destruct (Hmid v w z e0 H E0) as [B0 [HB0 [_ B0w]]]. destruct (Hmid w z v e1 (rot1 _ _ _ H) E1) as [B1 [HB1 [B1w _]]].
  destruct (sides v w z H) as [S1 [S2 S3]]. pose proof (D2_pos d (P inp w) (P inp v)) as S0. apply good_sym. right. apply Rle_trans with (1 / 4 * M2); [|lra].
  eapply mids_len; [exact HB0|exact HB1| |exact B0w|exact B1w]. rewrite D2_sym. exact S3.
Qed.

Lemma child_good u x y : In u (split_triangle a b c (mid a b) (mid b c) (mid c a)) -> In (x, y) (tdirs u) -> good x y.
Proof.
  intros Hu Hxy. assert (R0 : rot a b c) by (left; reflexivity). pose proof (rot1 _ _ _ R0) as R1. pose proof (rot1 _ _ _ R1) as R2.
  assert (Hd : In (x, y) (dirs (split_triangle a b c (mid a b) (mid b c) (mid c a)))) by (apply dirs_tri; exists u; auto).
  apply split_dirs in Hd. clear Hu Hxy.
  assert (Hh : forall v w z o, rot v w z -> mid v w = o -> In (x, y) (halves v w o) -> good x y).
  { intros v w z [e|] H E Hi; cbn in Hi; in_cases Hi; injection Hi as <- <-.
    - apply (half_good v w z e H E).
    - apply good_sym. apply (half_good v w z e H E).
    - eapply keep_good; eauto. }
  destruct Hd as [Hd|Hd].
  - unfold outer_edges in Hd. rewrite !in_app_iff in Hd.
    destruct Hd as [Hd|[Hd|Hd]]; [eapply (Hh a b c)|eapply (Hh b c a)|eapply (Hh c a b)]; eauto.
  - pose proof (median_good a b c) as G0. pose proof (median_good b c a) as G1. pose proof (median_good c a b) as G2.
    pose proof (mids_good a b c) as K0. pose proof (mids_good b c a) as K1. pose proof (mids_good c a b) as K2.
    destruct (mid a b) as [e0|]; destruct (mid b c) as [e1|]; destruct (mid c a) as [e2|]; cbn in Hd; in_cases Hd; injection Hd as <- <-;
      first [solve [auto] | solve [apply good_sym; auto]].
Qed.
End CHILD.

(** ** What the Loop edge filter does *)
Lemma loop_edge_facts f inp fuel f' out : valid inp -> dense inp -> ready (EdgeF ELoop) f inp ->
  update (EdgeF ELoop) fuel f inp = Ok (f', out) ->
  exists mid Ls, face_result (EdgeF ELoop) f inp f' out mid Ls /\
    (forall i x, oget x (pts inp) <> None -> crd out i x = crd inp i x) /\
    (forall M v w z e, (forall x y, joined inp x y -> D2 d (P inp y) (P inp x) <= M) -> is_face inp v w z -> mid v w = Some e ->
       exists B, at_edge (P out e) (P inp v) (P inp w) (P inp z) B /\ D2 d B (P inp v) <= M /\ D2 d B (P inp w) <= M).
Proof.
  intros Hv Hd Hr E. destruct (face_run _ f inp fuel f' out Hv Hd Hr E) as [mid [Ls FR]]. exists mid, Ls.
  split; [exact FR|]. split.
  - intros i x Hx. destruct (oget x (pts inp)) as [p|] eqn:Ex; [|exfalso; apply Hx; reflexivity].
    assert (Eo : oget x (pts out) = Some p) by (eapply fr_old; eauto; discriminate).
    unfold crd. rewrite (ptof_get inp x p Ex), (ptof_get out x p Eo). reflexivity.
  - intros M a b c m HM Hf Hm.
    assert (J : forall x y z, is_face inp x y z -> joined inp x y /\ joined inp y x).
    { intros x y z H. apply is_face_dir in H. pose proof (v_face_edges _ Hv _ _ H) as H1. split; [exact H1|]. apply (v_ring_sym _ Hv). exact H1. }
    assert (R : forall x y z, is_face inp x y z -> is_face inp y z x) by (unfold is_face; tauto).
    destruct (in_dec dedge_dec (b, a) (dirs (tris inp))) as [HI|HI].
    + apply dir_is_face in HI. destruct HI as [e He']. exists (P inp e). split; [|split].
      * intros i. destruct (new_crd _ f inp fuel f' out mid Ls a b m i Hv Hr FR E Hm) as [x [y [He [_ [_ ->]]]]].
        cbn [new_mask]. unfold loop_mask. destruct He as [He|He]; cbn [fst snd] in He; inv He.
        -- rewrite (faces_internal inp a b c e Hv Hf He'), (face_lnext inp a b c Hv Hf), (face_rprev inp a b e Hv He').
           unfold weighted. cbn. lra.
        -- rewrite (faces_internal inp b a e c Hv He' Hf), (face_lnext inp b a e Hv He'), (face_rprev inp b a c Hv Hf).
           unfold weighted. cbn. lra.
      * apply HM. exact (proj1 (J _ _ _ (R _ _ _ He'))).
      * apply HM. exact (proj2 (J _ _ _ (R _ _ _ (R _ _ _ He')))).
    + assert (Hb : border_edge inp a b).
      { split; [exact (proj1 (J _ _ _ Hf))|]. left. split; [eapply is_face_dir; exact Hf|exact HI]. }
      exists (fun i => crd inp i a + crd inp i b - crd inp i c). split; [|split].
      * intros i. destruct (new_crd _ f inp fuel f' out mid Ls a b m i Hv Hr FR E Hm) as [x [y [He [_ [_ ->]]]]].
        cbn [new_mask]. unfold loop_mask. destruct He as [He|He]; cbn [fst snd] in He; inv He.
        -- rewrite (border_not_internal inp a b Hv Hb). unfold weighted, edge_mask. cbn. lra.
        -- rewrite (border_not_internal inp b a Hv (border_edge_sym _ _ _ Hv Hb)). unfold weighted, edge_mask. cbn. lra.
      * replace (D2 d (fun i => crd inp i a + crd inp i b - crd inp i c) (P inp a)) with (D2 d (P inp b) (P inp c)).
        -- apply HM. exact (proj2 (J _ _ _ (R _ _ _ Hf))).
        -- unfold D2, sq. apply rsum_ext. intros. ring.
      * replace (D2 d (fun i => crd inp i a + crd inp i b - crd inp i c) (P inp b)) with (D2 d (P inp a) (P inp c)).
        -- apply HM. exact (proj1 (J _ _ _ (R _ _ _ (R _ _ _ Hf)))).
        -- unfold D2, sq. apply rsum_ext. intros. ring.
Qed.

Lemma loop_terminates_sec (L : R) old f inp : valid inp -> dense inp -> tris inp <> [] -> no_isolated inp -> no_wire inp -> 0 < L ->
  exists f' out, completes (fun fuel => conditional_update fuel (EdgeF ELoop) (Some (edge_length_criterion (O := RO d) L)) old f inp) (Ok (f', out)).
Proof.
  intros Hv Hd Hne Hiso Hwire Ht.
  assert (HG : cond_start (EdgeF ELoop) (copy_geometry inp)).
  { apply copy_start. apply start_of; auto. unfold splits_faces; congruence. }
  set (q := L * L / 2). assert (Hq : 0 < q) by (unfold q; nra).
  destruct (unbounded_pow (9 / 4) q (map (fun o => match o with Some (a, b) => dot (copy_geometry inp) a b b | None => 0%R end)
             (map snd (edges_of (copy_geometry inp)))) ltac:(lra) Hq) as [n Hn].
  destruct (rounds_terminate (O := RO d) (D := D) (EdgeF ELoop) (edge_length_criterion (O := RO d) L) (esl_ (O := RO d) L) (cond_start (EdgeF ELoop)))
    with (Q := fun n m => forall a b, joined m a b -> dot m a b b <= q + q * (3 / 2) ^ n) (n := (2 * n)%nat) (m := copy_geometry inp) (f := f)
    as [fuel [f' [out E]]].
  - apply edge_crit_mono.
  - intros m o [Hm _]. exists 0%nat. apply edge_crit_runs. exact Hm.
  - intros n0 m o x E. apply edge_crit_inv in E. apply E.
  - intros m f0 H0 He. apply edge_ready; assumption.
  - intros m [H1 [H2 _]]. auto.
  - intros m f0 n0 f1 m1 H0 He E. eapply start_step; [exact H0|apply edge_ready; [exact H0|exact He]|exact E].
  - intros m [Hm _] HQ. cbn. apply is_nil_true. apply (same_shape_edges m m L Hm); [|exact Hm|].
    { unfold same_shape. repeat split; auto. }
    intros a b Hj. apply seg_le; [lra|]. specialize (HQ a b Hj). cbn in HQ. unfold q in HQ. lra.
  - intros k m f0 n0 f1 m1 H0 HQ Hs E x y Hxy. pose proof (edge_ready (O := RO d) ELoop L m f0 H0 Hs) as Hr.
    pose proof (start_step _ _ _ _ _ _ H0 Hr E) as H1.
    destruct H0 as [Hm [Hdm [Hnem _]]].
    destruct (step_ok _ _ _ _ _ _ Hm Hdm Hnem Hr E) as [Hm1 [_ [_ [Hw1 _]]]].
    destruct (loop_edge_facts _ m n0 f1 m1 Hm Hdm Hr E) as [mid [Ls [FR [Hold Hmid]]]].
    pose proof (fr_sub _ _ _ _ _ _ _ FR) as Hsd.
    assert (Hgo : forall x y, In (x, y) (dirs (tris m1)) -> dot m1 x y y <= q + q * (3 / 2) ^ k).
    { clear x y Hxy. intros x y Hd1. apply dirs_tri in Hd1. destruct Hd1 as [u [Hu Hd1]].
      destruct (out_tri_parent _ _ _ _ _ _ _ u Hm FR Hu) as [a [b [c [Hin Hu']]]].
      assert (Hjn : forall v w, In (v, w) (tdirs (a, b, c)) -> joined m v w).
      { intros v w H. apply (v_face_edges _ Hm). apply dirs_tri. exists (a, b, c). auto. }
      assert (Hsp : forall v w, In (v, w) (tdirs (a, b, c)) -> (mid v w <> None <-> L < seg_length m v w)).
      { intros v w H. rewrite (sd_dom _ _ _ _ _ Hsd v w). cbn [to_split apply_selection esl_ esel set_edges_to_be_subdivided].
        rewrite (long_edges_R L m v w Hm). split.
        - intros [[Hnil Hj]|[_ H2]]; [|exact H2]. exfalso. cbn in Hs. rewrite Hnil in Hs. discriminate.
        - intros H2. right. split; [apply Hjn; exact H|exact H2]. }
      assert (H1n : 1 <= (3 / 2) ^ k) by (apply pow_R1_Rle; lra).
      destruct (child_good m m1 mid a b c (L * L) (q + q * (3 / 2) ^ S k)) with (u := u) (x := x) (y := y) as [H|H].
      - intros v H i. apply Hold. apply (v_verts _ Hm _ _ Hin). exact H.
      - intros v w z e H He. apply (Hmid (q + q * (3 / 2) ^ S k) v w z e); [|unfold is_face; intuition congruence|exact He].
        intros v' w' Hj. apply HQ. exact Hj.
      - intros v w H. apply HQ. apply Hjn. exact H.
      - intros v w H H2. apply (Hsp v w H) in H2. rewrite <- dot_D2. destruct (Rle_dec (dot m v w w) (L * L)) as [Hle|Hle]; [|lra].
        apply seg_le in Hle; lra.
      - intros v w H H2. rewrite <- dot_D2. apply seg_le; [lra|]. destruct (Rle_dec (seg_length m v w) L) as [Hle|Hle]; [exact Hle|]. exfalso.
        apply (Hsp v w H); [lra|exact H2].
      - nra.
      - exact Hu'.
      - exact Hd1.
      - rewrite dot_D2, D2_sym. unfold q in *. nra.
      - rewrite dot_D2, D2_sym. cbn [pow] in H. unfold q in *. nra. }
    destruct (Hw1 x y Hxy) as [H|H]; [apply Hgo; exact H|]. rewrite dot_swap. apply Hgo. exact H.
  - exact HG.
  - intros a b Hj. pose proof (proj1 HG) as Hvc. destruct (v_ecells _ Hvc) as [es [He [_ [_ [H2 _]]]]].
    destruct (H2 a b Hj) as [id [e [Hin Hu]]].
    assert (Hi : In (Some e) (map snd (edges_of (copy_geometry inp)))).
    { apply in_map_iff. exists (id, Some e). unfold edges_of. rewrite He. auto. }
    apply (in_map (fun o => match o with Some (a, b) => dot (copy_geometry inp) a b b | None => 0%R end)) in Hi. apply Hn in Hi.
    rewrite pow_mult. replace ((3 / 2) ^ 2) with (9 / 4) by (cbn; field).
    destruct Hu as [-> | ->]; cbn [fst snd] in Hi; [lra|]. rewrite dot_swap. lra.
  - exists f', out. apply (cond_completes _ _ _ _ _ fuel); [apply edge_crit_mono| |discriminate].
    unfold conditional_update. rewrite (edge_crit_runs (O := RO d) L (copy_geometry inp) old fuel (proj1 HG)). cbn [rbind]. exact E.
Qed.
End LOOPEDGE.

Lemma C103_pf : forall (d : nat) (D : Type) (maxlen : R) old f (inp : mesh (RO d) D),
  valid inp -> dense inp -> tris inp <> [] -> no_isolated inp -> no_wire inp -> (0 < maxlen)%R ->
  exists f' out, completes (fun fuel => conditional_update fuel (EdgeF ELoop)
      (Some (edge_length_criterion (O := RO d) maxlen)) old f inp) (Ok (f', out)) /\
    (forall a b, joined out a b -> (seg_length out a b <= maxlen)%R) /\ valid out.
Proof.
  intros d D t old f inp Hv Hd Hne Hi Hw Ht. destruct (loop_terminates_sec t old f inp Hv Hd Hne Hi Hw Ht) as [f' [out H]].
  exists f', out. split; [exact H|]. destruct H as [_ [n Hn]]. specialize (Hn n (le_n n)). cbv beta in Hn.
  destruct (C34_length_valid_pf d D ELoop t old f inp n f' out Hv Hd Hne (fun _ => conj Hi Hw) Hn)
    as [H1 [_ [H2 _]]]. split; [exact H2|exact H1].
Qed.
