(** * FltTermLoop: the conditional filter around the Loop edge filter ends in floating point (C113). *)
From Coq Require Import Reals Lra Psatz.
From Flocq Require Import Core BinarySingleNaN.
From Verif Require Import Base Mesh Filters Drivers Spec SpecSub SpecGeo SpecFlt SpecDrive Lists AddFace SplitTri Split Points Valid Run Update Struct Count Face Copy PtsAny Geo GeoProps SimProps Conn Drive Area Cond DriveProps Conv CondLoop Flt FltRun FltBox FltLen FltTerm.
Open Scope R_scope.

(** ** Edges of the children, with two thresholds *)
Section CHILD.
Context {d : nat} {D : Type}.
Notation P m x := (fun i => crd m i x).
Variables (inp out : mesh (RO d) D) (mid : N -> N -> option N) (a b c : N) (q0 q1 M2 : R).
Hypothesis Hold : forall x, In x [a; b; c] -> forall i, crd out i x = crd inp i x.
Hypothesis Hmid : forall v w z e, rot a b c v w z -> mid v w = Some e ->
  exists B, at_edge (P out e) (P inp v) (P inp w) (P inp z) B /\ D2 d B (P inp v) <= M2 /\ D2 d B (P inp w) <= M2.
Hypothesis Hlen : forall x y, In (x, y) (tdirs (a, b, c)) -> D2 d (P inp y) (P inp x) <= M2.
Hypothesis Hcut : forall x y, In (x, y) (tdirs (a, b, c)) -> mid x y <> None -> q0 < D2 d (P inp y) (P inp x).
Hypothesis Hkeep : forall x y, In (x, y) (tdirs (a, b, c)) -> mid x y = None -> D2 d (P inp y) (P inp x) <= q1.
Hypothesis Hq0 : 0 <= q0.
Hypothesis Hq : q0 <= q1.

Let fine (x y : N) : Prop :=
  (exists v w, ((x, y) = (v, w) \/ (x, y) = (w, v)) /\ In (v, w) (tdirs (a, b, c)) /\ mid v w = None) \/
  D2 d (P out x) (P out y) <= 9 / 16 * M2 + 7 / 16 * q1 - 1 / 4 * q0.
Lemma fine_sym x y : fine x y -> fine y x.
Proof.
  unfold fine. intros [[v [w [H K]]]|H]; [left; exists v, w; split; [|exact K]|right; rewrite D2_sym; exact H].
  destruct H as [H|H]; inv H; auto.
Qed.
Notation rt := (rot a b c).
Lemma rt1 v w z : rt v w z -> rt w z v.
Proof. unfold rot. intros [E|[E|E]]; inv E; auto. Qed.
Lemma rt_dir v w z : rt v w z -> In (v, w) (tdirs (a, b, c)).
Proof. unfold rot. intros [E|[E|E]]; inv E; cbn; auto. Qed.
Lemma rt_old v w z : rt v w z -> forall i, crd out i v = crd inp i v.
Proof. intros H. apply Hold. destruct H as [E|[E|E]]; inv E; cbn; auto. Qed.
Lemma rt_out v w z p : rt v w z -> D2 d p (P out v) = D2 d p (P inp v).
Proof. intros H. unfold D2, sq. apply rsum_ext. intros i _. rewrite (rt_old _ _ _ H i). reflexivity. Qed.
Lemma rt_sides v w z : rt v w z -> D2 d (P inp w) (P inp v) <= M2 /\ D2 d (P inp z) (P inp w) <= M2 /\ D2 d (P inp v) (P inp z) <= M2.
Proof.
  intros H. pose proof (rt1 _ _ _ H) as H1. pose proof (rt1 _ _ _ H1) as H2.
  repeat split; apply Hlen; eapply rt_dir; eassumption.
Qed.
Lemma fine_keep v w z : rt v w z -> mid v w = None -> fine v w.
Proof. intros H E. left. exists v, w. split; [auto|]. split; [eapply rt_dir; exact H|exact E]. Qed.
Lemma fine_half v w z e : rt v w z -> mid v w = Some e -> fine v e /\ fine w e.
Proof.
  intros H E. destruct (Hmid v w z e H E) as [B [HB [B1 B2]]]. destruct (rt_sides v w z H) as [S1 [S2 S3]]. pose proof (D2_pos d (P inp w) (P inp v)) as S0. split; apply fine_sym; right.
  - rewrite (rt_out v w z _ H). apply Rle_trans with (25 / 64 * M2); [|lra].
    eapply half_len; [exact HB|exact S1| |exact B1]. rewrite D2_sym. exact S3.
  - rewrite (rt_out w z v _ (rt1 _ _ _ H)). apply Rle_trans with (25 / 64 * M2); [|lra].
    eapply half_len; [apply at_edge_sym; exact HB| |exact S2|exact B2]. rewrite D2_sym. exact S1.
Qed.
Lemma fine_median v w z e : rt v w z -> mid v w = Some e -> mid w z = None \/ mid z v = None -> fine e z.
Proof.
  intros H E K. destruct (Hmid v w z e H E) as [B [HB [B1 B2]]]. destruct (rt_sides v w z H) as [S1 [S2 S3]]. pose proof (D2_pos d (P inp w) (P inp v)) as S0. right.
  pose proof (rt1 _ _ _ H) as H1. pose proof (rt1 _ _ _ H1) as H2.
  rewrite (rt_out z v w _ H2). eapply Rle_trans; [apply median_len; exact HB|].
  assert (C : q0 < D2 d (P inp w) (P inp v)) by (apply Hcut; [eapply rt_dir; exact H|congruence]).
  rewrite (D2_sym d (P inp v) (P inp w)), (D2_sym d (P inp v) B), (D2_sym d (P inp w) B), (D2_sym d (P inp w) (P inp z)).
  destruct K as [K|K].
  - assert (D2 d (P inp z) (P inp w) <= q1) by (apply Hkeep; [eapply rt_dir; exact H1|exact K]). lra.
  - assert (D2 d (P inp v) (P inp z) <= q1) by (apply Hkeep; [eapply rt_dir; exact H2|exact K]). lra.
Qed.
Lemma fine_mids v w z e0 e1 : rt v w z -> mid v w = Some e0 -> mid w z = Some e1 -> fine e0 e1.
Proof.
  intros H E0 E1. destruct (Hmid v w z e0 H E0) as [B0 [HB0 [_ B0w]]]. destruct (Hmid w z v e1 (rt1 _ _ _ H) E1) as [B1 [HB1 [B1w _]]].
  destruct (rt_sides v w z H) as [S1 [S2 S3]]. pose proof (D2_pos d (P inp w) (P inp v)) as S0. apply fine_sym. right. apply Rle_trans with (1 / 4 * M2); [|lra].
  eapply mids_len; [exact HB0|exact HB1| |exact B0w|exact B1w]. rewrite D2_sym. exact S3.
Qed.
Lemma child_fine s x y : In s (split_triangle a b c (mid a b) (mid b c) (mid c a)) -> In (x, y) (tdirs s) -> fine x y.
Proof.
  intros Hu Hxy. assert (R0 : rt a b c) by (left; reflexivity). pose proof (rt1 _ _ _ R0) as R1. pose proof (rt1 _ _ _ R1) as R2.
  assert (Hd : In (x, y) (dirs (split_triangle a b c (mid a b) (mid b c) (mid c a)))) by (apply dirs_tri; exists s; auto).
  apply split_dirs in Hd. clear Hu Hxy.
  assert (Hh : forall v w z o, rt v w z -> mid v w = o -> In (x, y) (halves v w o) -> fine x y).
  { intros v w z [e|] H E Hi; cbn in Hi; in_cases Hi; injection Hi as <- <-.
    - apply (fine_half v w z e H E).
    - apply fine_sym. apply (fine_half v w z e H E).
    - eapply fine_keep; eauto. }
  destruct Hd as [Hd|Hd].
  - unfold outer_edges in Hd. rewrite !in_app_iff in Hd.
    destruct Hd as [Hd|[Hd|Hd]]; [eapply (Hh a b c)|eapply (Hh b c a)|eapply (Hh c a b)]; eauto.
  - pose proof (fine_median a b c) as G0. pose proof (fine_median b c a) as G1. pose proof (fine_median c a b) as G2.
    pose proof (fine_mids a b c) as K0. pose proof (fine_mids b c a) as K1. pose proof (fine_mids c a b) as K2.
    destruct (mid a b) as [e0|]; destruct (mid b c) as [e1|]; destruct (mid c a) as [e2|]; cbn in Hd; in_cases Hd; injection Hd as <- <-;
      first [solve [auto] | solve [apply fine_sym; auto]].
Qed.
End CHILD.

(** ** Boxes *)
Lemma rsum_unit (j n : nat) (f : nat -> R) : (j < n)%nat -> rsum (fun i => (if Nat.eqb i j then 1 else 0) * f i) (seq 0 n) = f j.
Proof.
  intros H. assert (G : forall k n, rsum (fun i => (if Nat.eqb i j then 1 else 0) * f i) (seq k n) = if (Nat.leb k j && Nat.ltb j (k + n))%bool then f j else 0).
  { clear n H. intros k n. revert k. induction n as [|n IH]; intros k; unfold rsum in *; cbn [seq fold_right].
    - destruct (Nat.leb k j) eqn:E1; [|reflexivity]. cbn [andb]. destruct (Nat.ltb j (k + 0)) eqn:E2; [|reflexivity].
      apply Nat.leb_le in E1. apply Nat.ltb_lt in E2. lia.
    - rewrite IH. destruct (Nat.eqb k j) eqn:E0.
      + apply Nat.eqb_eq in E0. subst k. rewrite Nat.leb_refl. replace (Nat.leb (S j) j) with false by (symmetry; apply Nat.leb_gt; lia).
        replace (Nat.ltb j (j + S n)) with true by (symmetry; apply Nat.ltb_lt; lia). cbn [andb]. ring.
      + apply Nat.eqb_neq in E0. replace (Nat.leb k j) with (Nat.leb (S k) j).
        * replace (k + S n)%nat with (S k + n)%nat by lia. ring.
        * destruct (Nat.leb (S k) j) eqn:E1; symmetry; [apply Nat.leb_le in E1; apply Nat.leb_le; lia|apply Nat.leb_gt in E1; apply Nat.leb_gt; lia]. }
  rewrite G. replace (Nat.leb 0 j) with true by (symmetry; apply Nat.leb_le; lia). replace (Nat.ltb j (0 + n)) with true by (symmetry; apply Nat.ltb_lt; lia). reflexivity.
Qed.
Lemma bounded_half {d D} (m : mesh (RO d) D) B : valid m ->
  (bounded B m <-> forall j, (j < d)%nat -> in_halfspace (fun i => if Nat.eqb i j then 1 else 0) B m /\ in_halfspace (fun i => if Nat.eqb i j then -1 else 0) B m).
Proof.
  intros Hv. assert (X : forall j id, (j < d)%nat -> rsum (fun i => (if Nat.eqb i j then 1 else 0) * crd m i id) (seq 0 d) = crd m j id /\
      rsum (fun i => (if Nat.eqb i j then -1 else 0) * crd m i id) (seq 0 d) = - crd m j id).
  { intros j id Hj. split; [exact (rsum_unit j d (fun i => crd m i id) Hj)|]. rewrite <- (rsum_unit j d (fun i => - crd m i id) Hj).
    apply rsum_ext. intros i _. destruct (Nat.eqb i j); ring. }
  split.
  - intros H j Hj. split; intros id Hid; destruct (X j id Hj) as [X1 X2]; [rewrite X1|rewrite X2];
      (destruct (oget id (pts m)) as [p|] eqn:Ep; [|congruence]); unfold crd; rewrite (ptof_get m id p Ep);
      pose proof (H id p (oget_In _ _ _ Ep)) as F; rewrite Forall_forall in F;
      (assert (L : length p = d) by exact (v_pts_dim _ Hv _ _ Ep)); specialize (F (nth j p 0) (nth_In p 0 ltac:(rewrite L; exact Hj))); apply Rabs_le_inv in F; [exact (proj2 F)|apply Ropp_le_cancel; rewrite Ropp_involutive; exact (proj1 F)].
  - intros H id p Hin. assert (Ep : oget id (pts m) = Some p) by (apply sorted_oget; [exact (v_pts_sorted _ Hv)|exact Hin]).
    assert (L : length p = d) by exact (v_pts_dim _ Hv _ _ Ep). apply Forall_forall. intros y Hy.
    apply (In_nth _ _ 0) in Hy. destruct Hy as [j [Hj <-]]. assert (Hjd : (j < d)%nat) by (rewrite <- L; exact Hj). destruct (H j Hjd) as [H1 H2]. assert (Hid : oget id (pts m) <> None) by congruence.
    destruct (X j id Hjd) as [X1 X2]. assert (G1 : crd m j id <= B) by (rewrite <- X1; exact (H1 id Hid)). assert (G2 : - crd m j id <= B) by (rewrite <- X2; exact (H2 id Hid)).
    assert (G : Rabs (crd m j id) <= B) by (apply Rabs_le; lra). unfold crd in G. rewrite (ptof_get m id p Ep) in G. exact G.
Qed.

Section LOOPF.
Variables (prec emax : Z) (Hp : Prec_gt_0 prec) (Hm : Prec_lt_emax prec emax).
Hypothesis H8 : (8 <= prec)%Z.
Variables (cosf : N -> binary_float prec emax) (d : nat) (D : Type).
Notation F := (binary_float prec emax).
Notation OB := (BO prec emax Hp Hm cosf d).
Notation ex := (exact_mesh prec emax Hp Hm).
Notation u := (unit_roundoff prec).
Notation eta := (half_smallest prec emax).
Notation lim := (bpow radix2 (emax - 2)).
Implicit Types m : mesh OB D.
Notation box B := (in_box prec emax Hp Hm (fun _ => - B%R) (fun _ => B%R)).
Variable M : R.
Hypothesis M0 : 0 <= M.
Variable t : F.
Notation T := (B2R t).
Notation err := (40 * (u * M + eta)).
Hypothesis Ft : is_finite t = true.
Hypothesis T0 : 0 < T.
Hypothesis Hd : 200 * (INR d + 3) * u <= 1.
Hypothesis Hz : 1000 * (INR d + 1) * eta <= T * T.
Hypothesis HT : 10000 * (INR d + 1) * (err * err) <= T * T.
Hypothesis HB : 5 * (INR d + 1) * (M * M + 1) <= lim.

Notation sh := (short prec emax Hp Hm cosf d D t).
Lemma sh_sym m a b : valid m -> box M m -> sh m a b -> sh m b a.
Proof. eapply short_sym; eassumption. Qed.
Lemma sh_le m a b : valid m -> box M m -> joined m a b -> sh m a b -> dot (ex m) a b b <= 105 / 100 * (T * T).
Proof. eapply short_le; eassumption. Qed.
Lemma sh_not m a b : valid m -> box M m -> joined m a b -> ~ sh m a b -> 95 / 100 * (T * T) < dot (ex m) a b b.
Proof. eapply not_short; eassumption. Qed.
Lemma sh_long m a b : valid m -> box M m -> joined m a b -> (In (Some (a, b)) (long_edges (O := OB) t m) \/ In (Some (b, a)) (long_edges (O := OB) t m)) <-> ~ sh m a b.
Proof. eapply long_spec; eassumption. Qed.
Lemma sh_nil m : valid m -> box M m -> (forall a b, joined m a b -> sh m a b) -> long_edges (O := OB) t m = [].
Proof. eapply long_nil; eassumption. Qed.

Lemma box_mono B B' m : B <= B' -> box B m -> box B' m.
Proof. intros HB1 H id p i x Hi Hx. destruct (H id p i x Hi Hx) as [H1 H2]. split; [exact H1|lra]. Qed.
Lemma near_box e B m (m2 : mesh (RO d) D) : near prec emax Hp Hm e m m2 -> bounded B m2 -> box (B + e) m.
Proof.
  intros [_ Hn] Hb id p i x Hin Hx.
  assert (G : exists q, In q (pts m2) /\ Forall2 (fun (x : F) y => is_finite x = true /\ Rabs (B2R x - y) <= e) p (snd q)).
  { revert Hin. clear -Hn. induction Hn as [|[j a] y l l' H Hn IH]; intros Hin; [destruct Hin|].
    destruct Hin as [E|Hin]; [injection E as -> ->; exists y; split; [left; reflexivity|exact H]|]. destruct (IH Hin) as [q [H1 H2]]. exists q. split; [right; exact H1|exact H2]. }
  destruct G as [[j q] [Hq HF]]. pose proof (Hb j q Hq) as Hbq. cbn [snd] in HF. clear -HF Hbq Hx. revert i Hx Hbq.
  induction HF as [|a y p q [H1 H2] HF IH]; intros [|i] Hx Hbq; try discriminate.
  - cbn in Hx. injection Hx as <-. inversion Hbq; subst. split; [exact H1|]. apply Rabs_le_inv in H2. apply Rabs_le_inv in H3. lra.
  - cbn in Hx. inversion Hbq; subst. eapply IH; eauto.
Qed.

Definition WL (n : nat) : R := 95 / 100 * (T * T) * (8 / 7) ^ n.
Lemma WL_pos n : 95 / 100 * (T * T) <= WL n.
Proof. unfold WL. assert (1 <= (8 / 7) ^ n) by (apply pow_R1_Rle; lra). assert (0 < T * T) by nra. nra. Qed.
Lemma WL_S n : WL (S n) = 8 / 7 * WL n.
Proof. unfold WL. cbn [pow]. ring. Qed.
Definition QL (n : nat) m : Prop := forall a b, joined m a b -> sh m a b \/ dot (ex m) a b b <= WL n.

Lemma loop_round n B m f fuel f' m1 : cond_start (EdgeF ELoop) m -> 0 <= B -> box B m -> B + err <= M -> QL (S n) m -> sel_empty (esl_ (O := OB) t m) = false ->
  update (EdgeF ELoop) fuel (apply_selection f (esl_ (O := OB) t m)) m = Ok (f', m1) -> QL n m1 /\ box (B + err) m1.
Proof.
  intros H0 B0 HbB HBM HQ Hs E. pose proof (u_pos prec) as U0. pose proof (eta_pos prec emax) as E0. assert (ER0 : 0 <= err) by nra.
  assert (Hb : box M m) by (apply (box_mono B); [lra|exact HbB]).
  pose proof (edge_ready (O := OB) ELoop t m f H0 Hs) as Hr.
  pose proof (start_step _ _ _ _ _ _ H0 Hr E) as H1.
  destruct H0 as [Hv [Hdm [Hnem [_ HL]]]].
  destruct (step_ok _ _ _ _ _ _ Hv Hdm Hnem Hr E) as [Hv1 [_ [_ [Hw1 _]]]].
  destruct (face_run _ _ m fuel f' m1 Hv Hdm Hr E) as [midB [LsB FRB]].
  assert (ML : 2 * M <= lim) by (eapply M_lim; eassumption).
  assert (X : exists f2 mR, update (EdgeF ELoop) fuel (apply_selection f (esl_ (O := OB) t m)) (ex m) = Ok (f2, mR) /\ near prec emax Hp Hm err m1 mR).
  { pose proof (C91_pf prec emax Hp Hm cosf d D D (EdgeF ELoop) fuel (apply_selection f (esl_ (O := OB) t m)) m (ex m) M 0 H8) as C.
    specialize (C ltac:(discriminate) ltac:(discriminate) M0 (Rle_refl 0) ltac:(lra) (exact_near prec emax Hp Hm cosf d D M m Hb) (exact_bounded prec emax Hp Hm cosf d D M m Hb)).
    rewrite E in C. destruct (update (EdgeF ELoop) fuel (apply_selection f (esl_ (O := OB) t m)) (ex m)) as [[f2 mR]| | |]; try contradiction.
    exists f2, mR. split; [reflexivity|]. destruct C as [_ C]. replace (amplification (EdgeF ELoop) * 0 + 40 * (u * (M + 0) + eta)) with err in C by (rewrite Rmult_0_r, Rplus_0_l, Rplus_0_r; reflexivity). exact C. }
  destruct X as [f2 [mR [ER Hn]]].
  assert (Hve : valid (ex m)) by (apply exact_valid; exact Hv). assert (Hde : dense (ex m)) by (apply exact_dense; exact Hdm).
  assert (Hre : ready (EdgeF ELoop) (apply_selection f (esl_ (O := OB) t m)) (ex m)).
  { destruct Hr as [R1 [R2 R3]]. split; [exact R1|]. split; [intros K id Hid; apply (R2 K id); apply (exact_none prec emax Hp Hm cosf d D m id); exact Hid|exact R3]. }
  destruct (step_ok _ _ _ _ _ _ Hve Hde Hnem Hre ER) as [HvR _].
  split.
  2:{ apply (near_box err B m1 mR Hn). apply (bounded_half mR B HvR). intros j Hj.
      destruct (proj1 (bounded_half (ex m) B Hve) (exact_bounded prec emax Hp Hm cosf d D B m HbB) j Hj) as [K1 K2].
      split; eapply C22_all_pf; try exact ER; try exact Hve; try assumption; discriminate. }
  destruct (loop_edge_facts _ (ex m) fuel f2 mR Hve Hde Hre ER) as [mid [Ls [FR [Hold Hmid]]]].
  pose proof (fr_sub _ _ _ _ _ _ _ FR) as Hsd.
  assert (Ht1 : tris mR = tris m1).
  { destruct Hn as [[_ [_ [Hc _]]] _]. symmetry. unfold tris, faces. first [rewrite Hc; reflexivity|fail]. }
  pose proof (WL_pos n) as Wn. pose proof (WL_S n) as WS. assert (TT : 0 < T * T) by nra.
  assert (Hnoise : INR d * (44 * (err * err)) <= 44 / 10000 * (T * T)).
  { pose proof (pos_INR d). assert (S : 0 <= err * err) by apply sqr_pos. nra. }
  set (M2 := Rmax (WL (S n)) (105 / 100 * (T * T))).
  assert (HM1 : WL (S n) <= M2) by apply Rmax_l. assert (HM2 : 105 / 100 * (T * T) <= M2) by apply Rmax_r.
  assert (HM3 : M2 = WL (S n) \/ M2 = 105 / 100 * (T * T)) by (unfold M2, Rmax; destruct Rle_dec; auto).
  assert (Hall : forall x y, joined m x y -> dot (ex m) x y y <= M2).
  { intros v w Hj. destruct (HQ v w Hj) as [G|G]; [|lra]. pose proof (sh_le m v w Hv Hb Hj G). lra. }
  assert (Hgo : forall x y, In (x, y) (dirs (tris m1)) -> sh m1 x y \/ dot (ex m1) x y y <= WL n).
  { intros x y Hd1. assert (Hj1 : joined m1 x y) by (apply (v_face_edges _ Hv1); exact Hd1). apply dirs_tri in Hd1. destruct Hd1 as [s [Hu Hd1]]. rewrite <- Ht1 in Hu.
    destruct (out_tri_parent _ _ _ _ _ _ _ s Hve FR Hu) as [a [b [c [Hin Hu']]]].
    assert (Hjn : forall v w, In (v, w) (tdirs (a, b, c)) -> joined m v w).
    { intros v w H. apply (v_face_edges _ Hv). apply dirs_tri. exists (a, b, c). auto. }
    assert (Hsp : forall v w, In (v, w) (tdirs (a, b, c)) -> (mid v w <> None <-> ~ sh m v w)).
    { intros v w H. rewrite (sd_dom _ _ _ _ _ Hsd v w). cbn [to_split apply_selection esl_ esel set_edges_to_be_subdivided].
      rewrite <- (sh_long m v w Hv Hb (Hjn v w H)). split.
      - intros [[Hnil Hj]|H2]; [|exact H2]. exfalso. cbn in Hs. rewrite Hnil in Hs. discriminate.
      - intros H2. right. exact H2. }
    assert (Hkp : forall v w, In (v, w) (tdirs (a, b, c)) -> mid v w = None -> sh m v w).
    { intros v w H H2. destruct (short_dec prec emax Hp Hm cosf d D t m v w Hv (Hjn v w H)) as [G|G]; [exact G|]. apply (Hsp v w H) in G. congruence. }
    assert (Hkeepf : forall v w, In (v, w) (tdirs (a, b, c)) -> mid v w = None -> sh m1 v w).
    { intros v w H H2. pose proof (Hkp v w H H2) as G. destruct (joined_pts prec emax Hp Hm cosf d D m v w Hv (Hjn v w H)) as [p [q [Ep Eq]]].
      intros p' q' Ep' Eq'. rewrite (fr_old _ _ _ _ _ _ _ FRB v p Ep ltac:(discriminate)) in Ep'. rewrite (fr_old _ _ _ _ _ _ _ FRB w q Eq ltac:(discriminate)) in Eq'.
      inv Ep'. inv Eq'. apply G; assumption. }
    destruct (child_fine (ex m) mR mid a b c (95 / 100 * (T * T)) (105 / 100 * (T * T)) M2) with (s := s) (x := x) (y := y) as [H|H].
    - intros v H i. apply Hold. apply (v_verts _ Hve _ _ Hin). exact H.
    - intros v w z e H He. apply (Hmid M2 v w z e); [|unfold is_face, rot in *; intuition congruence|exact He].
      intros v' w' Hj. apply Hall. exact Hj.
    - intros v w H. apply Hall. apply Hjn. exact H.
    - intros v w H H2. rewrite <- dot_D2. apply sh_not; auto. apply (Hsp v w H). exact H2.
    - intros v w H H2. rewrite <- dot_D2. apply sh_le; auto.
    - lra.
    - lra.
    - exact Hu'.
    - exact Hd1.
    - left. destruct H as [v [w [Hvw [H H2]]]]. destruct Hvw as [Hvw|Hvw]; inv Hvw; [apply Hkeepf; assumption|].
      destruct (joined_pts prec emax Hp Hm cosf d D m w v Hv ltac:(apply (v_ring_sym _ Hv), Hjn; exact H)) as [p [q [Ep Eq]]].
      pose proof (sh_sym m v w Hv Hb (Hkp v w H H2)) as G.
      intros p' q' Ep' Eq'. rewrite (fr_old _ _ _ _ _ _ _ FRB w p Ep ltac:(discriminate)) in Ep'. rewrite (fr_old _ _ _ _ _ _ _ FRB v q Eq ltac:(discriminate)) in Eq'.
      inv Ep'. inv Eq'. apply G; assumption.
    - right. destruct (joined_pts prec emax Hp Hm cosf d D m1 x y Hv1 Hj1) as [p [q [Ep Eq]]].
      pose proof (near_dot prec emax Hp Hm cosf d D err m1 mR x y ER0 Hn ltac:(congruence) ltac:(congruence)) as ND.
      rewrite D2_sym in H. rewrite <- dot_D2 in H. destruct HM3 as [HM3|HM3]; lra. }
  assert (Hb1 : box M m1).
  { apply (box_mono (B + err)); [exact HBM|]. apply (near_box err B m1 mR Hn). apply (bounded_half mR B HvR). intros j Hj.
      destruct (proj1 (bounded_half (ex m) B Hve) (exact_bounded prec emax Hp Hm cosf d D B m HbB) j Hj) as [K1 K2].
      split; eapply C22_all_pf; try exact ER; try exact Hve; try assumption; discriminate. }
  intros x y Hxy. destruct (Hw1 x y Hxy) as [H|H]; [apply Hgo; exact H|]. destruct (Hgo y x H) as [G|G]; [left; apply sh_sym; assumption|right; rewrite dot_swap; exact G].
Qed.

Variables (A : R) (n0 : nat).
Hypothesis A0 : 0 <= A.
Hypothesis HW : 4 * INR d * (A * A) <= WL n0.
Hypothesis HA : A + INR n0 * err <= M.

Definition QB (n : nat) m : Prop := (n <= n0)%nat /\ box (A + (INR n0 - INR n) * err) m /\ QL n m.
Definition GL m : Prop := cond_start (EdgeF ELoop) m /\ exists n, QB n m.

Lemma QB_box n m : QB n m -> box M m.
Proof.
  intros [Hn [H _]]. apply (box_mono (A + (INR n0 - INR n) * err)); [|exact H]. pose proof (pos_INR n). pose proof (u_pos prec). pose proof (eta_pos prec emax).
  assert (0 <= err) by nra. nra.
Qed.
Lemma QB_step n m f fuel f' m1 : cond_start (EdgeF ELoop) m -> QB (S n) m -> sel_empty (esl_ (O := OB) t m) = false ->
  update (EdgeF ELoop) fuel (apply_selection f (esl_ (O := OB) t m)) m = Ok (f', m1) -> QB n m1.
Proof.
  intros H0 [Hn [Hb HQ]] Hs E. pose proof (u_pos prec). pose proof (eta_pos prec emax). assert (E0 : 0 <= err) by nra.
  assert (Hle : INR (S n) <= INR n0) by (apply le_INR; exact Hn). pose proof (S_INR n) as SI. pose proof (pos_INR n) as Pn.
  destruct (loop_round n (A + (INR n0 - INR (S n)) * err) m f fuel f' m1 H0) as [K1 K2]; auto.
  - nra.
  - rewrite SI in *. nra.
  - split; [lia|]. split; [|exact K1]. replace (A + (INR n0 - INR n) * err) with (A + (INR n0 - INR (S n)) * err + err) by (rewrite SI; ring). exact K2.
Qed.
Lemma QB_0 m : cond_start (EdgeF ELoop) m -> QB 0 m -> sel_empty (esl_ (O := OB) t m) = true.
Proof.
  intros [Hv _] HQ. pose proof (QB_box 0 m HQ) as Hb. destruct HQ as [_ [_ HQ]]. cbn. apply is_nil_true. apply sh_nil; [exact Hv|exact Hb|].
  intros a b Hj. destruct (HQ a b Hj) as [G|G]; [exact G|]. destruct (short_dec prec emax Hp Hm cosf d D t m a b Hv Hj) as [K|K]; [exact K|].
  apply sh_not in K; auto. unfold WL in G. cbn [pow] in G. lra.
Qed.
Lemma box_dot m a b : valid m -> box A m -> joined m a b -> dot (ex m) a b b <= 4 * INR d * (A * A).
Proof.
  intros Hv Hb Hj. pose proof (v_ring_pts _ Hv _ _ Hj) as Pb. pose proof (v_ring_pts _ Hv _ _ (v_ring_sym _ Hv _ _ Hj)) as Pa.
  assert (Hc : forall x i, oget x (pts m) <> None -> - A <= crd (ex m) i x <= A).
  { intros x i Hx. destruct (oget x (pts m)) as [p|] eqn:Ex; [|congruence]. unfold crd, ptof. rewrite exact_get, Ex. cbn [option_map].
    destruct (Nat.lt_ge_cases i (length p)) as [L|L].
    - rewrite (nth_indep (map B2R p) 0 (B2R (B754_zero false : F))) by (rewrite map_length; exact L). rewrite map_nth.
      apply oget_In in Ex. apply (Hb x p i (nth i p (B754_zero false)) Ex). apply nth_error_nth'. exact L.
    - rewrite nth_overflow by (rewrite map_length; exact L). lra. }
  unfold dot. replace (4 * INR d * (A * A)) with (0 * rsum (fun i => 0) (seq 0 d) + INR (length (seq 0 d)) * (4 * (A * A))) by (rewrite seq_length; ring).
  apply rsum_const_le. intros i _. pose proof (Hc a i Pa). pose proof (Hc b i Pb). nra.
Qed.

Lemma C113_sec old f (inp : mesh OB D) : valid inp -> dense inp -> tris inp <> [] -> no_isolated inp -> no_wire inp -> box A inp ->
  exists f' out, completes (fun fuel => conditional_update fuel (EdgeF ELoop) (Some (edge_length_criterion (O := OB) t)) old f inp) (Ok (f', out)) /\
    valid out /\ (forall a b, joined out a b -> seg_length (ex out) a b <= 103 / 100 * T) /\ box M out.
Proof.
  intros Hv Hdn Hne Hiso Hwire Hb.
  assert (HS : cond_start (EdgeF ELoop) (copy_geometry inp)).
  { apply copy_start. apply start_of; auto. unfold splits_faces; congruence. }
  assert (HQ0 : QB n0 (copy_geometry inp)).
  { split; [apply le_n|]. split.
    - replace (A + (INR n0 - INR n0) * err) with A by ring. apply copy_box. exact Hb.
    - intros a b Hj. right. eapply Rle_trans; [|exact HW]. apply box_dot; [exact (proj1 HS)| |exact Hj]. apply copy_box. exact Hb. }
  assert (HG : GL (copy_geometry inp)) by (split; [exact HS|exists n0; exact HQ0]).
  assert (R1 : forall m old0, GL m -> exists fuel, edge_length_criterion (O := OB) t fuel m old0 = Ok (esl_ (O := OB) t m)).
  { intros m o [[Hm0 _] _]. exists 0%nat. apply edge_crit_runs. exact Hm0. }
  assert (R2 : forall fuel m old0 s, edge_length_criterion (O := OB) t fuel m old0 = Ok s -> s = esl_ (O := OB) t m).
  { intros k m o x E. apply edge_crit_inv in E. apply E. }
  assert (R3 : forall m f0, GL m -> sel_empty (esl_ (O := OB) t m) = false -> ready (EdgeF ELoop) (apply_selection f0 (esl_ (O := OB) t m)) m).
  { intros m f0 [H0 _] He. apply edge_ready; assumption. }
  assert (R4 : forall m, GL m -> valid m /\ dense m) by (intros m [[H1 [H2 _]] _]; auto).
  assert (R5 : forall m f0 fuel f1 m1, GL m -> sel_empty (esl_ (O := OB) t m) = false -> update (EdgeF ELoop) fuel (apply_selection f0 (esl_ (O := OB) t m)) m = Ok (f1, m1) -> GL m1).
  { intros m f0 k f1 m1 H0 He E. split; [eapply start_step; [exact (proj1 H0)|apply R3; [exact H0|exact He]|exact E]|].
    destruct H0 as [H0 [[|n] HQ]]; [rewrite (QB_0 m H0 HQ) in He; discriminate|]. exists n. eapply QB_step; eauto. }
  destruct (rounds_terminate (O := OB) (D := D) (EdgeF ELoop) (edge_length_criterion (O := OB) t) (esl_ (O := OB) t) GL (edge_crit_mono (O := OB) t) R1 R2 R3 R4 R5)
    with (Q := QB) (n := n0) (m := copy_geometry inp) (f := f) as [fuel [f' [out E]]].
  - intros m [H0 _] HQ. apply QB_0; assumption.
  - intros k m f0 fuel f1 m1 [H0 _] HQ Hs E. eapply QB_step; eauto.
  - exact HG.
  - exact HQ0.
  - destruct (rounds_chain (O := OB) (D := D) (EdgeF ELoop) (edge_length_criterion (O := OB) t) (esl_ (O := OB) t) GL R2 R3 R5 fuel (copy_geometry inp) f f' out HG E) as [[[Hvo Hs2] [nn HQo]] [Hse _]].
    pose proof (QB_box nn out HQo) as Hbo.
    exists f', out. split; [|split; [exact Hvo|split; [|exact Hbo]]].
    + apply (cond_completes _ _ _ _ _ fuel); [apply edge_crit_mono| |discriminate].
      unfold conditional_update. rewrite (edge_crit_runs (O := OB) t (copy_geometry inp) old fuel (proj1 HS)). cbn [rbind]. exact E.
    + intros a b Hj. apply seg_le; [lra|]. assert (S : sh out a b).
      { destruct (short_dec prec emax Hp Hm cosf d D t out a b Hvo Hj) as [K|K]; [exact K|]. exfalso. apply (sh_long out a b Hvo Hbo Hj) in K. cbn in Hse. apply is_nil_true in Hse. rewrite Hse in K. destruct K as [[]|[]]. }
      pose proof (sh_le out a b Hvo Hbo Hj S). nra.
Qed.
End LOOPF.

Lemma C113_pf : forall prec emax Hp Hm cosf d D (A M : R) (n : nat) (t : binary_float prec emax) old f (inp : mesh (BO prec emax Hp Hm cosf d) D),
  let u := unit_roundoff prec in let eta := half_smallest prec emax in let T := B2R t in let err := 40 * (u * M + eta) in
  (8 <= prec)%Z -> valid inp -> dense inp -> tris inp <> [] -> no_isolated inp -> no_wire inp ->
  0 <= A <= M -> in_box prec emax Hp Hm (fun _ => - A) (fun _ => A) inp ->
  is_finite t = true -> 0 < T ->
  4 * INR d * (A * A) <= 95 / 100 * (T * T) * (8 / 7) ^ n -> A + INR n * err <= M ->
  200 * (INR d + 3) * u <= 1 -> 1000 * (INR d + 1) * eta <= T * T ->
  10000 * (INR d + 1) * (err * err) <= T * T ->
  5 * (INR d + 1) * (M * M + 1) <= bpow radix2 (emax - 2) ->
  exists f' out, completes (fun fuel => conditional_update fuel (EdgeF ELoop) (Some (edge_length_criterion (O := BO prec emax Hp Hm cosf d) t)) old f inp) (Ok (f', out)) /\
    valid out /\ (forall a b, joined out a b -> seg_length (exact_mesh prec emax Hp Hm out) a b <= 103 / 100 * T) /\
    in_box prec emax Hp Hm (fun _ => - M) (fun _ => M) out.
Proof.
  intros prec emax Hp Hm cosf d D A M n t old f inp u eta T err. intros P8 Hv Hd Hne Hi Hw [A0 AM] **.
  eapply (C113_sec prec emax Hp Hm P8 cosf d D M) with (A := A) (n0 := n); try eassumption. lra.
Qed.
