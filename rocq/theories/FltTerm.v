(** * FltTerm: the conditional filter around the Linear edge filter ends in floating point (C100). *)
From Coq Require Import Reals Lra Psatz.
From Flocq Require Import Core BinarySingleNaN.
From Verif Require Import Base Mesh Filters Drivers Spec SpecSub SpecGeo SpecFlt SpecDrive Lists AddFace SplitTri Split Points Valid Run Update Struct Count Face Copy PtsAny Geo GeoProps Conn Drive Area Cond DriveProps Flt FltRun FltBox FltLen.
Open Scope R_scope.

(** ** Edges of the children, with two thresholds *)
Lemma child_edge2 {d D} (inp out : mesh (RO d) D) mid
  (Hold : forall i x, oget x (pts inp) <> None -> crd out i x = crd inp i x)
  (Hmid : forall a b e i, mid a b = Some e -> crd out i e = (crd inp i a + crd inp i b) / 2)
  a b c (Ha : oget a (pts inp) <> None) (Hb : oget b (pts inp) <> None) (Hc : oget c (pts inp) <> None) q0 q1 M2 :
  0 <= q0 -> q0 <= q1 -> q1 <= M2 ->
  (forall x y, In (x, y) (tdirs (a, b, c)) -> dot inp x y y <= M2) ->
  (forall x y, In (x, y) (tdirs (a, b, c)) -> mid x y <> None -> q0 < dot inp x y y) ->
  (forall x y, In (x, y) (tdirs (a, b, c)) -> mid x y = None -> dot inp x y y <= q1) ->
  forall u x y, In u (split_triangle a b c (mid a b) (mid b c) (mid c a)) -> In (x, y) (tdirs u) ->
  (In (x, y) (tdirs (a, b, c)) /\ mid x y = None) \/ dot out x y y <= M2 / 2 + q1 / 2 - q0 / 4.
Proof.
  intros Hq0 Hq HqM Hlen Hcut Hkeep u x y.
  pose proof (loc_a inp out Hold a b c Ha) as La. pose proof (loc_b inp out Hold a b c Hb) as Lb. pose proof (loc_c inp out Hold a b c Hc) as Lc.
  pose proof (loc_ab inp out mid Hmid a b c) as Lab. pose proof (loc_bc inp out mid Hmid a b c) as Lbc. pose proof (loc_ca inp out mid Hmid a b c) as Lca.
  assert (M1 := Hlen a b ltac:(cbn; auto)). assert (M3 := Hlen b c ltac:(cbn; auto)). assert (M4 := Hlen c a ltac:(cbn; auto)).
  assert (C1 := Hcut a b ltac:(cbn; auto)). assert (C3 := Hcut b c ltac:(cbn; auto)). assert (C4 := Hcut c a ltac:(cbn; auto)).
  assert (K1 := Hkeep a b ltac:(cbn; auto)). assert (K3 := Hkeep b c ltac:(cbn; auto)). assert (K4 := Hkeep c a ltac:(cbn; auto)).
  rewrite (dot_cos inp a b c) in M3, C3, K3. rewrite (dot_swap inp c a) in M4, C4, K4.
  pose proof (dot_nonneg inp a b) as NB. pose proof (dot_nonneg inp a c) as NC. clear Hlen Hcut Hkeep.
  destruct (mid a b) as [e0|] eqn:E0; destruct (mid b c) as [e1|] eqn:E1; destruct (mid c a) as [e2|] eqn:E2;
    try (specialize (Lab _ eq_refl)); try (specialize (Lbc _ eq_refl)); try (specialize (Lca _ eq_refl));
    try (specialize (C1 ltac:(discriminate))); try (specialize (C3 ltac:(discriminate))); try (specialize (C4 ltac:(discriminate)));
    try (specialize (K1 eq_refl)); try (specialize (K3 eq_refl)); try (specialize (K4 eq_refl));
    intros Hu Hxy; unfold split_triangle, split_one, split_two_01, split_two_02, split_two_12, split_three in Hu; in_cases Hu; subst u; cbn [tdirs] in Hxy; in_cases Hxy; injection Hxy as <- <-;
    first [left; split; [cbn; auto; fail|assumption]
          |right; (erewrite dot_loc by eassumption); set (B := dot inp a b b) in *; set (C := dot inp a c c) in *; set (P := dot inp a b c) in *; lra].
Qed.

(** ** Sums of squares *)
Lemma rsum_seq_S (f : nat -> R) n : rsum f (seq 0 (S n)) = f O + rsum (fun i => f (S i)) (seq 0 n).
Proof. cbn [seq]. rewrite <- seq_shift. unfold rsum. cbn [fold_right]. f_equal. induction (seq 0 n) as [|x l IH]; cbn; [reflexivity|]. rewrite IH. reflexivity. Qed.
Lemma ssq_rsum P : forall Q, length Q = length P ->
  rsum (fun i => (nth i Q 0 - nth i P 0) * (nth i Q 0 - nth i P 0)) (seq 0 (length P)) = ssq P Q.
Proof.
  induction P as [|x P IH]; intros [|y Q] H; try discriminate; [reflexivity|]. injection H as H. cbn [length]. rewrite rsum_seq_S. cbn [ssq nth].
  rewrite (IH Q H). ring.
Qed.
Lemma rsum_const_le {A} (f g : A -> R) (l : list A) c h : (forall x, In x l -> f x <= c * g x + h) -> rsum f l <= c * rsum g l + INR (length l) * h.
Proof.
  unfold rsum. induction l as [|x l IH]; intros H; [cbn; lra|]. cbn [fold_right length]. rewrite S_INR.
  assert (H1 := H x (or_introl eq_refl)). assert (H2 := IH (fun y Hy => H y (or_intror Hy))). lra.
Qed.

Section TERM.
Variables (prec emax : Z) (Hp : Prec_gt_0 prec) (Hm : Prec_lt_emax prec emax).
Hypothesis H8 : (8 <= prec)%Z.
Variables (cosf : N -> binary_float prec emax) (d : nat) (D : Type).
Notation F := (binary_float prec emax).
Notation OB := (BO prec emax Hp Hm cosf d).
Notation ex := (exact_mesh prec emax Hp Hm).
Notation u := (unit_roundoff prec).
Notation eta := (half_smallest prec emax).
Notation lim := (bpow radix2 (emax - 2)).
Implicit Types m : mesh OB D.

Lemma exact_get m id : oget id (pts (ex m)) = option_map (map B2R) (oget id (pts m)).
Proof. cbn [exact_mesh pts]. induction (pts m) as [|[i p] l IH]; [reflexivity|]. cbn. destruct (N.eqb i id); [reflexivity|exact IH]. Qed.
Lemma exact_none m id : oget id (pts (ex m)) <> None <-> oget id (pts m) <> None.
Proof. rewrite exact_get. destruct (oget id (pts m)); cbn; split; congruence. Qed.
Lemma exact_keys m : okeys (pts (ex m)) = okeys (pts m).
Proof. unfold okeys. cbn [exact_mesh pts]. rewrite map_map. reflexivity. Qed.
Lemma exact_valid m : valid m -> valid (ex m).
Proof.
  intros Hv. pose proof (v_sound _ Hv) as Hs. split; [|exact (v_notwin _ Hv)]. constructor.
  - unfold sorted_keys. rewrite exact_keys. exact (v_pts_sorted _ Hs).
  - intros id p H. rewrite exact_get in H. destruct (oget id (pts m)) as [q|] eqn:E; [|discriminate]. injection H as <-. rewrite map_length. exact (v_pts_dim _ Hs _ _ E).
  - exact (v_tris _ Hs).
  - exact (v_cells_sorted _ Hs).
  - exact (v_proper _ Hs).
  - intros s x H1 H2. apply exact_none. exact (v_verts _ Hs s x H1 H2).
  - exact (v_dirs _ Hs).
  - exact (v_ring_nodup _ Hs).
  - exact (v_ring_irr _ Hs).
  - exact (v_ring_sym _ Hs).
  - intros a b H. apply exact_none. exact (v_ring_pts _ Hs a b H).
  - exact (v_face_edges _ Hs).
  - exact (v_corners _ Hs).
  - exact (v_ecells _ Hs).
Qed.
Lemma exact_dense m : dense m -> dense (ex m).
Proof. intros H id. rewrite exact_none. unfold osize. cbn [exact_mesh pts]. rewrite map_length. apply H. Qed.

Variable M : R.
Hypothesis M0 : 0 <= M.
Notation boxM := (in_box prec emax Hp Hm (fun _ => - M) (fun _ => M)).

Lemma box_within m id p : boxM m -> oget id (pts m) = Some p -> within prec emax M p.
Proof.
  intros Hb H. apply oget_In in H. unfold within. apply Forall_forall. intros x Hx. apply In_nth_error in Hx. destruct Hx as [i Hx].
  destruct (Hb id p i x H Hx) as [F1 F2]. split; [exact F1|]. apply Rabs_le. exact F2.
Qed.
Lemma exact_near m : boxM m -> near prec emax Hp Hm 0 m (ex m).
Proof.
  intros Hb. split; [split; [symmetry; apply exact_keys|split; [reflexivity|split; reflexivity]]|].
  cbn [exact_mesh pts]. assert (G : forall l, (forall x, In x l -> In x (pts m)) -> Forall2 (fun p q : N * list _ => Forall2 (fun (x : F) y => is_finite x = true /\ Rabs (B2R x - y) <= 0) (snd p) (snd q)) l (map (fun kv => (fst kv, map B2R (snd kv))) l)).
  { induction l as [|[id p] l IH]; intros Hl; [constructor|]. cbn [map]. constructor; [|apply IH; intros x Hx; apply Hl; right; exact Hx].
    cbn [snd fst]. assert (Hin := Hl _ (or_introl eq_refl)). assert (Hx : forall x, In x p -> is_finite x = true).
    { intros x Hx. apply In_nth_error in Hx. destruct Hx as [i Hx]. apply (Hb id p i x Hin Hx). }
    clear -Hx. induction p as [|x p IH]; [constructor|]. cbn [map]. constructor; [|apply IH; intros y Hy; apply Hx; right; exact Hy].
    split; [apply Hx; left; reflexivity|]. rewrite Rminus_diag_eq by reflexivity. rewrite Rabs_R0. lra. }
  apply G. auto.
Qed.
Lemma exact_bounded m : boxM m -> bounded M (ex m).
Proof.
  intros Hb id p H. cbn [exact_mesh pts] in H. apply in_map_iff in H. destruct H as [[j q] [E H]]. injection E as -> <-.
  apply Forall_forall. intros y Hy. apply in_map_iff in Hy. destruct Hy as [x [<- Hx]]. apply In_nth_error in Hx. destruct Hx as [i Hx].
  destruct (Hb id q i x H Hx) as [_ F2]. apply Rabs_le. exact F2.
Qed.
Lemma near_get e m (m2 : mesh (RO d) D) id p : near prec emax Hp Hm e m m2 -> oget id (pts m) = Some p ->
  exists q, oget id (pts m2) = Some q /\ Forall2 (fun (x : F) y => is_finite x = true /\ Rabs (B2R x - y) <= e) p q.
Proof.
  intros [[Hk _] Hn]. revert Hk. unfold okeys. induction Hn as [|[i a] [j b] l l' H Hn IH]; intros Hk Hg; [discriminate|].
  cbn [map fst] in Hk. injection Hk as -> Hk. cbn [oget fst snd] in *. cbn in Hg |- *. destruct (N.eqb j id); [injection Hg as <-; eauto|apply IH; assumption].
Qed.
Lemma near_crd e m (m2 : mesh (RO d) D) id i : 0 <= e -> near prec emax Hp Hm e m m2 -> oget id (pts m) <> None -> Rabs (crd (ex m) i id - crd m2 i id) <= e.
Proof.
  intros He Hn Hi. destruct (oget id (pts m)) as [p|] eqn:Ep; [|congruence]. destruct (near_get e m m2 id p Hn Ep) as [q [Eq Hpq]].
  unfold crd, ptof. rewrite exact_get, Ep, Eq. cbn [option_map]. clear -Hpq He. revert i. induction Hpq as [|x y p q [_ H] Hpq IH]; intros [|i]; cbn [map nth].
  - rewrite Rminus_diag_eq by reflexivity. rewrite Rabs_R0. exact He.
  - rewrite Rminus_diag_eq by reflexivity. rewrite Rabs_R0. exact He.
  - exact H.
  - apply IH.
Qed.
Lemma near_dot e m (m2 : mesh (RO d) D) a b : 0 <= e -> near prec emax Hp Hm e m m2 -> oget a (pts m) <> None -> oget b (pts m) <> None ->
  dot (ex m) a b b <= 11 / 10 * dot m2 a b b + INR d * (44 * (e * e)).
Proof.
  intros He Hn Ha Hb. unfold dot. replace (INR d) with (INR (length (seq 0 d))) by (rewrite seq_length; reflexivity). apply rsum_const_le.
  intros i _. pose proof (near_crd e m m2 a i He Hn Ha) as A. pose proof (near_crd e m m2 b i He Hn Hb) as B. apply Rabs_le_inv in A. apply Rabs_le_inv in B.
  set (x := crd (ex m) i b - crd (ex m) i a) in *. set (y := crd m2 i b - crd m2 i a) in *.
  assert (H : - (2 * e) <= x - y <= 2 * e) by (unfold x, y; lra). set (h := x - y) in *. replace x with (y + h) by (unfold h; ring).
  pose proof (sqr_pos (y - 10 * h)) as S. assert (h * h <= 4 * (e * e)) by nra. nra.
Qed.
Lemma dot_ssq m a b p q : valid m -> oget a (pts m) = Some p -> oget b (pts m) = Some q -> dot (ex m) a b b = ssq (vals prec emax p) (vals prec emax q).
Proof.
  intros Hv Ha Hb. unfold dot, crd, ptof. rewrite !exact_get, Ha, Hb. cbn [option_map]. unfold vals.
  assert (L1 : length p = d) by exact (v_pts_dim _ Hv _ _ Ha). assert (L2 : length q = d) by exact (v_pts_dim _ Hv _ _ Hb).
  transitivity (rsum (fun i => (nth i (map B2R q) 0 - nth i (map B2R p) 0) * (nth i (map B2R q) 0 - nth i (map B2R p) 0)) (seq 0 (length (map B2R p)))).
  - rewrite map_length. f_equal. f_equal. symmetry. exact L1.
  - apply ssq_rsum. rewrite !map_length. transitivity d; [exact L2|symmetry; exact L1].
Qed.

(** ** Rounds *)
Variable t : F.
Notation T := (B2R t).
Notation err := (40 * (u * M + eta)).
Hypothesis Ft : is_finite t = true.
Hypothesis T0 : 0 < T.
Hypothesis Hd : 200 * (INR d + 3) * u <= 1.
Hypothesis Hz : 1000 * (INR d + 1) * eta <= T * T.
Hypothesis HT : 10000 * (INR d + 1) * (err * err) <= T * T.
Hypothesis HB : 5 * (INR d + 1) * (M * M + 1) <= lim.

Lemma M_lim : 2 * M <= lim.
Proof. pose proof (pos_INR d). pose proof (sqr_pos (M - 1)). nra. Qed.
Lemma eta_T : 1000 * eta <= T.
Proof.
  pose proof (pos_INR d). pose proof (eta_pos prec emax). pose proof (u_pos prec). assert (A : 40 * eta <= err) by nra.
  assert (B : (4000 * eta) * (4000 * eta) <= T * T).
  { assert (40 * eta * (40 * eta) <= err * err) by (apply Rmult_le_compat; lra).
    assert (S : 0 <= err * err) by apply sqr_pos. nra. }
  destruct (Rle_lt_dec (1000 * eta) T) as [G|G]; [exact G|]. nra.
Qed.
Lemma room : (1 + u) ^ d * (INR d * (4 * ((1 + u) ^ 3 * (M * M)) + eta)) <= lim.
Proof.
  pose proof (pos_INR d) as N0. pose proof (eta_pos prec emax) as E0. pose proof (u_pos prec) as U0. pose proof (sqr_pos M) as M2.
  assert (P1 : (1 + u) ^ (d + 3) <= 101 / 100).
  { pose proof (pow_1u u (d + 3) ltac:(lra)) as P. rewrite plus_INR in P. replace (INR 3) with 3 in P by (cbn; lra).
    eapply Rle_trans; [apply P|]; nra. }
  rewrite pow_add in P1. assert (G3 : 1 <= (1 + u) ^ 3) by (apply pow_R1_Rle; lra). assert (Gd : 1 <= (1 + u) ^ d) by (apply pow_R1_Rle; lra).
  set (g3 := (1 + u) ^ 3) in *. set (gd := (1 + u) ^ d) in *.
  assert (Gd2 : gd <= 101 / 100) by nra.
  assert (L : eta <= / 256).
  { unfold half_smallest; replace (/ 256) with (bpow radix2 (-8)) by (cbn; lra); apply bpow_le. pose proof (emax_gt prec emax Hm H8). lia. }
  eapply Rle_trans; [|exact HB].
  replace (gd * (INR d * (4 * (g3 * (M * M)) + eta))) with (INR d * (4 * ((gd * g3) * (M * M)) + gd * eta)) by ring.
  assert (X : 4 * (gd * g3 * (M * M)) + gd * eta <= 5 * (M * M + 1)).
  { assert (gd * g3 * (M * M) <= 101 / 100 * (M * M)) by (apply Rmult_le_compat_r; assumption). assert (gd * eta <= 2) by nra. lra. }
  assert (INR d * (4 * (gd * g3 * (M * M)) + gd * eta) <= INR d * (5 * (M * M + 1))) by (apply Rmult_le_compat_l; assumption). nra.
Qed.
Lemma M_lim1 : M <= lim. Proof. pose proof M_lim. lra. Qed.

Definition W (n : nat) : R := 95 / 100 * (T * T) * (6 / 5) ^ n.
Definition short m a b : Prop := forall p q, oget a (pts m) = Some p -> oget b (pts m) = Some q -> kgtb OB (@dist OB p q) t = false.
Definition QT (n : nat) m : Prop := forall a b, joined m a b -> short m a b \/ dot (ex m) a b b <= W n.
Definition GT m : Prop := cond_start (EdgeF ELinear) m /\ boxM m.

Lemma dims m id p : valid m -> oget id (pts m) = Some p -> length p = d.
Proof. intros Hv H. exact (v_pts_dim _ Hv _ _ H). Qed.
Lemma joined_pts m a b : valid m -> joined m a b -> exists p q, oget a (pts m) = Some p /\ oget b (pts m) = Some q.
Proof.
  intros Hv H. pose proof (v_ring_pts _ Hv _ _ H) as H2. pose proof (v_ring_pts _ Hv _ _ (v_ring_sym _ Hv _ _ H)) as H1.
  destruct (oget a (pts m)) as [p|]; [|congruence]. destruct (oget b (pts m)) as [q|]; [|congruence]. eauto.
Qed.
Lemma short_sym m a b : valid m -> boxM m -> short m a b -> short m b a.
Proof.
  intros Hv Hb H p q Hp1 Hq1. rewrite (dist_gt_sym prec emax Hp Hm H8 cosf d M M0 M_lim1 room p q t).
  - apply H; assumption.
  - eapply box_within; eauto. - eapply box_within; eauto. - eapply dims; eauto. - eapply dims; eauto. - exact Ft.
Qed.
Lemma short_le m a b : valid m -> boxM m -> joined m a b -> short m a b -> dot (ex m) a b b <= 105 / 100 * (T * T).
Proof.
  intros Hv Hb Hj H. destruct (joined_pts m a b Hv Hj) as [p [q [Ep Eq]]]. rewrite (dot_ssq m a b p q Hv Ep Eq).
  apply (len_false prec emax Hp Hm H8 cosf d M M0 M_lim1 room t Ft Hd Hz eta_T p q).
  - eapply box_within; eauto. - eapply box_within; eauto. - eapply dims; eauto. - eapply dims; eauto. - apply H; assumption.
Qed.
Lemma not_short m a b : valid m -> boxM m -> joined m a b -> ~ short m a b -> 95 / 100 * (T * T) < dot (ex m) a b b.
Proof.
  intros Hv Hb Hj H. destruct (joined_pts m a b Hv Hj) as [p [q [Ep Eq]]]. rewrite (dot_ssq m a b p q Hv Ep Eq).
  apply (len_true prec emax Hp Hm H8 cosf d M M0 M_lim1 room t Ft T0 Hd Hz p q).
  - eapply box_within; eauto. - eapply box_within; eauto. - eapply dims; eauto. - eapply dims; eauto.
  - destruct (kgtb OB (@dist OB p q) t) eqn:E; [reflexivity|]. exfalso. apply H. intros p' q' Ep' Eq'. rewrite Ep in Ep'. rewrite Eq in Eq'. inv Ep'. inv Eq'. exact E.
Qed.
Lemma short_dec m a b : valid m -> joined m a b -> short m a b \/ ~ short m a b.
Proof.
  intros Hv Hj. destruct (joined_pts m a b Hv Hj) as [p [q [Ep Eq]]]. destruct (kgtb OB (@dist OB p q) t) eqn:E.
  - right. intros H. rewrite (H p q Ep Eq) in E. discriminate.
  - left. intros p' q' Ep' Eq'. rewrite Ep in Ep'. rewrite Eq in Eq'. inv Ep'. inv Eq'. exact E.
Qed.
Lemma long_spec m a b : valid m -> boxM m -> joined m a b -> (In (Some (a, b)) (long_edges (O := OB) t m) \/ In (Some (b, a)) (long_edges (O := OB) t m)) <-> ~ short m a b.
Proof.
  intros Hv Hb Hj. destruct (joined_pts m a b Hv Hj) as [p [q [Ep Eq]]]. split.
  - intros [H|H] Hs; unfold long_edges in H; apply filter_In in H; destruct H as [_ H]; unfold edge_over in H; cbn [fst snd] in H; rewrite Ep, Eq in H.
    + rewrite (Hs p q Ep Eq) in H. discriminate.
    + rewrite (short_sym m a b Hv Hb Hs q p Eq Ep) in H. discriminate.
  - intros Hs. destruct (v_ecells _ Hv) as [es [Hes [_ [_ [Hall _]]]]]. destruct (Hall a b Hj) as [id [e [Hin He]]].
    assert (G : forall o, In (id, Some o) es -> edge_over (O := OB) t m (Some o) = true -> In (Some o) (long_edges (O := OB) t m)).
    { intros o Ho Hov. unfold long_edges. apply filter_In. split; [|exact Hov]. unfold edges_of. rewrite Hes. apply in_map_iff. exists (id, Some o). auto. }
    assert (K1 : kgtb OB (@dist OB p q) t = true).
    { destruct (kgtb OB (@dist OB p q) t) eqn:E; [reflexivity|]. exfalso. apply Hs. intros p' q' Ep' Eq'. rewrite Ep in Ep'. rewrite Eq in Eq'. inv Ep'. inv Eq'. exact E. }
    destruct He as [->| ->]; [left|right]; apply G; auto; unfold edge_over; cbn [fst snd]; rewrite Ep, Eq; [exact K1|].
    rewrite <- K1. apply (dist_gt_sym prec emax Hp Hm H8 cosf d M M0 M_lim1 room q p t); auto; try (eapply box_within; eauto; fail); eapply dims; eauto.
Qed.

Lemma W_pos n : 95 / 100 * (T * T) <= W n.
Proof. unfold W. assert (1 <= (6 / 5) ^ n) by (apply pow_R1_Rle; lra). assert (0 < T * T) by nra. nra. Qed.
Lemma W_S n : W (S n) = 6 / 5 * W n.
Proof. unfold W. cbn [pow]. ring. Qed.

Lemma lin_box m fuel f f' m1 : boxM m -> update (EdgeF ELinear) fuel f m = Ok (f', m1) -> boxM m1.
Proof.
  intros Hb E. refine (C89_update_pf prec emax Hp Hm cosf d D _ _ (EdgeF ELinear) fuel f m f' m1 H8 _ _ (or_intror eq_refl) Hb E).
  - intros _. pose proof M_lim1. cbv beta. lra.
  - intros _. pose proof M_lim1. cbv beta. lra.
Qed.

Lemma round_step n m f fuel f' m1 : GT m -> QT (S n) m -> sel_empty (esl_ (O := OB) t m) = false ->
  update (EdgeF ELinear) fuel (apply_selection f (esl_ (O := OB) t m)) m = Ok (f', m1) -> QT n m1.
Proof.
  intros [H0 Hb] HQ Hs E. pose proof (edge_ready (O := OB) ELinear t m f H0 Hs) as Hr.
  pose proof (start_step _ _ _ _ _ _ H0 Hr E) as H1. pose proof (lin_box _ _ _ _ _ Hb E) as Hb1.
  destruct H0 as [Hv [Hdm [Hnem _]]].
  destruct (step_ok _ _ _ _ _ _ Hv Hdm Hnem Hr E) as [Hv1 [_ [_ [Hw1 _]]]].
  destruct (face_run _ _ m fuel f' m1 Hv Hdm Hr E) as [midB [LsB FRB]].
  pose proof (u_pos prec) as U0. pose proof (eta_pos prec emax) as E0.
  assert (X : exists f2 mR, update (EdgeF ELinear) fuel (apply_selection f (esl_ (O := OB) t m)) (ex m) = Ok (f2, mR) /\ near prec emax Hp Hm err m1 mR).
  { pose proof (C91_pf prec emax Hp Hm cosf d D D (EdgeF ELinear) fuel (apply_selection f (esl_ (O := OB) t m)) m (ex m) M 0 H8) as C.
    specialize (C ltac:(discriminate) ltac:(discriminate) M0 (Rle_refl 0) ltac:(pose proof M_lim; lra) (exact_near m Hb) (exact_bounded m Hb)).
    rewrite E in C. destruct (update (EdgeF ELinear) fuel (apply_selection f (esl_ (O := OB) t m)) (ex m)) as [[f2 mR]| | |]; try contradiction.
    exists f2, mR. split; [reflexivity|]. destruct C as [_ C]. replace (amplification (EdgeF ELinear) * 0 + 40 * (u * (M + 0) + eta)) with err in C by (rewrite Rmult_0_r, Rplus_0_l, Rplus_0_r; reflexivity). exact C. }
  destruct X as [f2 [mR [ER Hn]]].
  assert (Hve : valid (ex m)) by (apply exact_valid; exact Hv). assert (Hde : dense (ex m)) by (apply exact_dense; exact Hdm).
  assert (Hre : ready (EdgeF ELinear) (apply_selection f (esl_ (O := OB) t m)) (ex m)).
  { destruct Hr as [R1 [R2 R3]]. split; [exact R1|]. split; [intros [Z|Z]; discriminate|]. exact R3. }
  destruct (linear_facts _ _ (ex m) fuel f2 mR (or_intror eq_refl) Hve Hde Hre ER) as [mid [Ls [FR [Hold Hmid]]]].
  pose proof (fr_sub _ _ _ _ _ _ _ FR) as Hsd.
  assert (Ht1 : tris mR = tris m1).
  { destruct Hn as [[_ [_ [Hc _]]] _]. symmetry. unfold tris, faces. first [rewrite Hc; reflexivity|fail]. }
  pose proof (W_pos n) as Wn. pose proof (W_S n) as WS. assert (TT : 0 < T * T) by nra.
  assert (ER0 : 0 <= err) by nra.
  assert (Hnoise : INR d * (44 * (err * err)) <= 44 / 10000 * (T * T)).
  { pose proof (pos_INR d). assert (S : 0 <= err * err) by apply sqr_pos. nra. }
  assert (Hgo : forall x y, In (x, y) (dirs (tris m1)) -> short m1 x y \/ dot (ex m1) x y y <= W n).
  { intros x y Hd1. assert (Hj1 : joined m1 x y) by (apply (v_face_edges _ Hv1); exact Hd1). apply dirs_tri in Hd1. destruct Hd1 as [s [Hu Hd1]]. rewrite <- Ht1 in Hu.
    destruct (out_tri_parent _ _ _ _ _ _ _ s Hve FR Hu) as [a [b [c [Hin Hu']]]].
    assert (Hpa : oget a (pts (ex m)) <> None) by (apply (v_verts _ Hve _ _ Hin); cbn; auto).
    assert (Hpb : oget b (pts (ex m)) <> None) by (apply (v_verts _ Hve _ _ Hin); cbn; auto).
    assert (Hpc : oget c (pts (ex m)) <> None) by (apply (v_verts _ Hve _ _ Hin); cbn; auto).
    assert (Hjn : forall v w, In (v, w) (tdirs (a, b, c)) -> joined m v w).
    { intros v w H. apply (v_face_edges _ Hv). apply dirs_tri. exists (a, b, c). auto. }
    assert (Hsp : forall v w, In (v, w) (tdirs (a, b, c)) -> (mid v w <> None <-> ~ short m v w)).
    { intros v w H. rewrite (sd_dom _ _ _ _ _ Hsd v w). cbn [to_split apply_selection esl_ esel set_edges_to_be_subdivided].
      rewrite <- (long_spec m v w Hv Hb (Hjn v w H)). split.
      - intros [[Hnil Hj]|H2]; [|exact H2]. exfalso. cbn in Hs. rewrite Hnil in Hs. discriminate.
      - intros H2. right. exact H2. }
    set (M2 := Rmax (W (S n)) (105 / 100 * (T * T))).
    assert (HM1 : W (S n) <= M2) by apply Rmax_l. assert (HM2 : 105 / 100 * (T * T) <= M2) by apply Rmax_r.
    destruct (child_edge2 (ex m) mR mid Hold Hmid a b c Hpa Hpb Hpc (95 / 100 * (T * T)) (105 / 100 * (T * T)) M2) with (u := s) (x := x) (y := y) as [H|H].
    - lra.
    - lra.
    - lra.
    - intros v w H. destruct (HQ v w (Hjn v w H)) as [G|G]; [|lra]. pose proof (short_le m v w Hv Hb (Hjn v w H) G). lra.
    - intros v w H H2. apply not_short; auto. apply (Hsp v w H). exact H2.
    - intros v w H H2. apply short_le; auto. destruct (short_dec m v w Hv (Hjn v w H)) as [G|G]; [exact G|]. apply (Hsp v w H) in G. congruence.
    - exact Hu'.
    - exact Hd1.
    - left. destruct H as [H H2]. assert (G : short m x y).
      { destruct (short_dec m x y Hv (Hjn x y H)) as [G|G]; [exact G|]. apply (Hsp x y H) in G. congruence. }
      destruct (joined_pts m x y Hv (Hjn x y H)) as [p [q [Ep Eq]]].
      intros p' q' Ep' Eq'. rewrite (fr_old _ _ _ _ _ _ _ FRB x p Ep ltac:(discriminate)) in Ep'. rewrite (fr_old _ _ _ _ _ _ _ FRB y q Eq ltac:(discriminate)) in Eq'.
      inv Ep'. inv Eq'. apply G; assumption.
    - right. destruct (joined_pts m1 x y Hv1 Hj1) as [p [q [Ep Eq]]].
      pose proof (near_dot err m1 mR x y ER0 Hn ltac:(congruence) ltac:(congruence)) as ND.
      assert (HM3 : M2 = W (S n) \/ M2 = 105 / 100 * (T * T)) by (unfold M2, Rmax; destruct Rle_dec; auto).
      destruct HM3 as [HM3|HM3]; lra. }
  intros x y Hxy. destruct (Hw1 x y Hxy) as [H|H]; [apply Hgo; exact H|]. destruct (Hgo y x H) as [G|G]; [left; apply short_sym; assumption|right; rewrite dot_swap; exact G].
Qed.

Lemma long_nil m : valid m -> boxM m -> (forall a b, joined m a b -> short m a b) -> long_edges (O := OB) t m = [].
Proof.
  intros Hv Hb H. destruct (long_edges (O := OB) t m) as [|o l] eqn:El; [reflexivity|]. exfalso.
  assert (Hi : In o (long_edges (O := OB) t m)) by (rewrite El; cbn; auto). destruct (long_edges_In (O := OB) t m o Hv Hi) as [a [b [-> Hj]]].
  apply (proj1 (long_spec m a b Hv Hb Hj)); [left; exact Hi|]. apply H. exact Hj.
Qed.

Lemma C100_sec old f (inp : mesh OB D) : valid inp -> dense inp -> tris inp <> [] -> boxM inp ->
  exists f' out, completes (fun fuel => conditional_update fuel (EdgeF ELinear) (Some (edge_length_criterion (O := OB) t)) old f inp) (Ok (f', out)) /\
    valid out /\ (forall a b, joined out a b -> seg_length (ex out) a b <= 103 / 100 * T) /\ boxM out.
Proof.
  intros Hv Hdn Hne Hb.
  assert (HG : GT (copy_geometry inp)).
  { split; [apply copy_start; apply start_of; auto; [unfold splits_faces; congruence|intros [E|E]; discriminate]|].
    apply copy_box; exact Hb. }
  assert (TT : 0 < 95 / 100 * (T * T)) by nra.
  destruct (unbounded_pow 2 (95 / 100 * (T * T)) (map (fun o => match o with Some (a, b) => dot (ex (copy_geometry inp)) a b b | None => 0%R end)
             (map snd (edges_of (copy_geometry inp)))) ltac:(lra) TT) as [n Hn].
  assert (R1 : forall m old0, GT m -> exists fuel, edge_length_criterion (O := OB) t fuel m old0 = Ok (esl_ (O := OB) t m)).
  { intros m o [[Hm0 _] _]. exists 0%nat. apply edge_crit_runs. exact Hm0. }
  assert (R2 : forall fuel m old0 s, edge_length_criterion (O := OB) t fuel m old0 = Ok s -> s = esl_ (O := OB) t m).
  { intros n0 m o x E. apply edge_crit_inv in E. apply E. }
  assert (R3 : forall m f0, GT m -> sel_empty (esl_ (O := OB) t m) = false -> ready (EdgeF ELinear) (apply_selection f0 (esl_ (O := OB) t m)) m).
  { intros m f0 [H0 _] He. apply edge_ready; assumption. }
  assert (R4 : forall m, GT m -> valid m /\ dense m) by (intros m [[H1 [H2 _]] _]; auto).
  assert (R5 : forall m f0 fuel f1 m1, GT m -> sel_empty (esl_ (O := OB) t m) = false -> update (EdgeF ELinear) fuel (apply_selection f0 (esl_ (O := OB) t m)) m = Ok (f1, m1) -> GT m1).
  { intros m f0 n0 f1 m1 H0 He E. split; [eapply start_step; [exact (proj1 H0)|apply R3; [exact H0|exact He]|exact E]|]. eapply lin_box; [exact (proj2 H0)|exact E]. }
  destruct (rounds_terminate (O := OB) (D := D) (EdgeF ELinear) (edge_length_criterion (O := OB) t) (esl_ (O := OB) t) GT (edge_crit_mono (O := OB) t) R1 R2 R3 R4 R5)
    with (Q := QT) (n := (4 * n)%nat) (m := copy_geometry inp) (f := f) as [fuel [f' [out E]]].
  - intros m [[Hm0 _] Hbm] HQ. cbn. apply is_nil_true. apply long_nil; [exact Hm0|exact Hbm|].
    intros a b Hj. destruct (HQ a b Hj) as [G|G]; [exact G|]. destruct (short_dec m a b Hm0 Hj) as [K|K]; [exact K|].
    apply not_short in K; auto. unfold W in G. cbn [pow] in G. lra.
  - intros n0 m f0 fuel f1 m1 HG0 HQ Hs E. eapply round_step; eauto.
  - exact HG.
  - intros a b Hj. right. pose proof (proj1 (proj1 HG)) as Hvc. destruct (v_ecells _ Hvc) as [es [He [_ [_ [H2 _]]]]].
    destruct (H2 a b Hj) as [id [e [Hin Hu]]].
    assert (Hi : In (Some e) (map snd (edges_of (copy_geometry inp)))).
    { apply in_map_iff. exists (id, Some e). unfold edges_of. rewrite He. auto. }
    apply (in_map (fun o => match o with Some (a, b) => dot (ex (copy_geometry inp)) a b b | None => 0%R end)) in Hi. apply Hn in Hi.
    assert (G : 95 / 100 * (T * T) * 2 ^ n <= W (4 * n)).
    { unfold W. apply Rmult_le_compat_l; [lra|]. rewrite pow_mult. apply pow_incr. cbn [pow]. lra. }
    destruct Hu as [-> | ->]; cbn [fst snd] in Hi; [lra|]. rewrite dot_swap. lra.
  - destruct (rounds_chain (O := OB) (D := D) (EdgeF ELinear) (edge_length_criterion (O := OB) t) (esl_ (O := OB) t) GT R2 R3 R5 fuel (copy_geometry inp) f f' out HG E) as [[[Hvo _] Hbo] [Hse _]].
    exists f', out. split; [|split; [exact Hvo|split; [|exact Hbo]]].
    + apply (cond_completes _ _ _ _ _ fuel); [apply edge_crit_mono| |discriminate].
      unfold conditional_update. rewrite (edge_crit_runs (O := OB) t (copy_geometry inp) old fuel (proj1 (proj1 HG))). cbn [rbind]. exact E.
    + intros a b Hj. apply seg_le; [lra|]. assert (S : short out a b).
      { destruct (short_dec out a b Hvo Hj) as [K|K]; [exact K|]. exfalso. apply (long_spec out a b Hvo Hbo Hj) in K. cbn in Hse. apply is_nil_true in Hse. rewrite Hse in K. destruct K as [[]|[]]. }
      pose proof (short_le out a b Hvo Hbo Hj S). nra.
Qed.
End TERM.

Lemma C100_pf : forall prec emax Hp Hm cosf d D (M : R) (t : binary_float prec emax) old f (inp : mesh (BO prec emax Hp Hm cosf d) D),
  let u := unit_roundoff prec in let eta := half_smallest prec emax in let T := B2R t in
  (8 <= prec)%Z -> valid inp -> dense inp -> tris inp <> [] ->
  0 <= M -> in_box prec emax Hp Hm (fun _ => - M) (fun _ => M) inp ->
  is_finite t = true -> 0 < T ->
  200 * (INR d + 3) * u <= 1 -> 1000 * (INR d + 1) * eta <= T * T ->
  10000 * (INR d + 1) * ((40 * (u * M + eta)) * (40 * (u * M + eta))) <= T * T ->
  5 * (INR d + 1) * (M * M + 1) <= bpow radix2 (emax - 2) ->
  exists f' out, completes (fun fuel => conditional_update fuel (EdgeF ELinear) (Some (edge_length_criterion (O := BO prec emax Hp Hm cosf d) t)) old f inp) (Ok (f', out)) /\
    valid out /\ (forall a b, joined out a b -> seg_length (exact_mesh prec emax Hp Hm out) a b <= 103 / 100 * T) /\
    in_box prec emax Hp Hm (fun _ => - M) (fun _ => M) out.
Proof. intros. eapply C100_sec; eauto. Qed.
