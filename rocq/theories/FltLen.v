(** * FltLen: computed and exact length of an edge. *)
From Coq Require Import Reals Lra Psatz.
From Flocq Require Import Core BinarySingleNaN Relative Plus_error.
From Verif Require Import Base Mesh Filters Spec SpecGeo SpecFlt Lists Flt.
Open Scope R_scope.

Lemma pow_1u (u : R) n : 0 <= u -> 2 * INR n * u <= 1 -> (1 + u) ^ n <= 1 + 2 * INR n * u.
Proof.
  intros Hu. induction n as [|n IH]; intros H; [cbn; lra|]. rewrite S_INR in *. cbn [pow]. pose proof (pos_INR n).
  assert (E := IH ltac:(nra)). assert (2 * INR n * u * u <= u) by nra.
  assert (0 <= (1 + u) ^ n) by (apply pow_le; lra). nra.
Qed.
Lemma pow_1mu (u : R) n : 0 <= u <= 1 -> 1 - INR n * u <= (1 - u) ^ n.
Proof.
  intros Hu. induction n as [|n IH]; [cbn; lra|]. rewrite S_INR. cbn [pow]. pose proof (pos_INR n).
  destruct (Rle_dec 0 (1 - INR n * u)) as [H0|H0]; [|assert (0 <= (1 - u) ^ n) by (apply pow_le; lra)]; nra.
Qed.

Lemma sqr_pos (x : R) : 0 <= x * x. Proof. exact (Rle_0_sqr x). Qed.

(** Sum of the squared differences. *)
Fixpoint ssq (P Q : list R) : R :=
  match P, Q with x :: P', y :: Q' => (x - y) * (x - y) + ssq P' Q' | _, _ => 0 end.
Lemma ssq_pos P : forall Q, 0 <= ssq P Q.
Proof. induction P as [|x P IH]; intros [|y Q]; cbn [ssq]; try lra. specialize (IH Q). pose proof (Rle_0_sqr (x - y)) as H. unfold Rsqr in H. lra. Qed.

Section LEN.
Variables (prec emax : Z) (Hp : Prec_gt_0 prec) (Hm : Prec_lt_emax prec emax).
Hypothesis H8 : (8 <= prec)%Z.
Notation F := (binary_float prec emax).
Notation fexp := (SpecFloat.fexp prec emax).
Notation rnd := (round radix2 fexp ZnearestE).
Notation u := (unit_roundoff prec).
Notation eta := (half_smallest prec emax).
Notation big := (3 * bpow radix2 (emax - 2)).
Notation lim := (bpow radix2 (emax - 2)).
Notation sb := (@Bminus prec emax Hp Hm mode_NE).
Notation ml := (@Bmult prec emax Hp Hm mode_NE).
Notation ad := (@Bplus prec emax Hp Hm mode_NE).
Local Instance exp_ok3 : Valid_exp fexp := fexp_correct prec emax Hp.
Let u0 : 0 < u := u_pos prec.
Let e0 : 0 < eta := eta_pos prec emax.

Lemma rnd_plus x y : generic_format radix2 fexp x -> generic_format radix2 fexp y ->
  exists e, Rabs e <= u /\ rnd (x + y) = (x + y) * (1 + e).
Proof.
  intros Fx Fy. destruct (FLT_plus_error_N_ex radix2 (3 - emax - prec) prec (fun x => negb (Z.even x)) x y Fx Fy) as [e [He E]].
  exists e. split; [|exact E]. eapply Rle_trans; [exact He|].
  assert (E1 : u_ro radix2 prec = u) by (unfold u_ro, unit_roundoff; rewrite bpow_plus; cbn; lra).
  rewrite E1. apply Rmult_le_reg_r with (1 + u); [lra|]. unfold Rdiv. rewrite Rmult_assoc, Rinv_l by lra. nra.
Qed.
Lemma rnd_minus x y : generic_format radix2 fexp x -> generic_format radix2 fexp y ->
  exists e, Rabs e <= u /\ rnd (x - y) = (x - y) * (1 + e).
Proof. intros Fx Fy. apply rnd_plus; [exact Fx|apply generic_format_opp; exact Fy]. Qed.
Lemma rnd_opp x : rnd (- x) = - rnd x.
Proof. apply round_NE_opp. Qed.
Lemma rnd_0_le x : 0 <= x -> 0 <= rnd x.
Proof. intros H. rewrite <- (round_0 radix2 fexp ZnearestE). apply round_le; [typeclasses eauto..|exact H]. Qed.

(** The computed sum of squares, as a real number. *)
Fixpoint rsq (acc : R) (P Q : list R) : R :=
  match P, Q with
  | x :: P', y :: Q' => rsq (rnd (acc + rnd (rnd (x - y) * rnd (x - y)))) P' Q'
  | _, _ => acc
  end.
Lemma rsq_sym P : forall acc Q, rsq acc P Q = rsq acc Q P.
Proof.
  induction P as [|x P IH]; intros acc [|y Q]; cbn [rsq]; try reflexivity. rewrite IH.
  replace (y - x) with (- (x - y)) by ring. rewrite rnd_opp. replace (- rnd (x - y) * - rnd (x - y)) with (rnd (x - y) * rnd (x - y)) by ring. reflexivity.
Qed.
Notation fmt := (generic_format radix2 fexp).

Lemma sq_step x y : fmt x -> fmt y ->
  (1 - u) ^ 3 * ((x - y) * (x - y)) - eta <= rnd (rnd (x - y) * rnd (x - y)) <= (1 + u) ^ 3 * ((x - y) * (x - y)) + eta.
Proof.
  intros Fx Fy. destruct (rnd_minus x y Fx Fy) as [e [He ->]]. set (D := (x - y) * (x - y)).
  replace ((x - y) * (1 + e) * ((x - y) * (1 + e))) with (D * ((1 + e) * (1 + e))) by (unfold D; ring).
  assert (D0 : 0 <= D) by apply sqr_pos. apply Rabs_le_inv in He. pose proof (u_small prec H8) as Us.
  pose proof (rnd_err prec emax Hp (D * ((1 + e) * (1 + e)))) as E. rewrite (Rabs_pos_eq (D * _)) in E by nra. apply Rabs_le_inv in E.
  assert (A1 : (1 - u) * (1 - u) <= (1 + e) * (1 + e) <= (1 + u) * (1 + u)) by (split; nra).
  assert (A2 : D * ((1 - u) * (1 - u)) <= D * ((1 + e) * (1 + e)) <= D * ((1 + u) * (1 + u))) by (split; apply Rmult_le_compat_l; lra).
  set (Y := D * ((1 + e) * (1 + e))) in *. cbn [pow].
  assert (Y0 : 0 <= Y) by (unfold Y; nra).
  split.
  - assert ((1 - u) * (D * ((1 - u) * (1 - u))) <= (1 - u) * Y) by (apply Rmult_le_compat_l; lra). lra.
  - assert ((1 + u) * Y <= (1 + u) * (D * ((1 + u) * (1 + u)))) by (apply Rmult_le_compat_l; lra). lra.
Qed.
Lemma acc_step acc s : fmt acc -> fmt s -> 0 <= acc -> 0 <= s -> (1 - u) * (acc + s) <= rnd (acc + s) <= (1 + u) * (acc + s).
Proof.
  intros Fa Fs Ha Hs. destruct (rnd_plus acc s Fa Fs) as [e [He ->]]. apply Rabs_le_inv in He. split; nra.
Qed.
Lemma rnd_fmt x : fmt (rnd x). Proof. apply generic_format_round; typeclasses eauto. Qed.

Lemma rsq_upper P : forall Q acc, Forall fmt P -> Forall fmt Q -> length Q = length P -> fmt acc -> 0 <= acc ->
  0 <= rsq acc P Q <= (1 + u) ^ length P * (acc + (1 + u) ^ 3 * ssq P Q + INR (length P) * eta).
Proof.
  induction P as [|x P IH]; intros [|y Q] acc HP HQ HL Fa Ha; try discriminate; [cbn; lra|]. inv HP. inv HQ. injection HL as HL.
  cbn [rsq ssq length]. rewrite S_INR. set (s := rnd (rnd (x - y) * rnd (x - y))).
  assert (Hs : 0 <= s) by (apply rnd_0_le; apply sqr_pos).
  destruct (sq_step x y) as [_ S2]; auto. fold s in S2.
  destruct (acc_step acc s Fa (rnd_fmt _) Ha Hs) as [_ A2]. set (acc' := rnd (acc + s)) in *.
  assert (Ha' : 0 <= acc') by (apply rnd_0_le; lra).
  destruct (IH Q acc') as [I1 I2]; auto; [apply rnd_fmt|]. split; [exact I1|]. eapply Rle_trans; [exact I2|].
  pose proof (ssq_pos P Q) as S0. pose proof (pos_INR (length P)) as N0. assert (G3 : 1 <= (1 + u) ^ 3) by (apply pow_R1_Rle; lra).
  set (g3 := (1 + u) ^ 3) in *. cbn [pow]. set (gn := (1 + u) ^ length P). assert (Gn : 0 <= gn) by (apply pow_le; lra).
  set (D := (x - y) * (x - y)) in *. set (Z := g3 * ssq P Q) in *. set (n := INR (length P) * eta) in *.
  assert (Z0 : 0 <= Z) by (unfold Z; nra). assert (n0 : 0 <= n) by (unfold n; nra).
  replace ((INR (length P) + 1) * eta) with (n + eta) by (unfold n; ring). replace (g3 * (D + ssq P Q)) with (g3 * D + Z) by (unfold Z; ring).
  rewrite (Rmult_comm (1 + u) gn), Rmult_assoc. apply Rmult_le_compat_l; [exact Gn|]. nra.
Qed.
Lemma rsq_lower P : forall Q acc, Forall fmt P -> Forall fmt Q -> length Q = length P -> fmt acc -> 0 <= acc ->
  (1 - u) ^ length P * (acc + (1 - u) ^ 3 * ssq P Q) - INR (length P) * eta <= rsq acc P Q.
Proof.
  pose proof (u_small prec H8) as Us.
  induction P as [|x P IH]; intros [|y Q] acc HP HQ HL Fa Ha; try discriminate; [cbn; lra|]. inv HP. inv HQ. injection HL as HL.
  cbn [rsq ssq length]. rewrite S_INR. set (s := rnd (rnd (x - y) * rnd (x - y))).
  assert (Hs : 0 <= s) by (apply rnd_0_le; apply sqr_pos).
  destruct (sq_step x y) as [S1 _]; auto. fold s in S1.
  destruct (acc_step acc s Fa (rnd_fmt _) Ha Hs) as [A1 _]. set (acc' := rnd (acc + s)) in *.
  assert (Ha' : 0 <= acc') by (apply rnd_0_le; lra).
  assert (I := IH Q acc' ltac:(auto) ltac:(auto) HL (rnd_fmt _) Ha'). eapply Rle_trans; [|exact I].
  pose proof (ssq_pos P Q) as S0. set (l3 := (1 - u) ^ 3) in *.
  assert (L3 : 0 <= l3) by (apply pow_le; lra). cbn [pow]. set (ln := (1 - u) ^ length P).
  assert (Ln : 0 <= ln <= 1).
  { split; [apply pow_le; lra|]. unfold ln. clear -Us u0. induction (length P) as [|k IH]; cbn; [lra|]. assert (0 <= (1 - u) ^ k) by (apply pow_le; lra). nra. }
  set (D := (x - y) * (x - y)) in *. set (Z := l3 * ssq P Q). assert (Z0 : 0 <= Z) by (unfold Z; nra).
  replace (l3 * (D + ssq P Q)) with (l3 * D + Z) by (unfold Z; ring).
  assert (T : (1 - u) * (acc + (l3 * D + Z)) - eta <= acc' + Z) by nra.
  assert (T2 : ln * ((1 - u) * (acc + (l3 * D + Z)) - eta) <= ln * (acc' + Z)) by (apply Rmult_le_compat_l; lra). nra.
Qed.

(** The code computes [rsq]. *)
Definition vals (p : list F) : list R := map B2R p.
Lemma vals_fmt p : Forall fmt (vals p).
Proof. unfold vals. induction p; constructor; auto. apply generic_format_B2R. Qed.

Variables (cosf : N -> F) (d : nat).
Notation OB := (BO prec emax Hp Hm cosf d).
Variable M : R.
Hypothesis M0 : 0 <= M.
Definition within (p : list F) : Prop := Forall (fun x => is_finite x = true /\ Rabs (B2R x) <= M) p.

Lemma sqdist_value p : forall q acc, within p -> within q -> length q = length p -> is_finite acc = true -> 0 <= B2R acc ->
  (1 + u) ^ length p * (B2R acc + INR (length p) * (4 * ((1 + u) ^ 3 * (M * M)) + eta)) <= lim -> M <= lim ->
  is_finite (@sqdist OB acc p q) = true /\ B2R (@sqdist OB acc p q) = rsq (B2R acc) (vals p) (vals q).
Proof.
  induction p as [|x p IH]; intros [|y q] acc Wp Wq HL Fa Ha HB HM; try discriminate; [cbn; auto|].
  inv Wp. inv Wq. injection HL as HL. cbn [sqdist vals map rsq ksub kmul kadd BO].
  destruct H1 as [Fx Hx]. destruct H3 as [Fy Hy]. cbn [length] in HB. rewrite S_INR in HB. cbn [pow] in HB.
  set (g := 1 + u) in *. set (gn := g ^ length p) in *. assert (Gn : 1 <= gn) by (apply pow_R1_Rle; unfold g; lra).
  set (c := 4 * (g * (g * (g * 1)) * (M * M)) + eta) in *.
  assert (G : g * (g * (g * 1)) = g ^ 3) by reflexivity.
  assert (M2 : 0 <= M * M) by nra. assert (C0 : 4 * (g ^ 3 * (M * M)) + eta = c) by reflexivity.
  assert (g1 : 1 <= g) by (unfold g; lra). assert (g3 : 1 <= g ^ 3) by (apply pow_R1_Rle; exact g1).
  assert (Cp : 0 < c) by (rewrite <- C0; nra).
  pose proof (pos_INR (length p)) as N0.
  assert (X2 : Rabs (B2R x - B2R y) <= 2 * M).
  { unfold Rminus. eapply Rle_trans; [apply Rabs_triang|]. rewrite Rabs_Ropp. lra. }
  pose proof (Bminus_correct prec emax Hp Hm mode_NE x y Fx Fy) as C1. change (round_mode mode_NE) with ZnearestE in C1.
  rewrite Rlt_bool_true in C1 by (apply (rnd_fits prec emax Hp Hm H8 _ (2 * M)); lra). destruct C1 as [C1 [C2 _]].
  set (t := sb x y) in *.
  pose proof (Bmult_correct prec emax Hp Hm mode_NE t t) as C3. change (round_mode mode_NE) with ZnearestE in C3. rewrite C1 in C3.
  destruct (sq_step (B2R x) (B2R y)) as [_ S2]; [apply generic_format_B2R..|]. set (s := rnd (rnd (B2R x - B2R y) * rnd (B2R x - B2R y))) in *.
  assert (Hs : 0 <= s) by (apply rnd_0_le; apply sqr_pos).
  assert (X3 : (B2R x - B2R y) * (B2R x - B2R y) <= 4 * (M * M)) by (apply Rabs_le_inv in X2; nra).
  assert (Sc : s <= c).
  { eapply Rle_trans; [exact S2|]. rewrite <- C0. apply Rplus_le_compat_r. fold g. nra. }
  assert (Room : gn * (g * (B2R acc + c) + INR (length p) * c) <= lim).
  { eapply Rle_trans; [|exact HB]. rewrite (Rmult_comm g gn), Rmult_assoc. apply Rmult_le_compat_l; [lra|].
    assert (NC : 0 <= INR (length p) * c) by (apply Rmult_le_pos; lra).
    replace (g * (B2R acc + (INR (length p) + 1) * c)) with (g * (B2R acc + c) + g * (INR (length p) * c)) by ring. apply Rplus_le_compat_l.
    rewrite <- (Rmult_1_l (INR (length p) * c)) at 1. apply Rmult_le_compat_r; [exact NC|exact g1]. }
  assert (Room2 : B2R acc + c <= lim).
  { eapply Rle_trans; [|exact Room]. assert (NC : 0 <= INR (length p) * c) by (apply Rmult_le_pos; lra).
    assert (B2R acc + c <= g * (B2R acc + c)) by nra. assert (0 <= g * (B2R acc + c) + INR (length p) * c) by lra. nra. }
  rewrite Rlt_bool_true in C3.
  2:{ fold s. rewrite Rabs_pos_eq by exact Hs. apply Rle_lt_trans with lim; [lra|apply bpow_lt; lia]. }
  destruct C3 as [C3 [C4 _]]. rewrite C2 in C4. cbn [andb] in C4. fold s in C3. set (w := ml t t) in *.
  pose proof (Bplus_correct prec emax Hp Hm mode_NE acc w Fa C4) as C5. change (round_mode mode_NE) with ZnearestE in C5. rewrite C3 in C5.
  assert (Fs : fmt s) by apply rnd_fmt.
  destruct (acc_step (B2R acc) s (generic_format_B2R _ _ _) Fs Ha Hs) as [_ A2]. fold g in A2.
  rewrite Rlt_bool_true in C5 by (apply (rnd_fits prec emax Hp Hm H8 _ lim); [rewrite Rabs_pos_eq; lra|pose proof (bpow_gt_0 radix2 (emax - 2)); lra]).
  destruct C5 as [C5 [C6 _]]. destruct (IH q (ad acc w)) as [I1 I2]; auto.
  - rewrite C5. apply rnd_0_le. lra.
  - rewrite C5. eapply Rle_trans; [|exact Room]. fold g. fold gn. apply Rmult_le_compat_l; [lra|]. rewrite C0.
    apply Rplus_le_compat_r. eapply Rle_trans; [exact A2|]. apply Rmult_le_compat_l; lra.
  - split; [exact I1|]. rewrite I2, C5. reflexivity.
Qed.

Hypothesis HM : M <= lim.
Hypothesis Room : (1 + u) ^ d * (INR d * (4 * ((1 + u) ^ 3 * (M * M)) + eta)) <= lim.

Lemma dist_gt p q (t : F) : within p -> within q -> length p = d -> length q = d -> is_finite t = true ->
  kgtb OB (@dist OB p q) t = Rlt_bool (B2R t) (rnd (sqrt (rsq 0 (vals p) (vals q)))).
Proof.
  intros Wp Wq Lp Lq Ft. unfold dist. cbn [kgtb ksqrt BO].
  destruct (kz_exact prec emax Hp Hm H8 0) as [K1 K2]; [lia|].
  assert (K3 : B2R (kZ OB 0 : F) = 0) by exact K1. assert (K4 : is_finite (kZ OB 0 : F) = true) by exact K2.
  destruct (sqdist_value p q (kZ OB 0)) as [S1 S2]; auto; [congruence|rewrite K3; lra|rewrite K3, Lp, Rplus_0_l; exact Room|].
  rewrite K3 in S2.
  set (X := @sqdist OB (kZ OB 0) p q) in *. destruct (Bsqrt_correct prec emax Hp Hm mode_NE X) as [R1 [R2 _]]. change (round_mode mode_NE) with ZnearestE in R1.
  assert (P : 0 <= B2R X).
  { rewrite S2. apply rsq_upper; [apply vals_fmt|apply vals_fmt|unfold vals; rewrite !map_length; congruence|apply generic_format_0|lra]. }
  assert (R3 : is_finite (@Bsqrt prec emax Hp Hm mode_NE X) = true).
  { rewrite R2. destruct X as [sg| | |sg mx ex' Hx]; try reflexivity; try discriminate. destruct sg; [|reflexivity].
    exfalso. cbn in P. apply ge_0_F2R in P. cbn in P. lia. }
  rewrite Bltb_correct by assumption. rewrite R1, S2. reflexivity.
Qed.
Lemma dist_gt_sym p q (t : F) : within p -> within q -> length p = d -> length q = d -> is_finite t = true ->
  kgtb OB (@dist OB p q) t = kgtb OB (@dist OB q p) t.
Proof. intros. rewrite !dist_gt by assumption. rewrite rsq_sym. reflexivity. Qed.

(** Thresholds far above the smallest positive number: 5 per cent are enough. *)
Variable t : F.
Hypothesis Ft : is_finite t = true.
Notation T := (B2R t).
Hypothesis T0 : 0 < T.
Hypothesis Hd : 200 * (INR d + 3) * u <= 1.
Hypothesis Hz : 1000 * (INR d + 1) * eta <= T * T.
Hypothesis Hz1 : 1000 * eta <= T.

Lemma rsq_close p q : within p -> within q -> length p = d -> length q = d ->
  99 / 100 * ssq (vals p) (vals q) - INR d * eta <= rsq 0 (vals p) (vals q) <= 101 / 100 * ssq (vals p) (vals q) + 2 * INR d * eta.
Proof.
  intros Wp Wq Lp Lq. pose proof (pos_INR d) as N0. pose proof (u_small prec H8) as Us.
  assert (LL : length (vals q) = length (vals p)) by (unfold vals; rewrite !map_length; congruence).
  assert (Lv : length (vals p) = d) by (unfold vals; rewrite map_length; exact Lp).
  pose proof (rsq_upper (vals p) (vals q) 0 (vals_fmt p) (vals_fmt q) LL (generic_format_0 _ _) ltac:(lra)) as [_ U].
  pose proof (rsq_lower (vals p) (vals q) 0 (vals_fmt p) (vals_fmt q) LL (generic_format_0 _ _) ltac:(lra)) as L.
  rewrite Lv, Rplus_0_l in *. pose proof (ssq_pos (vals p) (vals q)) as S0. set (S := ssq (vals p) (vals q)) in *.
  assert (P1 : (1 + u) ^ (d + 3) <= 101 / 100).
  { pose proof (pow_1u u (d + 3) ltac:(lra)) as P. rewrite plus_INR in P. replace (INR 3) with 3 in P by (cbn; lra).
    eapply Rle_trans; [apply P|]; nra. }
  assert (P2 : 99 / 100 <= (1 - u) ^ (d + 3)).
  { pose proof (pow_1mu u (d + 3) ltac:(lra)) as P. rewrite plus_INR in P. replace (INR 3) with 3 in P by (cbn; lra). nra. }
  rewrite pow_add in P1, P2.
  assert (P3 : (1 + u) ^ d <= 2).
  { pose proof (pow_1u u d ltac:(lra)) as P. eapply Rle_trans; [apply P|]; nra. }
  split.
  - eapply Rle_trans; [|exact L]. apply Rplus_le_compat_r. rewrite <- Rmult_assoc. apply Rmult_le_compat_r; assumption.
  - eapply Rle_trans; [exact U|]. rewrite Rmult_plus_distr_l. apply Rplus_le_compat.
    + rewrite <- Rmult_assoc. apply Rmult_le_compat_r; assumption.
    + rewrite Rmult_assoc. apply Rmult_le_compat_r; [nra|exact P3].
Qed.
Lemma len_true p q : within p -> within q -> length p = d -> length q = d -> kgtb OB (@dist OB p q) t = true -> 95 / 100 * (T * T) < ssq (vals p) (vals q).
Proof.
  intros Wp Wq Lp Lq H. rewrite dist_gt in H by assumption.
  destruct (Rlt_bool_spec T (rnd (sqrt (rsq 0 (vals p) (vals q))))) as [L|L]; [|discriminate].
  destruct (rsq_close p q) as [_ C]; auto. set (S := rsq 0 (vals p) (vals q)) in *.
  assert (G : T < sqrt S).
  { destruct (Rlt_le_dec T (sqrt S)) as [G|G]; [exact G|exfalso]. apply (round_le radix2 fexp ZnearestE) in G.
    rewrite (round_generic radix2 fexp ZnearestE T) in G by apply generic_format_B2R. lra. }
  assert (S0 : 0 <= S). { destruct (Rle_lt_dec 0 S) as [|N]; [assumption|]. rewrite sqrt_neg_0 in G by lra. lra. }
  assert (TS : T * T < S) by (rewrite <- (sqrt_sqrt S S0); nra).
  pose proof (pos_INR d) as N0. assert (INR d * eta <= T * T / 1000) by nra. lra.
Qed.
Lemma len_false p q : within p -> within q -> length p = d -> length q = d -> kgtb OB (@dist OB p q) t = false -> ssq (vals p) (vals q) <= 105 / 100 * (T * T).
Proof.
  intros Wp Wq Lp Lq H. rewrite dist_gt in H by assumption.
  destruct (Rlt_bool_spec T (rnd (sqrt (rsq 0 (vals p) (vals q))))) as [L|L]; [discriminate|].
  destruct (rsq_close p q) as [C _]; auto. pose proof (rsq_upper (vals p) (vals q) 0 (vals_fmt p) (vals_fmt q)) as [S0 _].
  { unfold vals. rewrite !map_length. congruence. } { apply generic_format_0. } { lra. }
  set (S := rsq 0 (vals p) (vals q)) in *. pose proof (sqrt_pos S) as Q0. pose proof (u_small prec H8) as Us. pose proof (pos_INR d) as N0.
  pose proof (rnd_err prec emax Hp (sqrt S)) as E. rewrite (Rabs_pos_eq (sqrt S)) in E by exact Q0. apply Rabs_le_inv in E.
  assert (Ud : 600 * u <= 1) by nra.
  assert (G : sqrt S * (599 / 600) <= T * (1001 / 1000)) by nra.
  assert (G2 : sqrt S <= T * (10027 / 10000)) by lra.
  assert (TS : S <= T * T * (10055 / 10000)) by (rewrite <- (sqrt_sqrt S S0); nra).
  assert (INR d * eta <= T * T / 1000) by nra. lra.
Qed.
End LEN.
