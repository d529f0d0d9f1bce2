(** * Flt: rounding errors of the rules of the schemes. *)
From Coq Require Import Reals Lra Psatz.
From Flocq Require Import Core BinarySingleNaN Relative.
From Verif Require Import Base Mesh Filters Spec SpecGeo SpecFlt Lists.
Open Scope R_scope.

Section FLT.
Variables (prec emax : Z) (Hp : Prec_gt_0 prec) (Hm : Prec_lt_emax prec emax).
Notation F := (binary_float prec emax).
Notation fexp := (SpecFloat.fexp prec emax).
Notation rnd := (round radix2 fexp ZnearestE).
Notation u := (unit_roundoff prec).
Notation eta := (half_smallest prec emax).
Notation big := (3 * bpow radix2 (emax - 2)).
Hypothesis H8 : (8 <= prec)%Z.

Lemma u_pos : 0 < u. Proof. apply bpow_gt_0. Qed.
Lemma eta_pos : 0 < eta. Proof. apply bpow_gt_0. Qed.
Lemma u_small : u <= / 256.
Proof. unfold unit_roundoff. replace (/ 256) with (bpow radix2 (-8)) by (cbn; lra). apply bpow_le. lia. Qed.
Lemma emax_gt : (9 <= emax)%Z. Proof. unfold Prec_lt_emax in Hm. lia. Qed.
Lemma big_room B : B <= big -> B * (1 + u) + eta < bpow radix2 emax.
Proof.
  intros HB. pose proof u_pos. pose proof u_small. pose proof emax_gt.
  assert (E : bpow radix2 emax = 4 * bpow radix2 (emax - 2)).
  { replace 4 with (bpow radix2 2) by (cbn; lra). rewrite <- bpow_plus. f_equal. lia. }
  assert (L : eta <= / 256) by (unfold half_smallest; replace (/ 256) with (bpow radix2 (-8)) by (cbn; lra); apply bpow_le; lia).
  assert (G : 1 <= bpow radix2 (emax - 2)) by (replace 1 with (bpow radix2 0) by reflexivity; apply bpow_le; lia).
  rewrite E. nra.
Qed.
Lemma rnd_err x : Rabs (rnd x - x) <= u * Rabs x + eta.
Proof.
  destruct (error_N_FLT radix2 (3 - emax - prec) prec Hp (fun x => negb (Z.even x)) x) as [e [h [He [Hh [_ E]]]]].
  change (round radix2 (FLT_exp (3 - emax - prec) prec) (Znearest (fun x => negb (Z.even x))) x) with (rnd x) in E. rewrite E.
  replace (x * (1 + e) + h - x) with (x * e + h) by ring. eapply Rle_trans; [apply Rabs_triang|]. rewrite Rabs_mult.
  assert (E1 : / 2 * bpow radix2 (- prec + 1) = u) by (unfold unit_roundoff; rewrite bpow_plus; cbn; lra).
  assert (E2 : / 2 * bpow radix2 (3 - emax - prec) = eta).
  { unfold half_smallest. replace (3 - emax - prec)%Z with (2 - emax - prec + 1)%Z by lia. rewrite bpow_plus. cbn. lra. }
  rewrite E1 in He. rewrite E2 in Hh. pose proof (Rabs_pos x). nra.
Qed.
Lemma rnd_fits x B : Rabs x <= B -> B <= big -> Rabs (rnd x) < bpow radix2 emax.
Proof.
  intros Hx HB. pose proof (rnd_err x). pose proof (big_room B HB). pose proof u_pos.
  replace (rnd x) with ((rnd x - x) + x) by ring. eapply Rle_lt_trans; [apply Rabs_triang|]. nra.
Qed.

(** [x] is finite and approximates [r] up to [e]. *)
Definition apx (x : F) (r e : R) : Prop := is_finite x = true /\ Rabs (B2R x - r) <= e.
Lemma apx_weaken x r e e' : apx x r e -> e <= e' -> apx x r e'.
Proof. intros [H1 H2] H. split; [exact H1|lra]. Qed.

Lemma add_apx x y r s e1 e2 B : apx x r e1 -> apx y s e2 -> Rabs (r + s) <= B -> B + e1 + e2 <= big ->
  apx (@Bplus prec emax Hp Hm mode_NE x y) (r + s) (e1 + e2 + u * (B + e1 + e2) + eta).
Proof.
  intros [Fx Ex] [Fy Ey] Hrs HB.
  assert (L : Rabs (B2R x + B2R y - (r + s)) <= e1 + e2).
  { replace (B2R x + B2R y - (r + s)) with ((B2R x - r) + (B2R y - s)) by ring. eapply Rle_trans; [apply Rabs_triang|]. lra. }
  assert (L2 : Rabs (B2R x + B2R y) <= B + e1 + e2).
  { replace (B2R x + B2R y) with ((B2R x + B2R y - (r + s)) + (r + s)) by ring. eapply Rle_trans; [apply Rabs_triang|]. lra. }
  pose proof (Bplus_correct prec emax Hp Hm mode_NE x y Fx Fy) as C.
  change (round_mode mode_NE) with ZnearestE in C.
  rewrite Rlt_bool_true in C by (eapply rnd_fits; eauto). destruct C as [C1 [C2 _]].
  split; [exact C2|]. rewrite C1. pose proof (rnd_err (B2R x + B2R y)) as E. pose proof u_pos.
  replace (rnd (B2R x + B2R y) - (r + s)) with ((rnd (B2R x + B2R y) - (B2R x + B2R y)) + (B2R x + B2R y - (r + s))) by ring.
  eapply Rle_trans; [apply Rabs_triang|]. assert (u * Rabs (B2R x + B2R y) <= u * (B + e1 + e2)) by (apply Rmult_le_compat_l; lra). lra.
Qed.
(** Product with a factor [c] represented up to [e1]. *)
Lemma mul_apx x y r s e1 e2 B : apx x r e1 -> apx y s e2 -> (Rabs r + e1) * (Rabs s + e2) <= B -> B <= big ->
  apx (@Bmult prec emax Hp Hm mode_NE x y) (r * s) (Rabs r * e2 + e1 * (Rabs s + e2) + u * B + eta).
Proof.
  intros [Fx Ex] [Fy Ey] HB1 HB.
  pose proof (Rabs_pos r). pose proof (Rabs_pos s). pose proof (Rabs_pos (B2R x - r)). pose proof (Rabs_pos (B2R y - s)).
  assert (Lx : Rabs (B2R x) <= Rabs r + e1).
  { replace (B2R x) with ((B2R x - r) + r) by ring. eapply Rle_trans; [apply Rabs_triang|]. lra. }
  assert (Ly : Rabs (B2R y) <= Rabs s + e2).
  { replace (B2R y) with ((B2R y - s) + s) by ring. eapply Rle_trans; [apply Rabs_triang|]. lra. }
  assert (L2 : Rabs (B2R x * B2R y) <= B).
  { rewrite Rabs_mult. eapply Rle_trans; [|exact HB1]. apply Rmult_le_compat; try apply Rabs_pos; assumption. }
  assert (L : Rabs (B2R x * B2R y - r * s) <= Rabs r * e2 + e1 * (Rabs s + e2)).
  { replace (B2R x * B2R y - r * s) with (r * (B2R y - s) + (B2R x - r) * B2R y) by ring. eapply Rle_trans; [apply Rabs_triang|].
    rewrite !Rabs_mult. apply Rplus_le_compat; apply Rmult_le_compat; try apply Rabs_pos; lra. }
  pose proof (Bmult_correct prec emax Hp Hm mode_NE x y) as C. change (round_mode mode_NE) with ZnearestE in C.
  rewrite Rlt_bool_true in C by (eapply rnd_fits; eauto). destruct C as [C1 [C2 _]].
  split; [rewrite C2, Fx, Fy; reflexivity|]. rewrite C1. pose proof (rnd_err (B2R x * B2R y)) as E. pose proof u_pos.
  replace (rnd (B2R x * B2R y) - r * s) with ((rnd (B2R x * B2R y) - B2R x * B2R y) + (B2R x * B2R y - r * s)) by ring.
  eapply Rle_trans; [apply Rabs_triang|]. assert (u * Rabs (B2R x * B2R y) <= u * B) by (apply Rmult_le_compat_l; lra). lra.
Qed.

(** Constants. *)
Notation kz := (fun z => binary_normalize prec emax Hp Hm mode_NE z 0 false).
Notation dv := (@Bdiv prec emax Hp Hm mode_NE).
Lemma fmt (n k : Z) : (Z.abs n < 2 ^ prec)%Z -> (0 <= k <= 8)%Z -> generic_format radix2 fexp (IZR n / bpow radix2 k).
Proof.
  intros Hn Hk. pose proof emax_gt. apply generic_format_FLT. exists (Float radix2 n (- k)).
  - unfold F2R. cbn [Fnum Fexp]. rewrite bpow_opp. reflexivity.
  - exact Hn.
  - cbn [Fexp]. unfold SpecFloat.emin. lia.
Qed.
Lemma small_le x : Rabs x <= 256 -> Rabs x <= big.
Proof.
  intros H. pose proof emax_gt. assert (G : bpow radix2 7 <= bpow radix2 (emax - 2)) by (apply bpow_le; lia).
  cbn in G. lra.
Qed.
Lemma pw : (256 <= 2 ^ prec)%Z.
Proof. change 256%Z with (2 ^ 8)%Z. apply Z.pow_le_mono_r; lia. Qed.
Lemma kz_exact n : (Z.abs n < 256)%Z -> B2R (kz n) = IZR n /\ is_finite (kz n) = true.
Proof.
  intros Hn. pose proof (binary_normalize_correct prec emax Hp Hm mode_NE n 0 false) as C. cbn zeta in C.
  assert (E : F2R (Float radix2 n 0) = IZR n) by (unfold F2R; cbn; ring). rewrite E in C.
  change (round_mode mode_NE) with ZnearestE in C. pose proof pw.
  rewrite (round_generic radix2 fexp ZnearestE (IZR n)) in C by (replace (IZR n) with (IZR n / bpow radix2 0) by (cbn; field); apply fmt; lia).
  assert (La : Rabs (IZR n) <= 255).
  { rewrite <- abs_IZR. apply IZR_le. lia. }
  rewrite Rlt_bool_true in C; [tauto|]. pose proof emax_gt.
  assert (G : bpow radix2 9 <= bpow radix2 emax) by (apply bpow_le; lia). cbn in G. lra.
Qed.
Lemma frac_exact n d k : (Z.abs n < 256)%Z -> (0 <= k <= 7)%Z -> d = (2 ^ k)%Z -> apx (dv (kz n) (kz d)) (IZR n / IZR d) 0.
Proof.
  intros Hn Hk ->. assert (Hd : (0 < 2 ^ k < 256)%Z).
  { split; [apply Z.pow_pos_nonneg; lia|]. change 256%Z with (2 ^ 8)%Z. apply Z.pow_lt_mono_r; lia. }
  destruct (kz_exact n Hn) as [N1 N2]. destruct (kz_exact (2 ^ k)) as [D1 D2]; [lia|].
  assert (Hd1 : 1 <= IZR (2 ^ k)) by (apply IZR_le; lia).
  pose proof (Bdiv_correct prec emax Hp Hm mode_NE (kz n) (kz (2 ^ k)%Z)) as C.
  cbn beta in C, N1, N2, D1, D2. rewrite D1 in C. specialize (C ltac:(lra)). rewrite N1 in C. change (round_mode mode_NE) with ZnearestE in C. pose proof pw.
  assert (Ef : IZR n / IZR (2 ^ k) = IZR n / bpow radix2 k) by (f_equal; change (2 ^ k)%Z with (Zpower radix2 k); apply IZR_Zpower; lia).
  rewrite (round_generic radix2 fexp ZnearestE (IZR n / IZR (2 ^ k))) in C by (rewrite Ef; apply fmt; lia).
  assert (La : Rabs (IZR n / IZR (2 ^ k)) <= 255).
  { unfold Rdiv. rewrite Rabs_mult. rewrite (Rabs_pos_eq (/ _)) by (apply Rlt_le, Rinv_0_lt_compat; lra).
    assert (Rabs (IZR n) <= 255) by (rewrite <- abs_IZR; apply IZR_le; lia).
    assert (/ IZR (2 ^ k) <= 1) by (rewrite <- Rinv_1; apply Rinv_le_contravar; lra).
    assert (0 < / IZR (2 ^ k)) by (apply Rinv_0_lt_compat; lra). pose proof (Rabs_pos (IZR n)). nra. }
  rewrite Rlt_bool_true in C.
  - destruct C as [C1 [C2 _]]. split; [rewrite C2; exact N2|]. rewrite C1. rewrite Rminus_diag_eq by reflexivity. rewrite Rabs_R0. lra.
  - pose proof emax_gt. assert (G : bpow radix2 9 <= bpow radix2 emax) by (apply bpow_le; lia). cbn in G. lra.
Qed.
Lemma third_apx : apx (dv (kz 1%Z) (kz 3%Z)) (1 / 3) (u / 3).
Proof.
  destruct (kz_exact 1) as [N1 N2]; [lia|]. destruct (kz_exact 3) as [D1 D2]; [lia|].
  pose proof (Bdiv_correct prec emax Hp Hm mode_NE (kz 1%Z) (kz 3%Z)) as C. cbn beta in C, N1, N2, D1, D2. rewrite D1 in C. specialize (C ltac:(lra)). rewrite N1 in C.
  change (round_mode mode_NE) with ZnearestE in C.
  rewrite Rlt_bool_true in C by (apply rnd_fits with (B := 1 / 3); [rewrite Rabs_pos_eq; lra|]; pose proof (small_le 1); rewrite Rabs_R1 in *; lra).
  destruct C as [C1 [C2 _]]. split; [rewrite C2; exact N2|]. rewrite C1.
  pose proof emax_gt as Hg.
  assert (R := relative_error_N_FLT radix2 (3 - emax - prec) prec Hp (fun x => negb (Z.even x)) (1 / 3)).
  change (round radix2 (FLT_exp (3 - emax - prec) prec) (Znearest (fun x => negb (Z.even x))) (1 / 3)) with (rnd (1 / 3)) in R.
  rewrite (Rabs_pos_eq (1 / 3)) in R by lra.
  assert (E1 : / 2 * bpow radix2 (- prec + 1) = u) by (unfold unit_roundoff; rewrite bpow_plus; cbn; lra).
  rewrite E1 in R. eapply Rle_trans; [apply R|lra].
  apply Rle_trans with (bpow radix2 (-2)); [apply bpow_le; lia|cbn; lra].
Qed.

(** ** The rules, coordinate by coordinate

    Exact coordinates are at most [M0], given ones are off by at most [dl]. *)
Section RULES.
Variables M0 dl : R.
Hypothesis HM0 : 0 <= M0.
Hypothesis Hdl : 0 <= dl.
Hypothesis Hfit : 2 * (M0 + dl) <= bpow radix2 (emax - 2).
Notation tau := (u * (M0 + dl) + eta).

Definition inr (x : F) (r : R) : Prop := apx x r dl /\ Rabs r <= M0.

Lemma prods : 0 <= u * M0 /\ 0 <= u * dl /\ 0 <= u * eta <= eta / 256 /\ 0 <= u * (u * M0) <= u * M0 / 256 /\
  0 <= u * (u * dl) <= u * dl / 256 /\ 0 <= u * (u * eta) <= u * eta / 256 /\ 0 <= u * (u * (u * M0)) <= u * (u * M0) / 256 /\
  0 <= u * (u * (u * dl)) <= u * (u * dl) / 256 /\ 0 <= u * (u * (u * eta)) <= u * (u * eta) / 256 /\
  u * M0 <= M0 / 256 /\ u * dl <= dl / 256 /\ 0 < eta <= / 256.
Proof.
  pose proof u_pos as U0. pose proof u_small as U1. pose proof eta_pos as E0.
  assert (E1 : eta <= / 256) by (pose proof emax_gt; unfold half_smallest; replace (/ 256) with (bpow radix2 (-8)) by (cbn; lra); apply bpow_le; lia).
  assert (P : forall y, 0 <= y -> 0 <= u * y <= y / 256) by (intros y Hy; split; [apply Rmult_le_pos; lra|]; assert (u * y <= / 256 * y) by (apply Rmult_le_compat_r; lra); lra).
  pose proof (P M0 HM0). pose proof (P dl Hdl). pose proof (P eta (Rlt_le _ _ E0)).
  pose proof (P (u * M0) ltac:(lra)). pose proof (P (u * dl) ltac:(lra)). pose proof (P (u * eta) ltac:(lra)).
  pose proof (P (u * (u * M0)) ltac:(lra)). pose proof (P (u * (u * dl)) ltac:(lra)). pose proof (P (u * (u * eta)) ltac:(lra)).
  repeat split; lra.
Qed.
Lemma room : 128 <= bpow radix2 (emax - 2).
Proof. pose proof emax_gt. assert (G : bpow radix2 7 <= bpow radix2 (emax - 2)) by (apply bpow_le; lia). cbn in G. lra. Qed.

Lemma half_apx x r e B : apx x r e -> Rabs r <= B -> B + e <= big -> apx (dv x (kz 2%Z)) (r / 2) (e / 2 + u * (B + e) / 2 + eta).
Proof.
  intros [Fx Ex] Hr HB. destruct (kz_exact 2) as [D1 D2]; [lia|]. cbn beta in D1, D2.
  assert (Lx : Rabs (B2R x) <= B + e).
  { replace (B2R x) with ((B2R x - r) + r) by ring. eapply Rle_trans; [apply Rabs_triang|]. lra. }
  assert (L2 : Rabs (B2R x / 2) <= (B + e) / 2).
  { unfold Rdiv. rewrite Rabs_mult, (Rabs_pos_eq (/ 2)) by lra. lra. }
  pose proof (Rabs_pos (B2R x)).
  pose proof (Bdiv_correct prec emax Hp Hm mode_NE x (kz 2%Z)) as C. cbn beta in C. rewrite D1 in C. specialize (C ltac:(lra)).
  change (round_mode mode_NE) with ZnearestE in C.
  rewrite Rlt_bool_true in C by (eapply rnd_fits; [exact L2|lra]). destruct C as [C1 [C2 _]].
  split; [rewrite C2; exact Fx|]. rewrite C1. pose proof (rnd_err (B2R x / 2)) as E. pose proof u_pos.
  replace (rnd (B2R x / 2) - r / 2) with ((rnd (B2R x / 2) - B2R x / 2) + (B2R x - r) / 2) by field.
  eapply Rle_trans; [apply Rabs_triang|]. assert (u * Rabs (B2R x / 2) <= u * ((B + e) / 2)) by (apply Rmult_le_compat_l; lra).
  assert (Rabs ((B2R x - r) / 2) <= e / 2) by (unfold Rdiv; rewrite Rabs_mult, (Rabs_pos_eq (/ 2)) by lra; lra). lra.
Qed.
Lemma tri2 r s a b : Rabs r <= a -> Rabs s <= b -> Rabs (r + s) <= a + b.
Proof. intros. eapply Rle_trans; [apply Rabs_triang|]. lra. Qed.

Lemma mid_apx x y r s : inr x r -> inr y s ->
  apx (dv (@Bplus prec emax Hp Hm mode_NE x y) (kz 2%Z)) ((r + s) / 2) (dl + 5 * tau).
Proof.
  intros [Hx Rx] [Hy Ry]. pose proof prods as P. pose proof room as Rm. pose proof (tri2 r s _ _ Rx Ry) as T.
  assert (A := add_apx x y r s dl dl (2 * M0) Hx Hy ltac:(lra) ltac:(lra)).
  assert (B := half_apx _ _ _ (2 * M0) A ltac:(lra) ltac:(lra)). eapply apx_weaken; [exact B|]. lra.
Qed.
Lemma cen_apx x y z r s t : inr x r -> inr y s -> inr z t ->
  apx (@Bmult prec emax Hp Hm mode_NE
        (@Bplus prec emax Hp Hm mode_NE (@Bplus prec emax Hp Hm mode_NE (@Bplus prec emax Hp Hm mode_NE (kz 0%Z) x) y) z)
        (dv (kz 1%Z) (kz 3%Z))) ((0 + r + s + t) * (1 / 3)) (dl + 10 * tau).
Proof.
  intros [Hx Rx] [Hy Ry] [Hz Rz]. pose proof prods as P. pose proof room as Rm.
  assert (Z0 : apx (kz 0%Z) 0 0).
  { destruct (kz_exact 0) as [D1 D2]; [lia|]. split; [exact D2|]. cbn beta in D1. rewrite D1, Rminus_0_r, Rabs_R0. lra. }
  assert (T0 : Rabs 0 <= 0) by (rewrite Rabs_R0; lra).
  pose proof (tri2 0 r _ _ T0 Rx) as T1. pose proof (tri2 _ s _ _ T1 Ry) as T2. pose proof (tri2 _ t _ _ T2 Rz) as T3.
  assert (A1 := add_apx _ _ _ _ _ _ M0 Z0 Hx ltac:(lra) ltac:(lra)).
  assert (A2 := add_apx _ _ _ _ _ _ (2 * M0) A1 Hy ltac:(lra) ltac:(lra)).
  assert (A3 := add_apx _ _ _ _ _ _ (3 * M0) A2 Hz ltac:(lra) ltac:(lra)).
  assert (A3' := apx_weaken _ _ _ (3 * dl + 8 * tau) A3 ltac:(lra)).
  pose proof third_apx as D. pose proof u_pos as U0. pose proof u_small as U1.
  assert (Hs : 0 <= Rabs (0 + r + s + t) <= 3 * M0) by (split; [apply Rabs_pos|lra]).
  assert (E3 : Rabs (1 / 3) = 1 / 3) by (apply Rabs_pos_eq; lra).
  assert (B := mul_apx _ _ _ _ _ _ ((3 * M0 + (3 * dl + 8 * tau)) * (1 / 3 + u / 3)) A3' D).
  rewrite E3 in B. eapply apx_weaken; [apply B|].
  - apply Rmult_le_compat_r; lra.
  - lra.
  - assert (Rabs (0 + r + s + t) * (u / 3) <= 3 * M0 * (u / 3)) by (apply Rmult_le_compat_r; lra). lra.
Qed.

(** One more term [w * x] of a weighted sum; [W] is the total weight so far, [c] the new one. *)
Lemma term_apx a A e W w c x r n : 0 <= W -> 0 <= n <= 8 -> W + Rabs c <= 3 / 2 -> apx a A e -> Rabs A <= W * M0 -> e <= W * dl + 5 * n * tau ->
  apx w c 0 -> inr x r ->
  apx (@Bplus prec emax Hp Hm mode_NE a (@Bmult prec emax Hp Hm mode_NE w x)) (A + c * r) ((W + Rabs c) * dl + 5 * (n + 1) * tau) /\
  Rabs (A + c * r) <= (W + Rabs c) * M0.
Proof.
  intros HW Hn HWc Ha HA He Hw [Hx Hr]. pose proof prods as P. pose proof room as Rm. pose proof (Rabs_pos c) as C0.
  pose proof u_pos as U0.
  assert (Ha' := apx_weaken _ _ _ _ Ha He).
  assert (Hcr : Rabs c * Rabs r <= Rabs c * M0) by (apply Rmult_le_compat_l; lra).
  assert (HcM : 0 <= Rabs c * M0) by (apply Rmult_le_pos; lra). assert (Hcd : 0 <= Rabs c * dl) by (apply Rmult_le_pos; lra).
  assert (HS : Rabs (A + c * r) <= (W + Rabs c) * M0).
  { eapply Rle_trans; [apply Rabs_triang|]. rewrite Rabs_mult. lra. }
  split; [|exact HS].
  assert (LM : (W + Rabs c) * M0 <= 3 / 2 * M0) by (apply Rmult_le_compat_r; lra).
  assert (Ld : (W + Rabs c) * dl <= 3 / 2 * dl) by (apply Rmult_le_compat_r; lra).
  assert (WM : 0 <= W * M0) by (apply Rmult_le_pos; lra). assert (Wd : 0 <= W * dl) by (apply Rmult_le_pos; lra).
  assert (Tp : 0 <= tau) by lra.
  assert (nt : 0 <= n * tau <= 8 * tau) by (split; [apply Rmult_le_pos; lra|apply Rmult_le_compat_r; lra]).
  assert (Bm := mul_apx w x c r 0 dl (Rabs c * (M0 + dl)) Hw Hx ltac:(lra) ltac:(lra)).
  assert (uc : 0 <= u * (Rabs c * (M0 + dl)) <= u * (3 / 2 * (M0 + dl))) by (split; [apply Rmult_le_pos; lra|apply Rmult_le_compat_l; lra]).
  assert (Bm' := apx_weaken _ _ _ (Rabs c * dl + u * (3 / 2 * (M0 + dl)) + eta) Bm ltac:(lra)).
  assert (Bs := add_apx _ _ _ _ _ _ ((W + Rabs c) * M0) Ha' Bm' HS ltac:(lra)).
  eapply apx_weaken; [exact Bs|].
  set (E := (W + Rabs c) * M0 + (W * dl + 5 * n * tau) + (Rabs c * dl + u * (3 / 2 * (M0 + dl)) + eta)).
  assert (HE : E <= 3 / 2 * M0 + 3 / 2 * dl + 40 * tau + u * (3 / 2 * (M0 + dl)) + eta) by (unfold E; lra).
  assert (HuE : u * E <= u * (3 / 2 * M0 + 3 / 2 * dl + 40 * tau + u * (3 / 2 * (M0 + dl)) + eta)) by (apply Rmult_le_compat_l; lra).
  lra.
Qed.
End RULES.
End FLT.
