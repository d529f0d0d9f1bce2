(** * FltHeron: Heron's formula in floating point against the exact area of the same points (C108). *)
From Coq Require Import Reals Lra Psatz.
From Flocq Require Import Core BinarySingleNaN.
From Verif Require Import Base Mesh Filters Spec SpecGeo SpecFlt Lists Flt FltLen.
Open Scope R_scope.

Definition heron (A B C : R) : R := let s := (A + B + C) / 2 in s * (s - A) * (s - B) * (s - C).

Section HERON.
Variables (prec emax : Z) (Hp : Prec_gt_0 prec) (Hm : Prec_lt_emax prec emax).
Hypothesis H8 : (8 <= prec)%Z.
Notation F := (binary_float prec emax).
Notation fexp := (SpecFloat.fexp prec emax).
Notation rnd := (round radix2 fexp ZnearestE).
Notation u := (unit_roundoff prec).
Notation eta := (half_smallest prec emax).
Notation big := (3 * bpow radix2 (emax - 2)).
Notation lim := (bpow radix2 (emax - 2)).
Notation sb := (@Bminus prec emax Hp Hm mode_NE).
Notation ml := (@Bmult prec emax Hp Hm mode_NE).
Notation ad := (@Bplus prec emax Hp Hm mode_NE).
Notation apx := (apx prec emax).

Lemma sub_apx x y r s e1 e2 B : apx x r e1 -> apx y s e2 -> Rabs (r - s) <= B -> B + e1 + e2 <= big ->
  apx (sb x y) (r - s) (e1 + e2 + u * (B + e1 + e2) + eta).
Proof.
  intros [Fx Ex] [Fy Ey] Hrs HB.
  assert (L : Rabs (B2R x - B2R y - (r - s)) <= e1 + e2).
  { replace (B2R x - B2R y - (r - s)) with ((B2R x - r) + - (B2R y - s)) by ring. eapply Rle_trans; [apply Rabs_triang|]. rewrite Rabs_Ropp. lra. }
  assert (L2 : Rabs (B2R x - B2R y) <= B + e1 + e2).
  { replace (B2R x - B2R y) with ((B2R x - B2R y - (r - s)) + (r - s)) by ring. eapply Rle_trans; [apply Rabs_triang|]. lra. }
  pose proof (Bminus_correct prec emax Hp Hm mode_NE x y Fx Fy) as C.
  change (round_mode mode_NE) with ZnearestE in C.
  rewrite Rlt_bool_true in C by (eapply (rnd_fits prec emax Hp Hm H8); eauto). destruct C as [C1 [C2 _]].
  split; [exact C2|]. rewrite C1. pose proof (rnd_err prec emax Hp (B2R x - B2R y)) as E. pose proof (u_pos prec).
  replace (rnd (B2R x - B2R y) - (r - s)) with ((rnd (B2R x - B2R y) - (B2R x - B2R y)) + (B2R x - B2R y - (r - s))) by ring.
  eapply Rle_trans; [apply Rabs_triang|]. assert (u * Rabs (B2R x - B2R y) <= u * (B + e1 + e2)) by (apply Rmult_le_compat_l; lra). lra.
Qed.

Variables (L e : R).
Hypothesis L0 : 0 <= L.
Hypothesis Hu : u <= e.
Hypothesis He : 1000 * e <= 1.
Hypothesis E1 : eta <= e * L.
Hypothesis E2 : eta <= e * (L * L).
Hypothesis E3 : eta <= e * (L * L * L).
Hypothesis E4 : eta <= e * (L * L * L * L).
Hypothesis HL : 8 * (L * L * L * L + 1) <= lim.

Lemma heron_apx (a b c : F) A B C : 0 <= A <= L -> 0 <= B <= L -> 0 <= C <= L ->
  apx a A (e * L) -> apx b B (e * L) -> apx c C (e * L) ->
  let s := ml (@Bdiv prec emax Hp Hm mode_NE (binary_normalize prec emax Hp Hm mode_NE 1 0 false) (binary_normalize prec emax Hp Hm mode_NE 2 0 false)) (ad (ad a b) c) in
  apx (ml (ml (ml s (sb s a)) (sb s b)) (sb s c)) (heron A B C) (210 * e * (L * L * L * L)).
Proof.
  intros HA HB HC Ha Hb Hc s. pose proof (u_pos prec) as U0. pose proof (eta_pos prec emax) as T0.
  assert (e0 : 0 < e) by lra.
  set (L2 := L * L) in *. set (L3 := L2 * L) in *. set (L4 := L3 * L) in *.
  assert (P2 : 0 <= L2) by (unfold L2; nra). assert (P3 : 0 <= L3) by (unfold L3; nra). assert (P4 : 0 <= L4) by (unfold L4; nra).
  assert (Q4 : L4 = L2 * L2) by (unfold L4, L3, L2; ring). assert (Q3 : L3 = L2 * L) by reflexivity. assert (Q2 : L2 = L * L) by reflexivity.
  assert (B2 : L2 <= L4 + 1) by (rewrite Q4; pose proof (sqr_pos (L2 - 1)); nra).
  assert (B1 : L <= L4 + 1) by (pose proof (sqr_pos (L - 1)); pose proof (sqr_pos (L2 - 1)); nra).
  assert (B3 : L3 <= L4 + 1) by (rewrite Q3; pose proof (sqr_pos (L - 1)); pose proof (sqr_pos (L2 - L)); nra).
  (* products with the small quantities *)
  set (eL := e * L) in *. assert (eL0 : 0 <= eL) by (unfold eL; nra). assert (eL1 : 1000 * eL <= L) by (unfold eL; nra).
  assert (uL : u * L <= eL) by (unfold eL; nra).
  assert (S1 : apx (ad a b) (A + B) (6 * eL)).
  { eapply apx_weaken; [apply (add_apx prec emax Hp Hm H8 a b A B eL eL (2 * L) Ha Hb); [rewrite Rabs_pos_eq; lra|lra]|]. nra. }
  assert (S2 : apx (ad (ad a b) c) (A + B + C) (13 * eL)).
  { eapply apx_weaken; [apply (add_apx prec emax Hp Hm H8 _ c (A + B) C _ eL (3 * L) S1 Hc); [rewrite Rabs_pos_eq; lra|lra]|]. nra. }
  pose proof (frac_exact prec emax Hp Hm H8 1 2 1 ltac:(lia) ltac:(lia) eq_refl) as Hh.
  set (S := (A + B + C) / 2). assert (HS : 0 <= S <= 3 / 2 * L) by (unfold S; lra).
  assert (S3 : apx s S (10 * eL)).
  { replace S with (IZR 1 / IZR 2 * (A + B + C)) by (unfold S; field). unfold s.
    eapply apx_weaken; [apply (mul_apx prec emax Hp Hm H8 _ _ _ _ 0 (13 * eL) (2 * L) Hh S2)|].
    - rewrite !Rabs_pos_eq by lra. lra.
    - lra.
    - rewrite !Rabs_pos_eq by lra. nra. }
  assert (SA : forall x X, 0 <= X <= L -> apx x X eL -> apx (sb s x) (S - X) (14 * eL)).
  { intros x X HX Hx. eapply apx_weaken; [apply (sub_apx s x S X _ eL (3 / 2 * L) S3 Hx); [apply Rabs_le; lra|lra]|]. nra. }
  assert (RA : forall X, 0 <= X <= L -> Rabs (S - X) <= 3 / 2 * L) by (intros X HX; apply Rabs_le; lra).
  pose proof (SA a A HA Ha) as TA. pose proof (SA b B HB Hb) as TB. pose proof (SA c C HC Hc) as TC.
  pose proof (RA A HA) as RA1. pose proof (RA B HB) as RB1. pose proof (RA C HC) as RC1.
  pose proof (Rabs_pos (S - A)) as PA. pose proof (Rabs_pos (S - B)) as PB. pose proof (Rabs_pos (S - C)) as PC.
  set (eL2 := e * L2) in *. set (eL3 := e * L3) in *. set (eL4 := e * L4) in *.
  assert (X2 : eL * L = eL2) by (unfold eL, eL2; rewrite Q2; ring). assert (X3 : eL2 * L = eL3) by (unfold eL2, eL3; rewrite Q3; ring).
  assert (X4 : eL3 * L = eL4) by (unfold eL3, eL4, L4; ring).
  assert (z2 : 0 <= eL2) by (unfold eL2; nra). assert (z3 : 0 <= eL3) by (unfold eL3; nra). assert (z4 : 0 <= eL4) by (unfold eL4; nra).
  assert (uL2 : u * L2 <= eL2) by (unfold eL2; nra). assert (uL3 : u * L3 <= eL3) by (unfold eL3; nra). assert (uL4 : u * L4 <= eL4) by (unfold eL4; nra).
  assert (Y2 : 1000 * (eL * eL) <= eL2) by (rewrite <- X2; nra).
  assert (Y3 : 1000 * (eL2 * eL) <= eL3) by (rewrite <- X3; nra).
  assert (Y4 : 1000 * (eL3 * eL) <= eL4) by (rewrite <- X4; nra).
  assert (V2 : 1000 * eL2 <= L2) by (unfold eL2; nra). assert (V3 : 1000 * eL3 <= L3) by (unfold eL3; nra).
  assert (M1 : apx (ml s (sb s a)) (S * (S - A)) (41 * eL2)).
  { eapply apx_weaken; [apply (mul_apx prec emax Hp Hm H8 _ _ _ _ _ _ (3 * L2) S3 TA)|].
    - rewrite (Rabs_pos_eq S) by lra. apply Rle_trans with ((3 / 2 * L + 10 * eL) * (3 / 2 * L + 14 * eL)); [apply Rmult_le_compat; lra|].
      replace ((3 / 2 * L + 10 * eL) * (3 / 2 * L + 14 * eL)) with (9 / 4 * L2 + 36 * (eL * L) + 140 * (eL * eL)) by (rewrite Q2; field). rewrite X2. lra.
    - lra.
    - rewrite (Rabs_pos_eq S) by lra.
      assert (S * (14 * eL) <= 21 * eL2) by (apply Rle_trans with (3 / 2 * L * (14 * eL)); [apply Rmult_le_compat_r; lra|rewrite <- X2; lra]).
      assert (10 * eL * (Rabs (S - A) + 14 * eL) <= 15 * eL2 + 140 * (eL * eL)) by (apply Rle_trans with (10 * eL * (3 / 2 * L + 14 * eL)); [apply Rmult_le_compat_l; lra|rewrite <- X2; lra]).
      lra. }
  assert (N1 : Rabs (S * (S - A)) <= 9 / 4 * L2).
  { rewrite Rabs_mult, (Rabs_pos_eq S) by lra. apply Rle_trans with (3 / 2 * L * (3 / 2 * L)); [apply Rmult_le_compat; lra|rewrite Q2; lra]. }
  pose proof (Rabs_pos (S * (S - A))) as PN1.
  assert (M2 : apx (ml (ml s (sb s a)) (sb s b)) (S * (S - A) * (S - B)) (99 * eL3)).
  { eapply apx_weaken; [apply (mul_apx prec emax Hp Hm H8 _ _ _ _ _ _ (4 * L3) M1 TB)|].
    - apply Rle_trans with ((9 / 4 * L2 + 41 * eL2) * (3 / 2 * L + 14 * eL)); [apply Rmult_le_compat; lra|].
      replace ((9 / 4 * L2 + 41 * eL2) * (3 / 2 * L + 14 * eL)) with (27 / 8 * L3 + 63 / 2 * (e * (L2 * L)) + 123 / 2 * (eL2 * L) + 574 * (eL2 * eL)) by (unfold L3, eL; field).
      change (e * (L2 * L)) with eL3. rewrite X3. lra.
    - lra.
    - assert (Rabs (S * (S - A)) * (14 * eL) <= 63 / 2 * eL3).
      { apply Rle_trans with (9 / 4 * L2 * (14 * eL)); [apply Rmult_le_compat_r; lra|]. unfold eL3, eL. rewrite Q3. lra. }
      assert (41 * eL2 * (Rabs (S - B) + 14 * eL) <= 123 / 2 * eL3 + 574 * (eL2 * eL)) by (apply Rle_trans with (41 * eL2 * (3 / 2 * L + 14 * eL)); [apply Rmult_le_compat_l; lra|rewrite <- X3; lra]).
      lra. }
  assert (N2 : Rabs (S * (S - A) * (S - B)) <= 27 / 8 * L3).
  { rewrite Rabs_mult. apply Rle_trans with (9 / 4 * L2 * (3 / 2 * L)); [apply Rmult_le_compat; lra|rewrite Q3; lra]. }
  pose proof (Rabs_pos (S * (S - A) * (S - B))) as PN2.
  unfold heron. fold S.
  eapply apx_weaken; [apply (mul_apx prec emax Hp Hm H8 _ _ _ _ _ _ (6 * L4) M2 TC)|].
  - apply Rle_trans with ((27 / 8 * L3 + 99 * eL3) * (3 / 2 * L + 14 * eL)); [apply Rmult_le_compat; lra|].
    replace ((27 / 8 * L3 + 99 * eL3) * (3 / 2 * L + 14 * eL)) with (81 / 16 * L4 + 189 / 4 * (e * L4) + 297 / 2 * (eL3 * L) + 1386 * (eL3 * eL)) by (unfold L4, eL; field).
    change (e * L4) with eL4. rewrite X4. unfold eL4. nra.
  - lra.
  - assert (Rabs (S * (S - A) * (S - B)) * (14 * eL) <= 189 / 4 * eL4).
    { apply Rle_trans with (27 / 8 * L3 * (14 * eL)); [apply Rmult_le_compat_r; lra|]. unfold eL4, eL, L4. lra. }
    assert (99 * eL3 * (Rabs (S - C) + 14 * eL) <= 297 / 2 * eL4 + 1386 * (eL3 * eL)) by (apply Rle_trans with (99 * eL3 * (3 / 2 * L + 14 * eL)); [apply Rmult_le_compat_l; lra|rewrite <- X4; lra]).
    replace (210 * e * L4) with (210 * eL4) by (unfold eL4; ring). lra.
Qed.
End HERON.

(** ** Computed lengths and areas *)
Section FAREA.
Variables (prec emax : Z) (Hp : Prec_gt_0 prec) (Hm : Prec_lt_emax prec emax).
Hypothesis H8 : (8 <= prec)%Z.
Variables (cosf : N -> binary_float prec emax) (d : nat).
Notation F := (binary_float prec emax).
Notation fexp := (SpecFloat.fexp prec emax).
Notation rnd := (round radix2 fexp ZnearestE).
Notation OB := (BO prec emax Hp Hm cosf d).
Notation u := (unit_roundoff prec).
Notation eta := (half_smallest prec emax).
Notation lim := (bpow radix2 (emax - 2)).
Notation vals := (vals prec emax).
Variable M : R.
Hypothesis M0 : 0 <= M.
Notation within := (within prec emax M).
Hypothesis HM : M <= lim.
Hypothesis Room : (1 + u) ^ d * (INR d * (4 * ((1 + u) ^ 3 * (M * M)) + eta)) <= lim.
Notation S4 := (4 * INR d * (M * M)).
Notation e := ((INR d + 7) * u).
Hypothesis Hd : 1000 * e <= 1.
Hypothesis Ha : 4 * (INR d + 1) * eta <= u * u * S4.
Hypothesis Hb : eta <= u * (S4 * S4).
Hypothesis HL : 8 * (S4 * S4 + 1) <= lim.

Lemma ssq_le p : forall q, within p -> within q -> length q = length p -> ssq (vals p) (vals q) <= 4 * INR (length p) * (M * M).
Proof.
  induction p as [|x p IH]; intros [|y q] Wp Wq HL0; try discriminate; [cbn; lra|]. inv Wp. inv Wq. injection HL0 as HL0.
  cbn [FltLen.vals map ssq length]. rewrite S_INR. specialize (IH q H2 H4 HL0). unfold FltLen.vals in IH.
  destruct H1 as [_ Hx]. destruct H3 as [_ Hy]. apply Rabs_le_inv in Hx. apply Rabs_le_inv in Hy. nra.
Qed.
Notation L := (sqrt S4).
Lemma S4_pos : 0 <= S4. Proof. pose proof (pos_INR d). pose proof (sqr_pos M). nra. Qed.
Lemma L_sq : L * L = S4. Proof. apply sqrt_sqrt, S4_pos. Qed.
Lemma L_pos : 0 <= L. Proof. apply sqrt_pos. Qed.
Lemma eta_1 : eta <= / 256.
Proof. unfold half_smallest; replace (/ 256) with (bpow radix2 (-8)) by (cbn; lra); apply bpow_le. pose proof (emax_gt prec emax Hm H8). lia. Qed.
Lemma sq_le x y : 0 <= y -> x * x <= y * y -> x <= y.
Proof. intros Hy H. destruct (Rle_lt_dec x y) as [G|G]; [exact G|]. nra. Qed.
Lemma eta_L : eta <= u * L.
Proof.
  pose proof (u_pos prec). pose proof (eta_pos prec emax). pose proof L_pos. pose proof eta_1. pose proof (pos_INR d).
  apply sq_le; [nra|]. replace (u * L * (u * L)) with (u * u * (L * L)) by ring. rewrite L_sq. eapply Rle_trans; [|exact Ha]. nra.
Qed.

Lemma dist_apx p q : within p -> within q -> length p = d -> length q = d ->
  apx prec emax (@dist OB p q) (sqrt (ssq (vals p) (vals q))) (e * L) /\ 0 <= sqrt (ssq (vals p) (vals q)) <= L.
Proof.
  intros Wp Wq Lp Lq. pose proof (u_pos prec) as U0. pose proof (eta_pos prec emax) as T0. pose proof (pos_INR d) as N0. pose proof L_pos as L0. pose proof eta_L as EL.
  assert (LL : length (vals q) = length (vals p)) by (unfold FltLen.vals; rewrite !map_length; congruence).
  assert (Lv : length (vals p) = d) by (unfold FltLen.vals; rewrite map_length; exact Lp).
  pose proof (rsq_upper prec emax Hp H8 (vals p) (vals q) 0 (vals_fmt prec emax p) (vals_fmt prec emax q) LL (generic_format_0 _ _) ltac:(lra)) as [R0 U].
  pose proof (rsq_lower prec emax Hp H8 (vals p) (vals q) 0 (vals_fmt prec emax p) (vals_fmt prec emax q) LL (generic_format_0 _ _) ltac:(lra)) as Lo.
  rewrite Lv, Rplus_0_l in *. pose proof (ssq_pos (vals p) (vals q)) as S0.
  pose proof (ssq_le p q Wp Wq ltac:(congruence)) as SL. rewrite Lp in SL. rewrite <- L_sq in SL.
  assert (Hk : forall x, x = rsq prec emax 0 (vals p) (vals q) -> 0 <= x) by (intros; subst; exact R0).
  set (X := rsq prec emax 0 (vals p) (vals q)) in *. set (x := ssq (vals p) (vals q)) in *. set (A := sqrt x).
  assert (A0 : 0 <= A) by apply sqrt_pos. assert (AA : A * A = x) by (apply sqrt_sqrt; exact S0).
  assert (AL : A <= L) by (apply sq_le; [exact L0|rewrite AA; exact SL]).
  split; [|split; assumption].
  destruct (kz_exact prec emax Hp Hm H8 0) as [K1 K2]; [lia|].
  assert (K3 : B2R (kZ OB 0 : F) = 0) by exact K1. assert (K4 : is_finite (kZ OB 0 : F) = true) by exact K2.
  destruct (sqdist_value prec emax Hp Hm H8 cosf d M M0 p q (kZ OB 0)) as [D1 D2]; auto; [congruence|rewrite K3; lra|rewrite K3, Lp, Rplus_0_l; exact Room|].
  rewrite K3 in D2. fold X in D2. unfold dist. cbn [ksqrt BO].
  set (Y := @sqdist OB (kZ OB 0) p q) in *. destruct (Bsqrt_correct prec emax Hp Hm mode_NE Y) as [R1 [R2 _]]. change (round_mode mode_NE) with ZnearestE in R1.
  assert (P : 0 <= B2R Y) by (rewrite D2; exact R0).
  split.
  { rewrite R2. destruct Y as [sg| | |sg mx ex' Hx]; try reflexivity; try discriminate. destruct sg; [|reflexivity].
    exfalso. cbn in P. apply ge_0_F2R in P. cbn in P. lia. }
  rewrite R1, D2. set (k := (INR d + 3) * u). set (g := u * L) in *. assert (g0 : 0 <= g) by (unfold g; nra).
  assert (k1 : 1000 * k <= 1) by (unfold k; nra). assert (k0 : 0 <= k) by (unfold k; nra).
  assert (GG : 4 * (INR d + 1) * eta <= g * g) by (unfold g; replace (u * L * (u * L)) with (u * u * (L * L)) by ring; rewrite L_sq; exact Ha).
  assert (P1 : (1 + u) ^ (d + 3) <= 1 + 2 * k).
  { pose proof (pow_1u u (d + 3) ltac:(lra)) as P1. rewrite plus_INR in P1. replace (INR 3) with 3 in P1 by (cbn; lra). unfold k. rewrite <- Rmult_assoc. apply P1. unfold k in k1. lra. }
  assert (P2 : 1 - k <= (1 - u) ^ (d + 3)).
  { pose proof (u_small prec H8). pose proof (pow_1mu u (d + 3) ltac:(lra)) as P2. rewrite plus_INR in P2. replace (INR 3) with 3 in P2 by (cbn; lra). exact P2. }
  assert (P3 : (1 + u) ^ d <= 2).
  { pose proof (pow_1u u d ltac:(lra)) as P3. eapply Rle_trans; [apply P3|]; unfold k in k1; nra. }
  rewrite pow_add in P1, P2.
  assert (X1 : X <= (1 + 2 * k) * x + 2 * INR d * eta).
  { eapply Rle_trans; [exact U|]. rewrite Rmult_plus_distr_l. apply Rplus_le_compat.
    - rewrite <- Rmult_assoc. apply Rmult_le_compat_r; assumption.
    - rewrite Rmult_assoc. apply Rmult_le_compat_r; [nra|exact P3]. }
  assert (X2 : (1 - k) * x - INR d * eta <= X).
  { eapply Rle_trans; [|exact Lo]. apply Rplus_le_compat_r. rewrite <- Rmult_assoc. apply Rmult_le_compat_r; assumption. }
  set (B := sqrt X). assert (B0 : 0 <= B) by apply sqrt_pos. assert (BB : B * B = X) by (apply sqrt_sqrt; exact R0).
  assert (Z1 : B <= A * (1 + k) + g).
  { apply sq_le; [nra|]. rewrite BB. eapply Rle_trans; [exact X1|]. rewrite <- AA.
    replace ((A * (1 + k) + g) * (A * (1 + k) + g)) with ((1 + 2 * k) * (A * A) + (A * k) * (A * k) + 2 * (A * (1 + k)) * g + g * g) by ring.
    pose proof (sqr_pos (A * k)). assert (0 <= 2 * (A * (1 + k)) * g) by (apply Rmult_le_pos; nra). nra. }
  assert (Z2 : A * (1 - k) - g <= B).
  { destruct (Rle_lt_dec (A * (1 - k) - g) 0) as [G|G]; [lra|]. apply sq_le; [exact B0|]. rewrite BB. eapply Rle_trans; [|exact X2]. rewrite <- AA.
    set (h := A * (1 - k)) in *. assert (h * h <= (1 - k) * (A * A)).
    { unfold h. replace (A * (1 - k) * (A * (1 - k))) with ((1 - k) * (1 - k) * (A * A)) by ring. apply Rmult_le_compat_r; [nra|nra]. }
    nra. }
  pose proof (rnd_err prec emax Hp B) as E. rewrite (Rabs_pos_eq B) in E by exact B0. apply Rabs_le_inv in E.
  assert (Ak : A * k <= L * k) by (apply Rmult_le_compat_r; assumption).
  assert (Lk : L * k = (INR d + 3) * g) by (unfold k, g; ring).
  assert (Le : e * L = (INR d + 7) * g) by (unfold g; ring). rewrite Le.
  assert (Lk2 : 1000 * (L * k) <= L) by nra. assert (gL : 256 * g <= L) by (unfold g; pose proof (u_small prec H8); nra).
  assert (uB : u * B <= 2 * g) by (unfold g; nra).
  apply Rabs_le. lra.
Qed.

Variable t : F.
Hypothesis Ft : is_finite t = true.
Notation T := (B2R t).
Hypothesis T0 : 0 < T.
Hypothesis HT : 21000 * e * (S4 * S4) <= T * T.

Lemma S4_sq : L * L * L * L = S4 * S4. Proof. replace (L * L * L * L) with (L * L * (L * L)) by ring. rewrite L_sq. reflexivity. Qed.
Notation hp p q r := (heron (sqrt (ssq (vals q) (vals r))) (sqrt (ssq (vals p) (vals r))) (sqrt (ssq (vals q) (vals p)))).

Lemma area_value p q r : within p -> within q -> within r -> length p = d -> length q = d -> length r = d ->
  exists w : F, @area OB p q r = @Bsqrt prec emax Hp Hm mode_NE w /\ apx prec emax w (hp p q r) (T * T / 100).
Proof.
  intros Wp Wq Wr Lp Lq Lr.
  destruct (dist_apx q r Wq Wr Lq Lr) as [A1 A2]. destruct (dist_apx p r Wp Wr Lp Lr) as [B1 B2]. destruct (dist_apx q p Wq Wp Lq Lp) as [C1 C2].
  pose proof (u_pos prec) as U0. pose proof (eta_pos prec emax) as E0. pose proof L_pos as L0. pose proof eta_L as EL. pose proof (pos_INR d) as N0. pose proof L_sq as LS. pose proof S4_sq as LSS.
  eexists. split; [reflexivity|].
  assert (EL2 : eta <= u * (L * L)).
  { rewrite LS. pose proof (u_small prec H8). pose proof S4_pos. assert (4 * eta <= 4 * (INR d + 1) * eta) by nra. assert (u * u * S4 <= u * S4) by nra. lra. }
  assert (EL4 : eta <= u * (L * L * L * L)) by (rewrite LSS; exact Hb).
  assert (EL3 : eta <= u * (L * L * L)).
  { apply sq_le; [assert (0 <= L * L) by nra; assert (0 <= L * L * L) by nra; nra|]. replace (u * (L * L * L) * (u * (L * L * L))) with (u * (L * L) * (u * (L * L * L * L))) by ring.
    apply Rmult_le_compat; lra. }
  assert (ue : u <= e) by nra. assert (P2 : 0 <= L * L) by nra. assert (P3 : 0 <= L * L * L) by nra. assert (P4 : 0 <= L * L * L * L) by nra.
  assert (WK : forall Z, 0 <= Z -> eta <= u * Z -> eta <= e * Z) by (intros Z HZ HE; eapply Rle_trans; [exact HE|apply Rmult_le_compat_r; assumption]).
  eapply apx_weaken.
  - refine (heron_apx prec emax Hp Hm H8 L e L0 ue Hd _ _ _ _ _ _ _ _ _ _ _ A2 B2 C2 A1 B1 C1).
    + apply WK; assumption. + apply WK; assumption. + apply WK; assumption. + apply WK; assumption. + rewrite LSS. exact HL.
  - rewrite LSS. rewrite LSS in P4. assert (0 <= e * (S4 * S4)) by (apply Rmult_le_pos; lra). lra.
Qed.

Lemma area_true p q r : within p -> within q -> within r -> length p = d -> length q = d -> length r = d ->
  kgtb OB (@area OB p q r) t = true -> 99 / 100 * (T * T) < hp p q r.
Proof.
  intros Wp Wq Wr Lp Lq Lr H. destruct (area_value p q r) as [w [E [Fw Aw]]]; auto. rewrite E in H. cbn [kgtb BO] in H. apply Rabs_le_inv in Aw.
  destruct (Bsqrt_correct prec emax Hp Hm mode_NE w) as [R1 [R2 _]]. change (round_mode mode_NE) with ZnearestE in R1.
  destruct (is_finite (@Bsqrt prec emax Hp Hm mode_NE w)) eqn:Fs.
  - rewrite Bltb_correct in H by assumption. rewrite R1 in H. destruct (Rlt_bool_spec T (rnd (sqrt (B2R w)))) as [G|G]; [|discriminate].
    assert (G2 : T < sqrt (B2R w)).
    { destruct (Rlt_le_dec T (sqrt (B2R w))) as [G2|G2]; [exact G2|exfalso]. apply (round_le radix2 fexp ZnearestE) in G2.
      rewrite (round_generic radix2 fexp ZnearestE T) in G2 by apply generic_format_B2R. lra. }
    assert (W0 : 0 <= B2R w). { destruct (Rle_lt_dec 0 (B2R w)) as [|N]; [assumption|]. rewrite sqrt_neg_0 in G2 by lra. lra. }
    assert (T * T < B2R w) by (rewrite <- (sqrt_sqrt (B2R w) W0); nra). lra.
  - exfalso. destruct w as [sg| | |sg mx ex' Hx]; try discriminate. destruct sg; cbn in Fs; [|congruence].
    destruct t; cbn in H; try discriminate.
Qed.
Lemma area_false p q r : within p -> within q -> within r -> length p = d -> length q = d -> length r = d ->
  kgtb OB (@area OB p q r) t = false -> hp p q r <= 103 / 100 * (T * T).
Proof.
  intros Wp Wq Wr Lp Lq Lr H. destruct (area_value p q r) as [w [E [Fw Aw]]]; auto. rewrite E in H. cbn [kgtb BO] in H. apply Rabs_le_inv in Aw.
  assert (TT : 0 < T * T) by nra.
  destruct (Rle_lt_dec (B2R w) 0) as [W0|W0]; [lra|].
  destruct (Bsqrt_correct prec emax Hp Hm mode_NE w) as [R1 [R2 _]]. change (round_mode mode_NE) with ZnearestE in R1.
  assert (Fs : is_finite (@Bsqrt prec emax Hp Hm mode_NE w) = true).
  { rewrite R2. destruct w as [sg| | |sg mx ex' Hx]; try reflexivity; try discriminate. destruct sg; [|reflexivity].
    exfalso. cbn in W0. apply gt_0_F2R in W0. cbn in W0. lia. }
  rewrite Bltb_correct in H by assumption. rewrite R1 in H. destruct (Rlt_bool_spec T (rnd (sqrt (B2R w)))) as [G|G]; [discriminate|].
  pose proof (u_pos prec) as U0. pose proof (eta_pos prec emax) as E0. pose proof eta_1 as E1. pose proof (pos_INR d) as N0.
  assert (Te : 1000 * eta <= T).
  { apply sq_le; [lra|]. eapply Rle_trans; [|exact HT].
    assert (147000 * eta <= 21000 * e * (S4 * S4)).
    { replace (21000 * e * (S4 * S4)) with (21000 * (INR d + 7) * (u * (S4 * S4))) by ring. assert (0 <= u * (S4 * S4)) by lra. nra. }
    nra. }
  set (y := sqrt (B2R w)) in *. assert (y0 : 0 <= y) by apply sqrt_pos. assert (yy : y * y = B2R w) by (apply sqrt_sqrt; lra).
  pose proof (rnd_err prec emax Hp y) as Er. rewrite (Rabs_pos_eq y) in Er by exact y0. apply Rabs_le_inv in Er.
  assert (Ud : 1000 * u <= 1) by nra.
  assert (y * (999 / 1000) <= T * (1001 / 1000)) by nra. assert (y <= T * (1003 / 1000)) by lra.
  assert (B2R w <= T * T * (1007 / 1000)) by (rewrite <- yy; nra). lra.
Qed.
End FAREA.
