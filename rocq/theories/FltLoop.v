(** * FltLoop: rounding errors of the vertex rule of the Loop scheme. *)
From Coq Require Import Reals Lra Psatz.
From Flocq Require Import Core BinarySingleNaN Relative.
From Verif Require Import Base Mesh Filters Drivers Spec SpecSub SpecGeo SpecFlt Lists Valid PtsAny Geo Sim SimId SimProps Flt FltRun.
Open Scope R_scope.

Section VERTEX.
Variables (prec emax : Z) (Hp : Prec_gt_0 prec) (Hm : Prec_lt_emax prec emax).
Hypothesis H8 : (8 <= prec)%Z.
Notation F := (binary_float prec emax).
Notation fexp := (SpecFloat.fexp prec emax).
Notation rnd := (round radix2 fexp ZnearestE).
Notation u := (unit_roundoff prec).
Notation eta := (half_smallest prec emax).
Notation lim := (bpow radix2 (emax - 2)).
Notation kz := (fun z => binary_normalize prec emax Hp Hm mode_NE z 0 false).
Notation dv := (@Bdiv prec emax Hp Hm mode_NE).
Notation ad := (@Bplus prec emax Hp Hm mode_NE).
Notation sb := (@Bminus prec emax Hp Hm mode_NE).
Notation ml := (@Bmult prec emax Hp Hm mode_NE).
Notation apx := (apx prec emax).

Lemma sub_apx x y r s e1 e2 B : apx x r e1 -> apx y s e2 -> Rabs (r - s) <= B -> B + e1 + e2 <= 3 * lim ->
  apx (sb x y) (r - s) (e1 + e2 + u * (B + e1 + e2) + eta).
Proof.
  intros [Fx Ex] [Fy Ey] Hrs HB.
  assert (L : Rabs (B2R x - B2R y - (r - s)) <= e1 + e2).
  { replace (B2R x - B2R y - (r - s)) with ((B2R x - r) - (B2R y - s)) by ring. eapply Rle_trans; [apply Rabs_triang|]. rewrite Rabs_Ropp. lra. }
  assert (L2 : Rabs (B2R x - B2R y) <= B + e1 + e2).
  { replace (B2R x - B2R y) with ((B2R x - B2R y - (r - s)) + (r - s)) by ring. eapply Rle_trans; [apply Rabs_triang|]. lra. }
  pose proof (Bminus_correct prec emax Hp Hm mode_NE x y Fx Fy) as C. change (round_mode mode_NE) with ZnearestE in C.
  rewrite Rlt_bool_true in C by (eapply (rnd_fits prec emax Hp Hm H8); eauto). destruct C as [C1 [C2 _]].
  split; [exact C2|]. rewrite C1. pose proof (rnd_err prec emax Hp (B2R x - B2R y)) as E. pose proof (u_pos prec).
  replace (rnd (B2R x - B2R y) - (r - s)) with ((rnd (B2R x - B2R y) - (B2R x - B2R y)) + (B2R x - B2R y - (r - s))) by ring.
  eapply Rle_trans; [apply Rabs_triang|]. assert (u * Rabs (B2R x - B2R y) <= u * (B + e1 + e2)) by (apply Rmult_le_compat_l; lra). lra.
Qed.
(** Products with bounds instead of absolute values. *)
Lemma mul_b x y r s e1 e2 R S B : apx x r e1 -> apx y s e2 -> 0 <= e1 -> Rabs r <= R -> 0 <= e2 -> Rabs s + e2 <= S ->
  (R + e1) * S <= B -> B <= 3 * lim -> apx (ml x y) (r * s) (R * e2 + e1 * S + u * B + eta).
Proof.
  intros Hx Hy He1 HR He2 HS HB Hbig. pose proof (Rabs_pos r). pose proof (Rabs_pos s).
  eapply apx_weaken; [apply (mul_apx prec emax Hp Hm H8 x y r s e1 e2 B Hx Hy); [|exact Hbig]|].
  - eapply Rle_trans; [|exact HB]. apply Rmult_le_compat; lra.
  - assert (Rabs r * e2 <= R * e2) by (apply Rmult_le_compat_r; lra). assert (e1 * (Rabs s + e2) <= e1 * S) by (apply Rmult_le_compat_l; lra). lra.
Qed.
Lemma kzn_exact z : (Z.abs z < 2 ^ prec)%Z -> B2R (kz z) = IZR z /\ is_finite (kz z) = true.
Proof.
  intros Hn. pose proof (binary_normalize_correct prec emax Hp Hm mode_NE z 0 false) as C. cbn zeta in C.
  assert (E : F2R (Float radix2 z 0) = IZR z) by (unfold F2R; cbn; ring). rewrite E in C.
  change (round_mode mode_NE) with ZnearestE in C.
  rewrite (round_generic radix2 fexp ZnearestE (IZR z)) in C.
  2:{ replace (IZR z) with (IZR z / bpow radix2 0) by (cbn; field). apply (fmt prec emax Hm H8); lia. }
  rewrite Rlt_bool_true in C; [tauto|]. rewrite <- abs_IZR.
  apply Rlt_le_trans with (bpow radix2 prec).
  - rewrite <- IZR_Zpower by lia. apply IZR_lt. exact Hn.
  - apply bpow_le. unfold Prec_lt_emax in Hm. lia.
Qed.

Variables M0 dl eps : R.
Hypothesis HM0 : 0 <= M0.
Hypothesis Hdl : 0 <= dl.
Hypothesis Heps : 0 <= eps <= / 16.
(** The number of neighbours of the vertex. *)
Variable n : N.
Notation nr := (IZR (Z.of_N n)).
Hypothesis Hn1 : (1 <= n)%N.
Hypothesis Hnu : nr * u <= / 64.
Hypothesis Hfit : 2 * (nr * (M0 + dl)) <= lim.
Notation w := (M0 + dl).
Notation X := (nr * u * w).
Notation inr := (inr prec emax M0 dl).

Lemma nr1 : 1 <= nr.
Proof. apply IZR_le. lia. Qed.
Lemma eta_u : 0 < eta <= u / 128.
Proof.
  split; [apply eta_pos|]. pose proof (emax_gt prec emax Hm H8).
  replace (u / 128) with (bpow radix2 (- prec - 7)).
  - unfold half_smallest. apply bpow_le. lia.
  - unfold unit_roundoff, Zminus. rewrite bpow_plus. cbn. lra.
Qed.
Lemma n_eta : nr * eta <= u / 32.
Proof.
  assert (E : eta = u * bpow radix2 (2 - emax)).
  { unfold half_smallest, unit_roundoff. rewrite <- bpow_plus. f_equal. lia. }
  assert (L : bpow radix2 (2 - emax) <= 2 * u).
  { replace (2 * u) with (bpow radix2 (1 - prec)).
    - apply bpow_le. unfold Prec_lt_emax in Hm. lia.
    - unfold unit_roundoff, Zminus. rewrite bpow_plus. reflexivity. }
  pose proof (bpow_gt_0 radix2 (2 - emax)). pose proof (u_pos prec). pose proof nr1.
  rewrite E. replace (nr * (u * bpow radix2 (2 - emax))) with (nr * u * bpow radix2 (2 - emax)) by ring.
  apply Rle_trans with (/ 64 * (2 * u)); [|lra]. apply Rmult_le_compat; try lra. apply Rmult_le_pos; lra.
Qed.
Lemma scale_w y c : 0 <= y <= c -> 0 <= y * w <= c * w.
Proof. intros H. split; [apply Rmult_le_pos; lra|apply Rmult_le_compat_r; lra]. Qed.
Lemma X_facts : 0 <= u * w <= X /\ X <= w / 64 /\ w <= nr * w.
Proof.
  pose proof (u_pos prec). pose proof nr1. assert (U : u <= nr * u) by (assert (1 * u <= nr * u) by (apply Rmult_le_compat_r; lra); lra).
  split; [split; [apply Rmult_le_pos; lra|apply Rmult_le_compat_r; lra]|].
  split; [assert (nr * u * w <= / 64 * w) by (apply Rmult_le_compat_r; lra); lra|].
  assert (1 * w <= nr * w) by (apply Rmult_le_compat_r; lra). lra.
Qed.

(** ** The sum of the neighbours *)
Definition Inv (k : R) (s : F) (S : R) : Prop := apx s S (k * (dl + 2 * X + 2 * eta)) /\ Rabs S <= k * M0.
Lemma Inv_mono k k' s S : k <= k' -> Inv k s S -> Inv k' s S.
Proof.
  intros Hk [H1 H2]. pose proof X_facts. pose proof eta_u. split.
  - eapply apx_weaken; [exact H1|]. apply Rmult_le_compat_r; lra.
  - eapply Rle_trans; [exact H2|]. apply Rmult_le_compat_r; lra.
Qed.
Lemma Inv_step k s S x r : 0 <= k -> k + 1 <= nr -> Inv k s S -> inr x r -> Inv (k + 1) (ad s x) (S + r).
Proof.
  intros Hk Hkn [H1 H2] [Hx Hr]. pose proof X_facts as [X1 [X2 X3]]. pose proof eta_u as Eu. pose proof (u_pos prec) as Up. pose proof (u_small prec H8) as Us.
  pose proof nr1 as N1. pose proof n_eta as Ne. pose proof (room prec emax Hm H8) as Rm.
  assert (P1 : (k + 1) * w <= nr * w) by (apply Rmult_le_compat_r; lra).
  assert (P2 : k * (2 * X + 2 * eta) <= nr * (2 * X + 2 * eta)) by (apply Rmult_le_compat_r; lra).
  assert (P3 : nr * X <= nr * (w / 64)) by (apply Rmult_le_compat_l; lra).
  assert (Tot : (k + 1) * M0 + k * (dl + 2 * X + 2 * eta) + dl <= nr * w + nr * (2 * X + 2 * eta)) by lra.
  assert (A := add_apx prec emax Hp Hm H8 s x S r _ _ ((k + 1) * M0) H1 Hx).
  assert (A1 : Rabs (S + r) <= (k + 1) * M0) by (eapply Rle_trans; [apply Rabs_triang|]; lra).
  specialize (A A1 ltac:(lra)). split; [|exact A1]. eapply apx_weaken; [exact A|].
  assert (Q : u * ((k + 1) * M0 + k * (dl + 2 * X + 2 * eta) + dl) <= u * (nr * w + nr * (2 * X + 2 * eta))) by (apply Rmult_le_compat_l; lra).
  assert (Q2 : u * (nr * w + nr * (2 * X + 2 * eta)) = X + 2 * (nr * u * X) + 2 * (nr * u * eta)) by ring.
  assert (Q3 : nr * u * X <= / 64 * X) by (apply Rmult_le_compat_r; lra).
  assert (Q4 : nr * u * eta <= / 64 * eta) by (apply Rmult_le_compat_r; lra). lra.
Qed.
Lemma Inv_zero : Inv 0 (kz 0%Z) 0.
Proof.
  destruct (kz_exact prec emax Hp Hm H8 0) as [E1 E2]; [lia|]. cbn beta in E1.
  split; [split; [exact E2|rewrite E1, Rminus_0_r, Rabs_R0; lra]|rewrite Rabs_R0; lra].
Qed.

(** ** The rule at the border *)
Lemma border_apx x r b B : inr x r -> Inv 2 b B ->
  apx (ad (ml (dv (kz 3%Z) (kz 4%Z)) x) (ml (dv (kz 1%Z) (kz 8%Z)) b)) (3 / 4 * r + 1 / 8 * B) (dl + 40 * (X + eps * w + eta)).
Proof.
  intros [Hx Hr] [Hb HB]. pose proof X_facts as [X1 [X2 X3]]. pose proof eta_u as Eu. pose proof (u_pos prec) as Up. pose proof (u_small prec H8) as Us.
  pose proof (room prec emax Hm H8) as Rm. pose proof (scale_w eps (/ 16) Heps) as Ew.
  assert (UX : u * X <= X / 256) by (assert (u * X <= / 256 * X) by (apply Rmult_le_compat_r; lra); lra).
  assert (Ue : u * eta <= eta / 256) by (assert (u * eta <= / 256 * eta) by (apply Rmult_le_compat_r; lra); lra).
  assert (UX0 : 0 <= u * X) by (apply Rmult_le_pos; lra). assert (Ue0 : 0 <= u * eta) by (apply Rmult_le_pos; lra).
  assert (C1 := frac_exact prec emax Hp Hm H8 3 4 2 ltac:(lia) ltac:(lia) eq_refl).
  assert (C2 := frac_exact prec emax Hp Hm H8 1 8 3 ltac:(lia) ltac:(lia) eq_refl).
  assert (A1 := mul_b _ _ _ _ 0 dl (3 / 4) w w C1 Hx ltac:(lra) ltac:(rewrite Rabs_pos_eq; lra) ltac:(lra) ltac:(lra) ltac:(lra) ltac:(lra)).
  assert (A2 := mul_b _ _ _ _ 0 _ (1 / 8) (2 * w + 4 * X + 4 * eta) (2 * w + eta) C2 Hb ltac:(lra) ltac:(rewrite Rabs_pos_eq; lra) ltac:(lra) ltac:(lra) ltac:(lra) ltac:(lra)).
  assert (V : Rabs (3 / 4 * r + 1 / 8 * B) <= M0).
  { eapply Rle_trans; [apply Rabs_triang|]. rewrite !Rabs_mult, (Rabs_pos_eq (3 / 4)), (Rabs_pos_eq (1 / 8)) by lra. lra. }
  assert (A3 := add_apx prec emax Hp Hm H8 _ _ _ _ _ _ M0 A1 A2 V).
  assert (Z1 : u * (u * w) <= u * X) by (apply Rmult_le_compat_l; lra).
  assert (Z2 : u * (u * eta) <= / 256 * (u * eta)) by (apply Rmult_le_compat_r; lra).
  match type of A3 with ?P -> _ => assert (Fit : P) by lra end.
  specialize (A3 Fit). eapply apx_weaken; [exact A3|]. lra.
Qed.

(** ** The rule inside *)
Variable cosn : F.
Hypothesis Hc : apx cosn (cos (2 * PI / nr)) eps.
Hypothesis Hnp : (Z.of_N n < 2 ^ prec)%Z.
Notation kn := (kz (Z.of_N n)).
Notation q n d := (dv (kz n%Z) (kz d%Z)).
Definition fbeta : F := let var := ad (q 3 8) (ml (q 1 4) cosn) in dv (sb (q 5 8) (ml var var)) kn.
Notation cn := (cos (2 * PI / nr)).
Notation b0 := (5 / 8 - (3 / 8 + 1 / 4 * cn) * (3 / 8 + 1 / 4 * cn)).

Lemma b0_bounds : 15 / 64 <= b0 <= 39 / 64.
Proof. pose proof (COS_bound (2 * PI / nr)) as [C1 C2]. nra. Qed.
Lemma beta_num : apx (sb (q 5 8) (ml (ad (q 3 8) (ml (q 1 4) cosn)) (ad (q 3 8) (ml (q 1 4) cosn)))) b0 (eps / 3 + 5 * u).
Proof.
  pose proof eta_u as Eu. pose proof (u_pos prec) as Up. pose proof (u_small prec H8) as Us. pose proof (room prec emax Hm H8) as Rm.
  pose proof (COS_bound (2 * PI / nr)) as [C1 C2]. pose proof b0_bounds as Bb.
  assert (Uu : u * u <= u / 256) by (assert (u * u <= u * / 256) by (apply Rmult_le_compat_l; lra); lra).
  assert (Uu0 : 0 <= u * u) by (apply Rmult_le_pos; lra).
  assert (Uet : 0 <= u * eta <= eta / 256) by (split; [apply Rmult_le_pos; lra|]; assert (u * eta <= / 256 * eta) by (apply Rmult_le_compat_r; lra); lra).
  assert (Uep : 0 <= u * eps <= u / 16) by (split; [apply Rmult_le_pos; lra|]; assert (u * eps <= u * / 16) by (apply Rmult_le_compat_l; lra); lra).
  assert (K1 := frac_exact prec emax Hp Hm H8 1 4 2 ltac:(lia) ltac:(lia) eq_refl).
  assert (K3 := frac_exact prec emax Hp Hm H8 3 8 3 ltac:(lia) ltac:(lia) eq_refl).
  assert (K5 := frac_exact prec emax Hp Hm H8 5 8 3 ltac:(lia) ltac:(lia) eq_refl).
  assert (V1 := mul_b _ _ _ _ 0 eps (1 / 4) (17 / 16) (1 / 2) K1 Hc ltac:(lra) ltac:(rewrite Rabs_pos_eq; lra) ltac:(lra)
                  ltac:(assert (Rabs cn <= 1) by (apply Rabs_le; lra); lra) ltac:(lra) ltac:(lra)).
  assert (V2 := add_apx prec emax Hp Hm H8 _ _ _ _ _ _ (5 / 8) K3 V1 ltac:(apply Rabs_le; lra) ltac:(lra)).
  eapply apx_weaken in V2; [|instantiate (1 := eps / 4 + 2 * u); lra].
  assert (S1 : (eps / 4 + 2 * u) * (5 / 8 + (eps / 4 + 2 * u)) <= (eps / 4 + 2 * u) * (21 / 32)) by (apply Rmult_le_compat_l; lra).
  assert (V3 := mul_b _ _ _ _ _ _ (5 / 8) (21 / 32) (1 / 2) V2 V2 ltac:(lra) ltac:(apply Rabs_le; lra) ltac:(lra)
                  ltac:(assert (Rabs (3 / 8 + 1 / 4 * cn) <= 5 / 8) by (apply Rabs_le; lra); lra) ltac:(lra) ltac:(lra)).
  eapply apx_weaken in V3; [|instantiate (1 := eps / 3 + 7 / 2 * u); lra].
  assert (V4 := sub_apx _ _ _ _ _ _ (39 / 64) K5 V3 ltac:(apply Rabs_le; lra) ltac:(lra)).
  eapply apx_weaken; [exact V4|]. lra.
Qed.
Lemma beta_apx : apx fbeta (b0 / nr) ((eps / 3 + 25 / 4 * u) / nr).
Proof.
  pose proof eta_u as Eu. pose proof (u_pos prec) as Up. pose proof (u_small prec H8) as Us. pose proof (room prec emax Hm H8) as Rm.
  pose proof nr1 as N1. pose proof n_eta as Ne. pose proof b0_bounds as Bb. destruct beta_num as [Fx Ex]. set (a := sb _ _) in *.
  destruct (kzn_exact (Z.of_N n)) as [D1 D2]; [rewrite Z.abs_eq by lia; exact Hnp|]. cbn beta in D1, D2.
  unfold fbeta. fold a. cbn zeta. fold a.
  pose proof (Bdiv_correct prec emax Hp Hm mode_NE a kn) as C. cbn beta in C. rewrite D1 in C. specialize (C ltac:(lra)).
  change (round_mode mode_NE) with ZnearestE in C.
  assert (Ip : 0 < / nr <= 1) by (split; [apply Rinv_0_lt_compat; lra|rewrite <- Rinv_1; apply Rinv_le_contravar; lra]).
  assert (La : Rabs (B2R a) <= 1).
  { replace (B2R a) with ((B2R a - b0) + b0) by ring. eapply Rle_trans; [apply Rabs_triang|]. rewrite (Rabs_pos_eq b0) by lra. lra. }
  assert (Lq : Rabs (B2R a / nr) <= / nr).
  { unfold Rdiv. rewrite Rabs_mult, (Rabs_pos_eq (/ nr)) by lra. assert (Rabs (B2R a) * / nr <= 1 * / nr) by (apply Rmult_le_compat_r; lra). lra. }
  rewrite Rlt_bool_true in C by (eapply (rnd_fits prec emax Hp Hm H8); [exact Lq|lra]). destruct C as [C1 [C2 _]].
  split; [rewrite C2; exact Fx|]. rewrite C1. pose proof (rnd_err prec emax Hp (B2R a / nr)) as E.
  replace (rnd (B2R a / nr) - b0 / nr) with ((rnd (B2R a / nr) - B2R a / nr) + (B2R a - b0) / nr) by (field; lra).
  eapply Rle_trans; [apply Rabs_triang|].
  assert (T1 : u * Rabs (B2R a / nr) <= u * / nr) by (apply Rmult_le_compat_l; lra).
  assert (T2 : Rabs ((B2R a - b0) / nr) <= (eps / 3 + 5 * u) / nr).
  { unfold Rdiv. rewrite Rabs_mult, (Rabs_pos_eq (/ nr)) by lra. apply Rmult_le_compat_r; lra. }
  assert (T3 : eta <= u / 32 / nr).
  { apply (Rmult_le_reg_l nr); [lra|]. replace (nr * (u / 32 / nr)) with (u / 32) by (field; lra). exact Ne. }
  assert (T4 : 0 <= u / nr) by (apply Rmult_le_pos; lra). unfold Rdiv in *. lra.
Qed.
Definition finner (x s : F) : F := ad (ml (sb (kz 1%Z) (ml kn fbeta)) x) (ml fbeta s).
Lemma inner_apx x r s S : inr x r -> Inv nr s S ->
  apx (finner x s) ((1 - nr * (b0 / nr)) * r + b0 / nr * S) (dl + 40 * (X + eps * w + eta)).
Proof.
  intros [Hx Hr] [Hs HS]. pose proof X_facts as [X1 [X2 X3]]. pose proof eta_u as Eu. pose proof (u_pos prec) as Up. pose proof (u_small prec H8) as Us.
  pose proof (room prec emax Hm H8) as Rm. pose proof (scale_w eps (/ 16) Heps) as Ew. pose proof nr1 as N1. pose proof n_eta as Ne. pose proof b0_bounds as Bb.
  destruct (kzn_exact (Z.of_N n)) as [D1 D2]; [rewrite Z.abs_eq by lia; exact Hnp|].
  assert (Kn : apx kn nr 0) by (split; [exact D2|cbn beta in D1; rewrite D1, Rminus_diag_eq, Rabs_R0 by reflexivity; lra]).
  destruct (kz_exact prec emax Hp Hm H8 1) as [O1 O2]; [lia|].
  assert (K1 : apx (kz 1%Z) 1 0) by (split; [exact O2|cbn beta in O1; rewrite O1, Rminus_diag_eq, Rabs_R0 by reflexivity; lra]).
  pose proof beta_apx as Hb. set (be := b0 / nr) in *. set (kap := eps / 3 + 25 / 4 * u) in *.
  assert (Ip : 0 < / nr <= 1) by (split; [apply Rinv_0_lt_compat; lra|rewrite <- Rinv_1; apply Rinv_le_contravar; lra]).
  assert (Eb : nr * be = b0) by (unfold be; field; lra). assert (Ek : nr * (kap / nr) = kap) by (field; lra).
  assert (Kp : 0 <= kap / nr) by (unfold kap; apply Rmult_le_pos; lra).
  assert (Bp : 0 <= be) by (unfold be; apply Rmult_le_pos; lra).
  assert (Kw : 0 <= kap * w <= eps * w / 3 + 25 / 4 * (u * w)) by (split; [apply Rmult_le_pos; unfold kap; lra|unfold kap; lra]).
  assert (Kq : kap <= / 16) by (unfold kap; lra).
  (* the factor of the point *)
  assert (G := mul_b _ _ _ _ 0 (kap / nr) nr (be + kap / nr) 1 Kn Hb ltac:(lra) ltac:(rewrite Rabs_pos_eq; lra) ltac:(lra)
                 ltac:(rewrite Rabs_pos_eq; lra) ltac:(rewrite Rplus_0_r, Rmult_plus_distr_l, Eb, Ek; lra) ltac:(lra)).
  rewrite Ek in G. eapply apx_weaken in G; [|instantiate (1 := kap + 21 / 20 * u); lra].
  assert (Uu : 0 <= u * u <= u / 256) by (split; [apply Rmult_le_pos; lra|assert (u * u <= u * / 256) by (apply Rmult_le_compat_l; lra); lra]).
  assert (Uet : 0 <= u * eta <= eta / 256) by (split; [apply Rmult_le_pos; lra|]; assert (u * eta <= / 256 * eta) by (apply Rmult_le_compat_r; lra); lra).
  assert (Uk : 0 <= u * kap <= u / 16) by (split; [apply Rmult_le_pos; unfold kap; lra|assert (u * kap <= u * / 16) by (apply Rmult_le_compat_l; lra); lra]).
  assert (H1 := sub_apx _ _ _ _ _ _ (49 / 64) K1 G ltac:(rewrite Eb; apply Rabs_le; lra) ltac:(lra)).
  eapply apx_weaken in H1; [|instantiate (1 := kap + 21 / 10 * u); lra]. rewrite Eb in H1 |- *.
  (* the two products *)
  assert (P1 : (1 - b0 + (kap + 21 / 10 * u)) * w <= 1 * w) by (apply Rmult_le_compat_r; lra).
  assert (A1 := mul_b _ _ _ _ _ dl (1 - b0) w w H1 Hx ltac:(unfold kap; lra) ltac:(rewrite Rabs_pos_eq; lra) ltac:(lra) ltac:(lra) ltac:(lra) ltac:(lra)).
  set (T := w + 2 * X + 2 * eta). assert (T0 : 0 <= T) by (unfold T; lra).
  assert (P2 : (be + kap / nr) * (nr * T) <= 1 * T).
  { replace ((be + kap / nr) * (nr * T)) with ((nr * be + nr * (kap / nr)) * T) by ring. rewrite Eb, Ek. apply Rmult_le_compat_r; lra. }
  assert (A2 := mul_b _ _ _ _ _ _ be (nr * T) T Hb Hs Kp ltac:(rewrite Rabs_pos_eq; lra)
                  ltac:(apply Rmult_le_pos; lra) ltac:(unfold T; lra) ltac:(lra) ltac:(unfold T; lra)).
  replace (be * (nr * (dl + 2 * X + 2 * eta))) with (nr * be * (dl + 2 * X + 2 * eta)) in A2 by ring.
  replace (kap / nr * (nr * T)) with (nr * (kap / nr) * T) in A2 by ring. rewrite Eb, Ek in A2.
  assert (V : Rabs ((1 - b0) * r + be * S) <= M0).
  { eapply Rle_trans; [apply Rabs_triang|]. rewrite !Rabs_mult, (Rabs_pos_eq (1 - b0)), (Rabs_pos_eq be) by lra.
    assert ((1 - b0) * Rabs r <= (1 - b0) * M0) by (apply Rmult_le_compat_l; lra).
    assert (be * Rabs S <= be * (nr * M0)) by (apply Rmult_le_compat_l; lra).
    assert (be * (nr * M0) = b0 * M0) by (replace (be * (nr * M0)) with (nr * be * M0) by ring; rewrite Eb; reflexivity). lra. }
  (* simpler bounds of the two errors *)
  assert (B1 : b0 * (2 * X + 2 * eta) <= 2 * X + 2 * eta) by (assert (b0 * (2 * X + 2 * eta) <= 1 * (2 * X + 2 * eta)) by (apply Rmult_le_compat_r; lra); lra).
  assert (B2 : kap * (2 * X + 2 * eta) <= (2 * X + 2 * eta) / 16) by (assert (kap * (2 * X + 2 * eta) <= / 16 * (2 * X + 2 * eta)) by (apply Rmult_le_compat_r; lra); lra).
  assert (B3 : u * (2 * X + 2 * eta) <= (2 * X + 2 * eta) / 256) by (assert (u * (2 * X + 2 * eta) <= / 256 * (2 * X + 2 * eta)) by (apply Rmult_le_compat_r; lra); lra).
  eapply apx_weaken in A1; [|instantiate (1 := (1 - b0) * dl + (eps * w + 10 * X + eta)); lra].
  eapply apx_weaken in A2; [|instantiate (1 := b0 * dl + (eps * w + 12 * X + 5 * eta)); unfold T; lra].
  assert (A3 := add_apx prec emax Hp Hm H8 _ _ _ _ _ _ M0 A1 A2 V ltac:(lra)).
  eapply apx_weaken; [exact A3|].
  assert (W1 : M0 + ((1 - b0) * dl + (eps * w + 10 * X + eta)) + (b0 * dl + (eps * w + 12 * X + 5 * eta)) <= 2 * w + 6 * eta) by lra.
  assert (W2 : u * (M0 + ((1 - b0) * dl + (eps * w + 10 * X + eta)) + (b0 * dl + (eps * w + 12 * X + 5 * eta))) <= u * (2 * w + 6 * eta)) by (apply Rmult_le_compat_l; lra).
  assert (W3 : u * (6 * eta) <= / 256 * (6 * eta)) by (apply Rmult_le_compat_r; lra). lra.
Qed.
End VERTEX.

Lemma rsim_imp {A B} (P Q : A -> B -> Prop) x y : (forall a b, P a b -> Q a b) -> rsim P x y -> rsim Q x y.
Proof. intros H. destruct x, y; cbn; auto. Qed.

Section RUN.
Variables (prec emax : Z) (Hp : Prec_gt_0 prec) (Hm : Prec_lt_emax prec emax).
Variable cosf : N -> binary_float prec emax.
Hypothesis H8 : (8 <= prec)%Z.
Notation F := (binary_float prec emax).
Notation u := (unit_roundoff prec).
Notation eta := (half_smallest prec emax).
Notation O1 := (BO prec emax Hp Hm cosf).
Context {d : nat} {D1 D2 : Type}.
Variables M0 dl eps : R.
Hypothesis HM0 : 0 <= M0.
Hypothesis Hdl : 0 <= dl.
Hypothesis Heps : 0 <= eps <= / 16.
(** The largest number of neighbours. *)
Variable V : N.
Notation Vr := (IZR (Z.of_N V)).
Hypothesis HV1 : (1 <= V)%N.
Hypothesis HVu : Vr * u <= / 64.
Hypothesis Hfit : 2 * (Vr * (M0 + dl)) <= bpow radix2 (emax - 2).
Hypothesis Hcos : forall n, (1 <= n <= V)%N -> apx prec emax (cosf n) (cos (2 * PI / IZR (Z.of_N n))) eps.
Notation w := (M0 + dl).
Notation out_err := (dl + 40 * (Vr * u * w + eps * w + eta)).
Notation Ri := (Ri prec emax Hp Hm cosf (d := d) M0 dl).
Notation Ro := (Ro prec emax Hp Hm cosf (d := d)).

Section POINT.
Variables (inp1 : mesh (O1 d) D1) (inp2 : mesh (RO d) D2).
Hypothesis HI : Sim.msim Ri inp1 inp2.
Variable n : N.
Hypothesis Hn : (1 <= n <= V)%N.
Notation nr := (IZR (Z.of_N n)).
Notation Inv := (Inv prec emax M0 dl n).

Lemma nV : nr <= Vr.
Proof. apply IZR_le. lia. Qed.
Lemma n_u : nr * u <= / 64.
Proof. pose proof nV. pose proof (u_pos prec). assert (nr * u <= Vr * u) by (apply Rmult_le_compat_r; lra). lra. Qed.
Lemma n_fit : 2 * (nr * w) <= bpow radix2 (emax - 2).
Proof. pose proof nV. assert (nr * w <= Vr * w) by (apply Rmult_le_compat_r; lra). lra. Qed.
Lemma n_prec : (Z.of_N n < 2 ^ prec)%Z.
Proof.
  pose proof n_u as H. apply lt_IZR. change (2 ^ prec)%Z with (Zpower radix2 prec). rewrite IZR_Zpower by lia.
  unfold unit_roundoff in H. rewrite bpow_opp in H. pose proof (bpow_gt_0 radix2 prec) as B.
  apply (Rmult_lt_reg_r (/ bpow radix2 prec)); [apply Rinv_0_lt_compat; exact B|]. rewrite Rinv_r by lra. lra.
Qed.
Lemma n_err e : e <= dl + 40 * (nr * u * w + eps * w + eta) -> e <= out_err.
Proof.
  intros H. pose proof nV. pose proof (u_pos prec). assert (nr * u <= Vr * u) by (apply Rmult_le_compat_r; lra).
  assert (nr * u * w <= Vr * u * w) by (apply Rmult_le_compat_r; lra). lra.
Qed.

Definition sums_rel (nb nn : N) (nbr : nat) (len : nat) (a : @point (O1 d) * N * @point (O1 d) * N) (b : @point (RO d) * N * @point (RO d) * N) : Prop :=
  match a, b with (b1, k1, o1, n1), (b2, k2, o2, n2) =>
    k1 = k2 /\ n1 = n2 /\ k1 = (nb + N.of_nat nbr)%N /\ n1 = (nn + N.of_nat len)%N /\
    Forall2 (Inv (IZR (Z.of_N k1))) b1 b2 /\ Forall2 (Inv (IZR (Z.of_N n1))) o1 o2 end.
Lemma add_inv k (s : list F) (S : list R) (x : list F) (r : list R) : (k + 1 <= n)%N -> Forall2 (Inv (IZR (Z.of_N k))) s S -> Ri x r ->
  Forall2 (Inv (IZR (Z.of_N (k + 1)))) (@padd (O1 d) s x) (@padd (RO d) S r).
Proof.
  intros Hk Hs Hx. unfold padd. cbn [kadd BO RO].
  refine (Forall2_map2 _ _ _ _ _ _ s S Hs x r Hx). intros a A b B Ha Hb.
  replace (IZR (Z.of_N (k + 1))) with (IZR (Z.of_N k) + 1) by (rewrite N2Z.inj_add, plus_IZR; reflexivity).
  apply (Inv_step prec emax Hp Hm H8 M0 dl HM0 Hdl n); auto.
  - lia.
  - apply n_u.
  - apply n_fit.
  - apply IZR_le. lia.
  - rewrite <- plus_IZR. apply IZR_le. lia.
Qed.
Lemma elem_near v : rsim Ri (elem_pt inp1 v) (elem_pt inp2 v).
Proof. apply Sim.sim_elem_pt. exact HI. Qed.
Lemma sums_near v r : forall (b1 : @point (O1 d)) (b2 : @point (RO d)) (o1 : @point (O1 d)) (o2 : @point (RO d)) nb nn,
  Forall2 (Inv (IZR (Z.of_N nb))) b1 b2 -> Forall2 (Inv (IZR (Z.of_N nn))) o1 o2 -> (nb <= nn)%N -> (nn + N.of_nat (length r) <= n)%N ->
  rsim (sums_rel nb nn (length (filter (fun x => is_at_border inp1 (v, x)) r)) (length r))
       (smooth_sums inp1 v r b1 nb o1 nn) (smooth_sums inp2 v r b2 nb o2 nn).
Proof.
  induction r as [|x r IH]; intros b1 b2 o1 o2 nb nn Hb Ho Hle Hlen; cbn [smooth_sums filter length] in *.
  - cbn [rsim]. unfold sums_rel. rewrite !N.add_0_r. repeat split; auto.
  - eapply rbind_sim; [apply elem_near|]. intros p q Hpq. cbn beta.
    rewrite (Sim.sim_at_border Ri inp1 inp2 HI).
    destruct (is_at_border inp2 (v, x)) eqn:E.
    + assert (G := IH _ _ _ _ (nb + 1)%N (nn + 1)%N (add_inv nb _ _ _ _ ltac:(lia) Hb Hpq) (add_inv nn _ _ _ _ ltac:(lia) Ho Hpq) ltac:(lia) ltac:(lia)).
      eapply rsim_imp; [|exact G]. intros [[[? ?] ?] ?] [[[? ?] ?] ?]. cbn [sums_rel length]. intros (-> & -> & -> & -> & ? & ?). repeat split; auto; lia.
    + assert (G := IH _ _ _ _ nb (nn + 1)%N Hb (add_inv nn _ _ _ _ ltac:(lia) Ho Hpq) ltac:(lia) ltac:(lia)).
      eapply rsim_imp; [|exact G]. intros [[[? ?] ?] ?] [[[? ?] ?] ?]. cbn [sums_rel length]. intros (-> & -> & -> & -> & ? & ?). repeat split; auto; lia.
Qed.

Lemma vertex_near v p q : length (ring inp1 v) = N.to_nat n -> (length (filter (fun x => is_at_border inp1 (v, x)) (ring inp1 v)) <= 2)%nat ->
  Ri p q -> rsim (Ro out_err) (smoothing_point inp1 v p) (smoothing_point inp2 v q).
Proof.
  intros Hlen Hbord Hpq. unfold smoothing_point. rewrite <- (Sim.sim_ring Ri inp1 inp2 HI).
  remember (ring inp1 v) as r eqn:Er. destruct r as [|x0 r0]; [cbn in Hlen; lia|]. rewrite Er in *. clear x0 r0 Er.
  assert (Z0 : Forall2 (Inv (IZR (Z.of_N 0))) (@pzero (O1 d)) (@pzero (RO d))).
  { unfold pzero. apply Forall2_repeat. apply (Inv_zero prec emax Hp Hm H8 M0 dl n). all: first [assumption|lia|apply n_u|apply n_fit]. }
  eapply rbind_sim; [apply (sums_near v (ring inp1 v) _ _ _ _ 0%N 0%N Z0 Z0); lia|].
  intros [[[b1 k1] o1] n1] [[[b2 k2] o2] n2] (<- & <- & Ek & En & Hb & Ho).
  assert (En' : n1 = n) by lia. clear En. subst n1.
  destruct (N.eqb k1 0); cbn [rsim].
  - unfold interior_rule. refine (Forall2_map2 _ _ _ _ _ _ p q Hpq o1 o2 Ho). intros a A o B Ha Hob.
    eapply apx_weaken; [|apply (n_err _ (Rle_refl _))].
    exact (inner_apx prec emax Hp Hm H8 M0 dl eps HM0 Hdl Heps n (proj1 Hn) n_u n_fit (cosf n) (Hcos n Hn) n_prec a A o B Ha Hob).
  - unfold border_rule. refine (Forall2_map2 _ _ _ _ _ _ p q Hpq b1 b2 Hb). intros a A o B Ha Hob.
    eapply apx_weaken; [|apply (n_err _ (Rle_refl _))].
    apply (border_apx prec emax Hp Hm H8 M0 dl eps HM0 Hdl Heps n (proj1 Hn) n_u n_fit); [exact Ha|].
    eapply (Inv_mono prec emax Hm H8 M0 dl HM0 Hdl n (proj1 Hn) n_u); [|exact Hob]. apply IZR_le. lia.
Qed.
End POINT.

Theorem loop_run_near fuel f (inp1 : mesh (O1 d) D1) (inp2 : mesh (RO d) D2) : Sim.msim Ri inp1 inp2 ->
  NoDup (okeys (pts inp1)) -> (forall v, (length (ring inp1 v) <= N.to_nat V)%nat) ->
  (forall v, (length (filter (fun x => is_at_border inp1 (v, x)) (ring inp1 v)) <= 2)%nat) ->
  rsim (Sim.ssim (Ro out_err)) (update (CellF CLoop) fuel f inp1) (update (CellF CLoop) fuel f inp2).
Proof.
  intros HI Hnd Hval Hbord.
  assert (Hv1 : 1 <= Vr) by (apply IZR_le; lia). pose proof (u_pos prec) as Up. pose proof (eta_pos prec emax) as Ep.
  assert (Uw : u * w <= Vr * u * w) by (apply Rmult_le_compat_r; [lra|]; assert (1 * u <= Vr * u) by (apply Rmult_le_compat_r; lra); lra).
  assert (Uw0 : 0 <= u * w) by (apply Rmult_le_pos; lra). assert (Ew : 0 <= eps * w) by (apply Rmult_le_pos; lra).
  assert (Hfit2 : 2 * w <= bpow radix2 (emax - 2)) by (assert (1 * w <= Vr * w) by (apply Rmult_le_compat_r; lra); lra).
  assert (Hw : forall e' p q, e' <= out_err -> Ro e' p q -> Ro out_err p q).
  { intros e' p q He'. apply Forall2_imp. intros x r Hx. eapply apx_weaken; eauto. }
  assert (Hgo : forall p q, Ri p q -> Ro out_err p q) by (intros p q H; eapply Ri_Ro; [|exact H]; lra).
  assert (HIo : Sim.msim (Ro out_err) inp1 inp2).
  { destruct HI as [A B]. split; [|exact B]. eapply Forall2_imp; [|exact A]. intros a b [E R]. split; [exact E|auto]. }
  assert (Hget : forall x p p', oget x (pts inp1) = Some p -> oget x (pts inp2) = Some p' -> Ri p p').
  { intros x p p' E1 E2. pose proof (Sim.psim_get Ri x _ _ (proj1 HI)) as G. rewrite E1, E2 in G. exact G. }
  apply (update_sim_id (fun _ => Ro out_err) inp1 inp2 HIo (CellF CLoop) 0%N); auto; try (intros X; discriminate X); try (intros [X|X]; discriminate X).
  - intros _ i e _ _. eapply rsim_imp; [|apply (loop_near prec emax Hp Hm cosf H8 M0 dl HM0 Hdl Hfit2 inp1 inp2 HI e)].
    intros p q. apply Hw. lra.
  - intros _ v p q E1 E2. destruct (ring inp1 v) as [|x0 r0] eqn:Er.
    + unfold smoothing_point. rewrite <- (Sim.sim_ring Ri inp1 inp2 HI), Er. reflexivity.
    + apply (vertex_near inp1 inp2 HI (N.of_nat (length (ring inp1 v)))); [|lia|apply Hbord|eapply Hget; eauto].
      pose proof (Hval v). rewrite Er in *. cbn [length] in *. lia.
Qed.
End RUN.
