(** * Stuck64: the tiny triangle of C99 in binary64. *)
From Coq Require Import Reals Lra Psatz.
From Flocq Require Import Core BinarySingleNaN.
From Verif Require Import Base Mesh Filters Drivers Samples Spec SpecSub SpecGeo SpecFlt SpecDrive Lists Check CheckGeo Drive Stuck Properties12.

Open Scope R_scope.

(** binary64 numbers n 2^e, and the triangle (1 + u, 1 + u, 1), (1 + 2u, 1 + u, 1), (1 + u, 1 + 2u, 1), u = 2^-52. *)
Definition b64 (n e : Z) : binary_float 53 1024 := binary_normalize 53 1024 P53 E1024 mode_NE n e false.
Definition tiny : mesh B64 N :=
  let u1 := b64 (2 ^ 52 + 1) (-52) in let u2 := b64 (2 ^ 52 + 2) (-52) in let o := b64 1 0 in
  build (O := B64) (number [[u1; u1; o]; [u2; u1; o]; [u1; u2; o]]) [[0; 1; 2]%N].

Lemma b64_value n e : (Z.abs n < 2 ^ 53)%Z -> (-1000 <= e <= 0)%Z -> is_finite (b64 n e) = true /\ B2R (b64 n e) = IZR n * bpow radix2 e.
Proof.
  intros Hn He. pose proof (binary_normalize_correct 53 1024 P53 E1024 mode_NE n e false) as C. cbn zeta in C.
  assert (E : F2R (Float radix2 n e) = IZR n * bpow radix2 e) by reflexivity. rewrite E in C.
  assert (G : generic_format radix2 (SpecFloat.fexp 53 1024) (IZR n * bpow radix2 e)).
  { apply (generic_format_FLT radix2 (-1074) 53). exists (Float radix2 n e); [reflexivity|exact Hn|cbn; lia]. }
  rewrite (round_generic _ _ _ _ G) in C. rewrite Rlt_bool_true in C; [destruct C as [C1 [C2 _]]; split; assumption|].
  assert (Hb : Rabs (IZR n) < bpow radix2 53) by (rewrite <- abs_IZR; change (bpow radix2 53) with (IZR (2 ^ 53)); apply IZR_lt; exact Hn).
  assert (He2 : bpow radix2 e <= 1) by (change 1 with (bpow radix2 0); apply bpow_le; lia). pose proof (bpow_gt_0 radix2 e).
  rewrite Rabs_mult, (Rabs_pos_eq (bpow radix2 e)) by lra. apply Rlt_trans with (bpow radix2 53); [|apply bpow_lt; reflexivity].
  pose proof (Rabs_pos (IZR n)). nra.
Qed.

Lemma C99_area_pf : forall D (t : binary_float 53 1024) old f (inp : mesh B64 D) id a b c p q r,
  let u := bpow radix2 (-52) in
  valid inp -> dense inp -> In (id, (a, b, c)) (faces inp) ->
  oget a (pts inp) = Some p -> oget b (pts inp) = Some q -> oget c (pts inp) = Some r ->
  has_coordinates 53 1024 p [1 + u; 1 + u; 1] -> has_coordinates 53 1024 q [1 + 2 * u; 1 + u; 1] -> has_coordinates 53 1024 r [1 + u; 1 + 2 * u; 1] ->
  is_finite t = true -> B2R t <= bpow radix2 (-106) ->
  diverges (fun fuel => conditional_update fuel (CellF CLinear) (Some (cell_area_criterion (O := B64) t)) old f inp).
Proof.
  intros D t old f inp id a b c p q r u Hv Hd Hf Ha Hb Hc Cp Cq Cr Ft Ht.
  assert (U : 0 < u) by apply bpow_gt_0.
  assert (V1 : is_finite (b64 (2 ^ 52 + 1) (-52)) = true /\ B2R (b64 (2 ^ 52 + 1) (-52)) = 1 + u).
  { destruct (b64_value (2 ^ 52 + 1) (-52)) as [X Y]; [reflexivity|lia|]. split; [exact X|]. rewrite Y, plus_IZR. fold u.
    assert (IZR (2 ^ 52) * u = 1) by (change (IZR (2 ^ 52)) with (bpow radix2 52); unfold u; rewrite <- bpow_plus; reflexivity). lra. }
  assert (V2 : is_finite (b64 (2 ^ 52 + 2) (-52)) = true /\ B2R (b64 (2 ^ 52 + 2) (-52)) = 1 + 2 * u).
  { destruct (b64_value (2 ^ 52 + 2) (-52)) as [X Y]; [reflexivity|lia|]. split; [exact X|]. rewrite Y, plus_IZR. fold u.
    assert (IZR (2 ^ 52) * u = 1) by (change (IZR (2 ^ 52)) with (bpow radix2 52); unfold u; rewrite <- bpow_plus; reflexivity). lra. }
  assert (V0 : is_finite (b64 1 0) = true /\ B2R (b64 1 0) = 1).
  { destruct (b64_value 1 0) as [X Y]; [reflexivity|lia|]. split; [exact X|]. rewrite Y. cbn. lra. }
  assert (T : forall x : binary_float 53 1024, Bltb (b64 1 (-106)) x = true -> is_finite x = true -> Bltb t x = true).
  { intros x Hx Fx. destruct (b64_value 1 (-106)) as [X Y]; [reflexivity|lia|]. rewrite Rmult_1_l in Y.
    rewrite Bltb_correct in Hx |- * by assumption. rewrite Y in Hx. apply Rlt_bool_true.
    destruct (Rlt_bool_spec (bpow radix2 (-106)) (B2R x)) as [L|L]; [lra|discriminate]. }
  assert (Ep : p = [b64 (2 ^ 52 + 1) (-52); b64 (2 ^ 52 + 1) (-52); b64 1 0]).
  { eapply same_bits; [exact Cp|repeat (constructor; auto)|repeat (constructor; [lra|]); constructor]. }
  assert (Eq : q = [b64 (2 ^ 52 + 2) (-52); b64 (2 ^ 52 + 1) (-52); b64 1 0]).
  { eapply same_bits; [exact Cq|repeat (constructor; auto)|repeat (constructor; [lra|]); constructor]. }
  assert (Er : r = [b64 (2 ^ 52 + 1) (-52); b64 (2 ^ 52 + 2) (-52); b64 1 0]).
  { eapply same_bits; [exact Cr|repeat (constructor; auto)|repeat (constructor; [lra|]); constructor]. }
  clear Cp Cq Cr V0 V1 V2 U. clear u.
  assert (L : forall l l' : list (binary_float 53 1024), map B2SF l = map B2SF l' -> l = l').
  { induction l as [|x l IH]; intros [|y l'] H; try discriminate; [reflexivity|]. cbn in H. injection H as H1 H2. f_equal; [apply B2SF_inj; exact H1|apply IH; exact H2]. }
  refine (stuck_area (O := B64) p q r t _ _ _ _ _ _ _ old f inp id a b c Hv Hd _);
    [subst; apply L; vm_compute; reflexivity|subst; apply L; vm_compute; reflexivity|subst; apply L; vm_compute; reflexivity|subst; apply L; vm_compute; reflexivity
    |subst; apply T; vm_compute; reflexivity|subst; apply T; vm_compute; reflexivity|subst; apply T; vm_compute; reflexivity|].
  split; [exact Hf|]. left. split; [exact Ha|split; [exact Hb|exact Hc]].
Qed.

(** The spacing of binary64 numbers at 1 + 2^-52. *)
Lemma u_next : succ radix2 (SpecFloat.fexp 53 1024) (1 + bpow radix2 (-52)) = 1 + 2 * bpow radix2 (-52).
Proof.
  pose proof (bpow_gt_0 radix2 (-52)) as U. assert (U1 : bpow radix2 (-52) < 1) by (change 1 with (bpow radix2 0); apply bpow_lt; reflexivity).
  rewrite succ_eq_pos by lra. rewrite ulp_neq_0 by lra. unfold cexp.
  rewrite (mag_unique_pos radix2 (1 + bpow radix2 (-52)) 1) by (change (bpow radix2 (1 - 1)) with 1; change (bpow radix2 1) with 2; lra).
  change (SpecFloat.fexp 53 1024 1) with (-52)%Z. lra.
Qed.
Lemma tiny_coordinates : let u := bpow radix2 (-52) in exists p q r,
  oget 0%N (pts tiny) = Some p /\ oget 1%N (pts tiny) = Some q /\ oget 2%N (pts tiny) = Some r /\
  has_coordinates 53 1024 p [1 + u; 1 + u; 1] /\ has_coordinates 53 1024 q [1 + 2 * u; 1 + u; 1] /\ has_coordinates 53 1024 r [1 + u; 1 + 2 * u; 1].
Proof.
  intros u. assert (S : IZR (2 ^ 52) * u = 1) by (change (IZR (2 ^ 52)) with (bpow radix2 52); unfold u; rewrite <- bpow_plus; reflexivity).
  assert (V1 : is_finite (b64 (2 ^ 52 + 1) (-52)) = true /\ B2R (b64 (2 ^ 52 + 1) (-52)) = 1 + u).
  { destruct (b64_value (2 ^ 52 + 1) (-52)) as [X Y]; [reflexivity|lia|]. split; [exact X|]. rewrite Y, plus_IZR. fold u. lra. }
  assert (V2 : is_finite (b64 (2 ^ 52 + 2) (-52)) = true /\ B2R (b64 (2 ^ 52 + 2) (-52)) = 1 + 2 * u).
  { destruct (b64_value (2 ^ 52 + 2) (-52)) as [X Y]; [reflexivity|lia|]. split; [exact X|]. rewrite Y, plus_IZR. fold u. lra. }
  assert (V0 : is_finite (b64 1 0) = true /\ B2R (b64 1 0) = 1).
  { destruct (b64_value 1 0) as [X Y]; [reflexivity|lia|]. split; [exact X|]. rewrite Y. cbn. lra. }
  exists [b64 (2 ^ 52 + 1) (-52); b64 (2 ^ 52 + 1) (-52); b64 1 0], [b64 (2 ^ 52 + 2) (-52); b64 (2 ^ 52 + 1) (-52); b64 1 0],
    [b64 (2 ^ 52 + 1) (-52); b64 (2 ^ 52 + 2) (-52); b64 1 0].
  do 3 (split; [reflexivity|]). repeat split; repeat (constructor; auto).
Qed.
