(** * FltRun: runs in floating-point arithmetic. *)
From Coq Require Import Reals Lra Psatz.
From Flocq Require Import Core BinarySingleNaN Relative.
From Verif Require Import Base Mesh Filters Drivers Spec SpecSub SpecGeo SpecFlt Lists Valid PtsAny Sim SimId Flt.
Open Scope R_scope.

Lemma Forall2_map2 {A B C A' B' C'} (P : A -> A' -> Prop) (Q : B -> B' -> Prop) (S : C -> C' -> Prop) f g :
  (forall x x' y y', P x x' -> Q y y' -> S (f x y) (g x' y')) ->
  forall p p', Forall2 P p p' -> forall q q', Forall2 Q q q' -> Forall2 S (map2 f p q) (map2 g p' q').
Proof.
  intros H p p' Hp. induction Hp as [|x x' p p' Hx _ IH]; intros q q' Hq; destruct Hq; cbn [map2]; constructor; auto.
Qed.
Lemma Forall2_imp {A B} (P Q : A -> B -> Prop) l l' : (forall a b, P a b -> Q a b) -> Forall2 P l l' -> Forall2 Q l l'.
Proof. intros H. induction 1; constructor; auto. Qed.
Lemma Forall2_repeat {A B} (P : A -> B -> Prop) a b n : P a b -> Forall2 P (repeat a n) (repeat b n).
Proof. intros H. induction n; cbn; constructor; auto. Qed.

Section FLTRUN.
Variables (prec emax : Z) (Hp : Prec_gt_0 prec) (Hm : Prec_lt_emax prec emax).
Variable cosf : N -> binary_float prec emax.
Hypothesis H8 : (8 <= prec)%Z.
Notation F := (binary_float prec emax).
Notation u := (unit_roundoff prec).
Notation eta := (half_smallest prec emax).
Notation O1 := (BO prec emax Hp Hm cosf).
Notation kz := (fun z => binary_normalize prec emax Hp Hm mode_NE z 0 false).
Notation apx := (apx prec emax).

Section ERR.
Context {d : nat} {D1 D2 : Type}.
Variables M0 dl : R.
Hypothesis HM0 : 0 <= M0.
Hypothesis Hdl : 0 <= dl.
Hypothesis Hfit : 2 * (M0 + dl) <= bpow radix2 (emax - 2).
Notation tau := (u * (M0 + dl) + eta).
Notation inr := (inr prec emax M0 dl).
Definition Ri (p : list (K (O1 d))) (q : list (K (RO d))) : Prop := Forall2 inr p q.
Definition Ro (e : R) (p : list (K (O1 d))) (q : list (K (RO d))) : Prop := Forall2 (fun x r => apx x r e) p q.

Lemma tau_pos : 0 <= tau.
Proof. pose proof (u_pos prec). pose proof (eta_pos prec emax). assert (0 <= u * (M0 + dl)) by (apply Rmult_le_pos; lra). lra. Qed.
Lemma Ri_Ro e p q : dl <= e -> Ri p q -> Ro e p q.
Proof. intros He. apply Forall2_imp. intros x r [H _]. eapply apx_weaken; eauto. Qed.
Lemma zero_inr : inr (kz 0%Z) 0.
Proof.
  destruct (kz_exact prec emax Hp Hm H8 0) as [E1 E2]; [lia|]. cbn beta in E1. split; [split; [exact E2|]|].
  - cbn beta. rewrite E1, Rminus_0_r, Rabs_R0. lra.
  - rewrite Rabs_R0. lra.
Qed.
Lemma Ri_zero : Ri pzero pzero.
Proof. unfold Ri, pzero. apply Forall2_repeat. exact zero_inr. Qed.
Lemma Ri_mid p q p' q' : Ri p p' -> Ri q q' -> Ro (dl + 5 * tau) (midpoint p q) (midpoint p' q').
Proof.
  intros Hpp Hqq. unfold Ro, midpoint. eapply Forall2_map2; [|exact Hpp|exact Hqq]. intros x x' y y' Hx Hy.
  apply (mid_apx prec emax Hp Hm H8 M0 dl HM0 Hdl Hfit x y x' y' Hx Hy).
Qed.
Lemma Ri_cen p q r p' q' r' : Ri p p' -> Ri q q' -> Ri r r' ->
  Ro (dl + 10 * tau) (pscale (kdiv (O1 d) (kZ (O1 d) 1) (kZ (O1 d) 3)) (padd (padd (padd pzero p) q) r))
     (pscale (kdiv (RO d) (kZ (RO d) 1) (kZ (RO d) 3)) (padd (padd (padd pzero p') q') r')).
Proof.
  intros H1 H2 H3. unfold Ro, pscale, padd, pzero. cbn [K kadd kmul kdiv kZ kdim BO RO].
  generalize (repeat_length (kz 0%Z) d). generalize d as n. revert q r p' q' r' H1 H2 H3.
  intros q r p' q' r' H1 H2 H3 n _. revert p p' q q' r r' H1 H2 H3.
  induction n as [|n IH]; intros p p' q q' r r' H1 H2 H3; cbn [repeat map2 map]; [constructor|].
  destruct H1 as [|x x' p p' Hx H1]; cbn [map2 map]; [constructor|].
  destruct H2 as [|y y' q q' Hy H2]; cbn [map2 map]; [constructor|].
  destruct H3 as [|z z' r r' Hz H3]; cbn [map2 map]; [constructor|].
  constructor; [|apply IH; auto].
  exact (cen_apx prec emax Hp Hm H8 M0 dl HM0 Hdl Hfit x y z x' y' z' Hx Hy Hz).
Qed.

Definition sumabs (cs : list R) : R := fold_right (fun c s => Rabs c + s) 0 cs.
Lemma sumabs_pos cs : 0 <= sumabs cs.
Proof. unfold sumabs. induction cs as [|c cs IH]; cbn [fold_right]; [lra|]. pose proof (Rabs_pos c). lra. Qed.
Lemma comb_apx (ws : list F) (cs : list R) : Forall2 (fun w c => apx w c 0) ws cs ->
  forall (ps : list (list F)) (qs : list (list R)), Forall2 (Forall2 inr) ps qs -> forall (acc : list F) (racc : list R) W n, 0 <= W -> 0 <= n -> n + INR (length ws) <= 8 -> W + sumabs cs <= 3 / 2 ->
  Forall2 (fun a A => apx a A (W * dl + 5 * n * tau) /\ Rabs A <= W * M0) acc racc ->
  Forall2 (fun x r => apx x r ((W + sumabs cs) * dl + 5 * (n + INR (length ws)) * tau)) (@comb (O1 d) acc ws ps) (@comb (RO d) racc cs qs).
Proof.
  pose proof tau_pos as T0.
  assert (Hend : forall (acc : list F) (racc : list R) W n W' n', W <= W' -> n <= n' -> Forall2 (fun a A => apx a A (W * dl + 5 * n * tau) /\ Rabs A <= W * M0) acc racc ->
     Forall2 (fun x r => apx x r (W' * dl + 5 * n' * tau)) acc racc).
  { intros acc racc W n W' n' H1 H2. apply Forall2_imp. intros a A [H _]. eapply apx_weaken; [exact H|].
    assert (W * dl <= W' * dl) by (apply Rmult_le_compat_r; lra). assert (n * tau <= n' * tau) by (apply Rmult_le_compat_r; lra). lra. }
  induction 1 as [|w c ws cs Hw Hws IH]; intros ps qs Hps acc racc W n HW Hn Hn8 HS Ha.
  - cbn [comb length INR sumabs fold_right]. apply (Hend _ _ W n); [lra|lra|exact Ha].
  - change (sumabs (c :: cs)) with (Rabs c + sumabs cs) in *. change (length (w :: ws)) with (S (length ws)) in *. rewrite S_INR in *.
    pose proof (sumabs_pos cs). pose proof (Rabs_pos c). pose proof (pos_INR (length ws)).
    destruct Hps as [|p q ps qs Hpq Hps].
    + cbn [comb]. apply (Hend _ _ W n); [lra|lra|exact Ha].
    + cbn [comb]. replace (W + (Rabs c + sumabs cs)) with ((W + Rabs c) + sumabs cs) by ring.
      replace (n + (INR (length ws) + 1)) with ((n + 1) + INR (length ws)) by ring.
      apply IH; try lra; [exact Hps|].
      eapply Forall2_map2; [|exact Ha|exact Hpq]. intros a A x r [G1 G2] Hx. cbn [kadd kmul BO RO].
      apply (term_apx prec emax Hp Hm H8 M0 dl HM0 Hdl Hfit a A (W * dl + 5 * n * tau) W w c x r n); try lra; auto.
Qed.
Lemma comb_start (ws : list F) (cs : list R) (ps : list (list F)) (qs : list (list R)) : Forall2 (fun w c => apx w c 0) ws cs ->
  Forall2 (Forall2 inr) ps qs -> INR (length ws) <= 8 -> sumabs cs <= 3 / 2 ->
  Ro (sumabs cs * dl + 40 * tau) (@comb (O1 d) pzero ws ps) (@comb (RO d) pzero cs qs).
Proof.
  intros Hw Hps Hl Hs. pose proof tau_pos as T0.
  assert (G := comb_apx ws cs Hw ps qs Hps (@pzero (O1 d)) (@pzero (RO d)) 0 0 ltac:(lra) ltac:(lra) ltac:(lra) ltac:(lra)).
  eapply Forall2_imp; [|apply G].
  - intros x r Hx. eapply apx_weaken; [exact Hx|]. assert (INR (length ws) * tau <= 8 * tau) by (apply Rmult_le_compat_r; lra). lra.
  - unfold pzero. apply (Forall2_repeat (fun (a : F) (A : R) => apx a A (0 * dl + 5 * 0 * tau) /\ Rabs A <= 0 * M0)).
    destruct (kz_exact prec emax Hp Hm H8 0) as [E1 E2]; [lia|]. cbn beta in E1.
    split; [split; [exact E2|]|]; [cbn [kZ BO RO]; rewrite E1, Rminus_0_r, Rabs_R0; lra|cbn [kZ RO]; rewrite Rabs_R0; lra].
Qed.

Lemma loop_w : Forall2 (fun (w : F) c => apx w c 0) (loop_weights (O := O1 d)) (loop_weights (O := RO d)).
Proof.
  repeat (apply Forall2_cons; [apply (frac_exact prec emax Hp Hm H8 _ _ 3%Z); [lia|lia|reflexivity]|]). apply Forall2_nil.
Qed.
Lemma butterfly_w : Forall2 (fun (w : F) c => apx w c 0) (butterfly_weights (O := O1 d)) (butterfly_weights (O := RO d)).
Proof.
  repeat (apply Forall2_cons; [first [apply (frac_exact prec emax Hp Hm H8 _ _ 1%Z); [lia|lia|reflexivity]|apply (frac_exact prec emax Hp Hm H8 _ _ 3%Z); [lia|lia|reflexivity]|apply (frac_exact prec emax Hp Hm H8 _ _ 4%Z); [lia|lia|reflexivity]]|]). apply Forall2_nil.
Qed.
Lemma loop_sum : sumabs (loop_weights (O := RO d)) = 1.
Proof. unfold loop_weights, kfrac, sumabs. cbn [fold_right kdiv kZ RO]. rewrite !Rabs_pos_eq by lra. lra. Qed.
Lemma butterfly_sum : sumabs (butterfly_weights (O := RO d)) = 3 / 2.
Proof.
  unfold butterfly_weights, kfrac, sumabs. cbn [fold_right kdiv kZ RO]. rewrite !(Rabs_pos_eq (1 / 2)), !(Rabs_pos_eq (1 / 8)) by lra.
  rewrite !(Rabs_left (-1 / 16)) by lra. lra.
Qed.

(** ** Points of a mesh *)
Section MESHES.
Variables (inp1 : mesh (O1 d) D1) (inp2 : mesh (RO d) D2).
Hypothesis HI : Sim.msim Ri inp1 inp2.

Lemma sim_dest e : rsim Ri (dest_or_zero inp1 e) (dest_or_zero inp2 e).
Proof. destruct e as [e|]; cbn [dest_or_zero]; [apply Sim.sim_get_pt; exact HI|]. cbn. exact Ri_zero. Qed.
Lemma sim_onext e : onext inp1 e = onext inp2 e.
Proof. unfold onext. rewrite (Sim.sim_ring Ri inp1 inp2 HI). reflexivity. Qed.
Lemma sim_oprev e : oprev inp1 e = oprev inp2 e.
Proof. unfold oprev. rewrite (Sim.sim_ring Ri inp1 inp2 HI). reflexivity. Qed.
Lemma sim_lnext e : lnext inp1 e = lnext inp2 e.
Proof. apply sim_oprev. Qed.
Lemma sim_rprev e : rprev inp1 e = rprev inp2 e.
Proof. apply sim_onext. Qed.
Lemma sim_lprev e : lprev inp1 e = lprev inp2 e.
Proof. unfold lprev. rewrite sim_onext. reflexivity. Qed.
Lemma sim_rnext e : rnext inp1 e = rnext inp2 e.
Proof. unfold rnext. rewrite sim_oprev. reflexivity. Qed.
Lemma obind_ext {A B} (x : option A) (g h : A -> option B) : (forall a, g a = h a) -> obind x g = obind x h.
Proof. intros H. destruct x; cbn; auto. Qed.

Lemma linear_near e : rsim (Ro (dl + 5 * tau)) (linear_point inp1 e) (linear_point inp2 e).
Proof.
  unfold linear_point. eapply rbind_sim; [apply Sim.sim_get_pt; exact HI|]. intros p p' P1.
  eapply rbind_sim; [apply Sim.sim_get_pt; exact HI|]. intros q q' P2. apply Ri_mid; auto.
Qed.
Lemma loop_near e : rsim (Ro (dl + 40 * tau)) (loop_point inp1 e) (loop_point inp2 e).
Proof.
  pose proof tau_pos as T0. unfold loop_point. rewrite (Sim.sim_internal Ri inp1 inp2 HI), (Sim.sim_at_border Ri inp1 inp2 HI).
  destruct (is_internal inp2 e).
  - eapply rbind_sim; [apply Sim.sim_get_pt; exact HI|]. intros p0 q0 P0.
    eapply rbind_sim; [apply Sim.sim_get_pt; exact HI|]. intros p1 q1 P1.
    rewrite sim_lnext, sim_rprev.
    eapply rbind_sim; [apply sim_dest|]. intros p2 q2 P2.
    eapply rbind_sim; [apply sim_dest|]. intros p3 q3 P3. cbn [rsim].
    replace (dl + 40 * tau) with (1 * dl + 40 * tau) by ring. rewrite <- loop_sum.
    apply comb_start; [exact loop_w|repeat constructor; assumption|cbn; lra|rewrite loop_sum; lra].
  - destruct (is_at_border inp2 e); [|reflexivity].
    eapply rbind_sim; [apply Sim.sim_get_pt; exact HI|]. intros p0 q0 P0.
    eapply rbind_sim; [apply Sim.sim_get_pt; exact HI|]. intros p1 q1 P1. cbn [rsim].
    eapply Forall2_imp; [|apply Ri_mid; eassumption]. intros x r Hx. eapply apx_weaken; [exact Hx|]. lra.
Qed.
Lemma butterfly_near e : rsim (Ro (3 / 2 * dl + 40 * tau)) (butterfly_point inp1 e) (butterfly_point inp2 e).
Proof.
  unfold butterfly_point.
  eapply rbind_sim; [apply Sim.sim_get_pt; exact HI|]. intros p0 q0 P0.
  eapply rbind_sim; [apply Sim.sim_get_pt; exact HI|]. intros p1 q1 P1.
  rewrite sim_lnext, sim_rprev, sim_lprev, sim_rnext.
  rewrite (obind_ext (lnext inp2 e) (rprev inp1) (rprev inp2)) by (apply sim_rprev).
  rewrite (obind_ext (rprev inp2 e) (lnext inp1) (lnext inp2)) by (apply sim_lnext).
  rewrite (obind_ext (lprev inp2 e) (rprev inp1) (rprev inp2)) by (apply sim_rprev).
  rewrite (obind_ext (rnext inp2 e) (lnext inp1) (lnext inp2)) by (apply sim_lnext).
  do 6 (eapply rbind_sim; [apply sim_dest|]; intros ? ? ?). cbn [rsim].
  rewrite <- butterfly_sum. apply comb_start; [exact butterfly_w|repeat constructor; assumption|cbn; lra|rewrite butterfly_sum; lra].
Qed.

Lemma run_near k fuel f : k <> CellF CLoop -> (k = CellF CLinear -> valid inp1 /\ dense inp1) ->
  rsim (Sim.ssim (Ro (amplification k * dl + 40 * tau))) (update k fuel f inp1) (update k fuel f inp2).
Proof.
  intros Hk Hl. pose proof tau_pos as T0.
  assert (Hamp : 1 <= amplification k) by (destruct k as [[]|[]]; cbn; lra).
  assert (Hle : dl <= amplification k * dl + 40 * tau) by (assert (1 * dl <= amplification k * dl) by (apply Rmult_le_compat_r; lra); lra).
  assert (HIo : Sim.msim (Ro (amplification k * dl + 40 * tau)) inp1 inp2).
  { destruct HI as [A B]. split; [|exact B]. eapply Forall2_imp; [|exact A]. intros a b [E R]. split; [exact E|].
    eapply Ri_Ro; [|exact R]. exact Hle. }
  assert (Hw : forall e' p q, e' <= amplification k * dl + 40 * tau -> Ro e' p q -> Ro (amplification k * dl + 40 * tau) p q).
  { intros e' p q He'. apply Forall2_imp. intros x r Hx. eapply apx_weaken; eauto. }
  assert (Hws : forall e' (x : res (list (K (O1 d)))) (y : res (list (K (RO d)))), e' <= amplification k * dl + 40 * tau -> rsim (Ro e') x y -> rsim (Ro (amplification k * dl + 40 * tau)) x y).
  { intros e' x y He'. destruct x, y; cbn; auto. apply Hw. exact He'. }
  assert (Hget : forall x p p', oget x (pts inp1) = Some p -> oget x (pts inp2) = Some p' -> Ri p p').
  { intros x p p' E1 E2. pose proof (Sim.psim_get Ri x _ _ (proj1 HI)) as G. rewrite E1, E2 in G. exact G. }
  destruct (in_dec (fun a b : bool => bool_dec a b) true [match k with CellF CLinear => true | _ => false end]) as [E|E].
  - assert (Ek : k = CellF CLinear) by (destruct k as [[]|[]]; cbn in E; destruct E as [E|E]; try discriminate; try tauto; reflexivity).
    destruct (Hl Ek) as [Hv Hd]. clear E.
    set (n0 := osize (pts inp1)).
    set (Rid := fun (id : N) p q => if N.ltb id n0 then Ri p q else Ro (amplification k * dl + 40 * tau) p q).
    assert (Hids : forall id p, In (id, p) (pts inp1) -> (id < n0)%N).
    { intros id p Hin. apply Hd. rewrite (sorted_oget id p (pts inp1) (v_pts_sorted _ Hv) Hin). discriminate. }
    assert (HIid : SimId.msim Rid inp1 inp2).
    { destruct HI as [A B]. split; [|exact B]. unfold SimId.psim.
      assert (A' : Forall2 (fun a b => In a (pts inp1) /\ fst a = fst b /\ Ri (snd a) (snd b)) (pts inp1) (pts inp2)).
      { clear -A. induction A; constructor; cbn; auto. eapply Forall2_imp; [|exact IHA]. intros ? ? [? ?]. cbn. tauto. }
      eapply Forall2_imp; [|exact A']. intros [i p] [j q] [Hin [E R]]. cbn [fst snd] in *. split; [exact E|].
      unfold Rid. pose proof (Hids i p Hin) as L. apply N.ltb_lt in L. rewrite L. exact R. }
    assert (Hid_o : forall id p q, Rid id p q -> Ro (amplification k * dl + 40 * tau) p q).
    { intros id p q. unfold Rid. destruct (N.ltb id n0); [|tauto]. intros R. eapply Ri_Ro; [|exact R]. exact Hle. }
    assert (G := update_sim_id Rid inp1 inp2 HIid k n0).
    assert (G' : rsim (SimId.ssim Rid) (update k fuel f inp1) (update k fuel f inp2)).
    { apply G; try (intros X; rewrite Ek in X; repeat (destruct X as [X|X] || discriminate X)); try (rewrite Ek; discriminate).
      - right. split; [apply (v_pts_sorted _ Hv)|]. split; [exact (v_pts_dim _ Hv)|]. unfold n0. lia.
      - intros x y n p q p' q' Hj Hn Hx Hy. unfold Rid in *.
        destruct (joined_pts inp1 x y Hv Hj) as [px [py [Jx [Jy _]]]].
        assert (Lx : N.ltb x n0 = true) by (apply N.ltb_lt; apply Hd; rewrite Jx; discriminate).
        assert (Ly : N.ltb y n0 = true) by (apply N.ltb_lt; apply Hd; rewrite Jy; discriminate).
        rewrite Lx in Hx. rewrite Ly in Hy. assert (Ln : N.ltb n n0 = false) by (apply N.ltb_ge; exact Hn). rewrite Ln.
        apply (Hw (dl + 5 * tau)); [rewrite Ek; cbn [amplification]; lra|]. apply Ri_mid; auto. }
    destruct (update k fuel f inp1) as [[f1 o1]| | |], (update k fuel f inp2) as [[f2 o2]| | |]; cbn in G' |- *; auto.
    destruct G' as [E1 [E2 E3]]. split; [exact E1|]. split; [|exact E3]. eapply Forall2_imp; [|exact E2].
    intros a b [X Y]. split; [exact X|]. eapply Hid_o; exact Y.
  - assert (Ek : k <> CellF CLinear) by (intros ->; apply E; left; reflexivity). clear E.
    assert (G := update_sim_id (fun _ => Ro (amplification k * dl + 40 * tau)) inp1 inp2 HIo k 0%N).
    apply G; auto; try (intros X; congruence).
    + intros X n e _ _. eapply Hws; [|apply linear_near]. rewrite X. cbn [amplification]. lra.
    + intros X x y z n p q r p' q' r' Gp Gp' Gq Gq' Gr Gr' _.
      apply (Hw (dl + 10 * tau)); [rewrite X; cbn [amplification]; lra|]. apply Ri_cen; eauto.
    + intros X n e _ _. eapply Hws; [|apply loop_near]. destruct X as [X|X]; rewrite X; cbn [amplification]; lra.
    + intros X n e _ _. eapply Hws; [|apply butterfly_near]. destruct X as [X|X]; rewrite X; cbn [amplification]; lra.
Qed.
End MESHES.

Lemma near_in (inp1 : mesh (O1 d) D1) (inp2 : mesh (RO d) D2) : near prec emax Hp Hm dl inp1 inp2 -> bounded M0 inp2 -> Sim.msim Ri inp1 inp2.
Proof.
  intros [[Ek Er] H] Hb. split; [|exact Er]. unfold bounded in Hb. unfold Sim.psim.
  destruct inp1 as [P1 r1 c1 e1 d1], inp2 as [P2 r2 c2 e2 d2]. cbn [pts] in *. clear Er.
  induction H as [|[i p] [j q] P1 P2 Hpq _ IH]; [constructor|]. cbn [okeys map fst snd] in *. injection Ek as -> Ek.
  constructor; [|apply IH; [exact Ek|intros; eapply Hb; right; eassumption]]. cbn [fst snd]. split; [reflexivity|].
  specialize (Hb j q (or_introl eq_refl)). clear -Hpq Hb.
  induction Hpq as [|x y p q Hxy _ IH]; constructor; [|apply IH; inversion Hb; assumption].
  inversion Hb; subst. split; [exact Hxy|assumption].
Qed.
Lemma near_out e (m1 : mesh (O1 d) D1) (m2 : mesh (RO d) D2) : Sim.msim (Ro e) m1 m2 -> near prec emax Hp Hm e m1 m2.
Proof.
  intros [H Er]. split; [split; [|exact Er]|].
  - unfold Sim.psim in H. unfold okeys. induction H as [|a b l l' [E _] _ IH]; cbn [map]; [reflexivity|]. rewrite E. f_equal. exact IH.
  - eapply Forall2_imp; [|exact H]. intros a b [_ R]. exact R.
Qed.
End ERR.

Theorem run_error {d D1 D2} k fuel f (inp1 : mesh (O1 d) D1) (inp2 : mesh (RO d) D2) (M e : R) :
  k <> CellF CLoop -> (k = CellF CLinear -> valid inp1 /\ dense inp1) ->
  0 <= M -> 0 <= e -> 2 * (M + e) <= bpow radix2 (emax - 2) -> near prec emax Hp Hm e inp1 inp2 -> bounded M inp2 ->
  match update k fuel f inp1, update k fuel f inp2 with
  | Ok (f1, out1), Ok (f2, out2) => f1 = f2 /\ near prec emax Hp Hm (amplification k * e + 40 * (u * (M + e) + eta)) out1 out2
  | Throw x, Throw y => x = y
  | Undef x, Undef y => x = y
  | OutOfFuel, OutOfFuel => True
  | _, _ => False
  end.
Proof.
  intros Hk Hl HM He Hfit Hn Hb.
  assert (G := run_near M e HM He Hfit inp1 inp2 (near_in M e inp1 inp2 Hn Hb) k fuel f Hk Hl).
  destruct (update k fuel f inp1) as [[f1 o1]| | |], (update k fuel f inp2) as [[f2 o2]| | |]; cbn [rsim] in G; auto.
  destruct G as [E G]. split; [exact E|]. apply near_out. exact G.
Qed.
End FLTRUN.

Lemma C91_pf : forall prec emax Hp Hm cosf d D1 D2 k fuel f (inp1 : mesh (BO prec emax Hp Hm cosf d) D1) (inp2 : mesh (RO d) D2) (M e : R),
  (8 <= prec)%Z -> k <> CellF CLoop -> (k = CellF CLinear -> valid inp1 /\ dense inp1) ->
  (0 <= M)%R -> (0 <= e)%R -> (2 * (M + e) <= bpow radix2 (emax - 2))%R -> near prec emax Hp Hm e inp1 inp2 -> bounded M inp2 ->
  match update k fuel f inp1, update k fuel f inp2 with
  | Ok (f1, out1), Ok (f2, out2) =>
      f1 = f2 /\ near prec emax Hp Hm (amplification k * e + 40 * (unit_roundoff prec * (M + e) + half_smallest prec emax)) out1 out2
  | Throw x, Throw y => x = y
  | Undef x, Undef y => x = y
  | OutOfFuel, OutOfFuel => True
  | _, _ => False
  end.
Proof. intros prec emax Hp Hm cosf d D1 D2 k fuel f inp1 inp2 M e H8. apply run_error. exact H8. Qed.
