(** * FltIter: rounding errors over the levels of the iterative filter; the Loop filter's theorem. *)
From Coq Require Import Reals Lra Psatz.
From Flocq Require Import Core BinarySingleNaN.
From Verif Require Import Base Mesh Filters Drivers Spec SpecSub SpecGeo SpecFlt Lists Valid PtsAny Face Cond GeoProps Sim SimProps Flt FltRun FltLoop.
Open Scope R_scope.

(** ** Exact runs keep a bound on the coordinates *)
Lemma bounded_sim {d D} M (m : mesh (RO d) D) : bounded M m <-> Sim.msim (fun p _ : list (K (RO d)) => Forall (fun y => Rabs y <= M) p) m m.
Proof.
  split.
  - intros H. split; [|auto]. unfold psim. unfold bounded in H. induction (pts m) as [|[i p] l IH]; constructor.
    + split; [reflexivity|]. apply (H i). left. reflexivity.
    + apply IH. intros id q Hq. apply (H id). right. exact Hq.
  - intros [H _] id p Hin. unfold psim in H.
    assert (G : forall l l' : omap (list (K (RO d))), Forall2 (fun a b => fst a = fst b /\ Forall (fun y => Rabs y <= M) (snd a)) l l' -> In (id, p) l -> Forall (fun y => Rabs y <= M) p).
    { induction 1 as [|a b l l' [_ B] _ IH]; intros Hi; [destruct Hi|]. destruct Hi as [E|Hi]; [subst a; exact B|auto]. }
    exact (G _ _ H Hin).
Qed.
Lemma Forall_map2 {A} (P : A -> Prop) (f : A -> A -> A) : (forall x y, P x -> P y -> P (f x y)) ->
  forall p q, Forall P p -> Forall P q -> Forall P (map2 f p q).
Proof. intros H p q Hp. revert q. induction Hp as [|x p Hx _ IH]; intros q Hq; destruct Hq; cbn [map2]; constructor; auto. Qed.
Lemma exact_bounded {d D} s fuel f (inp : mesh (RO d) D) f' out M : s = CLinear \/ s = CSqrt3 -> 0 <= M -> bounded M inp ->
  update (CellF s) fuel f inp = Ok (f', out) -> bounded M out.
Proof.
  intros Hs HM HI Hr. apply bounded_sim in HI.
  assert (G := update_sim (fun p _ : list (K (RO d)) => Forall (fun y => Rabs y <= M) p) inp inp HI (CellF s)).
  assert (Hmid : forall p q p' q' : list (K (RO d)), Forall (fun y => Rabs y <= M) p -> Forall (fun y => Rabs y <= M) q -> Forall (fun y => Rabs y <= M) (midpoint p q)).
  { intros p q _ _. apply Forall_map2. intros x y Hx Hy. cbn [kdiv kadd kZ RO].
    unfold Rdiv. rewrite Rabs_mult, (Rabs_pos_eq (/ 2)) by lra. pose proof (Rabs_triang x y). lra. }
  assert (Hcen : forall p q r : list R, Forall (fun y => Rabs y <= M) p -> Forall (fun y => Rabs y <= M) q -> Forall (fun y => Rabs y <= M) r ->
            Forall (fun y => Rabs y <= M) (@pscale (RO d) (1 / 3) (@padd (RO d) (@padd (RO d) (@padd (RO d) (@pzero (RO d)) p) q) r))).
  { intros p q r Hp Hq Hr'. unfold pscale. apply Forall_map.
    assert (A : forall a b (x y : list R), Forall (fun z => Rabs z <= a) x -> Forall (fun z => Rabs z <= b) y -> Forall (fun z => Rabs z <= a + b) (@padd (RO d) x y)).
    { intros a b x. unfold padd. induction x as [|x0 x IH]; intros y Hx Hy; destruct y; cbn [map2]; constructor.
      - inversion Hx; inversion Hy; subst. cbn [kadd RO]. eapply Rle_trans; [apply Rabs_triang|]. lra.
      - inversion Hx; inversion Hy; subst. apply IH; assumption. }
    assert (Z : Forall (fun z => Rabs z <= 0) (@pzero (RO d))).
    { unfold pzero. apply Forall_forall. intros z Hz. apply repeat_spec in Hz. subst z. cbn [kZ RO]. rewrite Rabs_R0. lra. }
    assert (T := A _ _ _ _ (A _ _ _ _ (A _ _ _ _ Z Hp) Hq) Hr'). eapply Forall_impl; [|exact T]. intros z Hz. cbn beta in Hz |- *. cbn [kmul RO].
    rewrite Rabs_mult, (Rabs_pos_eq (1 / 3)) by lra. lra. }
  assert (G' := G ltac:(intros; apply Hmid; auto) ltac:(intros; apply Hcen; auto)
                  ltac:(intros [X|X]; destruct Hs; subst; discriminate) ltac:(intros [X|X]; destruct Hs; subst; discriminate)
                  ltac:(intros X; destruct Hs; subst; discriminate) ltac:(intros X; destruct Hs; subst; discriminate) fuel f).
  rewrite Hr in G'. destruct G' as [_ G']. apply bounded_sim. exact G'.
Qed.

Section ITER.
Variables (prec emax : Z) (Hp : Prec_gt_0 prec) (Hm : Prec_lt_emax prec emax).
Variable cosf : N -> binary_float prec emax.
Hypothesis H8 : (8 <= prec)%Z.
Notation u := (unit_roundoff prec).
Notation eta := (half_smallest prec emax).
Notation O1 := (BO prec emax Hp Hm cosf).
Context {d : nat} {D1 D2 : Type}.

Lemma near_mono e e' (m1 : mesh (O1 d) D1) (m2 : mesh (RO d) D2) : e <= e' -> near prec emax Hp Hm e m1 m2 -> near prec emax Hp Hm e' m1 m2.
Proof.
  intros He [H1 H2]. split; [exact H1|]. eapply Forall2_imp; [|exact H2]. intros a b. apply Forall2_imp. intros x y [Fx Ex]. split; [exact Fx|lra].
Qed.
Lemma existing_after s f (inp : mesh (O1 d) D1) fuel f' out : valid inp -> dense inp -> ready (CellF s) f inp ->
  update (CellF s) fuel f inp = Ok (f', out) -> existing out (csel f').
Proof.
  intros Hv Hd Hr E i Hi. destruct (face_run _ _ _ _ _ _ Hv Hd Hr E) as [mid [Ls FR]].
  apply (fr_csel _ _ _ _ _ _ _ FR) in Hi. destruct Hi as [_ [pid [t [v [Hin _]]]]]. eauto.
Qed.

Lemma iter_near s (M e : R) (L : nat) : s = CLinear \/ s = CSqrt3 -> 0 <= M -> 0 <= e -> 80 * INR L * u <= 1 ->
  4 * (M + e) + 2 <= bpow radix2 (emax - 2) ->
  forall n j, (j + n <= L)%nat -> forall fuel sel (inp1 : mesh (O1 d) D1) (inp2 : mesh (RO d) D2),
  (s = CLinear -> valid inp1 /\ dense inp1 /\ tris inp1 <> [] /\ existing inp1 sel) ->
  near prec emax Hp Hm (e + 80 * INR j * (u * (M + e) + eta)) inp1 inp2 -> bounded M inp2 ->
  match iterative_levels n s fuel sel inp1, iterative_levels n s fuel sel inp2 with
  | Ok (f1, out1), Ok (f2, out2) => f1 = f2 /\ near prec emax Hp Hm (e + 80 * INR (j + n) * (u * (M + e) + eta)) out1 out2
  | Throw x, Throw y => x = y
  | Undef x, Undef y => x = y
  | OutOfFuel, OutOfFuel => True
  | _, _ => False
  end.
Proof.
  intros Hs HM He HL Hfit. set (tau := u * (M + e) + eta).
  pose proof (u_pos prec) as Up. pose proof (u_small prec H8) as Us. pose proof (eta_pos prec emax) as Ep.
  assert (T0 : 0 <= tau) by (unfold tau; assert (0 <= u * (M + e)) by (apply Rmult_le_pos; lra); lra).
  assert (Etu : eta <= u).
  { unfold half_smallest, unit_roundoff. apply bpow_le. pose proof (emax_gt prec emax Hm H8). lia. }
  induction n as [|n IH]; intros j Hj fuel sel inp1 inp2 Hl Hn Hb; cbn [iterative_levels].
  - rewrite Nat.add_0_r. split; [reflexivity|exact Hn].
  - assert (J1 : 80 * INR j * u <= 1).
    { eapply Rle_trans; [|exact HL]. apply Rmult_le_compat_r; [lra|]. apply Rmult_le_compat_l; [lra|]. apply le_INR. lia. }
    pose proof (pos_INR j) as J0.
    assert (J2 : 80 * INR j * tau <= M + e + 1).
    { unfold tau. replace (80 * INR j * (u * (M + e) + eta)) with (80 * INR j * u * (M + e) + 80 * INR j * eta) by ring.
      assert (80 * INR j * u * (M + e) <= 1 * (M + e)) by (apply Rmult_le_compat_r; lra).
      assert (80 * INR j * eta <= 80 * INR j * u) by (apply Rmult_le_compat_l; lra). lra. }
    assert (J3 : 0 <= 80 * INR j * tau) by (apply Rmult_le_pos; lra).
    assert (G := C91_pf prec emax Hp Hm cosf d D1 D2 (CellF s) fuel (set_cells_to_be_subdivided new_filter sel) inp1 inp2 M (e + 80 * INR j * tau) H8
                  ltac:(intros X; destruct Hs; subst; discriminate) ltac:(intros X; injection X as X; destruct (Hl X) as [? [? _]]; auto) HM ltac:(lra) ltac:(lra) Hn Hb).
    assert (Ea : amplification (CellF s) = 1) by (destruct Hs; subst; reflexivity). rewrite Ea in G.
    destruct (update (CellF s) fuel (set_cells_to_be_subdivided new_filter sel) inp1) as [[f1 o1]| | |] eqn:E1,
             (update (CellF s) fuel (set_cells_to_be_subdivided new_filter sel) inp2) as [[f2 o2]| | |] eqn:E2; cbn [rbind]; try exact G; try contradiction.
    destruct G as [<- G].
    assert (Hn' : near prec emax Hp Hm (e + 80 * INR (S j) * tau) o1 o2).
    { eapply near_mono; [|exact G]. rewrite S_INR.
      assert (u * (M + (e + 80 * INR j * tau)) + eta = tau + 80 * INR j * u * tau) as -> by (unfold tau; ring).
      assert (80 * INR j * u * tau <= 1 * tau) by (apply Rmult_le_compat_r; lra). lra. }
    assert (Hb' : bounded M o2) by (eapply exact_bounded; eauto).
    assert (Hl' : s = CLinear -> valid o1 /\ dense o1 /\ tris o1 <> [] /\ existing o1 (csel f1)).
    { intros X. destruct (Hl X) as [V1 [V2 [V3 V4]]].
      assert (Rd : ready (CellF s) (set_cells_to_be_subdivided new_filter sel) inp1).
      { split; [unfold splits_faces; subst; congruence|]. split; [intros [Y|Y]; subst; congruence|exact V4]. }
      destruct (step_ok _ _ _ _ _ _ V1 V2 V3 Rd E1) as [A1 [A2 [A3 _]]]. split; [exact A1|]. split; [exact A2|]. split; [exact A3|]. exact (existing_after s _ inp1 fuel f1 o1 V1 V2 Rd E1). }
    replace (j + S n)%nat with (S j + n)%nat by lia.
    destruct n as [|n].
    + rewrite Nat.add_0_r. split; [reflexivity|exact Hn'].
    + apply IH; auto. lia.
Qed.
End ITER.

Lemma C92_pf : forall prec emax Hp Hm cosf d D1 D2 s levels fuel sel (inp1 : mesh (BO prec emax Hp Hm cosf d) D1) (inp2 : mesh (RO d) D2) (M e : R),
  (8 <= prec)%Z -> s = CLinear \/ s = CSqrt3 ->
  (s = CLinear -> valid inp1 /\ dense inp1 /\ tris inp1 <> [] /\ existing inp1 sel) ->
  (0 <= M)%R -> (0 <= e)%R -> (80 * INR (Nat.max 1 levels) * unit_roundoff prec <= 1)%R -> (4 * (M + e) + 2 <= bpow radix2 (emax - 2))%R ->
  near prec emax Hp Hm e inp1 inp2 -> bounded M inp2 ->
  match iterative_update s levels fuel sel inp1, iterative_update s levels fuel sel inp2 with
  | Ok (f1, out1), Ok (f2, out2) =>
      f1 = f2 /\ near prec emax Hp Hm (e + 80 * INR (Nat.max 1 levels) * (unit_roundoff prec * (M + e) + half_smallest prec emax)) out1 out2
  | Throw x, Throw y => x = y
  | Undef x, Undef y => x = y
  | OutOfFuel, OutOfFuel => True
  | _, _ => False
  end.
Proof.
  intros prec emax Hp Hm cosf d D1 D2 s levels fuel sel inp1 inp2 M e H8 Hs Hl HM He HL Hfit Hn Hb. unfold iterative_update.
  apply (iter_near prec emax Hp Hm cosf H8 s M e (Nat.max 1 levels) Hs HM He HL Hfit (Nat.max 1 levels) 0); auto.
  eapply near_mono; [|exact Hn]. cbn [INR]. lra.
Qed.

Lemma C91_loop_pf : forall prec emax Hp Hm cosf d D1 D2 fuel f (inp1 : mesh (BO prec emax Hp Hm cosf d) D1) (inp2 : mesh (RO d) D2) (V : N) (M e eps : R),
  (8 <= prec)%Z -> valid inp1 -> (forall v, one_fan inp1 v) ->
  (1 <= V)%N -> (forall v, N.of_nat (length (ring inp1 v)) <= V)%N -> (64 * IZR (Z.of_N V) * unit_roundoff prec <= 1)%R ->
  (0 <= eps <= / 16)%R ->
  (forall n, (1 <= n <= V)%N -> is_finite (cosf n) = true /\ (Rabs (B2R (cosf n) - cos (2 * PI / IZR (Z.of_N n))) <= eps)%R) ->
  (0 <= M)%R -> (0 <= e)%R -> (2 * IZR (Z.of_N V) * (M + e) <= bpow radix2 (emax - 2))%R ->
  near prec emax Hp Hm e inp1 inp2 -> bounded M inp2 ->
  match update (CellF CLoop) fuel f inp1, update (CellF CLoop) fuel f inp2 with
  | Ok (f1, out1), Ok (f2, out2) =>
      f1 = f2 /\ near prec emax Hp Hm (e + 40 * ((IZR (Z.of_N V) * unit_roundoff prec + eps) * (M + e) + half_smallest prec emax)) out1 out2
  | Throw x, Throw y => x = y
  | Undef x, Undef y => x = y
  | OutOfFuel, OutOfFuel => True
  | _, _ => False
  end.
Proof.
  intros prec emax Hp Hm cosf d D1 D2 fuel f inp1 inp2 V M e eps H8 Hv Hf HV Hval HVu Heps Hcos HM He Hfit Hn Hb.
  assert (G := loop_run_near prec emax Hp Hm cosf H8 M e eps HM He Heps V HV ltac:(lra) ltac:(lra) Hcos fuel f inp1 inp2 (near_in prec emax Hp Hm cosf M e inp1 inp2 Hn Hb)
                (valid_keys inp1 Hv)).
  assert (G' := G ltac:(intros v; specialize (Hval v); lia)).
  assert (Hbord : forall v, (length (filter (fun x => is_at_border inp1 (v, x)) (ring inp1 v)) <= 2)%nat).
  { intros v. destruct (Hf v _ (filter_border inp1 v Hv)) as [E|E]; rewrite E; cbn; lia. }
  specialize (G' Hbord).
  destruct (update (CellF CLoop) fuel f inp1) as [[f1 o1]| | |], (update (CellF CLoop) fuel f inp2) as [[f2 o2]| | |]; cbn [rsim] in G'; auto.
  destruct G' as [E G']. split; [exact E|].
  replace (e + 40 * ((IZR (Z.of_N V) * unit_roundoff prec + eps) * (M + e) + half_smallest prec emax))
     with (e + 40 * (IZR (Z.of_N V) * unit_roundoff prec * (M + e) + eps * (M + e) + half_smallest prec emax)) by ring.
  apply near_out. exact G'.
Qed.
