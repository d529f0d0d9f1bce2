(** * Iter: the iterative filter. *)
From Coq Require Import Sorted.
From Verif Require Import Base Mesh Filters Drivers Spec SpecSub Lists AddFace SplitTri Split Points Valid Run Update Struct Count Face FaceProps Copy SpecDrive Cond.

Section ITER.
Context {O : Ops} {D : Type}.
Notation mesh := (mesh O D).
Implicit Types m inp out : mesh.

Lemma iter_unfold n s fuel sel inp : iterative_levels (S n) s fuel sel inp =
  rbind (update (CellF s) fuel (fresh sel) inp) (fun st => match n with 0%nat => Ok st | S _ => iterative_levels n s fuel (csel (fst st)) (snd st) end).
Proof. cbn [iterative_levels]. unfold fresh. destruct (update _ _ _ _) as [[f o]| | |]; cbn; destruct n; reflexivity. Qed.

Lemma iter_pipe s fuel : forall n sel inp f out, iterative_levels (S n) s fuel sel inp = Ok (f, out) -> pipeline s (S n) sel inp f out.
Proof.
  induction n as [|n IH]; intros sel inp f out H; rewrite iter_unfold in H;
  (destruct (update (CellF s) fuel (fresh sel) inp) as [[f1 m1]| | |] eqn:E; cbn [rbind fst snd] in H; try discriminate).
  - injection H as <- <-. eapply pipe_1. exact E.
  - eapply pipe_S; [exact E|]. apply IH. exact H.
Qed.
Lemma iter_mono s n fuel q sel inp : iterative_levels n s fuel sel inp <> OutOfFuel ->
  iterative_levels n s (fuel + q) sel inp = iterative_levels n s fuel sel inp.
Proof.
  revert sel inp. induction n as [|n IH]; intros sel inp H; [reflexivity|]. rewrite !iter_unfold in *.
  assert (Hu : update (CellF s) fuel (fresh sel) inp <> OutOfFuel) by (intros E; rewrite E in H; apply H; reflexivity).
  rewrite (update_mono _ _ _ _ q Hu). destruct (update (CellF s) fuel (fresh sel) inp) as [[f1 m1]| | |]; cbn [rbind fst snd] in *; try reflexivity.
  destruct n; [reflexivity|]. apply IH. exact H.
Qed.
Lemma pipe_iter s n sel inp f out : pipeline s n sel inp f out -> exists fuel, iterative_levels n s fuel sel inp = Ok (f, out).
Proof.
  induction 1 as [sel inp fuel f out E|n sel inp fuel f1 m f out E H [q IH]].
  - exists fuel. rewrite iter_unfold, E. reflexivity.
  - exists (fuel + q)%nat. rewrite iter_unfold, update_mono by (rewrite E; discriminate). rewrite E. cbn [rbind fst snd].
    destruct n as [|n]; [inversion H|]. rewrite Nat.add_comm, iter_mono by (rewrite IH; discriminate). exact IH.
Qed.
Lemma pipe_completes s n sel inp f out : pipeline s n sel inp f out -> completes (fun fuel => iterative_levels n s fuel sel inp) (Ok (f, out)).
Proof.
  intros H. apply pipe_iter in H. destruct H as [q H]. split; [discriminate|]. exists q. intros fuel Hf.
  replace fuel with (q + (fuel - q))%nat by lia. rewrite iter_mono; [exact H|rewrite H; discriminate].
Qed.
End ITER.

Lemma C32_pipeline_pf : forall (O : Ops) (D : Type) (s : cscheme) (levels : nat) (sel : list N) (inp : mesh O D) f out,
  completes (fun fuel => iterative_update s levels fuel sel inp) (Ok (f, out)) <-> pipeline s (Nat.max 1 levels) sel inp f out.
Proof.
  intros O D s k sel inp f out. unfold iterative_update. assert (Hk : exists n, Nat.max 1 k = S n) by (exists (Nat.max 1 k - 1)%nat; lia).
  destruct Hk as [n ->]. split.
  - intros [_ [q H]]. eapply iter_pipe. apply (H q). lia.
  - apply pipe_completes.
Qed.

Lemma C32_uniform_pf : forall (O : Ops) (D : Type) (s : cscheme) (levels : nat) (inp : mesh O D),
  valid inp -> dense inp -> tris inp <> [] -> s <> CSqrt3 ->
  (s = CLoop -> no_isolated inp /\ ((2 <= levels)%nat -> no_wire inp)) ->
  exists f out, completes (fun fuel => iterative_update s levels fuel [] inp) (Ok (f, out)) /\
    nF out = (4 ^ Z.of_nat (Nat.max 1 levels) * nF inp)%Z /\ valid out /\ dense out /\ csel f = [].
Proof.
  intros O D s k inp Hv Hd Hne Hs Hl. unfold iterative_update.
  assert (Hk : exists n, Nat.max 1 k = S n /\ ((1 <= n)%nat -> (2 <= k)%nat)) by (exists (Nat.max 1 k - 1)%nat; lia).
  destruct Hk as [n [-> Hn]].
  assert (G : exists f out, pipeline s (S n) [] inp f out /\
    nF out = (4 ^ Z.of_nat (S n) * nF inp)%Z /\ valid out /\ dense out /\ csel f = []).
  { assert (Hl' : s = CLoop -> no_isolated inp /\ ((1 <= n)%nat -> no_wire inp)) by (intros E; destruct (Hl E); auto).
    clear Hl Hn. revert inp Hv Hd Hne Hl'. induction n as [|n IH]; intros inp Hv Hd Hne Hl.
    - destruct (C01_uniform_completes_pf O D s (fresh []) inp Hv Hd Hs ltac:(intros E; apply Hl; exact E) eq_refl) as [f [out [[_ [q Hq]] HF]]].
      specialize (Hq q (le_n q)). cbv beta in Hq. exists f, out. split; [eapply pipe_1; exact Hq|].
      assert (Hr : ready (CellF s) (fresh []) inp) by (apply ready_uniform; auto; intros E; apply Hl; exact E).
      destruct (step_ok _ _ _ _ _ _ Hv Hd Hne Hr Hq) as [V1 [V2 _]].
      destruct (face_run _ _ _ _ _ _ Hv Hd Hr Hq) as [mid [Ls FR]].
      split; [rewrite HF; change (4 ^ Z.of_nat 1)%Z with 4%Z; reflexivity|]. split; [exact V1|]. split; [exact V2|].
      destruct (csel f) as [|i l] eqn:Ec; [reflexivity|]. exfalso.
      destruct (proj1 (fr_csel _ _ _ _ _ _ _ FR i)) as [Hw _]; [rewrite Ec; cbn; auto|discriminate].
    - destruct (C01_uniform_completes_pf O D s (fresh []) inp Hv Hd Hs ltac:(intros E; apply Hl; exact E) eq_refl) as [f1 [m1 [[_ [q Hq]] HF]]].
      specialize (Hq q (le_n q)). cbv beta in Hq.
      assert (Hr : ready (CellF s) (fresh []) inp) by (apply ready_uniform; auto; intros E; apply Hl; exact E).
      destruct (step_ok _ _ _ _ _ _ Hv Hd Hne Hr Hq) as [V1 [V2 [V3 [V4 V5]]]].
      destruct (face_run _ _ _ _ _ _ Hv Hd Hr Hq) as [mid [Ls FR]].
      assert (Ec : csel f1 = []).
      { destruct (csel f1) as [|i l] eqn:Ec; [reflexivity|]. exfalso.
        destruct (proj1 (fr_csel _ _ _ _ _ _ _ FR i)) as [Hw _]; [rewrite Ec; cbn; auto|discriminate]. }
      destruct (IH m1 V1 V2 V3) as [f [out [P1 [P2 P3]]]].
      { intros E. destruct (Hl E) as [L1 L2]. split; [apply V5; [exact L1|apply L2; lia]|intros _; exact V4]. }
      exists f, out. split; [eapply pipe_S; [exact Hq|rewrite Ec; exact P1]|]. split; [|exact P3].
      rewrite P2, HF, (Nat2Z.inj_succ (S n)), Z.pow_succ_r by lia. ring. }
  destruct G as [f [out [G1 G2]]]. exists f, out. split; [apply pipe_completes; exact G1|exact G2].
Qed.

(** One adaptive level of a new filter. *)
Lemma adaptive_level (O : Ops) (D : Type) (s : cscheme) : s <> CSqrt3 -> forall sel (inp : mesh O D), valid inp -> dense inp -> (s = CLoop -> no_isolated inp) -> sel <> [] -> existing inp sel ->
    exists fuel f m, update (CellF s) fuel (fresh sel) inp = Ok (f, m) /\ valid m /\ dense m /\ no_wire m /\
      (s = CLoop -> no_wire inp -> no_isolated m) /\ csel f <> [] /\ existing m (csel f) /\ level sel inp (csel f) m.
Proof.
  intros Hs sel inp Hv Hd Hl Hne He.
    assert (Hr : ready (CellF s) (fresh sel) inp).
    { split; [unfold splits_faces; congruence|]. split; [intros [E|E]; [apply Hl|]; congruence|exact He]. }
    destruct (face_completes _ _ _ Hv Hd Hr) as [f [m [_ [q Hq]]]]. specialize (Hq q (le_n q)). cbv beta in Hq.
    destruct sel as [|i0 sel]; [congruence|]. destruct (He i0 ltac:(cbn; auto)) as [t0 Ht0].
    assert (Hnt : tris inp <> []) by (intros E; apply (in_map snd) in Ht0; unfold tris in E; rewrite E in Ht0; destruct Ht0).
    destruct (step_ok _ _ _ _ _ _ Hv Hd Hnt Hr Hq) as [V1 [V2 [V3 [V4 V5]]]].
    destruct (face_run _ _ _ _ _ _ Hv Hd Hr Hq) as [mid [Ls FR]]. pose proof (fr_sub _ _ _ _ _ _ _ FR) as Hsd.
    exists q, f, m. split; [exact Hq|]. split; [exact V1|]. split; [exact V2|]. split; [exact V4|].
    split; [intros E Hw; apply V5; auto|]. split; [|split].
    - assert (Hn3 : nsplit mid t0 = 3%nat).
      { eapply selected_nsplit; [exact Hsd|intros x y H; exact H|]. right. exists i0. split; [cbn; auto|exact Ht0]. }
      assert (HL : In (t0, split_tri mid t0) (combine (tris inp) Ls)).
      { rewrite (fr_Ls _ _ _ _ _ _ _ FR). apply combine_map_In. split; [apply (in_map snd) in Ht0; exact Ht0|reflexivity]. }
      destruct t0 as [[a b] c]. assert (Hx : exists u, In u (split_tri mid (a, b, c))).
      { apply all_three_nsplit in Hn3. unfold split_tri. destruct (mid a b), (mid b c), (mid c a); try discriminate. cbn. eauto. }
      destruct Hx as [u Hu].
      assert (Hut : In u (tris m)).
      { rewrite (sd_tris _ _ _ _ _ Hsd). apply in_concat. exists (split_tri mid (a, b, c)). split; [|exact Hu].
        apply in_combine_r in HL. exact HL. }
      unfold tris in Hut. apply in_map_iff in Hut. destruct Hut as [[j u'] [Eu Hj]]. cbn in Eu. subst u'.
      intros Ec. assert (Hin : In j (csel f)); [|rewrite Ec in Hin; destruct Hin].
      apply (fr_csel _ _ _ _ _ _ _ FR j). split; [reflexivity|]. exists i0, (a, b, c), u. split; [exact Hj|]. split; [|exact Hn3].
      exists (split_tri mid (a, b, c)). split; [|exact Hu]. rewrite (fr_Ls _ _ _ _ _ _ _ FR). unfold tris. rewrite map_map.
      apply (combine_map_In (fun x => split_tri mid (snd x)) (faces inp) (i0, (a, b, c))). split; [exact Ht0|reflexivity].
    - intros j Hj. apply (fr_csel _ _ _ _ _ _ _ FR j) in Hj. destruct Hj as [_ [pid [t [u [Hj _]]]]]. eauto.
    - exists mid, Ls. split; [|split; [apply (fr_sorted _ _ _ _ _ _ _ FR)|]].
      + destruct Hsd as [S1 S2 S3 S4 S5 S6 S7 S8]. constructor; try assumption. intros a b. rewrite (S2 a b). cbn [to_split fresh csel set_cells_to_be_subdivided].
        split.
        * intros [t [[[E _]|[i [Hi Ht]]] Hab]]; [discriminate|]. eauto.
        * intros [i [t [Hi [Ht Hab]]]]. exists t. split; [right; eauto|exact Hab].
      + intros j. rewrite (fr_csel _ _ _ _ _ _ _ FR j). split; [intros [_ H]; exact H|intros H; split; [reflexivity|exact H]].
Qed.

Lemma C33_adaptive_levels_pf : forall (O : Ops) (D : Type) (s : cscheme) (k : nat) (sel : list N) (inp : mesh O D),
  valid inp -> dense inp -> s <> CSqrt3 -> (s = CLoop -> no_isolated inp /\ ((2 <= k)%nat -> no_wire inp)) ->
  sel <> [] -> existing inp sel ->
  exists f out, completes (fun fuel => iterative_update s k fuel sel inp) (Ok (f, out)) /\
    valid out /\ dense out /\ csel f <> [] /\ levels (Nat.max 1 k) sel inp (csel f) out.
Proof.
  intros O D s k sel inp Hv Hd Hs Hl Hne He. unfold iterative_update.
  assert (Hk : exists n, Nat.max 1 k = S n /\ ((1 <= n)%nat -> (2 <= k)%nat)) by (exists (Nat.max 1 k - 1)%nat; lia).
  destruct Hk as [n [-> Hn]].
  assert (Hl' : s = CLoop -> no_isolated inp /\ ((1 <= n)%nat -> no_wire inp)) by (intros E; destruct (Hl E); auto).
  clear Hl Hn.
  pose proof (adaptive_level O D s Hs) as ST.
  assert (G : exists f out, pipeline s (S n) sel inp f out /\ valid out /\ dense out /\ csel f <> [] /\ levels (S n) sel inp (csel f) out).
  { revert sel inp Hv Hd Hne He Hl'. induction n as [|n IH]; intros sel inp Hv Hd Hne He Hl.
    - destruct (ST sel inp Hv Hd ltac:(intros E; apply Hl; exact E) Hne He) as [q [f [m [E [V1 [V2 [_ [_ [V3 [_ V4]]]]]]]]]].
      exists f, m. split; [eapply pipe_1; exact E|]. split; [exact V1|]. split; [exact V2|]. split; [exact V3|].
      eapply levels_S; [exact V4|apply levels_0].
    - destruct (ST sel inp Hv Hd ltac:(intros E; apply Hl; exact E) Hne He) as [q [f1 [m1 [E [V1 [V2 [V3 [V4 [V5 [V6 V7]]]]]]]]]].
      destruct (IH (csel f1) m1 V1 V2 V5 V6) as [f [out [P1 [P2 [P3 [P4 P5]]]]]].
      { intros Es. destruct (Hl Es) as [L1 L2]. split; [apply V4; [exact Es|apply L2; lia]|intros _; exact V3]. }
      exists f, out. split; [eapply pipe_S; [exact E|exact P1]|]. split; [exact P2|]. split; [exact P3|]. split; [exact P4|].
      eapply levels_S; [exact V7|exact P5]. }
  destruct G as [f [out [G1 G2]]]. exists f, out. split; [apply pipe_completes; exact G1|exact G2].
Qed.
