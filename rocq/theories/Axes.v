(** * Axes: every coordinate is computed from the coordinates on the same axis alone (C117). *)
From Verif Require Import Base Mesh Filters Drivers Spec SpecGeo SpecDrive SpecAxes Lists PtsAny Sim SimProps SimDrive.

Section AXES.
Context {O : Ops} {d : nat} {D1 D2 : Type}.
Notation O2 := (in_dim O d).
Variable ax : nat -> nat.
Hypothesis Hax : forall i, (i < d)%nat -> (ax i < kdim O)%nat.
Notation mesh1 := (mesh O D1).
Notation mesh2 := (mesh O2 D2).

Definition Rx (p : list (K O)) (q : list (K O2)) : Prop := length p = kdim O /\ @length (K O) q = d /\ along ax p q.
Notation msim := (@msim O O2 D1 D2 Rx).
Notation ssim := (@ssim O O2 D1 D2 Rx).

Lemma ext_at {A} (l1 l2 : list A) i j : nth_error l1 i = nth_error l2 j -> (i < length l1)%nat ->
  exists x, nth_error l1 i = Some x /\ nth_error l2 j = Some x.
Proof. intros E H. apply nth_error_Some in H. destruct (nth_error l1 i) as [x|]; [|congruence]. eauto. Qed.
Lemma nth_map2x {A} (g : A -> A -> A) p q i x y : nth_error p i = Some x -> nth_error q i = Some y -> nth_error (map2 g p q) i = Some (g x y).
Proof.
  revert q i. induction p as [|a p IH]; intros q i Hx Hy; [destruct i; discriminate Hx|]. destruct q as [|b q]; [destruct i; discriminate Hy|].
  destruct i as [|i]; cbn in *; [congruence|apply IH; assumption].
Qed.
Lemma len_map2x {A} (g : A -> A -> A) p q : length (map2 g p q) = Nat.min (length p) (length q).
Proof. revert q. induction p as [|x p IH]; intros [|y q]; cbn; auto. Qed.
Lemma x_map2 (g : K O -> K O -> K O) p q p' q' : Rx p p' -> Rx q q' -> Rx (map2 g p q) (map2 g p' q').
Proof.
  intros [L1 [L2 H]] [L3 [L4 H']]. split; [rewrite len_map2x; lia|]. split; [rewrite (@len_map2x (K O)); cbn in *; lia|].
  intros i Hi. rewrite (@len_map2x (K O)) in Hi. cbn [K in_dim] in *.
  destruct (ext_at p p' (ax i) i) as [x [X1 X2]]; [apply H; lia|rewrite L1; apply Hax; lia|].
  destruct (ext_at q q' (ax i) i) as [y [Y1 Y2]]; [apply H'; lia|rewrite L3; apply Hax; lia|].
  rewrite (nth_map2x g p q (ax i) x y X1 Y1), (nth_map2x g p' q' i x y X2 Y2). reflexivity.
Qed.
Lemma x_map (g : K O -> K O) p p' : Rx p p' -> Rx (map g p) (map g p').
Proof.
  intros [L1 [L2 H]]. split; [rewrite map_length; exact L1|]. split; [rewrite map_length; exact L2|].
  intros i Hi. rewrite map_length in Hi. rewrite !nth_error_map. f_equal. apply H. exact Hi.
Qed.
Lemma x_zero : Rx (@pzero O) (@pzero O2).
Proof.
  unfold pzero. split; [apply repeat_length|]. split; [apply repeat_length|]. intros i Hi. cbn [kdim in_dim kZ K] in *. rewrite repeat_length in Hi.
  rewrite !nth_error_repeat; [reflexivity|exact Hi|apply Hax; exact Hi].
Qed.
Lemma x_comb ws : forall acc acc' ps ps', Rx acc acc' -> Forall2 Rx ps ps' -> Rx (@comb O acc ws ps) (@comb O2 acc' ws ps').
Proof.
  induction ws as [|w ws IH]; intros acc acc' ps ps' HA HF; cbn [comb]; [exact HA|]. destruct HF as [|p p' ps ps' H HF]; [exact HA|].
  apply IH; [|exact HF]. apply (x_map2 (fun a x => kadd O a (kmul O w x))); assumption.
Qed.

Lemma x_mesh (m1 : mesh1) (m2 : mesh2) : wf_points m1 -> wf_points m2 -> axes_image ax m1 m2 -> msim m1 m2.
Proof.
  intros [S1 L1] [S2 L2] [[HK [H1 [H2 H3]]] HF]. split; [|auto]. unfold psim.
  assert (G1 : forall i p, In (i, p) (pts m1) -> length p = kdim O) by (intros i p Hi; apply (L1 i), sorted_oget; assumption).
  assert (G2 : forall i p, In (i, p) (pts m2) -> @length (K O) p = d) by (intros i p Hi; apply (L2 i), sorted_oget; assumption).
  unfold okeys in HK. revert G1 G2 HK. clear - HF. generalize dependent (pts m2). generalize (pts m1).
  induction 1 as [|[i p] [j q] l1 l2 R _ IH]; intros G1 G2 HK; constructor; cbn in HK; injection HK as -> HK.
  - cbn. split; [reflexivity|]. split; [apply (G1 j); cbn; auto|]. split; [apply (G2 j); cbn; auto|exact R].
  - apply IH; [intros a b Hab; apply (G1 a); cbn; auto|intros a b Hab; apply (G2 a); cbn; auto|exact HK].
Qed.
Lemma x_image (m1 : mesh1) (m2 : mesh2) : msim m1 m2 -> axes_image ax m1 m2.
Proof.
  intros [HP [H1 [H2 H3]]]. split; [split; [eapply psim_keys; exact HP|auto]|]. unfold psim in HP.
  induction HP as [|[i p] [j q] l1 l2 [_ [_ [_ R]]] _ IH]; constructor; auto.
Qed.

Section ONE.
Variables (m1 : mesh1) (m2 : mesh2).
Hypothesis HM : msim m1 m2.
Lemma x_oprev e : oprev m1 e = oprev m2 e.
Proof. unfold oprev. rewrite (sim_ring Rx m1 m2 HM). reflexivity. Qed.
Lemma x_onext e : onext m1 e = onext m2 e.
Proof. unfold onext. rewrite (sim_ring Rx m1 m2 HM). reflexivity. Qed.
Lemma x_dest e : rsim Rx (dest_or_zero m1 e) (dest_or_zero m2 e).
Proof. destruct e as [g|]; cbn [dest_or_zero]; [exact (sim_get_pt Rx m1 m2 HM (snd g))|exact x_zero]. Qed.
Lemma x_mid p q p' q' : Rx p p' -> Rx q q' -> Rx (midpoint p q) (midpoint p' q').
Proof. apply (x_map2 (fun x y => kdiv O (kadd O x y) (kZ O 2))). Qed.
Lemma x_padd p q p' q' : Rx p p' -> Rx q q' -> Rx (padd p q) (padd p' q').
Proof. apply (x_map2 (kadd O)). Qed.
Lemma x_loop e : rsim Rx (loop_point m1 e) (loop_point m2 e).
Proof.
  unfold loop_point. rewrite (sim_internal Rx m1 m2 HM), (sim_at_border Rx m1 m2 HM).
  unfold lnext, rprev. rewrite x_oprev, x_onext.
  destruct (is_internal m2 e); [|destruct (is_at_border m2 e); [|reflexivity]];
  repeat (eapply rbind_sim; [first [apply (sim_get_pt Rx m1 m2 HM)|apply x_dest]|intros ? ? ?]); [|apply x_mid; assumption].
  apply (x_comb loop_weights); [apply x_zero|]. repeat (apply Forall2_cons; [assumption|]). apply Forall2_nil.
Qed.
Lemma x_butterfly e : rsim Rx (butterfly_point m1 e) (butterfly_point m2 e).
Proof.
  unfold butterfly_point, lnext, rprev, lprev, rnext. rewrite !x_oprev, !x_onext.
  rewrite !(obind_ext _ (fun x => onext m1 (sym x)) (fun x => onext m2 (sym x))) by (intros; apply x_onext).
  rewrite !(obind_ext _ (fun x => oprev m1 (sym x)) (fun x => oprev m2 (sym x))) by (intros; apply x_oprev).
  repeat (eapply rbind_sim; [first [apply (sim_get_pt Rx m1 m2 HM)|apply x_dest]|intros ? ? ?]).
  apply (x_comb butterfly_weights); [apply x_zero|]. repeat (apply Forall2_cons; [assumption|]). apply Forall2_nil.
Qed.
Lemma x_sums v (l : list N) : forall b1 b2 n o1 o2 nn, Rx b1 b2 -> Rx o1 o2 ->
  rsim (fun x y => snd x = snd y /\ Rx (snd (fst x)) (snd (fst y)) /\ snd (fst (fst x)) = snd (fst (fst y)) /\ Rx (fst (fst (fst x))) (fst (fst (fst y))))
       (smooth_sums m1 v l b1 n o1 nn) (smooth_sums m2 v l b2 n o2 nn).
Proof.
  induction l as [|x l IH]; intros b1 b2 n o1 o2 nn Hb Ho; cbn [smooth_sums]; [cbn; auto|].
  eapply rbind_sim; [apply (sim_elem_pt Rx m1 m2 HM)|]. intros p q H.
  rewrite (sim_at_border Rx m1 m2 HM). destruct (is_at_border m2 (v, x)); apply IH; try apply x_padd; assumption.
Qed.
Lemma x_vertex v p q : Rx p q -> rsim Rx (smoothing_point m1 v p) (smoothing_point m2 v q).
Proof.
  intros H. unfold smoothing_point. rewrite (sim_ring Rx m1 m2 HM). destruct (ring m2 v) as [|x r]; [reflexivity|].
  eapply rbind_sim; [apply x_sums; apply x_zero|]. intros [[[b1 n1] o1] k1] [[[b2 n2] o2] k2] [H1 [H2 [H3 H4]]]. cbn in H1, H2, H3, H4. subst.
  destruct (N.eqb n2 0).
  - apply (x_map2 (fun x o => kadd O (kmul O (ksub O (kZ O 1) (kmul O (kZ O (Z.of_N k2)) (@loop_beta O k2))) x) (kmul O (@loop_beta O k2) o))); assumption.
  - apply (x_map2 (fun x b => kadd O (kmul O (@kfrac O 3 4) x) (kmul O (@kfrac O 1 8) b))); assumption.
Qed.
Lemma x_update k fuel f : sorted_keys (pts m1) -> rsim ssim (update k fuel f m1) (update k fuel f m2).
Proof.
  intros Hn. apply update_sim.
  - exact HM.
  - apply x_mid.
  - intros _ p q r p' q' r' H1 H2 H3. apply (x_map (fun x => kmul O x (kdiv O (kZ O 1) (kZ O 3)))). repeat (apply x_padd; try assumption). apply x_zero.
  - intros _ e _. apply x_loop.
  - intros _ e _. apply x_butterfly.
  - intros _ v p q E1 E2. apply x_vertex. pose proof (psim_get Rx v _ _ (proj1 HM)) as G. rewrite E1, E2 in G. exact G.
  - intros _. apply sorted_NoDup_keys. exact Hn.
Qed.
End ONE.
Lemma x_step k fuel f (m1 : mesh1) (m2 : mesh2) : msim m1 m2 -> wf_points m1 ->
  rsim (fun a b => ssim a b /\ wf_points (snd a)) (update k fuel f m1) (update k fuel f m2).
Proof.
  intros HM [H1 H2]. pose proof (x_update m1 m2 HM k fuel f H1) as U.
  destruct (update k fuel f m1) as [[f1 o1]| | |] eqn:E, (update k fuel f m2) as [[f2 o2]| | |]; cbn in U |- *; auto.
  split; [exact U|]. destruct (update_dims k fuel f m1 f1 o1 H1 H2 E). split; assumption.
Qed.
Lemma x_outcome (r1 : res (@state O D1)) (r2 : res (@state O2 D2)) : rsim ssim r1 r2 -> axes_outcome ax r1 r2.
Proof.
  intros H. unfold axes_outcome. destruct r1 as [[f1 o1]| | |], r2 as [[f2 o2]| | |]; cbn in H; auto. destruct H as [H1 H2]. split; [exact H1|apply x_image; exact H2].
Qed.
End AXES.

Lemma C117_pf : forall (O : Ops) (d : nat) (D1 D2 : Type) ax k f fuel (m1 : mesh O D1) (m2 : mesh (in_dim O d) D2),
  (forall i, (i < d)%nat -> (ax i < kdim O)%nat) -> wf_points m1 -> wf_points m2 -> axes_image ax m1 m2 ->
  axes_outcome ax (update k fuel f m1) (update k fuel f m2).
Proof.
  intros O d D1 D2 ax k f fuel m1 m2 Hax W1 W2 HM. apply x_outcome. apply x_update; [exact Hax|apply x_mesh; assumption|apply W1].
Qed.
Lemma C117_iterative_pf : forall (O : Ops) (d : nat) (D1 D2 : Type) ax s n sel fuel (m1 : mesh O D1) (m2 : mesh (in_dim O d) D2),
  (forall i, (i < d)%nat -> (ax i < kdim O)%nat) -> wf_points m1 -> wf_points m2 -> axes_image ax m1 m2 ->
  axes_outcome ax (iterative_update s n fuel sel m1) (iterative_update s n fuel sel m2).
Proof.
  intros O d D1 D2 ax s n sel fuel m1 m2 Hax W1 W2 HM. apply x_outcome. unfold iterative_update.
  apply (iter_sim (Rx ax) s (fun _ a _ => wf_points a)); auto; [|apply x_mesh; assumption]. intros a b fu l H HW. apply x_step; assumption.
Qed.
