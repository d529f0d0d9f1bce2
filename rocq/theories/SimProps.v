(** * SimProps: affine invariance and convexity for every valid mesh, contiguous or not, and every selection. *)
From Coq Require Import Reals Lra.
From Verif Require Import Base Mesh Filters Spec SpecSub SpecGeo Lists AddFace SplitTri Split Points Valid Run Update Struct Count Face Conn Geo GeoProps PtsAny Robust Sim Root3Props.

Lemma lin_pscale d (c : nat -> R) a (p : list R) : lin c (@pscale (RO d) a p) = (a * lin c p)%R.
Proof.
  unfold pscale. revert c. induction p as [|x p IH]; intros c; [cbn; lra|]. cbn [map lin]. rewrite IH. cbn. lra.
Qed.
Lemma lin_padd d (c : nat -> R) (p q : list R) : length p = length q -> lin c (@padd (RO d) p q) = (lin c p + lin c q)%R.
Proof.
  intros H. unfold padd. cbn [kadd RO]. rewrite (map2_ext _ (fun x y => 1 * x + 1 * y)%R) by (intros; lra).
  rewrite lin_map2 by exact H. lra.
Qed.
Definition centroid d (p q r : list R) : list R :=
  @pscale (RO d) (kdiv (RO d) (kZ (RO d) 1) (kZ (RO d) 3)) (@padd (RO d) (@padd (RO d) (@padd (RO d) (@pzero (RO d)) p) q) r).
Lemma centroid_length d p q r : length p = d -> length q = d -> length r = d -> length (centroid d p q r) = d.
Proof.
  intros Hp Hq Hr. unfold centroid, pscale. rewrite map_length. unfold padd.
  repeat apply map2_length; auto. unfold pzero. apply repeat_length.
Qed.
Lemma lin_centroid d c p q r : length p = d -> length q = d -> length r = d ->
  lin c (centroid d p q r) = (1 / 3 * lin c p + 1 / 3 * lin c q + 1 / 3 * lin c r)%R.
Proof.
  intros Hp Hq Hr. unfold centroid. rewrite lin_pscale.
  assert (L0 : length (@pzero (RO d)) = d) by (unfold pzero; apply repeat_length).
  assert (L1 : length (@padd (RO d) (@pzero (RO d)) p) = d) by (unfold padd; apply map2_length; auto).
  assert (L2 : length (@padd (RO d) (@padd (RO d) (@pzero (RO d)) p) q) = d) by (unfold padd at 1; apply map2_length; auto).
  rewrite (lin_padd d c _ r) by (etransitivity; [exact L2|auto]). rewrite (lin_padd d c _ q) by (etransitivity; [exact L1|auto]). rewrite (lin_padd d c _ p) by (etransitivity; [exact L0|auto]). unfold pzero. rewrite lin_zero. cbn. lra.
Qed.
Lemma midpoint_len d (p q : list R) : length p = d -> length q = d -> length (@midpoint (RO d) p q) = d.
Proof. intros. unfold midpoint. apply map2_length; auto. Qed.
Lemma valid_dims {O D} (m : mesh O D) : valid m -> dims (pts m).
Proof. intros Hv id p. apply (v_pts_dim _ Hv). Qed.
Lemma valid_keys {O D} (m : mesh O D) : valid m -> NoDup (okeys (pts m)).
Proof. intros Hv. apply sorted_nodup3. apply (v_pts_sorted _ Hv). Qed.

Lemma loop_cases {O D} (m : mesh O D) e : valid m -> joined m (fst e) (snd e) ->
  (exists p, loop_point m e = Ok p) \/ (loop_point m e = Throw WireEdge /\ wire_edge m (fst e) (snd e)).
Proof.
  intros Hv Hj. destruct e as [a b]. cbn [fst snd] in *.
  destruct (in_dec dedge_dec (a, b) (dirs (tris m))) as [H|H];
  [left; destruct (loop_point_ok m a b Hv (or_introl H)) as [p [E _]]; eauto|].
  destruct (in_dec dedge_dec (b, a) (dirs (tris m))) as [H'|H'];
  [left; destruct (loop_point_ok m a b Hv (or_intror H')) as [p [E _]]; eauto|].
  right. assert (W : wire_edge m a b) by (split; auto). split; [apply wire_throw; auto|exact W].
Qed.

Lemma lin_rsum_len c (p : list R) n : length p = n -> lin c p = rsum (fun i => c i * nth i p 0)%R (seq 0 n).
Proof. intros <-. apply lin_rsum. Qed.
Lemma entries_get {A} (l : omap A) : NoDup (okeys l) -> forall i p, In (i, p) l -> oget i l = Some p.
Proof.
  induction l as [|[k x] l IH]; intros HN i p Hin; [destruct Hin|]. cbn [okeys map fst] in HN. inversion HN as [|? ? Hk HN' Ek]; subst.
  cbn [oget]. destruct Hin as [E|Hin].
  - injection E as <- <-. rewrite N.eqb_refl. reflexivity.
  - destruct (N.eqb_spec k i) as [<-|]; [|apply IH; auto].
    exfalso. apply Hk. apply in_map_iff. exists (k, p). auto.
Qed.

(** ** Affine maps *)
Section AFFINE.
Context {d1 d2 : nat} {D1 D2 : Type}.
Variables (M : nat -> nat -> R) (t : nat -> R).
Variables (m1 : mesh (RO d1) D1) (m2 : mesh (RO d2) D2).
Hypothesis Hv1 : valid m1.
Hypothesis Hv2 : valid m2.
Hypothesis HS : same_connectivity m1 m2.
Hypothesis HA : affine_image M t m1 m2.

Definition Ra (p : list (K (RO d1))) (q : list (K (RO d2))) : Prop :=
  length p = d1 /\ length q = d2 /\ forall j, (j < d2)%nat -> lin (delta j) q = (t j + lin (M j) p)%R.

Lemma Ra_pts id p q : oget id (pts m1) = Some p -> oget id (pts m2) = Some q -> Ra p q.
Proof.
  intros E1 E2. split; [apply (v_pts_dim _ Hv1 id); exact E1|]. split; [apply (v_pts_dim _ Hv2 id); exact E2|].
  intros j Hj. assert (N1 : oget id (pts m1) <> None) by congruence. pose proof (HA id j N1 Hj) as H.
  rewrite crd_lin, (ptof_get _ _ _ E2) in H. rewrite H. rewrite (lin_rsum_len _ p d1) by (exact (v_pts_dim _ Hv1 id p E1)). f_equal. apply rsum_ext. intros i _. unfold crd. rewrite (ptof_get _ _ _ E1). reflexivity.
Qed.
Lemma Ra_mesh : msim Ra m1 m2.
Proof.
  destruct HS as [K1 [K2 [K3 K4]]]. split; [|auto].
  pose proof (valid_keys m1 Hv1) as N1. pose proof (valid_keys m2 Hv2) as N2.
  assert (G1 : forall i p, In (i, p) (pts m1) -> oget i (pts m1) = Some p) by (apply entries_get; exact N1).
  assert (G2 : forall i p, In (i, p) (pts m2) -> oget i (pts m2) = Some p) by (apply entries_get; exact N2).
  assert (R : forall i p q, In (i, p) (pts m1) -> In (i, q) (pts m2) -> Ra p q) by (intros i p q H1 H2; eapply Ra_pts; eauto).
  clear - R K1. unfold psim. revert R K1. generalize (pts m1) as l1, (pts m2) as l2.
  induction l1 as [|[i p] l1 IH]; intros [|[j q] l2] R K1; cbn in K1; try discriminate; constructor.
  - injection K1 as -> K1. cbn. split; [reflexivity|]. eapply R; cbn; eauto.
  - apply IH; [intros; eapply R; cbn; eauto|]. injection K1. auto.
Qed.
Lemma Ra_mask W p q : length p = d1 -> length q = d2 -> wtotal W = 1%R -> (forall w x, In (w, x) W -> oget x (pts m1) <> None) ->
  (forall c, lin c p = weighted W (fun x => lin c (ptof m1 x))) -> (forall c, lin c q = weighted W (fun x => lin c (ptof m2 x))) ->
  Ra p q.
Proof.
  intros Lp Lq HW Hx Hp Hq. split; [exact Lp|]. split; [exact Lq|]. intros j Hj. rewrite Hq, Hp.
  rewrite (weighted_affine W (t j) (fun x => lin (M j) (ptof m1 x))); [rewrite HW; lra|].
  intros w x Hin. pose proof (Hx w x Hin) as H1. pose proof (proj1 (same_has m1 m2 HS x) H1) as H2.
  destruct (oget x (pts m1)) as [a|] eqn:E1; [|congruence]. destruct (oget x (pts m2)) as [b|] eqn:E2; [|congruence].
  rewrite (ptof_get _ _ _ E1), (ptof_get _ _ _ E2). apply (Ra_pts x a b E1 E2). exact Hj.
Qed.
Lemma same_joined a b : joined m1 a b -> joined m2 a b.
Proof. unfold joined. rewrite (same_ring m1 m2 HS). auto. Qed.

Lemma Ra_loop e : joined m1 (fst e) (snd e) -> rsim Ra (loop_point m1 e) (loop_point m2 e).
Proof.
  intros Hj. pose proof (same_joined _ _ Hj) as Hj2.
  assert (HT : tris m1 = tris m2) by (unfold tris; rewrite (same_faces m1 m2 HS); reflexivity).
  destruct (loop_cases m1 e Hv1 Hj) as [[p E1]|[E1 [_ [W1 W2]]]]; destruct (loop_cases m2 e Hv2 Hj2) as [[q E2]|[E2 [_ [W1' W2']]]].
  - rewrite E1, E2. cbn. destruct (new_mask_facts (CellF CLoop) m1 e Hv1) as [T [P _]]; [discriminate|exact Hj|].
    apply (Ra_mask (loop_mask m1 e)); auto.
    + exact (loop_point_dim m1 e p (valid_dims m1 Hv1) E1).
    + exact (loop_point_dim m2 e q (valid_dims m2 Hv2) E2).
    + intros c. apply loop_mask_ok; auto.
    + intros c. pose proof (same_new_mask m1 m2 HS (CellF CLoop) e) as HM. cbn [new_mask] in HM. rewrite HM. apply loop_mask_ok; auto.
  - exfalso. rewrite <- HT in W1', W2'. assert (loop_point m1 e = Throw WireEdge) by (destruct e; apply wire_throw; [exact Hv1|split; auto]). congruence.
  - exfalso. rewrite HT in W1, W2. assert (loop_point m2 e = Throw WireEdge) by (destruct e; apply wire_throw; [exact Hv2|split; auto]). congruence.
  - rewrite E1, E2. reflexivity.
Qed.
Lemma Ra_butterfly e : joined m1 (fst e) (snd e) -> rsim Ra (butterfly_point m1 e) (butterfly_point m2 e).
Proof.
  intros Hj. pose proof (same_joined _ _ Hj) as Hj2. destruct e as [a b]. cbn [fst snd] in *.
  destruct (butterfly_point_ok m1 a b Hv1 Hj) as [p [E1 L1]]. destruct (butterfly_point_ok m2 a b Hv2 Hj2) as [q [E2 L2]].
  rewrite E1, E2. cbn. destruct (new_mask_facts (CellF CButterfly) m1 (a, b) Hv1) as [T [P _]]; [discriminate|exact Hj|].
  apply (Ra_mask (butterfly_mask m1 (a, b))); auto.
  - intros c. apply butterfly_mask_ok; auto.
  - intros c. pose proof (same_new_mask m1 m2 HS (CellF CButterfly) (a, b)) as HM. cbn [new_mask] in HM. rewrite HM. apply butterfly_mask_ok; auto.
Qed.
Lemma Ra_vertex v p q : one_fan m1 v -> oget v (pts m1) = Some p -> oget v (pts m2) = Some q ->
  rsim Ra (smoothing_point m1 v p) (smoothing_point m2 v q).
Proof.
  intros Hf E1 E2. destruct (ring m1 v) as [|r0 r] eqn:Er.
  - unfold smoothing_point. rewrite Er. rewrite (same_ring m1 m2 HS) in Er. rewrite Er. reflexivity.
  - assert (Hne : ring m1 v <> []) by (rewrite Er; discriminate).
    assert (Hne2 : ring m2 v <> []) by (rewrite <- (same_ring m1 m2 HS); exact Hne).
    destruct (smoothing_ok m1 v p Hv1 Hne (v_pts_dim _ Hv1 _ _ E1)) as [a [S1 L1]].
    destruct (smoothing_ok m2 v q Hv2 Hne2 (v_pts_dim _ Hv2 _ _ E2)) as [b [S2 L2]].
    rewrite S1, S2. cbn.
    destruct (vertex_mask_facts m1 v Hv1) as [T P]; [congruence|exact Hne|exact Hf|].
    apply (Ra_mask (vertex_mask m1 v)); auto.
    + intros w x Hx. apply (P w x Hx).
    + intros c. apply vertex_mask_ok; [exact Hv1|congruence|]. rewrite (ptof_get _ _ _ E1). exact S1.
    + intros c. rewrite (same_vertex_mask m1 m2 HS). apply vertex_mask_ok; [exact Hv2|congruence|]. rewrite (ptof_get _ _ _ E2). exact S2.
Qed.
Lemma Ra_mid p q p' q' : Ra p p' -> Ra q q' -> Ra (midpoint p q) (midpoint p' q').
Proof.
  intros [L1 [L2 H]] [L3 [L4 H']]. split; [apply midpoint_len; auto|]. split; [apply midpoint_len; auto|].
  intros j Hj. rewrite !lin_midpoint by (etransitivity; eauto). rewrite H, H' by exact Hj. lra.
Qed.
Lemma Ra_cen p q r p' q' r' : Ra p p' -> Ra q q' -> Ra r r' -> Ra (centroid d1 p q r) (centroid d2 p' q' r').
Proof.
  intros [L1 [L2 H]] [L3 [L4 H']] [L5 [L6 H'']]. split; [apply centroid_length; auto|]. split; [apply centroid_length; auto|].
  intros j Hj. rewrite !lin_centroid by assumption. rewrite H, H', H'' by exact Hj. lra.
Qed.

Lemma affine_sim k fuel f : (k = CellF CLoop -> forall v, one_fan m1 v) ->
  rsim (ssim Ra) (update k fuel f m1) (update k fuel f m2).
Proof.
  intros Hf. apply update_sim.
  - exact Ra_mesh.
  - exact Ra_mid.
  - intros _. exact Ra_cen.
  - intros _. exact Ra_loop.
  - intros _. exact Ra_butterfly.
  - intros Hk v p q. apply Ra_vertex. apply Hf. exact Hk.
  - intros _. apply valid_keys. exact Hv1.
Qed.
Lemma ssim_out (s1 : @state (RO d1) D1) (s2 : @state (RO d2) D2) : ssim Ra s1 s2 -> fst s1 = fst s2 /\ same_connectivity (snd s1) (snd s2) /\ affine_image M t (snd s1) (snd s2).
Proof.
  destruct s1 as [f1 o1], s2 as [f2 o2]. intros [E [HP [H2 [H3 H4]]]]. cbn [fst snd] in *.
  split; [exact E|]. split; [split; [eapply psim_keys; exact HP|auto]|].
  intros id j Hid Hj. pose proof (psim_get Ra id _ _ HP) as G.
  destruct (oget id (pts o1)) as [p|] eqn:E1; [|congruence]. destruct (oget id (pts o2)) as [q|] eqn:E2; [|destruct G].
  destruct G as [L1 [L2 G]]. rewrite crd_lin, (ptof_get _ _ _ E2), (G j Hj), (lin_rsum_len _ p d1 L1). f_equal.
  apply rsum_ext. intros i _. unfold crd. rewrite (ptof_get _ _ _ E1). reflexivity.
Qed.
End AFFINE.

Lemma C21_all_pf : forall (d1 d2 : nat) (D1 D2 : Type) k f (m1 : mesh (RO d1) D1) (m2 : mesh (RO d2) D2) M t fuel,
  valid m1 -> valid m2 -> same_connectivity m1 m2 -> (k = CellF CLoop -> forall v, one_fan m1 v) -> affine_image M t m1 m2 ->
  match update k fuel f m1, update k fuel f m2 with
  | Ok (f1, o1), Ok (f2, o2) => f1 = f2 /\ same_connectivity o1 o2 /\ affine_image M t o1 o2
  | Throw e1, Throw e2 => e1 = e2
  | Undef u1, Undef u2 => u1 = u2
  | OutOfFuel, OutOfFuel => True
  | _, _ => False
  end.
Proof.
  intros d1 d2 D1 D2 k f m1 m2 M t fuel Hv1 Hv2 HS Hf HA.
  pose proof (affine_sim M t m1 m2 Hv1 Hv2 HS HA k fuel f Hf) as H. unfold rsim in H.
  destruct (update k fuel f m1) as [[f1 o1]| | |], (update k fuel f m2) as [[f2 o2]| | |]; auto.
  exact (ssim_out M t _ _ H).
Qed.

(** ** Coordinates of any type never influence the connectivity *)
Section CONN.
Context {O1 O2 : Ops} {D1 D2 : Type}.
Definition Rany (p : list (K O1)) (q : list (K O2)) : Prop := True.
Variables (m1 : mesh O1 D1) (m2 : mesh O2 D2).
Hypothesis HS : same_connectivity m1 m2.

Lemma any_mesh : msim Rany m1 m2.
Proof.
  destruct HS as [K1 [K2 [K3 K4]]]. split; [|auto]. clear - K1. unfold psim. revert K1. generalize (pts m1) as l1, (pts m2) as l2.
  induction l1 as [|[i p] l1 IH]; intros [|[j q] l2] K1; cbn in K1; try discriminate; constructor; injection K1 as -> K1; [|auto].
  cbn. split; [reflexivity|exact I].
Qed.
Lemma any_oprev e : oprev m1 e = oprev m2 e.
Proof. unfold oprev. rewrite (sim_ring Rany m1 m2 any_mesh). reflexivity. Qed.
Lemma any_onext e : onext m1 e = onext m2 e.
Proof. unfold onext. rewrite (sim_ring Rany m1 m2 any_mesh). reflexivity. Qed.
Lemma any_dest e : rsim Rany (dest_or_zero m1 e) (dest_or_zero m2 e).
Proof. destruct e; cbn; [apply sim_get_pt; exact any_mesh|exact I]. Qed.
Lemma obind_ext {A B} (x : option A) (g h : A -> option B) : (forall y, g y = h y) -> obind x g = obind x h.
Proof. intros H. destruct x; cbn; auto. Qed.

Lemma any_loop e : rsim Rany (loop_point m1 e) (loop_point m2 e).
Proof.
  unfold loop_point. rewrite (sim_internal Rany m1 m2 any_mesh), (sim_at_border Rany m1 m2 any_mesh).
  unfold lnext, rprev. rewrite any_oprev, any_onext.
  destruct (is_internal m2 e); [|destruct (is_at_border m2 e); [|reflexivity]];
  repeat (eapply rbind_sim; [first [apply sim_get_pt; exact any_mesh|apply any_dest]|intros ? ? _]); exact I.
Qed.
Lemma any_butterfly e : rsim Rany (butterfly_point m1 e) (butterfly_point m2 e).
Proof.
  unfold butterfly_point, lnext, rprev, lprev, rnext. rewrite !any_oprev, !any_onext.
  rewrite !(obind_ext _ (fun x => onext m1 (sym x)) (fun x => onext m2 (sym x))) by (intros; apply any_onext).
  rewrite !(obind_ext _ (fun x => oprev m1 (sym x)) (fun x => oprev m2 (sym x))) by (intros; apply any_oprev).
  repeat (eapply rbind_sim; [first [apply sim_get_pt; exact any_mesh|apply any_dest]|intros ? ? _]). exact I.
Qed.
Lemma any_sums v r : forall b1 b2 n o1 o2 nn,
  rsim (fun x y => snd x = snd y /\ snd (fst (fst x)) = snd (fst (fst y))) (smooth_sums m1 v r b1 n o1 nn) (smooth_sums m2 v r b2 n o2 nn).
Proof.
  induction r as [|x r IH]; intros b1 b2 n o1 o2 nn; cbn [smooth_sums]; [split; reflexivity|].
  eapply rbind_sim; [apply sim_elem_pt; exact any_mesh|]. intros p q _.
  rewrite (sim_at_border Rany m1 m2 any_mesh). destruct (is_at_border m2 (v, x)); apply IH.
Qed.
Lemma any_vertex v p q : rsim Rany (smoothing_point m1 v p) (smoothing_point m2 v q).
Proof.
  unfold smoothing_point. rewrite (sim_ring Rany m1 m2 any_mesh). destruct (ring m2 v) as [|x r]; [reflexivity|].
  eapply rbind_sim; [apply any_sums|]. intros [[[b1 n1] o1] k1] [[[b2 n2] o2] k2] [H1 H2]. cbn in H1, H2. subst.
  destruct (N.eqb n2 0); exact I.
Qed.
Lemma any_sim k fuel f : (k = CellF CLoop -> NoDup (okeys (pts m1))) ->
  rsim (ssim Rany) (update k fuel f m1) (update k fuel f m2).
Proof.
  intros Hn. apply update_sim; try exact Hn; try exact any_mesh.
  - intros; exact I.
  - intros; exact I.
  - intros _ e _. apply any_loop.
  - intros _ e _. apply any_butterfly.
  - intros _ v p q _ _. apply any_vertex.
Qed.
End CONN.
Lemma C48_any_pf : forall (O1 O2 : Ops) (D1 D2 : Type) k f (m1 : mesh O1 D1) (m2 : mesh O2 D2) fuel,
  same_connectivity m1 m2 -> (k = CellF CLoop -> NoDup (okeys (pts m1))) ->
  match update k fuel f m1, update k fuel f m2 with
  | Ok (f1, o1), Ok (f2, o2) => f1 = f2 /\ same_connectivity o1 o2
  | Throw e1, Throw e2 => e1 = e2
  | Undef u1, Undef u2 => u1 = u2
  | OutOfFuel, OutOfFuel => True
  | _, _ => False
  end.
Proof.
  intros O1 O2 D1 D2 k f m1 m2 fuel HS Hn. pose proof (any_sim m1 m2 HS k fuel f Hn) as H. unfold rsim in H.
  destruct (update k fuel f m1) as [[f1 o1]| | |], (update k fuel f m2) as [[f2 o2]| | |]; auto.
  destruct H as [E [HP [H2 [H3 H4]]]]. cbn [fst snd] in *. split; [exact E|]. split; [eapply psim_keys; exact HP|auto].
Qed.

(** ** Half-spaces *)
Section HALF.
Context {d : nat} {D : Type}.
Variables (c : nat -> R) (h : R).
Variable inp : mesh (RO d) D.
Hypothesis Hv : valid inp.
Hypothesis Hh : in_halfspace c h inp.
Definition Rh (p q : list (K (RO d))) : Prop := p = q /\ length p = d /\ (lin c p <= h)%R.

Lemma half_pts id p : oget id (pts inp) = Some p -> Rh p p.
Proof.
  intros E. split; [reflexivity|]. split; [exact (v_pts_dim _ Hv id p E)|].
  assert (N1 : oget id (pts inp) <> None) by congruence. pose proof (Hh id N1) as H.
  rewrite (lin_rsum_len _ p d) by (exact (v_pts_dim _ Hv id p E)). eapply Rle_trans; [|exact H]. right.
  apply rsum_ext. intros i _. unfold crd. rewrite (ptof_get _ _ _ E). reflexivity.
Qed.
Lemma half_mesh : msim Rh inp inp.
Proof.
  split; [|auto]. pose proof (valid_keys inp Hv) as N1.
  assert (G1 : forall i p, In (i, p) (pts inp) -> oget i (pts inp) = Some p) by (apply entries_get; exact N1).
  assert (R : forall i p, In (i, p) (pts inp) -> Rh p p) by (intros i p H1; eapply half_pts; eauto).
  clear - R. unfold psim. induction (pts inp) as [|[i p] l IH]; constructor.
  - split; [reflexivity|]. eapply R. cbn. eauto.
  - apply IH. intros; eapply R; cbn; eauto.
Qed.
Lemma half_mask W p : length p = d -> wtotal W = 1%R -> (forall w x, In (w, x) W -> oget x (pts inp) <> None /\ (0 <= w)%R) ->
  lin c p = weighted W (fun x => lin c (ptof inp x)) -> Rh p p.
Proof.
  intros Lp HW Hx Hp. split; [reflexivity|]. split; [exact Lp|]. rewrite Hp. apply weighted_le; [|exact HW].
  intros w x Hin. destruct (Hx w x Hin) as [H1 H2]. split; [exact H2|].
  destruct (oget x (pts inp)) as [a|] eqn:E1; [|congruence]. rewrite (ptof_get _ _ _ E1). apply (half_pts x a E1).
Qed.
Lemma half_sim k fuel f : k <> CellF CButterfly -> k <> EdgeF EButterfly -> (k = CellF CLoop -> forall v, one_fan inp v) ->
  rsim (ssim Rh) (update k fuel f inp) (update k fuel f inp).
Proof.
  intros Hk1 Hk2 Hf. apply update_sim.
  - exact half_mesh.
  - intros p q p' q' [<- [L1 H1]] [<- [L2 H2]]. split; [reflexivity|]. split; [apply midpoint_len; auto|].
    rewrite lin_midpoint by (etransitivity; eauto). lra.
  - intros _ p q r p' q' r' [<- [L1 H1]] [<- [L2 H2]] [<- [L3 H3]]. split; [reflexivity|]. split; [apply (centroid_length d p q r); auto|].
    change (lin c (centroid d p q r) <= h)%R. rewrite lin_centroid by assumption. lra.
  - intros _ e Hj. destruct (loop_cases inp e Hv Hj) as [[p E]|[E _]]; rewrite E; cbn; [|reflexivity].
    destruct (new_mask_facts (CellF CLoop) inp e Hv) as [T [P Pos]]; [discriminate|exact Hj|].
    apply (half_mask (loop_mask inp e)); auto.
    + exact (loop_point_dim inp e p (valid_dims inp Hv) E).
    + intros w x Hx. split; [eapply P; eauto|]. eapply Pos; eauto; discriminate.
    + apply loop_mask_ok; auto.
  - intros [H|H]; congruence.
  - intros Hk v p q E1 E2. assert (p = q) as <- by congruence.
    destruct (ring inp v) as [|r0 r] eqn:Er; [unfold smoothing_point; rewrite Er; reflexivity|].
    assert (Hne : ring inp v <> []) by (rewrite Er; discriminate).
    destruct (smoothing_ok inp v p Hv Hne (v_pts_dim _ Hv _ _ E1)) as [a [S1 L1]]. rewrite S1. cbn.
    destruct (vertex_mask_facts inp v Hv) as [T P]; [congruence|exact Hne|apply Hf; exact Hk|].
    apply (half_mask (vertex_mask inp v)); auto. apply vertex_mask_ok; [exact Hv|congruence|]. rewrite (ptof_get _ _ _ E1). exact S1.
  - intros _. apply valid_keys. exact Hv.
Qed.
End HALF.

Lemma C22_all_pf : forall (d : nat) (D : Type) k f (inp : mesh (RO d) D) fuel f' out c h,
  k <> CellF CButterfly -> k <> EdgeF EButterfly -> valid inp -> (k = CellF CLoop -> forall v, one_fan inp v) ->
  in_halfspace c h inp -> update k fuel f inp = Ok (f', out) -> in_halfspace c h out.
Proof.
  intros d D k f inp fuel f' out c h Hk1 Hk2 Hv Hf Hh E.
  pose proof (half_sim c h inp Hv Hh k fuel f Hk1 Hk2 Hf) as H. rewrite E in H. destruct H as [_ [HP _]].
  intros id Hid. cbn [snd] in HP. pose proof (psim_get (Rh c h) id _ _ HP) as G.
  destruct (oget id (pts out)) as [p|] eqn:E1; [|congruence]. destruct G as [_ [L G]].
  rewrite (lin_rsum_len _ p d L) in G. eapply Rle_trans; [|exact G]. right.
  apply rsum_ext. intros i _. unfold crd. rewrite (ptof_get _ _ _ E1). reflexivity.
Qed.
