(** * LoopLimit: limit positions of repeated uniform Loop subdivision (C111). *)
From Coq Require Import Reals Lra Psatz Permutation.
From Verif Require Import Base Mesh Filters Drivers Spec SpecSub SpecGeo SpecDrive SpecConv SpecLimit Lists AddFace SplitTri Split Points Valid Run Update Struct Count Face PtsAny Geo GeoProps Conn Drive Area Cond FaceProps DriveProps Gaps Iter Valence Root3Props Conv.
Open Scope R_scope.

Lemma rsum_const {A} (c : R) (l : list A) : rsum (fun _ => c) l = INR (length l) * c.
Proof. induction l as [|x l IH]; [cbn; ring|]. change (rsum (fun _ => c) (x :: l)) with (c + rsum (fun _ : A => c) l). cbn [length]. rewrite S_INR, IH. ring. Qed.

Section LIMIT.
Context {d : nat} {D : Type}.
Notation mesh := (mesh (RO d) D).
Implicit Types m inp out : mesh.

Lemma limit_exists m v : valid m -> no_isolated m -> one_fan m v -> oget v (pts m) <> None ->
  exists x, loop_limit m v x /\ forall y, loop_limit m v y -> forall i, y i = x i.
Proof.
  intros Hv Hni Hof Hin. destruct (filter_border m v Hv) as [B1 B2]. set (B := filter _ (ring m v)) in *. assert (HB : border_neighbours m v B) by (split; assumption).
  destruct (Hof B HB) as [B0|Bt].
  - assert (IV : interior_vertex m v) by (split; [apply Hni; exact Hin|]; intros w Hw; apply B2 in Hw; rewrite B0 in Hw; destruct Hw).
    eexists. split; [split; [intros _; cbv zeta; intros i; reflexivity|]|].
    + intros B' [_ H2] Hne. exfalso. destruct B' as [|w B']; [congruence|].
      assert (X : border_edge m v w) by (apply H2; cbn; auto). apply B2 in X. rewrite B0 in X. destruct X.
    + intros y [Y _] i. exact (Y IV i).
  - exists (fun i => 2 / 3 * crd m i v + 1 / 6 * rsum (crd m i) B). split; [split|].
    + intros [_ X]. exfalso. destruct B as [|w B']; [discriminate|]. apply (X w). apply B2. cbn. auto.
    + intros B' [N' H2] Hne i. rewrite (rsum_perm (crd m i) B' B); [reflexivity|]. apply NoDup_Permutation; auto. intros w. rewrite H2, B2. reflexivity.
    + intros y [_ Y] i. apply (Y B HB). intros X. rewrite X in Bt. discriminate.
Qed.

(** Distance from the limit: at most 5/8 of the longest edge. *)
Lemma limit_near m v x L : 0 <= L -> edges_within L m -> valid m -> no_isolated m -> one_fan m v -> oget v (pts m) <> None -> loop_limit m v x ->
  off m v x <= 5 / 8 * L.
Proof.
  intros L0 HL Hv Hni Hof Hin [X1 X2]. destruct (filter_border m v Hv) as [B1 B2]. set (B := filter _ (ring m v)) in *. assert (HB : border_neighbours m v B) by (split; assumption).
  assert (S : sq d (fun i => x i - crd m i v) <= (5 / 8 * L) * (5 / 8 * L)).
  { destruct (Hof B HB) as [B0|Bt].
    - assert (IV : interior_vertex m v) by (split; [apply Hni; exact Hin|]; intros w Hw; apply B2 in Hw; rewrite B0 in Hw; destruct Hw).
      specialize (X1 IV). cbv zeta in X1. set (n := length (ring m v)) in *. assert (Hn : (1 <= n)%nat) by (unfold n; pose proof (proj1 IV); destruct (ring m v); [congruence|cbn; lia]).
      destruct (C22_weight_bounds_pf (N.of_nat n) ltac:(lia)) as [W0 W1]. set (be := loop_weight (N.of_nat n)) in *. rewrite nat_N_Z, <- INR_IZR_INZ in W1.
      set (c := 8 * be / (3 + 8 * INR n * be)). assert (P : 0 < 3 + 8 * INR n * be) by lra.
      assert (C0 : 0 <= c) by (apply Rlt_le, Rdiv_lt_0_compat; lra).
      assert (C1 : INR n * c <= 5 / 8).
      { unfold c. replace (INR n * (8 * be / (3 + 8 * INR n * be))) with (8 * INR n * be / (3 + 8 * INR n * be)) by (field; lra).
        apply Rmult_le_reg_r with (3 + 8 * INR n * be); [exact P|]. unfold Rdiv at 1. rewrite Rmult_assoc, Rinv_l by lra. lra. }
      apply (comb_ok L m L0 HL (star m c v (ring m v))).
      + intros c0 z X. apply (star_ok m _ _ _ _) in X; [exact X|]. intros u Hu. exact Hu.
      + intros i. rewrite comb_star, X1. fold n. unfold c. field. lra.
      + rewrite cabs_star, Rabs_pos_eq by exact C0. fold n. exact C1.
    - destruct B as [|p [|q [|y B']]]; try discriminate Bt.
      assert (Jp : joined m v p) by (apply (proj1 (B2 p)); cbn; auto). assert (Jq : joined m v q) by (apply (proj1 (B2 q)); cbn; auto).
      apply (comb_ok L m L0 HL [(1 / 6, vec m v p); (1 / 6, vec m v q)]).
      + intros c z X. cbn [In] in X. destruct X as [X|[X|[]]]; injection X as <- <-; eauto.
      + intros i. unfold comb, rsum; cbn [fold_right fst snd]; unfold vec. rewrite (X2 _ HB ltac:(discriminate) i). unfold rsum; cbn [fold_right]. field.
      + unfold cabs, rsum; cbn [fold_right fst snd]. rewrite !Rabs_pos_eq by lra. lra. }
  unfold off. rewrite <- (sqrt_square (5 / 8 * L)) by lra. apply sqrt_le_1_alt.
  eapply Rle_trans; [|exact S]. apply Req_le. unfold sq. apply rsum_ext. intros. ring.
Qed.

(** ** One level leaves the limit position where it is *)
Lemma limit_step inp fuel f f' out v x : valid inp -> dense inp -> tris inp <> [] -> csel f = [] -> uniform f = true -> no_isolated inp -> no_wire inp ->
  one_fan inp v -> update (CellF CLoop) fuel f inp = Ok (f', out) -> oget v (pts inp) <> None -> loop_limit inp v x -> loop_limit out v x.
Proof.
  intros Hv Hd Hne Hc Hu Hni Hnw Hof E Hin [X1 X2]. assert (Hr : ready (CellF CLoop) f inp) by (apply ready_uniform; auto; discriminate).
  destruct (step_ok _ _ _ _ _ _ Hv Hd Hne Hr E) as [Hvo _].
  destruct (C17_edge_rule_pf d D _ f inp fuel f' out (or_introl eq_refl) Hv Hd Hr E) as [mid [Ls [Hsd Hm]]].
  destruct (all_split inp _ _ _ _ _ Hc Hsd) as [Hall Hdom]. pose proof (sd_sym _ _ _ _ _ Hsd) as Sy.
  assert (Hall' : forall a b, In (a, b) (dirs (tris inp)) -> to_split (CellF CLoop) f inp a b) by (intros a b H; apply (sd_dom _ _ _ _ _ Hsd); apply Hall; exact H).
  assert (New : forall a b e, mid a b = Some e -> oget e (pts inp) = None) by (intros a b e He; apply (sd_new _ _ _ _ _ Hsd e); eauto).
  assert (Bs : forall m a b, valid m -> (border_edge m a b <-> border_dir m a b \/ border_dir m b a)).
  { intros m a b H. unfold border_edge, border_dir. split; [tauto|]. intros [[X Y]|[X Y]]; (split; [|tauto]); [|apply (v_ring_sym _ H)]; apply (v_face_edges _ H); exact X. }
  assert (Ch : forall x y, border_edge out x y <-> exists a b e, border_edge inp a b /\ mid a b = Some e /\ ((x = a /\ y = e) \/ (x = e /\ y = a))).
  { intros p y. rewrite (Bs out p y Hvo), !(border_sub inp out _ mid Ls Hv Hvo Hsd). split.
    - intros [[a [b [Hb Hp]]]|[a [b [Hb Hp]]]]; unfold part_of in Hp; destruct (mid a b) as [e|] eqn:Ee; try (destruct (Hall a b (proj1 Hb) Ee));
        (assert (B1 : border_edge inp a b) by (apply (Bs inp a b Hv); auto)); (assert (B2 : border_edge inp b a) by (apply (Bs inp b a Hv); auto));
        (assert (Ee' := Ee); rewrite Sy in Ee'); destruct Hp as [[-> ->]|[-> ->]];
        first [exists a, b, e; tauto | exists b, a, e; tauto].
    - intros [a [b [e [Hb [Ee Hx]]]]]. apply (Bs inp a b Hv) in Hb. assert (Ee' := Ee). rewrite Sy in Ee'.
      destruct Hb as [Hb|Hb]; destruct Hx as [[-> ->]|[-> ->]].
      + left. exists a, b. split; [exact Hb|]. unfold part_of. rewrite Ee. auto.
      + right. exists a, b. split; [exact Hb|]. unfold part_of. rewrite Ee. auto.
      + right. exists b, a. split; [exact Hb|]. unfold part_of. rewrite Ee'. auto.
      + left. exists b, a. split; [exact Hb|]. unfold part_of. rewrite Ee'. auto. }
  assert (Md : forall w, joined inp v w -> In (v, w) (dirs (tris inp)) \/ In (w, v) (dirs (tris inp))) by (intros w Hw; exact (Hnw v w Hw)).
  set (g := fun w => match mid v w with Some e => e | None => 0%N end).
  assert (Hg : forall w, joined inp v w -> mid v w = Some (g w)).
  { intros w Hw. unfold g. destruct (mid v w) as [e|] eqn:X; [reflexivity|exfalso]. destruct (Md w Hw) as [Y|Y]; [exact (Hall _ _ Y X)|]. rewrite Sy in X. exact (Hall _ _ Y X). }
  assert (Gi : forall w w', joined inp v w -> joined inp v w' -> g w = g w' -> w = w').
  { intros w w' H H' Q. pose proof (Hg w H) as G1. pose proof (Hg w' H') as G2. rewrite <- Q in G2.
    destruct (sd_inj _ _ _ _ _ Hsd _ _ _ _ _ G1 G2) as [Y|Y]; cbn [fst snd] in Y; injection Y; congruence. }
  assert (Pr : Permutation (ring out v) (map g (ring inp v))).
  { apply NoDup_Permutation; [apply (v_ring_nodup _ Hvo)|apply NoDup_map_on; [exact Gi|apply (v_ring_nodup _ Hv)]|].
    intros y. change (In y (ring out v)) with (joined out v y). rewrite (old_joined inp out _ mid Ls Hvo Hsd Hall' v y Hin), in_map_iff. split.
    - intros [w [H Hy]]. assert (J : joined inp v w) by (destruct H as [H|H]; [|apply (v_ring_sym _ Hv)]; apply (v_face_edges _ Hv); exact H).
      exists w. split; [|exact J]. pose proof (Hg w J). congruence.
    - intros [w [<- J]]. exists w. split; [apply Md; exact J|apply Hg; exact J]. }
  assert (Hn : length (ring out v) = length (ring inp v)) by (rewrite (Permutation_length Pr); apply map_length).
  pose proof (C18_vertex_rule_pf d D f inp fuel f' out v) as HR. split.
  - (* inside *)
    intros [_ HI]. assert (IV : interior_vertex inp v).
    { split; [apply Hni; exact Hin|]. intros w Hw. apply (HI (g w)). apply Ch. exists v, w, (g w). split; [exact Hw|]. split; [apply Hg; exact (proj1 Hw)|auto]. }
    specialize (X1 IV). cbv zeta in X1 |- *. rewrite Hn. set (n := length (ring inp v)) in *. intros i. rewrite (X1 i).
    destruct (HR i Hv Hd Hni Hc Hu E Hin) as [R1 _]. specialize (R1 IV). fold n in R1. rewrite <- INR_IZR_INZ in R1.
    assert (Hn1 : (1 <= n)%nat) by (unfold n; pose proof (proj1 IV); destruct (ring inp v); [congruence|cbn; lia]).
    destruct (C22_weight_bounds_pf (N.of_nat n) ltac:(lia)) as [W0 W1]. set (be := loop_weight (N.of_nat n)) in *. rewrite nat_N_Z, <- INR_IZR_INZ in W1.
    assert (Sum : rsum (crd out i) (ring out v) = 3 / 8 * INR n * crd inp i v + 5 / 8 * rsum (crd inp i) (ring inp v)).
    { rewrite (rsum_perm _ _ _ Pr), rsum_map.
      set (p := fun w => match lnext inp (v, w) with Some (_, c) => c | None => 0%N end). set (q := fun w => match rprev inp (v, w) with Some (_, c) => c | None => 0%N end).
      assert (Fpq : forall w, joined inp v w -> is_face inp v w (p w) /\ is_face inp w v (q w)).
      { intros w Hw. assert (Hd2 : In (v, w) (dirs (tris inp)) /\ In (w, v) (dirs (tris inp))).
        { assert (~ border_edge inp v w) as Nb by (apply IV). unfold border_edge in Nb.
          destruct (in_dec dedge_dec (v, w) (dirs (tris inp))) as [Y1|Y1]; destruct (in_dec dedge_dec (w, v) (dirs (tris inp))) as [Y2|Y2]; auto; exfalso;
            [apply Nb; auto|apply Nb; auto|destruct (Md w Hw); contradiction]. }
        destruct Hd2 as [Y1 Y2]. apply dir_is_face in Y1, Y2. destruct Y1 as [c Y1]. destruct Y2 as [e Y2].
        unfold p, q. rewrite (face_lnext inp v w c Hv Y1), (face_rprev inp v w e Hv Y2). auto. }
      assert (Pp : Permutation (map p (ring inp v)) (ring inp v)).
      { apply NoDup_Permutation_bis; [|rewrite map_length; lia|].
        - apply NoDup_map_on; [|apply (v_ring_nodup _ Hv)]. intros w w' Hw Hw' Q. destruct (Fpq w Hw) as [F1 _]. destruct (Fpq w' Hw') as [F2 _]. rewrite <- Q in F2.
          apply (face_unique inp Hv (p w) v w w'); unfold is_face in *; tauto.
        - intros y Hy. apply in_map_iff in Hy. destruct Hy as [w [<- Hw]]. destruct (Fpq w Hw) as [F1 _]. destruct (face_j inp Hv _ _ _ F1) as [_ [_ [_ [_ [_ J]]]]]. exact J. }
      assert (Pq : Permutation (map q (ring inp v)) (ring inp v)).
      { apply NoDup_Permutation_bis; [|rewrite map_length; lia|].
        - apply NoDup_map_on; [|apply (v_ring_nodup _ Hv)]. intros w w' Hw Hw' Q. destruct (Fpq w Hw) as [_ F1]. destruct (Fpq w' Hw') as [_ F2]. rewrite <- Q in F2.
          apply (face_unique inp Hv v (q w) w w'); unfold is_face in *; tauto.
        - intros y Hy. apply in_map_iff in Hy. destruct Hy as [w [<- Hw]]. destruct (Fpq w Hw) as [_ F1]. destruct (face_j inp Hv _ _ _ F1) as [_ [_ [J _]]]. exact J. }
      rewrite (rsum_ext _ (fun w => 3 / 8 * crd inp i v + 3 / 8 * crd inp i w + 1 / 8 * crd inp i (p w) + 1 / 8 * crd inp i (q w))).
      - rewrite !rsum_plus, !rsum_scal, rsum_const. fold n.
        rewrite <- (rsum_map p (crd inp i)), <- (rsum_map q (crd inp i)), (rsum_perm _ _ _ Pp), (rsum_perm _ _ _ Pq). field.
      - intros w Hw. destruct (Fpq w Hw) as [F1 F2]. destruct (Hm v w (g w) (Hg w Hw)) as [_ [_ [H3 _]]]. apply H3; assumption. }
    rewrite Sum, R1. field. lra.
  - (* on the border *)
    intros B [Nb HB] Hne2 i. destruct (filter_border inp v Hv) as [C1 C2]. set (C := filter _ (ring inp v)) in *. assert (HC : border_neighbours inp v C) by (split; assumption).
    assert (Pb : Permutation B (map g C)).
    { apply NoDup_Permutation; [exact Nb| |].
      - apply NoDup_map_on; [|exact C1]. intros w w' Hw Hw'. apply Gi; [apply C2 in Hw; apply Hw|apply C2 in Hw'; apply Hw'].
      - intros y. rewrite HB, Ch, in_map_iff. split.
        + intros [a [b [e [Hb [Ee [[-> ->]|[-> ->]]]]]]]; [|exfalso; exact (Hin (New _ _ _ Ee))]. exists b. split; [|apply C2; exact Hb]. unfold g. rewrite Ee. reflexivity.
        + intros [w [<- Hw]]. apply C2 in Hw. exists v, w, (g w). split; [exact Hw|]. split; [apply Hg; exact (proj1 Hw)|auto]. }
    assert (Hne3 : C <> []). { intros X. rewrite X in Pb. cbn in Pb. apply Permutation_sym, Permutation_nil in Pb. contradiction. }
    destruct (Hof C HC) as [X|X]; [contradiction|]. destruct (HR i Hv Hd Hni Hc Hu E Hin) as [_ R2]. rewrite (R2 C HC Hne3), (X2 C HC Hne3 i).
    rewrite (rsum_perm _ _ _ Pb), rsum_map. rewrite (rsum_ext (fun w => crd out i (g w)) (fun w => 1 / 2 * crd inp i v + 1 / 2 * crd inp i w)).
    + rewrite rsum_plus, rsum_const, rsum_scal, X. cbn [INR]. field.
    + intros w Hw. apply C2 in Hw. destruct (Hm v w (g w) (Hg w (proj1 Hw))) as [_ [_ [_ H4]]]. rewrite (H4 Hw). field.
Qed.

Lemma limit_lev n inp out L v x : 0 <= L -> lev CLoop n inp out -> able CLoop n inp -> edges_within L inp -> oget v (pts inp) <> None -> loop_limit inp v x -> loop_limit out v x.
Proof.
  intros L0 H. revert L L0. induction H as [m|n inp fuel f m out E H IH]; intros L L0 A HL Hin HX; [exact HX|].
  pose proof A as A'. destruct A as [Hv [Hd [Hne [[T1 [T2 T3]] _]]]].
  destruct (able_step CLoop n inp fuel f m L A' L0 HL E) as [A1 [_ [F1 _]]].
  apply (IH (shrink CLoop * L)); [cbn; lra|exact A1|exact F1| |eapply limit_step; eauto; reflexivity].
  destruct (C03_any_filter_pf _ D (CellF CLoop) (fresh []) inp fuel f m (v_pts_sorted _ Hv) (v_pts_dim _ Hv) Hd E) as [_ [_ [_ K]]]. exact (K v Hin).
Qed.
End LIMIT.

Lemma C111_pf : forall (d : nat) (D : Type) (j : nat) (inp m1 : mesh (RO d) D) L v,
  valid inp -> dense inp -> tris inp <> [] -> no_isolated inp -> no_wire inp -> (forall w, one_fan inp w) -> edges_within L inp ->
  after CLoop j inp m1 -> oget v (pts m1) <> None ->
  (exists x, loop_limit m1 v x /\ forall y, loop_limit m1 v y -> forall i, y i = x i) /\
  forall x, loop_limit m1 v x -> forall k m2, (j <= k)%nat -> after CLoop k inp m2 ->
    loop_limit m2 v x /\ off m2 v x <= 5 / 8 * (7 / 8) ^ k * L.
Proof.
  intros d D j inp m1 L v Hv Hd Hne H1 H2 H3 HL Ha Hin. pose proof (within_pos inp L Hv Hne HL) as L0.
  assert (A : forall n, able CLoop n inp).
  { intros n. split; [exact Hv|]. split; [exact Hd|]. split; [exact Hne|]. split; [exact (conj H1 (conj H2 H3))|]. intros X. discriminate. }
  pose proof (after_lev CLoop L j inp m1 L0 Ha (A j) HL) as V1.
  destruct (lev_able CLoop L j 0 inp m1 L0 V1 (A _) HL) as [[Av [_ [_ [[T1 [_ T3]] _]]]] _].
  split; [apply limit_exists; auto|]. intros x Hx k m2 Hjk Hb.
  pose proof (after_lev CLoop L k inp m2 L0 Hb (A k) HL) as V2.
  destruct (lev_able CLoop L k 0 inp m2 L0 V2 (A _) HL) as [[Bv [_ [_ [[U1 [_ U3]] _]]]] E2].
  replace k with (j + (k - j))%nat in V2 by lia. destruct (lev_split CLoop j (k - j) inp m2 V2) as [m [X Y]].
  rewrite (lev_det CLoop j inp m m1 X V1) in *. destruct (lev_able CLoop L j (k - j) inp m1 L0 V1 (A _) HL) as [A1 E1].
  assert (P0 : 0 <= shrink CLoop ^ j * L) by (apply Rmult_le_pos; [apply pow_le; cbn; lra|exact L0]).
  assert (P1 : 0 <= shrink CLoop ^ k * L) by (apply Rmult_le_pos; [apply pow_le; cbn; lra|exact L0]).
  pose proof (limit_lev (k - j) m1 m2 _ v x P0 Y A1 E1 Hin Hx) as Hx2. split; [exact Hx2|].
  replace (5 / 8 * (7 / 8) ^ k * L) with (5 / 8 * (shrink CLoop ^ k * L)) by (cbn [shrink]; ring).
  apply limit_near; auto. destruct (lev_pts CLoop _ (k - j) m1 m2 P0 Y A1 E1) as [K _]. apply K. exact Hin.
Qed.
