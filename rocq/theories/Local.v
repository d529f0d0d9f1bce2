(** * Local: every output point depends on few input points. *)
From Verif Require Import Base Mesh Filters Spec SpecSub SpecGeo SpecRoot3 SpecLocal Lists AddFace Points Valid Run Update Struct Face Conn GeoProps
  Root3Run Root3Main.

Lemma udistinct_eq I e f : udistinct I -> In e I -> In f I -> undirected_eq e f -> e = f.
Proof.
  intros H He Hf Hu. apply In_nth_error in He. destruct He as [i Hi]. apply In_nth_error in Hf. destruct Hf as [j Hj].
  assert (i = j) as -> by (eapply H; eauto). congruence.
Qed.
Lemma und_common e f a b : undirected_eq e (a, b) -> undirected_eq f (a, b) -> undirected_eq e f.
Proof. unfold undirected_eq. destruct e, f; cbn. intros [H1|H1] [H2|H2]; inv H1; inv H2; auto. Qed.

Section LOC.
Context {O : Ops} {D1 D2 : Type}.
Variables (m1 : mesh O D1) (m2 : mesh O D2).
Hypothesis HS : same_connectivity m1 m2.
Hypothesis Hv : valid m1.

Lemma loc_get x : oget x (pts m1) = oget x (pts m2) -> get_pt m1 x = get_pt m2 x.
Proof. intros H. unfold get_pt. rewrite H. reflexivity. Qed.
Lemma loc_dest o o' : o = o' -> (forall e, o = Some e -> oget (snd e) (pts m1) = oget (snd e) (pts m2)) ->
  dest_or_zero m1 o = dest_or_zero m2 o'.
Proof. intros <- H. unfold dest_or_zero. destruct o as [e|]; [|reflexivity]. apply loc_get. apply H. reflexivity. Qed.
Lemma onext_in e f : onext m1 e = Some f -> fst f = fst e /\ joined m1 (fst e) (snd f).
Proof.
  unfold onext. destruct (succ_in (ring m1 (fst e)) (snd e)) as [c|] eqn:E; [|discriminate]. cbn. intros H. inv H. cbn. split; [reflexivity|].
  eapply succ_joined; eauto.
Qed.
Lemma oprev_in e f : oprev m1 e = Some f -> fst f = fst e /\ joined m1 (fst e) (snd f).
Proof.
  unfold oprev. destruct (pred_in (ring m1 (fst e)) (snd e)) as [c|] eqn:E; [|discriminate]. cbn. intros H. inv H. cbn. split; [reflexivity|].
  eapply pred_joined; eauto.
Qed.
Lemma left_set_face a b : left_set m1 (a, b) = true -> exists c, is_face m1 a b c.
Proof. intros H. apply (valid_left m1 (a, b) Hv) in H. apply dir_is_face in H. exact H. Qed.

Lemma loc_linear e : agree_on (edge_support (CellF CLinear) m1 (fst e) (snd e)) m1 m2 -> linear_point m1 e = linear_point m2 e.
Proof. intros H. unfold linear_point. rewrite !(loc_get _ (H _ (or_introl eq_refl))), (loc_get _ (H _ (or_intror eq_refl))). reflexivity. Qed.
Lemma loc_loop e : agree_on (edge_support (CellF CLoop) m1 (fst e) (snd e)) m1 m2 -> loop_point m1 e = loop_point m2 e.
Proof.
  intros H. unfold loop_point. rewrite <- (same_internal m1 m2 HS), <- (same_at_border m1 m2 HS).
  assert (E0 : get_pt m1 (fst e) = get_pt m2 (fst e)) by (apply loc_get, H; left; reflexivity).
  assert (E1 : get_pt m1 (snd e) = get_pt m2 (snd e)) by (apply loc_get, H; right; left; reflexivity).
  rewrite E0, E1. destruct (is_internal m1 e) eqn:Ei; [|reflexivity]. unfold is_internal in Ei. apply andb_true_iff in Ei. destruct Ei as [I1 I2].
  destruct e as [a b]. apply left_set_face in I1. destruct I1 as [c Hc]. unfold right_set, sym in I2. cbn [fst snd] in *. apply left_set_face in I2. destruct I2 as [d Hd].
  rewrite (loc_dest (lnext m1 (a, b)) (lnext m2 (a, b))), (loc_dest (rprev m1 (a, b)) (rprev m2 (a, b))); try reflexivity.
  - apply same_rprev. exact HS.
  - intros e He. rewrite (face_rprev _ _ _ _ Hv Hd) in He. inv He. apply H. right. right. right. exact Hd.
  - apply same_lnext. exact HS.
  - intros e He. rewrite (face_lnext _ _ _ _ Hv Hc) in He. inv He. apply H. right. right. left. exact Hc.
Qed.
Lemma loc_butterfly e : agree_on (edge_support (CellF CButterfly) m1 (fst e) (snd e)) m1 m2 -> butterfly_point m1 e = butterfly_point m2 e.
Proof.
  intros H. unfold butterfly_point. cbn [edge_support] in H.
  assert (E0 : get_pt m1 (fst e) = get_pt m2 (fst e)).
  { apply loc_get, H. left. exists (fst e). split; left; reflexivity. }
  assert (E1 : get_pt m1 (snd e) = get_pt m2 (snd e)).
  { apply loc_get, H. right. exists (snd e). split; left; reflexivity. }
  assert (W1 : forall f, lnext m1 e = Some f \/ rprev m1 e = Some f -> fst f = snd e /\ joined m1 (snd e) (snd f)).
  { intros f [Hf|Hf]; [apply oprev_in in Hf|apply onext_in in Hf]; exact Hf. }
  assert (W2 : forall f, lprev m1 e = Some f \/ rnext m1 e = Some f -> snd f = fst e).
  { unfold lprev, rnext. intros f [Hf|Hf]; [destruct (onext m1 e) as [g|] eqn:E|destruct (oprev m1 e) as [g|] eqn:E]; try discriminate; cbn in Hf; inv Hf; cbn;
      [apply onext_in in E|apply oprev_in in E]; apply E. }
  assert (A1 : forall x, joined m1 (snd e) x -> oget x (pts m1) = oget x (pts m2)).
  { intros x Hx. apply H. right. exists x. split; [right; exact Hx|left; reflexivity]. }
  assert (A2 : forall c x, joined m1 (snd e) c -> joined m1 c x -> oget x (pts m1) = oget x (pts m2)).
  { intros c x Hc Hx. apply H. right. exists c. split; right; assumption. }
  assert (A3 : forall x, joined m1 (fst e) x -> oget x (pts m1) = oget x (pts m2)).
  { intros x Hx. apply H. left. exists x. split; [right; exact Hx|left; reflexivity]. }
  assert (L : forall g, lnext m1 g = lnext m2 g) by (intros; apply same_lnext; exact HS).
  assert (R : forall g, rprev m1 g = rprev m2 g) by (intros; apply same_rprev; exact HS).
  assert (LP : lprev m1 e = lprev m2 e) by (unfold lprev; rewrite (same_onext m1 m2 HS); reflexivity).
  assert (RN : rnext m1 e = rnext m2 e) by (unfold rnext; rewrite (same_oprev m1 m2 HS); reflexivity).
  assert (X2 : dest_or_zero m1 (lnext m1 e) = dest_or_zero m2 (lnext m2 e)).
  { apply loc_dest; [apply L|]. intros f Hf. apply A1. apply W1. auto. }
  assert (X3 : dest_or_zero m1 (rprev m1 e) = dest_or_zero m2 (rprev m2 e)).
  { apply loc_dest; [apply R|]. intros f Hf. apply A1. apply W1. auto. }
  assert (X4 : dest_or_zero m1 (obind (lnext m1 e) (rprev m1)) = dest_or_zero m2 (obind (lnext m2 e) (rprev m2))).
  { apply loc_dest; [rewrite L; apply same_obind; exact R|]. intros f Hf. destruct (lnext m1 e) as [g|] eqn:Eg; [|discriminate]. cbn in Hf.
    destruct (W1 g (or_introl eq_refl)) as [_ Hg]. apply onext_in in Hf. apply (A2 (snd g)); [exact Hg|apply Hf]. }
  assert (X5 : dest_or_zero m1 (obind (rprev m1 e) (lnext m1)) = dest_or_zero m2 (obind (rprev m2 e) (lnext m2))).
  { apply loc_dest; [rewrite R; apply same_obind; exact L|]. intros f Hf. destruct (rprev m1 e) as [g|] eqn:Eg; [|discriminate]. cbn in Hf.
    destruct (W1 g (or_intror eq_refl)) as [_ Hg]. apply oprev_in in Hf. apply (A2 (snd g)); [exact Hg|apply Hf]. }
  assert (X6 : dest_or_zero m1 (obind (lprev m1 e) (rprev m1)) = dest_or_zero m2 (obind (lprev m2 e) (rprev m2))).
  { apply loc_dest; [rewrite LP; apply same_obind; exact R|]. intros f Hf. destruct (lprev m1 e) as [g|] eqn:Eg; [|discriminate]. cbn in Hf.
    apply onext_in in Hf. unfold sym in Hf. cbn [fst snd] in Hf. rewrite (W2 g (or_introl eq_refl)) in Hf. apply A3. apply Hf. }
  assert (X7 : dest_or_zero m1 (obind (rnext m1 e) (lnext m1)) = dest_or_zero m2 (obind (rnext m2 e) (lnext m2))).
  { apply loc_dest; [rewrite RN; apply same_obind; exact L|]. intros f Hf. destruct (rnext m1 e) as [g|] eqn:Eg; [|discriminate]. cbn in Hf.
    apply oprev_in in Hf. unfold sym in Hf. cbn [fst snd] in Hf. rewrite (W2 g (or_intror eq_refl)) in Hf. apply A3. apply Hf. }
  rewrite E0, E1, X2, X3, X4, X5, X6, X7. reflexivity.
Qed.
Lemma loc_new k e : k <> CellF CSqrt3 -> agree_on (edge_support k m1 (fst e) (snd e)) m1 m2 -> new_point k m1 e = new_point k m2 e.
Proof.
  intros Hk H. destruct k as [[| | |]|[| |]]; cbn [new_point cell_point edge_point]; try congruence;
    first [apply loc_linear; exact H|apply loc_loop; exact H|apply loc_butterfly; exact H].
Qed.
Lemma support_sym k a b x : edge_support k m1 a b x <-> edge_support k m1 b a x.
Proof. destruct k as [[| | |]|[| |]]; cbn [edge_support]; tauto. Qed.

Lemma loc_sums v r : (forall d, In d r -> oget d (pts m1) = oget d (pts m2)) -> forall bpt nb opt nn,
  smooth_sums m1 v r bpt nb opt nn = smooth_sums m2 v r bpt nb opt nn.
Proof.
  induction r as [|d r IH]; intros H bpt nb opt nn; cbn [smooth_sums]; [reflexivity|]. unfold elem_pt. rewrite <- (H d (or_introl eq_refl)).
  rewrite <- (same_at_border m1 m2 HS). destruct (oget d (pts m1)); cbn [rbind]; [|reflexivity].
  destruct (is_at_border m1 (v, d)); apply IH; intros; apply H; right; assumption.
Qed.
Lemma loc_smooth v p : (forall d, joined m1 v d -> oget d (pts m1) = oget d (pts m2)) -> smoothing_point m1 v p = smoothing_point m2 v p.
Proof.
  intros H. unfold smoothing_point. rewrite <- (same_ring m1 m2 HS). destruct (ring m1 v) as [|d r] eqn:E; [reflexivity|].
  rewrite (loc_sums v (d :: r)); [reflexivity|]. intros x Hx. apply H. unfold joined. rewrite E. exact Hx.
Qed.
End LOC.

Lemma C98_pf : forall (O : Ops) (D1 D2 : Type) k f (inp1 : mesh O D1) (inp2 : mesh O D2) fuel1 fuel2 f1 f2 out1 out2,
  valid inp1 -> valid inp2 -> dense inp1 -> ready k f inp1 -> same_connectivity inp1 inp2 ->
  update k fuel1 f inp1 = Ok (f1, out1) -> update k fuel2 f inp2 = Ok (f2, out2) ->
  (forall v, oget v (pts inp1) <> None -> agree_on (vertex_support k inp1 v) inp1 inp2 -> oget v (pts out1) = oget v (pts out2)) /\
  exists mid Ls, subdivision inp1 out1 (to_split k f inp1) mid Ls /\ subdivision inp2 out2 (to_split k f inp2) mid Ls /\
    forall a b m, mid a b = Some m -> agree_on (edge_support k inp1 a b) inp1 inp2 -> oget m (pts out1) = oget m (pts out2).
Proof.
  intros O D1 D2 k f inp1 inp2 fuel1 fuel2 f1 f2 out1 out2 Hv1 Hv2 Hd Hr HS E1 E2.
  pose proof (same_dense _ _ HS Hd) as Hd2. pose proof (same_ready _ _ HS k f Hr) as Hr2.
  destruct (face_run k f inp1 fuel1 f1 out1 Hv1 Hd Hr E1) as [mid [Ls F1]]. destruct (face_run k f inp2 fuel2 f2 out2 Hv2 Hd2 Hr2 E2) as [mid2 [Ls2 F2]].
  assert (EI : inserted k f inp1 = inserted k f inp2).
  { apply (inserted_same k k f f inp1 inp2); auto; try apply HS. destruct k; exact I. }
  assert (Em : mid = mid2).
  { rewrite (fr_mid _ _ _ _ _ _ _ F1), (fr_mid _ _ _ _ _ _ _ F2), EI, (same_size _ _ HS). reflexivity. }
  assert (EL : Ls = Ls2).
  { rewrite (fr_Ls _ _ _ _ _ _ _ F1), (fr_Ls _ _ _ _ _ _ _ F2), Em. unfold tris. rewrite (same_faces _ _ HS). reflexivity. }
  subst mid2 Ls2. assert (Hu : udistinct (inserted k f inp1)).
  { destruct k as [s|s]; cbn [inserted]; [apply ins_list_udistinct|]. apply (edges_ready_of s f inp1 Hv1 Hr). }
  assert (Hk : k <> CellF CSqrt3) by (intros ->; apply Hr; reflexivity).
  split.
  - intros v Hov Ha. destruct (oget v (pts inp1)) as [p|] eqn:Ep; [|congruence].
    assert (Ep2 : oget v (pts inp2) = Some p).
    { rewrite <- (Ha v); [exact Ep|]. destruct k as [[| | |]|[| |]]; cbn [vertex_support]; try reflexivity. left. reflexivity. }
    assert (Hc : k = CellF CLoop \/ k <> CellF CLoop) by (destruct k as [[| | |]|[| |]]; auto; right; discriminate).
    destruct Hc as [Hc|Hc].
    + pose proof (fr_old_loop _ _ _ _ _ _ _ F1 v p Ep Hc) as G1. pose proof (fr_old_loop _ _ _ _ _ _ _ F2 v p Ep2 Hc) as G2.
      destruct (smooths f v); [|congruence]. rewrite (loc_smooth inp1 inp2 HS v p) in G1; [rewrite G1 in G2|].
      * destruct (oget v (pts out1)), (oget v (pts out2)); congruence.
      * intros d Hd'. apply Ha. subst k. right. exact Hd'.
    + rewrite (fr_old _ _ _ _ _ _ _ F1 v p Ep Hc), (fr_old _ _ _ _ _ _ _ F2 v p Ep2 Hc). reflexivity.
  - exists mid, Ls. split; [apply (fr_sub _ _ _ _ _ _ _ F1)|]. split; [apply (fr_sub _ _ _ _ _ _ _ F2)|].
    intros a b m Hm Ha. destruct (fr_new _ _ _ _ _ _ _ F1 a b m Hm) as [e [p [Ue [Ie [Pe Ge]]]]].
    destruct (fr_new _ _ _ _ _ _ _ F2 a b m Hm) as [e' [p' [Ue' [Ie' [Pe' Ge']]]]]. rewrite <- EI in Ie'.
    assert (e' = e) as -> by (eapply udistinct_eq; eauto; eapply und_common; eauto).
    rewrite Ge, Ge'. rewrite (loc_new inp1 inp2 HS Hv1 k e Hk) in Pe; [congruence|].
    intros x Hx. apply Ha. destruct Ue as [->| ->]; [exact Hx|]. unfold sym in Hx. cbn in Hx. apply support_sym. exact Hx.
Qed.

Lemma C98_root3_pf : forall (O : Ops) (D1 D2 : Type) f (inp1 : mesh O D1) (inp2 : mesh O D2) fuel1 fuel2 f1 f2 out1 out2,
  valid inp1 -> valid inp2 -> dense inp1 -> ready3 f inp1 -> same_connectivity inp1 inp2 ->
  update (CellF CSqrt3) fuel1 f inp1 = Ok (f1, out1) -> update (CellF CSqrt3) fuel2 f inp2 = Ok (f2, out2) ->
  (forall v, oget v (pts inp1) <> None -> oget v (pts inp1) = oget v (pts inp2) -> oget v (pts out1) = oget v (pts out2)) /\
  exists cen, root3_subdivision inp1 out1 (selected inp1 (csel f)) cen /\ root3_subdivision inp2 out2 (selected inp2 (csel f)) cen /\
    forall t g, In t (tris inp1) -> cen t = Some g -> agree_on (fun x => In x (tverts t)) inp1 inp2 -> oget g (pts out1) = oget g (pts out2).
Proof.
  intros O D1 D2 f inp1 inp2 fuel1 fuel2 f1 f2 out1 out2 Hv1 Hv2 Hd Hr HS E1 E2.
  pose proof (same_dense _ _ HS Hd) as Hd2.
  assert (Hr2 : ready3 f inp2).
  { assert (EV : nV inp2 = nV inp1) by (pose proof (same_size _ _ HS) as Hz; unfold osize in Hz; unfold nV; lia).
    assert (EF : nF inp2 = nF inp1) by (unfold nF; destruct HS as [_ [_ [-> _]]]; reflexivity).
    unfold ready3, existing in *. rewrite <- (same_faces _ _ HS), EV, EF. exact Hr. }
  pose proof (root3_run f inp1 fuel1 f1 out1 Hv1 Hd Hr E1) as R1. pose proof (root3_run f inp2 fuel2 f2 out2 Hv2 Hd2 Hr2 E2) as R2.
  assert (Ec : cenm inp1 f = cenm inp2 f).
  { unfold cenm, visited, sel_tris, tris. rewrite (same_size _ _ HS), (same_faces _ _ HS). reflexivity. }
  rewrite <- Ec in R2. split.
  - intros v Hov Ha. destruct (oget v (pts inp1)) as [p|] eqn:Ep; [|congruence].
    rewrite (rr_old _ _ _ _ _ R1 v p Ep), (rr_old _ _ _ _ _ R2 v p (eq_sym Ha)). reflexivity.
  - exists (cenm inp1 f). split; [apply (rr_sub _ _ _ _ _ R1)|]. split; [apply (rr_sub _ _ _ _ _ R2)|].
    intros t g Ht Hg Ha. rewrite (rr_new _ _ _ _ _ R1 t g Ht Hg), (rr_new _ _ _ _ _ R2 t g); [| |exact Hg].
    + f_equal. unfold cpt, centre_point. destruct t as [[a b] c]. unfold elem_pt.
      rewrite (Ha a), (Ha b), (Ha c) by (cbn; auto). reflexivity.
    + unfold tris. rewrite <- (same_faces _ _ HS). exact Ht.
Qed.
