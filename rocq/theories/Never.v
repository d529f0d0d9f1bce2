(** * Never: thresholds that no refinement can reach. *)
From Coq Require Import Reals Lra Psatz Sorted.
From Verif Require Import Base Mesh Filters Drivers Spec SpecSub Lists AddFace SplitTri Split Points Valid Run Update Struct Count Face Copy PtsAny SpecGeo Geo GeoProps SpecDrive Drive Area Cond DriveProps.

Section NEVER.
Context {O : Ops} {D : Type}.
Notation mesh := (mesh O D).
Implicit Types m inp out : mesh.

Lemma crit_or {t : K O} m old fuel : valid m ->
  cell_area_criterion t fuel m old = OutOfFuel \/ cell_area_criterion t fuel m old = Ok (asel t m).
Proof.
  intros Hv. destruct (area_crit_runs t m old Hv) as [n Hn].
  destruct (cell_area_criterion t fuel m old) as [x| | |] eqn:E; auto; right;
    (assert (E1 : cell_area_criterion t (fuel + n)%nat m old = cell_area_criterion t fuel m old) by (apply area_crit_mono; rewrite E; discriminate));
    rewrite Nat.add_comm, area_crit_mono in E1 by (rewrite Hn; discriminate); congruence.
Qed.

Lemma area_never s (t : K O) (G : mesh -> Prop) old f inp :
  (forall m, G m -> cond_start (CellF s) m) -> (forall m, G m -> long_cells t m <> []) ->
  (forall m f fuel f' m', G m -> update (CellF s) fuel (apply_selection f (asel t m)) m = Ok (f', m') -> G m') ->
  G (copy_geometry inp) ->
  diverges (fun fuel => conditional_update fuel (CellF s) (Some (cell_area_criterion t)) old f inp).
Proof.
  intros HG Hn Hst H0 fuel. unfold conditional_update. destruct (HG _ H0) as [Hv _].
  destruct (crit_or (t := t) (copy_geometry inp) old fuel Hv) as [E|E]; rewrite E; cbn [rbind]; [reflexivity|].
  apply (rounds_never (CellF s) (cell_area_criterion t) (asel t) G).
  - apply area_crit_mono.
  - intros m o Hm. apply area_crit_runs. apply HG. exact Hm.
  - intros n m o x Ex. apply area_crit_inv in Ex. apply Ex.
  - intros m f0 Hm _. apply area_ready. apply HG. exact Hm.
  - intros m Hm. destruct (HG m Hm) as [H1 [H2 _]]. auto.
  - intros m f0 n f1 m1 Hm _ Eu. eapply Hst; eauto.
  - intros m Hm. cbn. specialize (Hn m Hm). destruct (long_cells t m); [congruence|reflexivity].
  - exact H0.
Qed.
Lemma edge_never s (t : K O) (G : mesh -> Prop) old f inp :
  (forall m, G m -> cond_start (EdgeF s) m) -> (forall m, G m -> long_edges t m <> []) ->
  (forall m f fuel f' m', G m -> long_edges t m <> [] -> update (EdgeF s) fuel (apply_selection f (esl_ t m)) m = Ok (f', m') -> G m') ->
  G (copy_geometry inp) ->
  diverges (fun fuel => conditional_update fuel (EdgeF s) (Some (edge_length_criterion t)) old f inp).
Proof.
  intros HG Hn Hst H0 fuel. unfold conditional_update. destruct (HG _ H0) as [Hv _].
  rewrite (edge_crit_runs t (copy_geometry inp) old fuel Hv). cbn [rbind].
  apply (rounds_never (EdgeF s) (edge_length_criterion t) (esl_ t) G).
  - apply edge_crit_mono.
  - intros m o Hm. exists 0%nat. apply edge_crit_runs. apply HG. exact Hm.
  - intros n m o x Ex. apply edge_crit_inv in Ex. apply Ex.
  - intros m f0 Hm He. apply edge_ready; [apply HG; exact Hm|exact He].
  - intros m Hm. destruct (HG m Hm) as [H1 [H2 _]]. auto.
  - intros m f0 n f1 m1 Hm He Eu. eapply Hst; eauto.
  - intros m Hm. cbn. specialize (Hn m Hm). destruct (long_edges t m); [congruence|reflexivity].
  - exact H0.
Qed.
End NEVER.

Section REALNEVER.
Context {d : nat} {D : Type}.
Notation mesh := (mesh (RO d) D).
Implicit Types m inp out : mesh.

Lemma long_cells_some t m u : valid m -> In u (tris m) -> (t < tri_area m u)%R -> long_cells (O := RO d) t m <> [].
Proof.
  intros Hv Hu Hlt E. unfold tris in Hu. apply in_map_iff in Hu. destruct Hu as [[i u'] [Eu Hi]]. cbn in Eu. subst u'.
  assert (Hin : In i (long_cells (O := RO d) t m)) by (apply (long_cells_R t m i Hv); eauto). rewrite E in Hin. destruct Hin.
Qed.
Lemma long_edges_some t m a b : valid m -> joined m a b -> (t < seg_length m a b)%R -> long_edges (O := RO d) t m <> [].
Proof.
  intros Hv Hj Hlt E. destruct (proj2 (long_edges_R t m a b Hv) (conj Hj Hlt)) as [H|H]; rewrite E in H; destruct H.
Qed.
Lemma some_joined m : valid m -> tris m <> [] -> exists a b, joined m a b.
Proof.
  intros Hv Hne. destruct (tris m) as [|[[a b] c] T] eqn:E; [congruence|]. exists a, b. apply (v_face_edges _ Hv).
  rewrite E. cbn. auto.
Qed.
Lemma seg_nonneg m a b : (0 <= seg_length m a b)%R. Proof. apply sqrt_pos. Qed.
Lemma seg_pos m a b : (0 < seg_length m a b)%R <-> (0 < dot m a b b)%R.
Proof.
  unfold seg_length. split; intros H; [|apply sqrt_lt_R0; exact H].
  destruct (Rlt_dec 0 (dot m a b b)) as [H1|H1]; [exact H1|]. rewrite sqrt_neg_0 in H by lra. lra.
Qed.

(** A split triangle with a non-degenerate side keeps one. *)
Lemma half_edge k f inp fuel f' out a b : is_linear k -> valid inp -> dense inp -> ready k f inp -> update k fuel f inp = Ok (f', out) ->
  In (a, b) (dirs (tris inp)) -> exists y, In (a, y) (dirs (tris out)) /\
    (0 < dot inp a b b -> 0 < dot out a y y)%R.
Proof.
  intros Hk Hv Hd Hr E Hab. destruct (linear_facts k f inp fuel f' out Hk Hv Hd Hr E) as [mid [Ls [FR [Hold Hmid]]]].
  pose proof (fr_sub _ _ _ _ _ _ _ FR) as Hsd. apply dirs_tri in Hab. destruct Hab as [t [Ht Hab]].
  assert (Hpa : oget a (pts inp) <> None) by (apply (v_verts _ Hv t); [exact Ht|apply tdirs_verts in Hab; apply Hab]).
  assert (Hpb : oget b (pts inp) <> None) by (apply (v_verts _ Hv t); [exact Ht|apply tdirs_verts in Hab; apply Hab]).
  assert (Hd1 : exists y, In (a, y) (dirs (split_tri mid t)) /\ (mid a b = None /\ y = b \/ mid a b = Some y)).
  { destruct t as [[u v] w]. cbn in Hab. unfold split_tri.
    destruct Hab as [Hab|[Hab|[Hab|[]]]]; injection Hab as <- <-;
    destruct (mid u v) as [e0|] eqn:E0; destruct (mid v w) as [e1|] eqn:E1; destruct (mid w u) as [e2|] eqn:E2;
    (eexists; split; [|first [left; split; reflexivity|right; reflexivity]]); cbn; auto 14. }
  destruct Hd1 as [y [Hy Hc]]. exists y. split.
  - apply dirs_tri in Hy. destruct Hy as [u [Hu Hy]]. apply dirs_tri. exists u. split; [|exact Hy].
    rewrite (sd_tris _ _ _ _ _ Hsd), (fr_Ls _ _ _ _ _ _ _ FR). apply in_concat. exists (split_tri mid t). split; [apply in_map; exact Ht|exact Hu].
  - intros Hpos. destruct Hc as [[_ ->]|Hc].
    + replace (dot out a b b) with (dot inp a b b); [exact Hpos|]. unfold dot. apply rsum_ext. intros i _. rewrite !Hold by assumption. ring.
    + replace (dot out a y y) with (1 / 4 * dot inp a b b)%R; [lra|]. unfold dot. rewrite <- rsum_scal. apply rsum_ext. intros i _.
      rewrite (Hold i a Hpa), (Hmid _ _ _ i Hc). field.
Qed.
End REALNEVER.

Lemma C50_negative_area_pf : forall (d : nat) (D : Type) s (maxarea : R) old f (inp : mesh (RO d) D),
  valid inp -> dense inp -> tris inp <> [] -> s <> CSqrt3 -> (s = CLoop -> no_isolated inp /\ no_wire inp) -> (maxarea < 0)%R ->
  diverges (fun fuel => conditional_update fuel (CellF s) (Some (cell_area_criterion (O := RO d) maxarea)) old f inp).
Proof.
  intros d D s t old f inp Hv Hd Hne Hs Hl Ht. apply (area_never (O := RO d) s t (cond_start (CellF s))).
  - auto.
  - intros m [Hm [_ [Hn _]]]. destruct (tris m) as [|u T] eqn:E; [congruence|].
    apply (long_cells_some t m u Hm); [rewrite E; cbn; auto|]. pose proof (tri_area_nonneg m u). lra.
  - intros m f0 n f1 m1 H0 E. eapply start_step; [exact H0|apply (area_ready (O := RO d)); exact H0|exact E].
  - apply copy_start. apply start_of; auto; [unfold splits_faces; congruence|]. intros [E|E]; [apply Hl|]; congruence.
Qed.
Lemma C50_zero_area_pf : forall (d : nat) (D : Type) old f (inp : mesh (RO d) D) t,
  valid inp -> dense inp -> In t (tris inp) -> (0 < tri_area inp t)%R ->
  diverges (fun fuel => conditional_update fuel (CellF CLinear) (Some (cell_area_criterion (O := RO d) 0%R)) old f inp).
Proof.
  intros d D old f inp u Hv Hd Hu Hpos.
  apply (area_never (O := RO d) CLinear 0%R (fun m => cond_start (CellF CLinear) m /\ exists u, In u (tris m) /\ (0 < tri_area m u)%R)).
  - intros m [H _]. exact H.
  - intros m [[Hm _] [v [H1 H2]]]. apply (long_cells_some 0 m v Hm H1 H2).
  - intros m f0 n f1 m1 [H0 [v [H1 H2]]] E. pose proof (area_ready (O := RO d) CLinear 0%R m f0 H0) as Hr.
    split; [eapply start_step; [exact H0|exact Hr|exact E]|]. destruct H0 as [Hm [Hdm _]].
    destruct (linear_facts _ _ m n f1 m1 (or_introl eq_refl) Hm Hdm Hr E) as [mid [Ls [FR [Hold Hmid]]]].
    pose proof (fr_sub _ _ _ _ _ _ _ FR) as Hsd. destruct v as [[a b] c].
    assert (Hpa : oget a (pts m) <> None) by (apply (v_verts _ Hm _ _ H1); cbn; auto).
    assert (Hpb : oget b (pts m) <> None) by (apply (v_verts _ Hm _ _ H1); cbn; auto).
    assert (Hpc : oget c (pts m) <> None) by (apply (v_verts _ Hm _ _ H1); cbn; auto).
    assert (Hx : exists w, In w (split_triangle a b c (mid a b) (mid b c) (mid c a))).
    { destruct (mid a b), (mid b c), (mid c a); cbn; eauto. }
    destruct Hx as [w Hw]. exists w. split.
    + rewrite (sd_tris _ _ _ _ _ Hsd), (fr_Ls _ _ _ _ _ _ _ FR). apply in_concat. exists (split_tri mid (a, b, c)).
      split; [apply in_map; exact H1|exact Hw].
    + destruct (child_area m m1 mid Hold Hmid a b c Hpa Hpb Hpc w Hw) as [x [-> [Hx _]]]. nra.
  - split.
    + apply copy_start. apply start_of; auto; [intros E; rewrite E in Hu; destruct Hu|unfold splits_faces; congruence|]. intros [E|E]; discriminate.
    + destruct (copy_shape inp Hv) as [Hp [Ht _]]. exists u. rewrite Ht, (same_shape_area inp _ Hp). auto.
Qed.
Lemma C50_negative_length_pf : forall (d : nat) (D : Type) s (maxlen : R) old f (inp : mesh (RO d) D),
  valid inp -> dense inp -> tris inp <> [] -> (s = ELoop -> no_isolated inp /\ no_wire inp) -> (maxlen < 0)%R ->
  diverges (fun fuel => conditional_update fuel (EdgeF s) (Some (edge_length_criterion (O := RO d) maxlen)) old f inp).
Proof.
  intros d D s t old f inp Hv Hd Hne Hl Ht. apply (edge_never (O := RO d) s t (cond_start (EdgeF s))).
  - auto.
  - intros m [Hm [_ [Hn _]]]. destruct (some_joined m Hm Hn) as [a [b Hj]].
    apply (long_edges_some t m a b Hm Hj). pose proof (seg_nonneg m a b). lra.
  - intros m f0 n f1 m1 H0 He E. eapply start_step; [exact H0|apply (edge_ready (O := RO d)); [exact H0|]|exact E].
    cbn. destruct (long_edges (O := RO d) t m); [congruence|reflexivity].
  - apply copy_start. apply start_of; auto; [unfold splits_faces; congruence|]. intros [E|E]; [|apply Hl]; congruence.
Qed.
Lemma C50_zero_length_pf : forall (d : nat) (D : Type) old f (inp : mesh (RO d) D) a b,
  valid inp -> dense inp -> In (a, b) (dirs (tris inp)) -> (0 < seg_length inp a b)%R ->
  diverges (fun fuel => conditional_update fuel (EdgeF ELinear) (Some (edge_length_criterion (O := RO d) 0%R)) old f inp).
Proof.
  intros d D old f inp a b Hv Hd Hu Hpos.
  apply (edge_never (O := RO d) ELinear 0%R (fun m => cond_start (EdgeF ELinear) m /\ exists a b, In (a, b) (dirs (tris m)) /\ (0 < dot m a b b)%R)).
  - intros m [H _]. exact H.
  - intros m [[Hm _] [x [y [H1 H2]]]]. apply (long_edges_some 0 m x y Hm); [apply (v_face_edges _ Hm); exact H1|apply seg_pos; exact H2].
  - intros m f0 n f1 m1 [H0 [x [y [H1 H2]]]] He E.
    assert (Hr : ready (EdgeF ELinear) (apply_selection f0 (esl_ (O := RO d) 0%R m)) m).
    { apply (edge_ready (O := RO d)); [exact H0|]. cbn. destruct (long_edges (O := RO d) 0%R m); [congruence|reflexivity]. }
    split; [eapply start_step; [exact H0|exact Hr|exact E]|]. destruct H0 as [Hm [Hdm _]].
    destruct (half_edge _ _ m n f1 m1 x y (or_intror eq_refl) Hm Hdm Hr E H1) as [z [Hz Hp]]. exists x, z. split; [exact Hz|apply Hp; exact H2].
  - split.
    + apply copy_start. apply start_of; auto; [intros E; rewrite E in Hu; destruct Hu|unfold splits_faces; congruence|]. intros [E|E]; discriminate.
    + destruct (copy_shape inp Hv) as [Hp [Ht _]]. exists a, b. rewrite Ht, (same_shape_dot inp _ Hp). split; [exact Hu|]. apply seg_pos. exact Hpos.
Qed.
