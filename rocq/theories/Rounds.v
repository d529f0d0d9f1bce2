(** * Rounds: how many rounds the conditional filter needs, and how large the output gets (C104). *)
From Coq Require Import Reals Lra Psatz Permutation.
From Verif Require Import Base Mesh Filters Drivers Spec SpecSub SpecGeo SpecDrive Lists AddFace SplitTri Split Points Valid Run Update Struct Count Face Copy PtsAny Geo GeoProps Conn Drive Area Cond FaceProps DriveProps Conv CondLoop.
Open Scope R_scope.

(** ** Size *)
Lemma nsplit_le mid t : (nsplit mid t <= 3)%nat.
Proof. destruct t as [[a b] c]. unfold nsplit. cbn [tdirs filter]. repeat match goal with |- context [if ?x then _ else _] => destruct x end; cbn; lia. Qed.
Lemma refines_le mid T Ls : Forall2 (refines mid) T Ls -> (length (concat Ls) <= 4 * length T)%nat.
Proof.
  induction 1 as [|t L T Ls H HF IH]; [cbn; lia|]. cbn [concat length]. rewrite app_length.
  pose proof (rf_count _ _ _ H). pose proof (nsplit_le mid t). lia.
Qed.
Lemma chained_size {O D} (inp : mesh O D) n out : valid inp -> dense inp -> tris inp <> [] -> chained inp n out ->
  valid out /\ dense out /\ tris out <> [] /\ (length (tris out) <= 4 ^ n * length (tris inp))%nat.
Proof.
  intros Hv Hd Hne H. induction H as [|n m k f fuel f' out H IH Hr E]; [cbn; repeat (split; [assumption|]); lia|].
  destruct IH as [V [De [Ne Hle]]]. destruct (step_ok k f m fuel f' out V De Ne Hr E) as [V1 [D1 [N1 _]]].
  split; [exact V1|]. split; [exact D1|]. split; [exact N1|].
  destruct (face_run k f m fuel f' out V De Hr E) as [mid [Ls FR]]. pose proof (fr_sub _ _ _ _ _ _ _ FR) as Hsd.
  rewrite (sd_tris _ _ _ _ _ Hsd). pose proof (refines_le _ _ _ (sd_refines _ _ _ _ _ Hsd)). cbn [Nat.pow]. lia.
Qed.

Section COUNT.
Context {d : nat} {D : Type}.
Notation mesh := (mesh (RO d) D).
Implicit Types m inp out : mesh.

(** ** Areas *)
Lemma area_round (t : R) m f n0 f1 m1 : 0 < t -> cond_start (CellF CLinear) m ->
  update (CellF CLinear) n0 (apply_selection f (asel (O := RO d) t m)) m = Ok (f1, m1) ->
  (forall k, (forall u, In u (tris m) -> tri_area m u <= t * 4 ^ S k) -> forall u, In u (tris m1) -> tri_area m1 u <= t * 4 ^ k) /\
  (forall j, (exists u, In u (tris m) /\ t * 4 ^ S j < tri_area m u) -> exists u, In u (tris m1) /\ t * 4 ^ j < tri_area m1 u).
Proof.
  intros Ht H0 E. pose proof (area_ready (O := RO d) CLinear t m f H0) as Hr. destruct H0 as [Hm [Hdm _]].
  destruct (linear_facts _ _ m n0 f1 m1 (or_introl eq_refl) Hm Hdm Hr E) as [mid [Ls [FR [Hold Hmid]]]].
  assert (Hsel : forall a b c, In (a, b, c) (tris m) -> t < tri_area m (a, b, c) -> all_three (mid a b) (mid b c) (mid c a) = true).
  { intros a b c Hin Hs1.
    assert (Hs : exists i, In i (long_cells (O := RO d) t m) /\ In (i, (a, b, c)) (faces m)).
    { unfold tris in Hin. apply in_map_iff in Hin. destruct Hin as [[i u'] [Eu Hi]]. cbn in Eu. subst u'. exists i.
      split; [|exact Hi]. apply (long_cells_R t m i Hm). exists (a, b, c). split; [exact Hi|]. lra. }
    destruct Hs as [i [Hi1 Hi2]]. apply all_three_nsplit.
    eapply selected_nsplit; [exact (fr_sub _ _ _ _ _ _ _ FR)|intros x y Hxy; exact Hxy|]. right. exists i. split; [exact Hi1|exact Hi2]. }
  assert (Hch : forall a b c, In (a, b, c) (tris m) -> forall u, In u (split_triangle a b c (mid a b) (mid b c) (mid c a)) ->
    exists w, tri_area m1 u = w * tri_area m (a, b, c) /\ 0 < w <= 1 /\ (all_three (mid a b) (mid b c) (mid c a) = true -> w = 1 / 4)).
  { intros a b c Hin. apply child_area; auto; apply (v_verts _ Hm _ _ Hin); cbn; auto. }
  split.
  - intros k HQ u Hu. destruct (out_tri_parent _ _ _ _ _ _ _ u Hm FR Hu) as [a [b [c [Hin Hu']]]].
    destruct (Hch a b c Hin u Hu') as [w [-> [Hw Hw4]]].
    pose proof (tri_area_nonneg m (a, b, c)) as Hnn. pose proof (HQ _ Hin) as Hle. cbn [pow] in Hle.
    assert (H1n : 1 <= 4 ^ k) by (apply pow_R1_Rle; lra).
    destruct (Rle_dec (tri_area m (a, b, c)) t) as [Hs1|Hs1]; [nra|].
    rewrite (Hw4 (Hsel a b c Hin ltac:(lra))). lra.
  - intros j [[[a b] c] [Hin Hlt]]. assert (H1n : 1 <= 4 ^ S j) by (apply pow_R1_Rle; lra).
    assert (Hs1 : t < tri_area m (a, b, c)) by nra. pose proof (Hsel a b c Hin Hs1) as H3.
    pose proof (split_length a b c (mid a b) (mid b c) (mid c a)) as Hl.
    destruct (split_triangle a b c (mid a b) (mid b c) (mid c a)) as [|u L] eqn:Es; [cbn in Hl; lia|].
    assert (Hu : In u (split_triangle a b c (mid a b) (mid b c) (mid c a))) by (rewrite Es; left; reflexivity).
    exists u. split.
    + rewrite (sd_tris _ _ _ _ _ (fr_sub _ _ _ _ _ _ _ FR)), (fr_Ls _ _ _ _ _ _ _ FR). apply in_concat.
      exists (split_tri mid (a, b, c)). split; [apply in_map; exact Hin|exact Hu].
    + destruct (Hch a b c Hin u Hu) as [w [-> [_ Hw4]]]. rewrite (Hw4 H3). cbn [pow] in Hlt. lra.
Qed.

Lemma area_count (t : R) old f inp fuel f' out n : valid inp -> dense inp -> tris inp <> [] -> 0 < t ->
  (forall u, In u (tris inp) -> tri_area inp u <= t * 4 ^ n) ->
  conditional_update fuel (CellF CLinear) (Some (cell_area_criterion (O := RO d) t)) old f inp = Ok (f', out) ->
  exists r, (r <= n)%nat /\ chained (copy_geometry inp) r out /\
    forall j, (exists u, In u (tris inp) /\ t * 4 ^ j < tri_area inp u) -> (j < r)%nat.
Proof.
  intros Hv Hd Hne Ht Hn H.
  assert (HG : cond_start (CellF CLinear) (copy_geometry inp)).
  { apply copy_start. apply start_of; auto; [unfold splits_faces; congruence|]. intros [E|E]; discriminate. }
  destruct (copy_shape inp Hv) as [Hp [Htr _]].
  unfold conditional_update in H.
  destruct (cell_area_criterion (O := RO d) t fuel (copy_geometry inp) old) as [s0| | |] eqn:E; cbn [rbind] in H; try discriminate.
  apply area_crit_inv in E. destruct E as [-> _].
  destruct (rounds_count (O := RO d) (D := D) (CellF CLinear) (cell_area_criterion (O := RO d) t) (asel (O := RO d) t) (cond_start (CellF CLinear)))
    with (Qu := fun n m => forall u, In u (tris m) -> tri_area m u <= t * 4 ^ n)
         (Ql := fun j m => exists u, In u (tris m) /\ t * 4 ^ j < tri_area m u)
         (n := n) (m := copy_geometry inp) (fuel := fuel) (f := f) (f' := f') (out := out) as [r [H1 [H2 H3]]].
  - intros m o [Hm _]. apply (area_crit_runs (O := RO d)). exact Hm.
  - intros n0 m o x E. apply area_crit_inv in E. apply E.
  - intros m f0 H0 _. apply area_ready. exact H0.
  - intros m [Hm1 [Hm2 _]]. auto.
  - intros m f0 n0 f1 m1 H0 _ E. eapply start_step; [exact H0|apply area_ready; exact H0|exact E].
  - intros m [Hm _] HQ. cbn. apply is_nil_true. destruct (long_cells (O := RO d) t m) as [|i l] eqn:El; [reflexivity|]. exfalso.
    assert (Hi : In i (long_cells (O := RO d) t m)) by (rewrite El; cbn; auto).
    apply (long_cells_R t _ i Hm) in Hi. destruct Hi as [u [Hu Hlt]].
    assert (Hin : In u (tris m)) by (apply in_map_iff; exists (i, u); auto). apply HQ in Hin. cbn in Hin. lra.
  - intros k m f0 n0 f1 m1 H0 HQ _ E. apply (proj1 (area_round t m f0 n0 f1 m1 Ht H0 E)). exact HQ.
  - intros j m [Hm _] [u [Hu Hlt]]. cbn. unfold tris in Hu. apply in_map_iff in Hu. destruct Hu as [[i u'] [Eu Hi]]. cbn in Eu. subst u'.
    assert (H1n : 1 <= 4 ^ j) by (apply pow_R1_Rle; lra).
    assert (Hin : In i (long_cells (O := RO d) t m)) by (apply (long_cells_R t m i Hm); exists u; split; [exact Hi|nra]).
    destruct (long_cells (O := RO d) t m); [destruct Hin|reflexivity].
  - intros j m f0 n0 f1 m1 H0 HQ E. apply (proj2 (area_round t m f0 n0 f1 m1 Ht H0 E)). exact HQ.
  - exact HG.
  - intros u Hu. rewrite Htr in Hu. rewrite (same_shape_area inp _ Hp). apply Hn. exact Hu.
  - exact H.
  - exists r. split; [exact H1|]. split; [exact H2|]. intros j [u [Hu Hlt]]. apply H3. exists u.
    rewrite Htr, (same_shape_area inp _ Hp). auto.
Qed.

(** ** Lengths *)
(** [near c] is the factor by which one round reduces what exceeds the threshold. *)
Definition esplit (L : R) m (s : escheme) (c : R) : Prop :=
  forall f n0 f1 m1, cond_start (EdgeF s) m -> sel_empty (esl_ (O := RO d) L m) = false ->
  update (EdgeF s) n0 (apply_selection f (esl_ (O := RO d) L m)) m = Ok (f1, m1) ->
  forall k, (forall a b, joined m a b -> dot m a b b <= L * L / 2 * (1 + c ^ S k)) ->
  forall a b, joined m1 a b -> dot m1 a b b <= L * L / 2 * (1 + c ^ k).

Lemma long_split s L m f0 mid Ls f1 m1 : valid m -> sel_empty (esl_ (O := RO d) L m) = false ->
  face_result (EdgeF s) (apply_selection f0 (esl_ (O := RO d) L m)) m f1 m1 mid Ls ->
  forall v w, joined m v w -> (mid v w <> None <-> L < seg_length m v w).
Proof.
  intros Hm Hs FR v w Hj. pose proof (fr_sub _ _ _ _ _ _ _ FR) as Hsd.
  rewrite (sd_dom _ _ _ _ _ Hsd v w). cbn [to_split apply_selection esl_ esel set_edges_to_be_subdivided].
  rewrite (long_edges_R L m v w Hm). split.
  - intros [[Hnil _]|[_ H2]]; [|exact H2]. exfalso. cbn in Hs. rewrite Hnil in Hs. discriminate.
  - intros H2. right. split; [exact Hj|exact H2].
Qed.

Lemma linear_round L m : 0 < L -> esplit L m ELinear 2.
Proof.
  intros Ht f0 n0 f1 m1 H0 Hs E k HQ x y Hxy. pose proof (edge_ready (O := RO d) ELinear L m f0 H0 Hs) as Hr.
  destruct H0 as [Hm [Hdm [Hnem _]]].
  destruct (step_ok _ _ _ _ _ _ Hm Hdm Hnem Hr E) as [Hm1 [_ [_ [Hw1 _]]]].
  destruct (linear_facts _ _ m n0 f1 m1 (or_intror eq_refl) Hm Hdm Hr E) as [mid [Ls [FR [Hold Hmid]]]].
  pose proof (long_split _ _ _ _ _ _ _ _ Hm Hs FR) as Hsp.
  set (q := L * L / 2) in *. assert (Hq : 0 < q) by (unfold q; nra).
  assert (Hgo : forall x y, In (x, y) (dirs (tris m1)) -> dot m1 x y y <= q * (1 + 2 ^ k)).
  { clear x y Hxy. intros x y Hd1. apply dirs_tri in Hd1. destruct Hd1 as [u [Hu Hd1]].
    destruct (out_tri_parent _ _ _ _ _ _ _ u Hm FR Hu) as [a [b [c [Hin Hu']]]].
    assert (Hpa : oget a (pts m) <> None) by (apply (v_verts _ Hm _ _ Hin); cbn; auto).
    assert (Hpb : oget b (pts m) <> None) by (apply (v_verts _ Hm _ _ Hin); cbn; auto).
    assert (Hpc : oget c (pts m) <> None) by (apply (v_verts _ Hm _ _ Hin); cbn; auto).
    assert (Hjn : forall v w, In (v, w) (tdirs (a, b, c)) -> joined m v w).
    { intros v w H. apply (v_face_edges _ Hm). apply dirs_tri. exists (a, b, c). auto. }
    assert (H1n : 1 <= 2 ^ k) by (apply pow_R1_Rle; lra).
    destruct (child_edge m m1 mid Hold Hmid a b c Hpa Hpb Hpc (L * L)%R (q * (1 + 2 ^ S k))) with (u := u) (x := x) (y := y) as [H|H].
    - nra.
    - cbn [pow]. unfold q in *. nra.
    - intros v w H. apply HQ. apply Hjn. exact H.
    - intros v w H H2. apply (Hsp v w (Hjn _ _ H)) in H2. destruct (Rle_dec (dot m v w w) (L * L)) as [Hle|Hle]; [|lra].
      apply seg_le in Hle; lra.
    - intros v w H H2. apply seg_le; [lra|]. destruct (Rle_dec (seg_length m v w) L) as [Hle|Hle]; [exact Hle|]. exfalso.
      apply (Hsp v w (Hjn _ _ H)); [lra|exact H2].
    - exact Hu'.
    - exact Hd1.
    - unfold q in *. nra.
    - cbn [pow] in H. unfold q in *. nra. }
  destruct (Hw1 x y Hxy) as [H|H]; [apply Hgo; exact H|]. rewrite dot_swap. apply Hgo. exact H.
Qed.

Lemma loop_round L m : 0 < L -> esplit L m ELoop (3 / 2).
Proof.
  intros Ht f0 n0 f1 m1 H0 Hs E k HQ x y Hxy. pose proof (edge_ready (O := RO d) ELoop L m f0 H0 Hs) as Hr.
  destruct H0 as [Hm [Hdm [Hnem _]]].
  destruct (step_ok _ _ _ _ _ _ Hm Hdm Hnem Hr E) as [Hm1 [_ [_ [Hw1 _]]]].
  destruct (loop_edge_facts _ m n0 f1 m1 Hm Hdm Hr E) as [mid [Ls [FR [Hold Hmid]]]].
  pose proof (long_split _ _ _ _ _ _ _ _ Hm Hs FR) as Hsp.
  set (q := L * L / 2) in *. assert (Hq : 0 < q) by (unfold q; nra).
  assert (Hgo : forall x y, In (x, y) (dirs (tris m1)) -> dot m1 x y y <= q * (1 + (3 / 2) ^ k)).
  { clear x y Hxy. intros x y Hd1. apply dirs_tri in Hd1. destruct Hd1 as [u [Hu Hd1]].
    destruct (out_tri_parent _ _ _ _ _ _ _ u Hm FR Hu) as [a [b [c [Hin Hu']]]].
    assert (Hjn : forall v w, In (v, w) (tdirs (a, b, c)) -> joined m v w).
    { intros v w H. apply (v_face_edges _ Hm). apply dirs_tri. exists (a, b, c). auto. }
    assert (H1n : 1 <= (3 / 2) ^ k) by (apply pow_R1_Rle; lra).
    destruct (child_good m m1 mid a b c (L * L) (q * (1 + (3 / 2) ^ S k))) with (u := u) (x := x) (y := y) as [H|H].
    - intros v H i. apply Hold. apply (v_verts _ Hm _ _ Hin). exact H.
    - intros v w z e H He. apply (Hmid (q * (1 + (3 / 2) ^ S k)) v w z e); [|unfold is_face; intuition congruence|exact He].
      intros v' w' Hj. apply HQ. exact Hj.
    - intros v w H. apply HQ. apply Hjn. exact H.
    - intros v w H H2. apply (Hsp v w (Hjn _ _ H)) in H2. rewrite <- dot_D2. destruct (Rle_dec (dot m v w w) (L * L)) as [Hle|Hle]; [|lra].
      apply seg_le in Hle; lra.
    - intros v w H H2. rewrite <- dot_D2. apply seg_le; [lra|]. destruct (Rle_dec (seg_length m v w) L) as [Hle|Hle]; [exact Hle|]. exfalso.
      apply (Hsp v w (Hjn _ _ H)); [lra|exact H2].
    - nra.
    - exact Hu'.
    - exact Hd1.
    - rewrite dot_D2, D2_sym. unfold q in *. nra.
    - rewrite dot_D2, D2_sym. cbn [pow] in H. unfold q in *. nra. }
  destruct (Hw1 x y Hxy) as [H|H]; [apply Hgo; exact H|]. rewrite dot_swap. apply Hgo. exact H.
Qed.

(** A split side of a triangle leaves two halves. *)
Lemma linear_halves L m f n0 f1 m1 j a b : 0 < L -> cond_start (EdgeF ELinear) m -> sel_empty (esl_ (O := RO d) L m) = false ->
  update (EdgeF ELinear) n0 (apply_selection f (esl_ (O := RO d) L m)) m = Ok (f1, m1) ->
  In (a, b) (dirs (tris m)) -> L * 2 ^ S j < seg_length m a b ->
  exists x y, In (x, y) (dirs (tris m1)) /\ L * 2 ^ j < seg_length m1 x y.
Proof.
  intros Ht H0 Hs E Hab Hlt. pose proof (edge_ready (O := RO d) ELinear L m f H0 Hs) as Hr.
  destruct H0 as [Hm [Hdm [Hnem _]]].
  destruct (linear_facts _ _ m n0 f1 m1 (or_intror eq_refl) Hm Hdm Hr E) as [mid [Ls [FR [Hold Hmid]]]].
  assert (H1n : 1 <= 2 ^ j) by (apply pow_R1_Rle; lra). cbn [pow] in Hlt.
  assert (Hj : joined m a b) by (apply (v_face_edges _ Hm); exact Hab).
  assert (Hne : mid a b <> None) by (apply (long_split _ _ _ _ _ _ _ _ Hm Hs FR a b Hj); nra).
  destruct (mid a b) as [e|] eqn:He; [|congruence]. exists a, e. split.
  - apply dirs_tri in Hab. destruct Hab as [t [Hin Hab]]. pose proof (fr_sub _ _ _ _ _ _ _ FR) as Hsd.
    pose proof (sd_refines _ _ _ _ _ Hsd) as HF. rewrite (sd_tris _ _ _ _ _ Hsd).
    clear - HF Hin Hab He. induction HF as [|t0 L0 T Ls H HF IH]; [destruct Hin|]. cbn [concat].
    unfold dirs in *. rewrite flat_map_app, in_app_iff. destruct Hin as [->|Hin]; [left|right; apply IH; exact Hin].
    apply (rf_border _ _ _ H a e). exists a, b. split; [exact Hab|]. unfold part_of. rewrite He. auto.
  - assert (Hp : oget a (pts m) <> None).
    { apply dirs_tri in Hab. destruct Hab as [t [Hin Hab]]. apply (v_verts _ Hm t a Hin). destruct t as [[p q] r]. cbn in *. in_cases Hab; inv Hab; auto. }
    assert (Eq : dot m1 a e e = dot m a b b / 4).
    { unfold dot. replace (rsum (fun i => (crd m i b - crd m i a) * (crd m i b - crd m i a)) (seq 0 d) / 4)
        with (/ 4 * rsum (fun i => (crd m i b - crd m i a) * (crd m i b - crd m i a)) (seq 0 d)) by field.
      rewrite <- rsum_scal. apply rsum_ext. intros i _. rewrite (Hmid _ _ _ i He), (Hold i a Hp). field. }
    destruct (Rle_dec (seg_length m1 a e) (L * 2 ^ j)) as [Hle|Hle]; [|lra]. exfalso.
    apply seg_le in Hle; [|nra]. rewrite Eq in Hle.
    assert (seg_length m a b <= L * (2 * 2 ^ j)) by (apply seg_le; nra). lra.
Qed.

Lemma length_count (s : escheme) c (L : R) old f inp fuel f' out n : valid inp -> dense inp -> tris inp <> [] -> 0 < L ->
  (s = ELoop -> no_isolated inp /\ no_wire inp) -> (forall m, esplit L m s c) ->
  (forall a b, joined inp a b -> dot inp a b b <= L * L / 2 * (1 + c ^ n)) ->
  conditional_update fuel (EdgeF s) (Some (edge_length_criterion (O := RO d) L)) old f inp = Ok (f', out) ->
  exists r, (r <= n)%nat /\ chained (copy_geometry inp) r out /\
    (s = ELinear -> forall j, (exists a b, In (a, b) (dirs (tris inp)) /\ L * 2 ^ j < seg_length inp a b) -> (j < r)%nat).
Proof.
  intros Hv Hd Hne Ht Hl Hround Hn H.
  assert (HG : cond_start (EdgeF s) (copy_geometry inp)).
  { apply copy_start. apply start_of; auto; [unfold splits_faces; congruence|]. intros [E|E]; [discriminate|]. apply Hl. congruence. }
  destruct (copy_shape inp Hv) as [Hp [Htr Hjo]].
  assert (Hdot : forall a b, dot (copy_geometry inp) a b b = dot inp a b b) by (intros; apply (same_shape_dot inp _ Hp)).
  unfold conditional_update in H.
  destruct (edge_length_criterion (O := RO d) L fuel (copy_geometry inp) old) as [s0| | |] eqn:E; cbn [rbind] in H; try discriminate.
  apply edge_crit_inv in E. destruct E as [-> _].
  assert (Hsel : forall j m, cond_start (EdgeF s) m -> (exists a b, In (a, b) (dirs (tris m)) /\ L * 2 ^ j < seg_length m a b) ->
    sel_empty (esl_ (O := RO d) L m) = false).
  { intros j m [Hm _] [a [b [Hab Hlt]]]. assert (H1n : 1 <= 2 ^ j) by (apply pow_R1_Rle; lra).
    assert (Hj : joined m a b) by (apply (v_face_edges _ Hm); exact Hab).
    assert (Hlt2 : L < seg_length m a b) by nra. pose proof (proj2 (long_edges_R L m a b Hm) (conj Hj Hlt2)) as Hin. cbn.
    destruct (long_edges (O := RO d) L m); [destruct Hin as [[]|[]]|reflexivity]. }
  destruct (rounds_count (O := RO d) (D := D) (EdgeF s) (edge_length_criterion (O := RO d) L) (esl_ (O := RO d) L) (cond_start (EdgeF s)))
    with (Qu := fun n m => forall a b, joined m a b -> dot m a b b <= L * L / 2 * (1 + c ^ n))
         (Ql := fun j m => s = ELinear /\ exists a b, In (a, b) (dirs (tris m)) /\ L * 2 ^ j < seg_length m a b)
         (n := n) (m := copy_geometry inp) (fuel := fuel) (f := f) (f' := f') (out := out) as [r [H1 [H2 H3]]].
  - intros m o [Hm _]. exists 0%nat. apply edge_crit_runs. exact Hm.
  - intros n0 m o x E. apply edge_crit_inv in E. apply E.
  - intros m f0 H0 He. apply edge_ready; assumption.
  - intros m [Hm1 [Hm2 _]]. auto.
  - intros m f0 n0 f1 m1 H0 He E. eapply start_step; [exact H0|apply edge_ready; [exact H0|exact He]|exact E].
  - intros m [Hm _] HQ. cbn. apply is_nil_true. apply (same_shape_edges m m L Hm); [|exact Hm|].
    { unfold same_shape. repeat split; auto. }
    intros a b Hj. apply seg_le; [lra|]. specialize (HQ a b Hj). cbn in HQ. lra.
  - intros k m f0 n0 f1 m1 H0 HQ Hs E. exact (Hround m f0 n0 f1 m1 H0 Hs E k HQ).
  - intros j m H0 [_ HQ]. exact (Hsel j m H0 HQ).
  - intros j m f0 n0 f1 m1 H0 [Es [a [b [Hab Hlt]]]] E. split; [exact Es|]. subst s.
    eapply linear_halves; [exact Ht|exact H0| |exact E|exact Hab|exact Hlt]. apply (Hsel (S j) m H0). eauto.
  - exact HG.
  - intros a b Hj. rewrite Hdot. apply Hn. apply Hjo. exact Hj.
  - exact H.
  - exists r. split; [exact H1|]. split; [exact H2|]. intros Es j [a [b [Hab Hlt]]]. apply H3. split; [exact Es|]. exists a, b.
    unfold seg_length in *. rewrite Htr, Hdot. auto.
Qed.
End COUNT.

Lemma C104_area_pf : forall (d : nat) (D : Type) (t : R) old f (inp : mesh (RO d) D) fuel f' out n,
  valid inp -> dense inp -> tris inp <> [] -> 0 < t -> (forall u, In u (tris inp) -> tri_area inp u <= t * 4 ^ n) ->
  conditional_update fuel (CellF CLinear) (Some (cell_area_criterion (O := RO d) t)) old f inp = Ok (f', out) ->
  exists m0 r, same_shape inp m0 /\ chained m0 r out /\ (r <= n)%nat /\
    (forall u j, In u (tris inp) -> t * 4 ^ j < tri_area inp u -> (j < r)%nat) /\
    (length (tris out) <= 4 ^ r * length (tris inp))%nat.
Proof.
  intros d D t old f inp fuel f' out n Hv Hd Hne Ht Hn H.
  destruct (area_count t old f inp fuel f' out n Hv Hd Hne Ht Hn H) as [r [H1 [H2 H3]]].
  exists (copy_geometry inp), r. pose proof (copy_shape inp Hv) as Hs. split; [exact Hs|]. split; [exact H2|]. split; [exact H1|].
  split; [intros u j Hu Hlt; apply H3; eauto|]. destruct Hs as [Hp [Htr _]]. rewrite <- Htr.
  apply (chained_size (copy_geometry inp) r out); [apply copy_valid; assumption|unfold dense; rewrite Hp; exact Hd|rewrite Htr; exact Hne|exact H2].
Qed.

Lemma C104_length_pf : forall (d : nat) (D : Type) (s : escheme) (T M c : R) old f (inp : mesh (RO d) D) fuel f' out n,
  valid inp -> dense inp -> tris inp <> [] -> 0 < T -> (s = ELinear /\ c = 2 \/ s = ELoop /\ c = 3 / 2 /\ no_isolated inp /\ no_wire inp) ->
  (forall a b, joined inp a b -> seg_length inp a b <= M) -> 2 * (M * M) <= T * T * (1 + c ^ n) ->
  conditional_update fuel (EdgeF s) (Some (edge_length_criterion (O := RO d) T)) old f inp = Ok (f', out) ->
  exists m0 r, same_shape inp m0 /\ chained m0 r out /\ (r <= n)%nat /\
    (s = ELinear -> forall a b j, In (a, b) (dirs (tris inp)) -> T * 2 ^ j < seg_length inp a b -> (j < r)%nat) /\
    (length (tris out) <= 4 ^ r * length (tris inp))%nat.
Proof.
  intros d D s T M c old f inp fuel f' out n Hv Hd Hne Ht Hs HM Hn H.
  destruct (length_count s c T old f inp fuel f' out n Hv Hd Hne Ht) as [r [H1 [H2 H3]]].
  - intros E. destruct Hs as [[E1 _]|[_ [_ X]]]; [congruence|exact X].
  - intros m. destruct Hs as [[-> ->]|[-> [-> _]]]; [apply linear_round|apply loop_round]; exact Ht.
  - intros a b Hj. pose proof (HM a b Hj) as Hle. assert (0 <= M) by (pose proof (sqrt_pos (dot inp a b b)); unfold seg_length in Hle; lra).
    apply seg_le in Hle; [|assumption]. lra.
  - exact H.
  - exists (copy_geometry inp), r. pose proof (copy_shape inp Hv) as Hsh. split; [exact Hsh|]. split; [exact H2|]. split; [exact H1|].
    split; [intros Es a b j Hu Hlt; apply (H3 Es); eauto|]. destruct Hsh as [Hp [Htr _]]. rewrite <- Htr.
    apply (chained_size (copy_geometry inp) r out); [apply copy_valid; assumption|unfold dense; rewrite Hp; exact Hd|rewrite Htr; exact Hne|exact H2].
Qed.

Lemma C104_length_linear_pf : forall (d : nat) (D : Type) (T M : R) old f (inp : mesh (RO d) D) fuel f' out n,
  valid inp -> dense inp -> tris inp <> [] -> 0 < T ->
  (forall a b, joined inp a b -> seg_length inp a b <= M) -> 2 * (M * M) <= T * T * (1 + 2 ^ n) ->
  conditional_update fuel (EdgeF ELinear) (Some (edge_length_criterion (O := RO d) T)) old f inp = Ok (f', out) ->
  exists m0 r, same_shape inp m0 /\ chained m0 r out /\ (r <= n)%nat /\
    (forall a b j, In (a, b) (dirs (tris inp)) -> T * 2 ^ j < seg_length inp a b -> (j < r)%nat) /\
    (length (tris out) <= 4 ^ r * length (tris inp))%nat.
Proof.
  intros d D T M old f inp fuel f' out n Hv Hd Hne Ht HM Hn H.
  destruct (C104_length_pf d D ELinear T M 2 old f inp fuel f' out n Hv Hd Hne Ht (or_introl (conj eq_refl eq_refl)) HM Hn H)
    as [m0 [r [H1 [H2 [H3 [H4 H5]]]]]]. exists m0, r. split; [exact H1|]. split; [exact H2|]. split; [exact H3|]. split; [exact (H4 eq_refl)|exact H5].
Qed.
Lemma C104_length_loop_pf : forall (d : nat) (D : Type) (T M : R) old f (inp : mesh (RO d) D) fuel f' out n,
  valid inp -> dense inp -> tris inp <> [] -> no_isolated inp -> no_wire inp -> 0 < T ->
  (forall a b, joined inp a b -> seg_length inp a b <= M) -> 2 * (M * M) <= T * T * (1 + (3 / 2) ^ n) ->
  conditional_update fuel (EdgeF ELoop) (Some (edge_length_criterion (O := RO d) T)) old f inp = Ok (f', out) ->
  exists m0 r, same_shape inp m0 /\ chained m0 r out /\ (r <= n)%nat /\
    (length (tris out) <= 4 ^ r * length (tris inp))%nat.
Proof.
  intros d D T M old f inp fuel f' out n Hv Hd Hne Hi Hw Ht HM Hn H.
  destruct (C104_length_pf d D ELoop T M (3 / 2) old f inp fuel f' out n Hv Hd Hne Ht (or_intror (conj eq_refl (conj eq_refl (conj Hi Hw)))) HM Hn H)
    as [m0 [r [H1 [H2 [H3 [_ H5]]]]]]. exists m0, r. split; [exact H1|]. split; [exact H2|]. split; [exact H3|exact H5].
Qed.
