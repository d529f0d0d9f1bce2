(** * Valid: consequences of [valid] for the operators used by the filters. *)
From Coq Require Import Permutation Sorted.
From Verif Require Import Base Mesh Filters Spec Lists AddFace SplitTri Split Points.

Lemma map2_length {A B C} (f : A -> B -> C) l l' n :
  length l = n -> length l' = n -> length (map2 f l l') = n.
Proof.
  revert l' n. induction l as [|x l IH]; intros [|y l'] [|n]; cbn; intros; try lia; try discriminate.
  f_equal. apply IH; lia.
Qed.

(** Rotating corners. *)
Lemma corners_rot T a b c : In (a, b, c) (corners T) -> In (b, c, a) (corners T).
Proof.
  unfold corners. rewrite !in_flat_map. intros [t [Ht H]]. exists t. split; [exact Ht|].
  destruct t as [[x y] z]. cbn in *. in_cases H; inversion H; subst; in_solve.
Qed.
Lemma corner_dirs T a b c : In (a, b, c) (corners T) ->
  In (a, b) (dirs T) /\ In (b, c) (dirs T) /\ In (c, a) (dirs T).
Proof.
  intros H. split; [eapply corner_dir_in; eauto|]. split; [eapply corner_dir; eauto|].
  apply corners_rot in H. eapply corner_dir; eauto.
Qed.
Lemma dirs_tri T a b : In (a, b) (dirs T) <-> exists t, In t T /\ In (a, b) (tdirs t).
Proof. unfold dirs. apply in_flat_map. Qed.

#[export] Hint Resolve v_sound : core.

Section VALID.
Context {O : Ops} {D : Type}.
Notation mesh := (mesh O D).
Notation point := (list (K O)).
Implicit Type m : mesh.

Lemma valid_cells m : sound m ->
  cells m = Some (map (fun it => (fst it, poly (snd it))) (faces m)).
Proof.
  intros Hv. destruct (v_tris _ Hv) as [cs [Hc Ht]]. unfold faces. rewrite Hc. f_equal. clear Hc Hv.
  induction cs as [|[i c] cs IH]; [reflexivity|].
  cbn [flat_map map fst snd]. rewrite map_app, <- IH.
  - destruct (Ht i c) as [x [y [z ->]]]; [cbn; auto|]. reflexivity.
  - intros id c' H. apply (Ht id). cbn. auto.
Qed.
Lemma valid_cells_list m : sound m -> cells_list m = map (fun it => (fst it, poly (snd it))) (faces m).
Proof. intros Hv. unfold cells_list. rewrite (valid_cells _ Hv). reflexivity. Qed.
Lemma valid_polys m cs : sound m -> cells m = Some cs -> map snd cs = map poly (tris m).
Proof.
  intros Hv H. rewrite (valid_cells _ Hv) in H. inv H. unfold tris. rewrite !map_map. reflexivity.
Qed.
Lemma faces_length m : sound m -> length (cells_list m) = length (tris m).
Proof. intros Hv. rewrite (valid_cells_list _ Hv). unfold tris. rewrite !map_length. reflexivity. Qed.

Lemma valid_left m e : sound m -> left_set m e = true <-> In e (dirs (tris m)).
Proof.
  intros Hv. unfold left_set, left. rewrite (valid_cells_list _ Hv). unfold tris.
  induction (faces m) as [|[i t] l IH]; cbn [map left_in fst snd].
  - cbn. split; [discriminate|tauto].
  - unfold dirs in *. cbn [flat_map]. rewrite in_app_iff.
    destruct (cell_has_dir e (poly t)) eqn:E.
    + apply cell_has_dir_poly in E. tauto.
    + rewrite IH. split; [auto|]. intros [H|H]; [|exact H]. apply cell_has_dir_poly in H. congruence.
Qed.
Lemma valid_left_false m e : sound m -> left_set m e = false <-> ~ In e (dirs (tris m)).
Proof. intros Hv. rewrite <- (valid_left m e Hv). destruct (left_set m e); split; congruence. Qed.

Lemma valid_umbrella m b : sound m -> umbrella (tris m) b.
Proof.
  intros Hv S Hne Hsub Hcl y Hy.
  assert (Hin : forall x, nbr (tris m) b x -> In x (ring m b)).
  { intros x [H|H].
    - apply (v_face_edges _ Hv). exact H.
    - apply (v_ring_sym _ Hv). apply (v_face_edges _ Hv). exact H. }
  apply (cyc_closed_all (ring m b) (fun x => In x S)).
  - intros x z Hx Hc. destruct (Hcl x Hx) as [p [Hp Hcor]].
    apply (v_corners _ Hv) in Hcor. rewrite <- (cyc_fun _ _ _ _ (v_ring_nodup _ Hv b) Hcor Hc). exact Hp.
  - destruct S as [|x S]; [congruence|]. exists x. split; [apply Hin; apply Hsub; cbn; auto|cbn; auto].
  - apply Hin. exact Hy.
Qed.

Lemma dense_map m : sound m -> dense m -> densemap (osize (pts m)) (pts m).
Proof.
  intros Hv Hd. split; [apply (v_pts_sorted _ Hv)|]. split; [reflexivity|].
  intros k. rewrite <- oget_Some_key. apply Hd.
Qed.

Lemma valid_splitting m V I : valid m -> dense m -> V = osize (pts m) ->
  splitting (tris m) (sp V I) (fun x => x < V).
Proof.
  intros Hv Hd ->. constructor.
  - intros a b. apply sp_sym_any.
  - intros a b c d n. apply sp_inj_any.
  - intros a b n H. apply sp_range_any in H. lia.
  - intros t x Ht Hx. apply Hd. apply (v_verts _ Hv t); auto.
  - apply (v_proper _ Hv).
  - apply (v_dirs _ Hv).
  - apply (v_notwin _ Hv).
  - intros b. apply valid_umbrella. exact Hv.
Qed.

(** ** Quad-edge operators *)
Lemma succ_joined m a x y : succ_in (ring m a) x = Some y -> joined m a y.
Proof. intros H. apply succ_in_cyc in H. apply cyc_In_r in H. exact H. Qed.
Lemma pred_joined m a x y : pred_in (ring m a) x = Some y -> joined m a y.
Proof.
  unfold pred_in. intros H. apply succ_in_cyc in H. apply cyc_In_r in H. apply in_rev in H. exact H.
Qed.
Lemma onext_joined m e f : sound m -> onext m e = Some f -> joined m (fst f) (snd f).
Proof.
  intros Hv. unfold onext. destruct (succ_in (ring m (fst e)) (snd e)) eqn:E; [|discriminate].
  intros H. inv H. cbn. eapply succ_joined; eauto.
Qed.
Lemma oprev_joined m e f : sound m -> oprev m e = Some f -> joined m (fst f) (snd f).
Proof.
  intros Hv. unfold oprev. destruct (pred_in (ring m (fst e)) (snd e)) eqn:E; [|discriminate].
  intros H. inv H. cbn. eapply pred_joined; eauto.
Qed.
Lemma lnext_joined m e f : sound m -> lnext m e = Some f -> joined m (fst f) (snd f).
Proof. intros Hv. apply oprev_joined. exact Hv. Qed.
Lemma rprev_joined m e f : sound m -> rprev m e = Some f -> joined m (fst f) (snd f).
Proof. intros Hv. apply onext_joined. exact Hv. Qed.

Lemma dest_ok m o : sound m -> (forall f, o = Some f -> joined m (fst f) (snd f)) ->
  exists p, dest_or_zero m o = Ok p /\ length p = kdim O.
Proof.
  intros Hv H. destruct o as [f|]; cbn.
  - pose proof (v_ring_pts _ Hv _ _ (H f eq_refl)) as Hp. unfold get_pt.
    destruct (oget (snd f) (pts m)) as [p|] eqn:E; [|congruence].
    exists p. split; [reflexivity|]. eapply (v_pts_dim _ Hv); eauto.
  - exists pzero. split; [reflexivity|]. unfold pzero. apply repeat_length.
Qed.

Lemma joined_pts m a b : sound m -> joined m a b ->
  exists p q, oget a (pts m) = Some p /\ oget b (pts m) = Some q /\ length p = kdim O /\ length q = kdim O.
Proof.
  intros Hv Hj. pose proof (v_ring_pts _ Hv _ _ Hj) as Hb. pose proof (v_ring_pts _ Hv _ _ (v_ring_sym _ Hv _ _ Hj)) as Ha.
  destruct (oget a (pts m)) as [p|] eqn:Ea; [|congruence]. destruct (oget b (pts m)) as [q|] eqn:Eb; [|congruence].
  exists p, q. repeat split; auto; eapply (v_pts_dim _ Hv); eauto.
Qed.

Lemma midpoint_length (p q : point) : length p = kdim O -> length q = kdim O -> length (midpoint p q) = kdim O.
Proof. intros. unfold midpoint. apply map2_length; auto. Qed.
Lemma comb_length ws (ps : list point) : forall acc : point, length acc = kdim O ->
  (forall p, In p ps -> length p = kdim O) -> length (comb acc ws ps) = kdim O.
Proof.
  revert ps. induction ws as [|w ws IH]; intros [|p ps] acc Ha Hp; cbn; auto.
  apply IH; [|intros q Hq; apply Hp; cbn; auto]. apply map2_length; [exact Ha|apply Hp; cbn; auto].
Qed.

(** ** New points exist *)
Lemma linear_point_ok m a b : sound m -> joined m a b ->
  exists p, linear_point m (a, b) = Ok p /\ length p = kdim O.
Proof.
  intros Hv Hj. destruct (joined_pts _ _ _ Hv Hj) as [p [q [Ha [Hb [Hp Hq]]]]].
  unfold linear_point, get_pt. cbn [fst snd]. rewrite Ha, Hb. cbn. eexists. split; [reflexivity|].
  apply midpoint_length; auto.
Qed.

Lemma loop_point_ok m a b : sound m -> In (a, b) (dirs (tris m)) \/ In (b, a) (dirs (tris m)) ->
  exists p, loop_point m (a, b) = Ok p /\ length p = kdim O.
Proof.
  intros Hv Hd.
  assert (Hj : joined m a b).
  { destruct Hd as [H|H]; [|apply (v_ring_sym _ Hv)]; apply (v_face_edges _ Hv); exact H. }
  destruct (joined_pts _ _ _ Hv Hj) as [p [q [Ha [Hb [Hp Hq]]]]].
  unfold loop_point, get_pt. cbn [fst snd]. rewrite Ha, Hb. cbn [rbind].
  destruct (dest_ok m (lnext m (a, b)) Hv) as [p2 [E2 L2]]; [intros f; apply lnext_joined; exact Hv|].
  destruct (dest_ok m (rprev m (a, b)) Hv) as [p3 [E3 L3]]; [intros f; apply rprev_joined; exact Hv|].
  rewrite E2, E3. cbn [rbind].
  unfold is_internal, is_at_border, right_set. change (sym (a, b)) with (b, a).
  assert (Hset : left_set m (a, b) = true \/ left_set m (b, a) = true).
  { destruct Hd; [left|right]; apply (valid_left _ _ Hv); assumption. }
  destruct (left_set m (a, b)), (left_set m (b, a)); cbn [andb xorb];
  try (eexists; split; [reflexivity|]; apply midpoint_length; assumption).
  - eexists. split; [reflexivity|]. apply comb_length; [unfold pzero; apply repeat_length|].
    intros r Hr. cbn in Hr. in_cases Hr; subst; assumption.
  - destruct Hset; discriminate.
Qed.

Lemma butterfly_point_ok m a b : sound m -> joined m a b ->
  exists p, butterfly_point m (a, b) = Ok p /\ length p = kdim O.
Proof.
  intros Hv Hj. destruct (joined_pts _ _ _ Hv Hj) as [p [q [Ha [Hb [Hp Hq]]]]].
  unfold butterfly_point, get_pt. cbn [fst snd]. rewrite Ha, Hb. cbn [rbind].
  assert (Hob : forall (o : option dedge) (g : dedge -> option dedge), (forall e f, g e = Some f -> joined m (fst f) (snd f)) ->
                exists r, dest_or_zero m (obind o g) = Ok r /\ length r = kdim O).
  { intros o g Hg. apply dest_ok; [exact Hv|]. intros f Hf. destruct o as [e|]; [|discriminate]. eapply Hg; exact Hf. }
  destruct (dest_ok m (lnext m (a, b)) Hv) as [p2 [E2 L2]]; [intros f; apply lnext_joined; exact Hv|].
  destruct (dest_ok m (rprev m (a, b)) Hv) as [p3 [E3 L3]]; [intros f; apply rprev_joined; exact Hv|].
  destruct (Hob (lnext m (a, b)) (rprev m)) as [p4 [E4 L4]]; [intros e f; apply rprev_joined; exact Hv|].
  destruct (Hob (rprev m (a, b)) (lnext m)) as [p5 [E5 L5]]; [intros e f; apply lnext_joined; exact Hv|].
  destruct (Hob (lprev m (a, b)) (rprev m)) as [p6 [E6 L6]]; [intros e f; apply rprev_joined; exact Hv|].
  destruct (Hob (rnext m (a, b)) (lnext m)) as [p7 [E7 L7]]; [intros e f; apply lnext_joined; exact Hv|].
  rewrite E2, E3, E4, E5, E6, E7. cbn [rbind]. eexists. split; [reflexivity|].
  apply comb_length; [unfold pzero; apply repeat_length|].
  intros r Hr. cbn in Hr. in_cases Hr; subst; assumption.
Qed.

(** ** Smoothing *)
Lemma smooth_sums_ok m v r : sound m -> (forall d, In d r -> oget d (pts m) <> None) ->
  forall (bpt opt : point) nb nn, length bpt = kdim O -> length opt = kdim O ->
  exists bpt' nb' opt', smooth_sums m v r bpt nb opt nn = Ok (bpt', nb', opt', nn + N.of_nat (length r)) /\
    length bpt' = kdim O /\ length opt' = kdim O.
Proof.
  intros Hv. induction r as [|d r IH]; intros Hr bpt opt nb nn Hb Ho; cbn [smooth_sums].
  - exists bpt, nb, opt. cbn. replace (nn + 0) with nn by lia. auto.
  - unfold elem_pt. pose proof (Hr d (or_introl eq_refl)) as Hd.
    destruct (oget d (pts m)) as [p|] eqn:E; [|congruence]. cbn [rbind].
    assert (Hp : length p = kdim O) by (eapply (v_pts_dim _ Hv); eauto).
    assert (Hr' : forall d, In d r -> oget d (pts m) <> None) by (intros; apply Hr; cbn; auto).
    destruct (is_at_border m (v, d)).
    + destruct (IH Hr' (padd bpt p) (padd opt p) (nb + 1) (nn + 1)) as [b' [n' [o' [E' L']]]];
        try (apply map2_length; assumption).
      exists b', n', o'. rewrite E'. split; [|exact L']. do 2 f_equal. cbn [length]. lia.
    + destruct (IH Hr' bpt (padd opt p) nb (nn + 1)) as [b' [n' [o' [E' L']]]];
        try assumption; try (apply map2_length; assumption).
      exists b', n', o'. rewrite E'. split; [|exact L']. do 2 f_equal. cbn [length]. lia.
Qed.

Lemma smoothing_ok m v ipt : sound m -> ring m v <> [] -> length ipt = kdim O ->
  exists p, smoothing_point m v ipt = Ok p /\ length p = kdim O.
Proof.
  intros Hv Hne Hi. unfold smoothing_point. destruct (ring m v) as [|d r] eqn:Hr; [congruence|].
  destruct (smooth_sums_ok m v (d :: r) Hv) with (bpt := pzero (O := O)) (opt := pzero (O := O)) (nb := 0) (nn := 0)
    as [b [n [o [E [Lb Lo]]]]]; try (unfold pzero; apply repeat_length).
  { intros x Hx. apply (v_ring_pts _ Hv v). unfold joined. rewrite Hr. exact Hx. }
  rewrite E. cbn [rbind]. destruct (N.eqb n 0); eexists; (split; [reflexivity|]).
  - unfold interior_rule. apply map2_length; assumption.
  - unfold border_rule. apply map2_length; assumption.
Qed.

(** ** Copying points *)
Lemma copy_points_ok (l : omap point) : forall m,
  sorted_keys (pts m ++ l) ->
  fold_left (fun m kv => set_point m (fst kv) (snd kv)) l m = set_pts m (pts m ++ l).
Proof.
  induction l as [|[k p] l IH]; intros m Hs; cbn [fold_left fst snd].
  - rewrite app_nil_r. destruct m; reflexivity.
  - assert (E : set_point m k p = set_pts m (pts m ++ [(k, p)])).
    { unfold set_point. f_equal. apply oset_append. intros j Hj.
      apply in_map_iff in Hj. destruct Hj as [[j' q] [Ej Hj]]. cbn in Ej. subst j'.
      unfold sorted_keys, okeys in Hs. rewrite map_app in Hs. cbn in Hs.
      clear - Hs Hj. induction (pts m) as [|[a r] t IHt]; [destruct Hj|].
      cbn in Hs. inv Hs. destruct Hj as [E|Hj].
      - inv E. rewrite Forall_forall in H2. apply H2. apply in_or_app. cbn. auto.
      - apply IHt; auto. }
    rewrite E. rewrite IH.
    + cbn. rewrite <- app_assoc. reflexivity.
    + cbn. rewrite <- app_assoc. exact Hs.
Qed.
Lemma plain_copy_ok m : sound m -> copy_points m empty_mesh = set_pts empty_mesh (pts m).
Proof. intros Hv. unfold copy_points. apply copy_points_ok. apply (v_pts_sorted _ Hv). Qed.

(** A copy that keeps the ids. *)
Definition copied m (P0 : omap point) : Prop :=
  okeys P0 = okeys (pts m) /\ (forall id p, oget id P0 = Some p -> length p = kdim O).

Lemma copied_densemap m P0 : sound m -> dense m -> copied m P0 -> densemap (osize (pts m)) P0.
Proof.
  intros Hv Hd [Hk _]. destruct (dense_map _ Hv Hd) as [H1 [H2 H3]]. unfold densemap, sorted_keys, osize in *.
  rewrite Hk. split; [exact H1|]. split; [|exact H3].
  unfold okeys in Hk. rewrite <- (map_length fst P0), Hk, map_length. reflexivity.
Qed.

Lemma loop_copy_ok m smooth : sound m ->
  forall (l : omap point) out,
  (forall id p, In (id, p) l -> length p = kdim O) ->
  (forall id p, In (id, p) l -> smooth id = true -> ring m id <> []) ->
  sorted_keys (pts out ++ l) ->
  exists P, loop_copy_points m smooth l out = Ok (set_pts out (pts out ++ P)) /\
    okeys P = okeys l /\ (forall id p, In (id, p) P -> length p = kdim O) /\
    (forall id p, In (id, p) P -> exists q, In (id, q) l /\
       (smooth id = false /\ p = q \/ smooth id = true /\ smoothing_point m id q = Ok p)).
Proof.
  intros Hv. induction l as [|[k p] l IH]; intros out Hlen Hring Hs; cbn [loop_copy_points].
  - exists []. rewrite app_nil_r. split; [destruct out; reflexivity|]. split; [reflexivity|].
    split; intros id p [].
  - assert (Hstep : forall q, set_point out k q = set_pts out (pts out ++ [(k, q)])).
    { intros q. unfold set_point. f_equal. apply oset_append. intros j Hj.
      apply in_map_iff in Hj. destruct Hj as [[j' q'] [Ej Hj]]. cbn in Ej. subst j'.
      unfold sorted_keys, okeys in Hs. rewrite map_app in Hs. cbn in Hs.
      clear - Hs Hj. induction (pts out) as [|[a r] t IHt]; [destruct Hj|].
      cbn in Hs. inv Hs. destruct Hj as [E|Hj].
      - inv E. rewrite Forall_forall in H2. apply H2. apply in_or_app. cbn. auto.
      - apply IHt; auto. }
    assert (Hgo : forall q, length q = kdim O ->
       (smooth k = false /\ q = p \/ smooth k = true /\ smoothing_point m k p = Ok q) ->
       exists P, loop_copy_points m smooth l (set_point out k q) = Ok (set_pts out (pts out ++ P)) /\
         okeys P = okeys ((k, p) :: l) /\ (forall id p, In (id, p) P -> length p = kdim O) /\
         (forall id p', In (id, p') P -> exists q, In (id, q) ((k, p) :: l) /\
            (smooth id = false /\ p' = q \/ smooth id = true /\ smoothing_point m id q = Ok p'))).
    { intros q Hq Hcase. rewrite Hstep. destruct (IH (set_pts out (pts out ++ [(k, q)]))) as [P [E [Hk [Hl Hin]]]].
      - intros id r Hr. apply (Hlen id). cbn. auto.
      - intros id r Hr. apply (Hring id r). cbn. auto.
      - cbn. rewrite <- app_assoc. cbn. unfold sorted_keys, okeys in *. rewrite map_app in *. exact Hs.
      - exists ((k, q) :: P). rewrite E. split; [cbn; rewrite <- app_assoc; reflexivity|].
        split; [unfold okeys in *; cbn [map fst]; f_equal; exact Hk|]. split.
        + intros id r [Er|Hr]; [inv Er; exact Hq|eapply Hl; eauto].
        + intros id r [Er|Hr].
          * inv Er. exists p. split; [cbn; auto|exact Hcase].
          * destruct (Hin id r Hr) as [q' [Hq' Hc]]. exists q'. split; [cbn; auto|exact Hc]. }
    destruct (smooth k) eqn:Es.
    + destruct (smoothing_ok m k p Hv) as [q [Eq Lq]].
      * apply (Hring k p); [cbn; auto|exact Es].
      * apply (Hlen k). cbn. auto.
      * rewrite Eq. cbn [rbind]. apply Hgo; auto.
    + apply Hgo; [apply (Hlen k); cbn; auto|auto].
Qed.

End VALID.
