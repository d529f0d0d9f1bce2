(** * PtsAny: the points of the output, for every mesh on which Update() ends normally. *)
From Coq Require Import Sorted.
From Verif Require Import Base Mesh Filters Drivers Spec SpecSub Lists AddFace SplitTri Split Points Valid.

Section PTSANY.
Context {O : Ops} {D : Type}.
Notation mesh := (mesh O D).
Notation state := (@state O D).
Notation point := (list (K O)).
Implicit Types m inp out : mesh.

Definition dims (P : omap point) : Prop := forall id p, oget id P = Some p -> length p = kdim O.

Lemma dims_oset P k p : dims P -> length p = kdim O -> dims (oset k p P).
Proof.
  intros H Hp id q. rewrite oget_oset. destruct (N.eqb k id); [intros E; inv E; exact Hp|apply H].
Qed.

(** *** The cell phase does not touch the points *)
Lemma add_edge_pts (m : mesh) a b m' : add_edge m a b = Some m' -> pts m' = pts m.
Proof.
  unfold add_edge. destruct (ins_ring _ (ring m a) b); [|discriminate]. destruct (ins_ring _ (ring m b) a); [|discriminate].
  intros H. inv H. reflexivity.
Qed.
Lemma add_missing_pts l : forall m : mesh, pts (fst (add_missing_edges m l)) = pts m.
Proof.
  induction l as [|[a b] l IH]; intros m; cbn [add_missing_edges]; [reflexivity|].
  destruct (find_edge m a b); [apply IH|]. destruct (add_edge m a b) as [m'|] eqn:E; [|reflexivity].
  rewrite IH. eapply add_edge_pts; eauto.
Qed.
Lemma link_corners_pts l : forall m m' : mesh, link_corners m l = Some m' -> pts m' = pts m.
Proof.
  induction l as [|[[a b] c] l IH]; intros m m'; cbn [link_corners]; [intros H; inv H; reflexivity|].
  destruct (link_ring _ (ring m b) c a) as [r|]; [|discriminate]. intros H. apply IH in H. exact H.
Qed.
Lemma add_face_pts (m : mesh) l : pts (fst (add_face m l)) = pts m.
Proof.
  unfold add_face. destruct (negb (nodupb l)); [reflexivity|].
  destruct (negb (forallb (fun p => omem p (pts m)) l)); [reflexivity|].
  destruct (existsb (left_set m) (poly_dirs l)); [reflexivity|].
  pose proof (add_missing_pts (poly_dirs l) m) as H.
  destruct (add_missing_edges m (poly_dirs l)) as [m1 [|]]; cbn [fst] in *; [|exact H].
  destruct (link_corners m1 (poly_corners l)) as [m2|] eqn:E; cbn [fst]; [|exact H].
  apply link_corners_pts in E. cbn. congruence.
Qed.
Lemma pass_pts inp id e out : pts (pass_cell_data inp id e out) = pts out.
Proof.
  unfold pass_cell_data. destruct e; [|reflexivity]. destruct (cdata inp) as [dd|]; [|reflexivity].
  destruct (oget id dd); reflexivity.
Qed.
Lemma emit_pts inp id track t st st' : emit inp id track t st = Ok st' -> pts (snd st') = pts (snd st).
Proof.
  destruct t as [[a b] c], st as [f out]. unfold emit. pose proof (add_face_pts out [a; b; c]) as Hp.
  destruct (add_face out [a; b; c]) as [o1 e]. cbn [fst snd] in *.
  rewrite <- Hp. pose proof (pass_pts inp id e o1) as Hq. destruct track; [destruct e; [|discriminate]|]; intros H.
  - assert (Ex : forall x y : state, Ok x = Ok y -> y = x) by congruence. apply Ex in H. rewrite H. exact Hq.
  - assert (Ex : forall x y : state, Ok x = Ok y -> y = x) by congruence. apply Ex in H. rewrite H. exact Hq.
Qed.
Lemma emit_all_pts inp id track l : forall st st', emit_all inp id track l st = Ok st' -> pts (snd st') = pts (snd st).
Proof.
  induction l as [|t l IH]; intros st st' H; cbn [emit_all] in H; [inv H; reflexivity|].
  destruct (emit inp id track t st) as [s| | |] eqn:E; cbn [rbind] in H; try discriminate.
  apply emit_pts in E. apply IH in H. congruence.
Qed.
Lemma cells_loop_pts inp : forall fuel cs st st', cells_loop fuel inp cs st = Ok st' -> pts (snd st') = pts (snd st).
Proof.
  induction fuel as [|fuel IH]; intros cs st st' H; [discriminate|]. cbn [cells_loop] in H.
  destruct cs as [|[id c] cs]; [inv H; reflexivity|].
  destruct (obind c as_triangle) as [t|]; [|eapply IH; eauto].
  destruct (split_cell inp id t st) as [s| | |] eqn:E; cbn [rbind] in H; try discriminate.
  destruct t as [[a b] d]. unfold split_cell in E. apply emit_all_pts in E. apply IH in H. congruence.
Qed.
Lemma sqrt3_edge_pts inp id t ab st st' b : sqrt3_edge inp id t ab st = Ok (st', b) -> pts (snd st') = pts (snd st).
Proof.
  unfold sqrt3_edge. intros H.
  assert (Hm : forall tr u (s st' : state) (b b' : bool), rbind (emit inp id tr u s) (fun st1 => Ok (st1, b')) = Ok (st', b) ->
            pts (snd st') = pts (snd s)).
  { intros tr u s s' c c' E. destruct (emit inp id tr u s) as [s1| | |] eqn:E1; cbn [rbind] in E; inv E.
    eapply emit_pts; eauto. }
  destruct (find_edge inp (fst ab) (snd ab)) as [e|]; [|eapply Hm; eauto].
  destruct (eget_opt (Some e) (epid (fst st))) as [c|]; [|eapply Hm; eauto].
  destruct (N.eqb c id_max); [inv H; auto|].
  destruct (is_at_border inp e); [eapply Hm; eauto|].
  destruct (eget (sym e) (epid (fst st))) as [d|]; [|eapply Hm; eauto].
  destruct (emit inp id (negb (uniform (fst st))) (c, d, snd e) st) as [s1| | |] eqn:E1; cbn [rbind] in H; try discriminate.
  destruct (emit inp id (negb (uniform (fst st))) (d, c, fst e) s1) as [s2| | |] eqn:E2; cbn [rbind] in H; try discriminate.
  inv H. apply emit_pts in E1, E2. cbn. congruence.
Qed.
Lemma sqrt3_loop_pts inp : forall fuel cs st st', sqrt3_loop fuel inp cs st = Ok st' -> pts (snd st') = pts (snd st).
Proof.
  assert (Hc : forall id t st st', sqrt3_cell inp id t st = Ok st' -> pts (snd st') = pts (snd st)).
  { intros id [[a b] c] st st' H. unfold sqrt3_cell in H.
    destruct (sqrt3_edge inp id (a, b, c) (a, b) st) as [[s1 b1]| | |] eqn:E1; cbn [rbind] in H; try discriminate.
    apply sqrt3_edge_pts in E1. destruct b1; [inv H; auto|].
    destruct (sqrt3_edge inp id (a, b, c) (b, c) s1) as [[s2 b2]| | |] eqn:E2; cbn [rbind] in H; try discriminate.
    apply sqrt3_edge_pts in E2. destruct b2; [inv H; congruence|].
    destruct (sqrt3_edge inp id (a, b, c) (c, a) s2) as [[s3 b3]| | |] eqn:E3; cbn [rbind] in H; try discriminate.
    apply sqrt3_edge_pts in E3. inv H. congruence. }
  induction fuel as [|fuel IH]; intros cs st st' H; [discriminate|]. cbn [sqrt3_loop] in H.
  destruct cs as [|[id [c|]] cs]; [inv H; auto| |discriminate].
  destruct (as_triangle c) as [t|]; [|eapply IH; eauto].
  destruct (sqrt3_cell inp id t st) as [s| | |] eqn:E; cbn [rbind] in H; try discriminate.
  apply Hc in E. apply IH in H. congruence.
Qed.
Lemma generate_cells_pts k fuel inp st st' : generate_cells_of k fuel inp st = Ok st' -> pts (snd st') = pts (snd st).
Proof.
  intros H. destruct k as [[]|]; cbn [generate_cells_of] in H;
    unfold generate_output_cells, sqrt3_generate_output_cells in H; destruct (cells inp) as [cs|]; try discriminate;
    first [apply cells_loop_pts in H | apply sqrt3_loop_pts in H]; exact H.
Qed.

(** *** New points have the right dimension *)
Lemma get_pt_inv m id p : get_pt m id = Ok p -> oget id (pts m) = Some p.
Proof. unfold get_pt. destruct (oget id (pts m)); intros H; inv H. reflexivity. Qed.
Lemma elem_pt_inv m id p : elem_pt m id = Ok p -> oget id (pts m) = Some p.
Proof. unfold elem_pt. destruct (oget id (pts m)); intros H; inv H. reflexivity. Qed.

Lemma linear_point_dim m e p : dims (pts m) -> linear_point m e = Ok p -> length p = kdim O.
Proof.
  intros Hd. unfold linear_point. destruct (get_pt m (fst e)) as [p0| | |] eqn:E0; cbn [rbind]; try discriminate.
  destruct (get_pt m (snd e)) as [p1| | |] eqn:E1; cbn [rbind]; try discriminate. intros H. inv H.
  apply midpoint_length; eapply Hd; eapply get_pt_inv; eauto.
Qed.
Lemma dest_dim m o p : dims (pts m) -> dest_or_zero m o = Ok p -> length p = kdim O.
Proof.
  intros Hd. unfold dest_or_zero. destruct o; intros H.
  - eapply Hd. eapply get_pt_inv; eauto.
  - inv H. apply repeat_length.
Qed.
Lemma loop_point_dim m e p : dims (pts m) -> loop_point m e = Ok p -> length p = kdim O.
Proof.
  intros Hd. unfold loop_point. destruct (is_internal m e).
  - destruct (get_pt m (fst e)) as [p0| | |] eqn:E0; cbn [rbind]; try discriminate.
    destruct (get_pt m (snd e)) as [p1| | |] eqn:E1; cbn [rbind]; try discriminate.
    destruct (dest_or_zero m (lnext m e)) as [p2| | |] eqn:E2; cbn [rbind]; try discriminate.
    destruct (dest_or_zero m (rprev m e)) as [p3| | |] eqn:E3; cbn [rbind]; try discriminate. intros H. injection H as <-.
    repeat apply map2_length; first [apply repeat_length|eapply dest_dim; now eauto|eapply Hd; eapply get_pt_inv; now eauto].
  - destruct (is_at_border m e); [|discriminate].
    destruct (get_pt m (fst e)) as [p0| | |] eqn:E0; cbn [rbind]; try discriminate.
    destruct (get_pt m (snd e)) as [p1| | |] eqn:E1; cbn [rbind]; try discriminate. intros H. injection H as <-.
    apply midpoint_length; eapply Hd; eapply get_pt_inv; eauto.
Qed.
Lemma butterfly_point_dim m e p : dims (pts m) -> butterfly_point m e = Ok p -> length p = kdim O.
Proof.
  intros Hd. unfold butterfly_point.
  destruct (get_pt m (fst e)) as [p0| | |] eqn:E0; cbn [rbind]; try discriminate.
  destruct (get_pt m (snd e)) as [p1| | |] eqn:E1; cbn [rbind]; try discriminate.
  repeat match goal with
  | |- rbind ?x _ = _ -> _ => let E := fresh "E" in destruct x eqn:E; cbn [rbind]; try discriminate
  end.
  intros H. injection H as <-. repeat apply map2_length; first [apply repeat_length|eapply dest_dim; now eauto|eapply Hd; eapply get_pt_inv; now eauto].
Qed.
Lemma edge_point_dim s m e p : dims (pts m) -> edge_point s m e = Ok p -> length p = kdim O.
Proof. destruct s; [apply linear_point_dim|apply loop_point_dim|apply butterfly_point_dim]. Qed.

Lemma smooth_sums_dim m v r : dims (pts m) -> forall (bpt opt : point) nb nn b n o n',
  length bpt = kdim O -> length opt = kdim O -> smooth_sums m v r bpt nb opt nn = Ok (b, n, o, n') ->
  length b = kdim O /\ length o = kdim O.
Proof.
  intros Hd. induction r as [|x r IH]; intros bpt opt nb nn b n o n' Hb Ho; cbn [smooth_sums].
  - intros H. inv H. auto.
  - destruct (elem_pt m x) as [p| | |] eqn:E; cbn [rbind]; try discriminate.
    assert (Hp : length p = kdim O) by (eapply Hd; eapply elem_pt_inv; eauto).
    assert (Hadd : forall q : point, length q = kdim O -> length (padd q p) = kdim O).
    { intros q Hq. unfold padd. apply map2_length; assumption. }
    destruct (is_at_border m (v, x)); apply IH; auto.
Qed.
Lemma smoothing_dim m v ipt p : dims (pts m) -> length ipt = kdim O -> smoothing_point m v ipt = Ok p -> length p = kdim O.
Proof.
  intros Hd Hi. unfold smoothing_point. destruct (ring m v) as [|x r]; [discriminate|].
  destruct (smooth_sums m v (x :: r) pzero 0 pzero 0) as [[[[b n] o] n']| | |] eqn:E; cbn [rbind]; try discriminate.
  apply (smooth_sums_dim m v (x :: r) Hd) in E; try apply repeat_length. destruct E as [Hb Ho].
  destruct (N.eqb n 0); intros H; inv H; unfold interior_rule, border_rule; apply map2_length; assumption.
Qed.

(** *** The points phase, for any invariant on (next id, points) *)
Section PHASE.
Variable Inv : N -> omap point -> Prop.
Hypothesis Inv_dims : forall n P, Inv n P -> dims P.
Hypothesis Inv_set : forall n P p, Inv n P -> length p = kdim O -> Inv (n + 1) (oset n p P).
Hypothesis Inv_size : forall n P, Inv n P -> Inv (osize P) P.

Notation ok := (fun out : mesh => Inv (osize (pts out)) (pts out)).

Lemma edge_step_inv inp newpt ab np st np' st' :
  (forall e p, newpt e = Ok p -> length p = kdim O) -> Inv np (pts (snd st)) ->
  edge_step inp newpt ab (np, st) = Ok (np', st') -> Inv np' (pts (snd st')).
Proof.
  intros Hn HI. unfold edge_step. cbn [fst snd].
  destruct (eget_opt (find_edge inp (fst ab) (snd ab)) (epid (fst st))); [intros H; inv H; exact HI|].
  destruct (find_edge inp (fst ab) (snd ab)) as [e|]; [|discriminate].
  destruct (newpt e) as [p| | |] eqn:E; cbn [rbind]; try discriminate. intros H. inv H.
  destruct st as [f out]. cbn. apply Inv_set; [exact HI|eapply Hn; eauto].
Qed.
Lemma three_steps_inv inp newpt a b c st st' :
  (forall e p, newpt e = Ok p -> length p = kdim O) -> ok (snd st) ->
  three_edge_steps inp newpt a b c st = Ok st' -> ok (snd st').
Proof.
  intros Hn HI. unfold three_edge_steps, num_points.
  destruct (edge_step inp newpt (a, b) _) as [[n1 s1]| | |] eqn:E1; cbn [rbind]; try discriminate.
  apply edge_step_inv in E1; [|exact Hn|exact HI].
  destruct (edge_step inp newpt (b, c) _) as [[n2 s2]| | |] eqn:E2; cbn [rbind]; try discriminate.
  apply edge_step_inv in E2; [|exact Hn|exact E1].
  destruct (edge_step inp newpt (c, a) _) as [[n3 s3]| | |] eqn:E3; cbn [rbind]; try discriminate.
  apply edge_step_inv in E3; [|exact Hn|exact E2].
  intros H. inv H. cbn [snd]. eapply Inv_size; eauto.
Qed.
Lemma add_cell_inv s inp c st st' : dims (pts inp) -> ok (snd st) ->
  add_new_cell_points s inp c st = Ok st' -> ok (snd st').
Proof.
  intros Hd HI. destruct s; cbn [add_new_cell_points].
  - unfold linear_add_new_cell_points. destruct (as_triangle c) as [[[x y] z]|]; [|discriminate].
    apply three_steps_inv; [|exact HI]. intros e p. apply linear_point_dim. exact (Inv_dims _ _ HI).
  - unfold loop_add_new_cell_points. destruct (as_triangle c) as [[[x y] z]|]; [|discriminate].
    apply three_steps_inv; [|exact HI]. intros e p. apply loop_point_dim. exact Hd.
  - unfold butterfly_add_new_cell_points. destruct (as_triangle c) as [[[x y] z]|]; [|discriminate].
    apply three_steps_inv; [|exact HI]. intros e p. apply butterfly_point_dim. exact Hd.
  - unfold sqrt3_add_new_cell_points. destruct (as_triangle c) as [[[x y] z]|]; [|discriminate].
    destruct (elem_pt inp x) as [px| | |] eqn:Ex; cbn [rbind]; try discriminate.
    destruct (elem_pt inp y) as [py| | |] eqn:Ey; cbn [rbind]; try discriminate.
    destruct (elem_pt inp z) as [pz| | |] eqn:Ez; cbn [rbind]; try discriminate.
    intros H. inv H. cbn [snd]. destruct st as [f out]. cbn. unfold num_points. eapply Inv_size. apply Inv_set; [exact HI|].
    unfold pscale. rewrite map_length. unfold padd.
    repeat apply map2_length; try apply repeat_length; eapply Hd; eapply elem_pt_inv; eauto.
Qed.
Lemma uniform_loop_inv s inp cs : dims (pts inp) -> forall st st', ok (snd st) ->
  uniform_cells_loop (add_new_cell_points s inp) cs st = Ok st' -> ok (snd st').
Proof.
  intros Hd. induction cs as [|[i [c|]] cs IH]; intros st st' HI; cbn [uniform_cells_loop]; [intros H; inv H; exact HI| |discriminate].
  destruct (add_new_cell_points s inp c st) as [s1| | |] eqn:E; cbn [rbind]; try discriminate.
  apply add_cell_inv in E; [|exact Hd|exact HI]. intros H. exact (IH _ _ E H).
Qed.
Lemma selected_loop_inv s inp cs sel : dims (pts inp) -> forall st st', ok (snd st) ->
  selected_cells_loop (add_new_cell_points s inp) cs sel st = Ok st' -> ok (snd st').
Proof.
  intros Hd. induction sel as [|i sel IH]; intros st st' HI; cbn [selected_cells_loop]; [intros H; inv H; exact HI|].
  destruct (oget i cs) as [[c|]|]; [|apply IH; exact HI|discriminate].
  destruct (add_new_cell_points s inp c st) as [s1| | |] eqn:E; cbn [rbind]; try discriminate.
  apply add_cell_inv in E; [|exact Hd|exact HI]. intros H. exact (IH _ _ E H).
Qed.
Lemma edges_loop_inv s inp l : dims (pts inp) -> forall st st', ok (snd st) ->
  edges_loop s inp l st = Ok st' -> ok (snd st').
Proof.
  intros Hd. induction l as [|[e|] l IH]; intros st st' HI; cbn [edges_loop]; [intros H; inv H; exact HI| |apply IH; exact HI].
  destruct (add_new_edge_points s inp e st) as [s1| | |] eqn:E; cbn [rbind]; try discriminate.
  apply IH. clear IH. unfold add_new_edge_points in E. destruct (find_edge inp (fst e) (snd e)); [|discriminate].
  destruct (edge_point s inp e) as [p| | |] eqn:Ep; cbn [rbind] in E; try discriminate. inv E.
  destruct st as [f out]. cbn. unfold num_points. eapply Inv_size. apply Inv_set; [exact HI|].
  eapply edge_point_dim; eauto.
Qed.
End PHASE.

(** *** The copy of the input points *)
Lemma loop_copy_any inp smooth : dims (pts inp) -> forall (l : omap point) out out',
  (forall id p, In (id, p) l -> length p = kdim O) ->
  loop_copy_points inp smooth l out = Ok out' ->
  exists P : omap point, okeys P = okeys l /\ (forall id p, In (id, p) P -> length p = kdim O) /\
    pts out' = fold_left (fun Q kv => oset (fst kv) (snd kv) Q) P (pts out).
Proof.
  intros Hd. induction l as [|[id p] l IH]; intros out out' Hl; cbn [loop_copy_points].
  - intros H. inv H. exists []. cbn. split; [reflexivity|]. split; [intros ? ? []|reflexivity].
  - assert (Hgo : forall q, length q = kdim O -> loop_copy_points inp smooth l (set_point out id q) = Ok out' ->
      exists P : omap point, okeys P = id :: okeys l /\ (forall id p, In (id, p) P -> length p = kdim O) /\
        pts out' = fold_left (fun Q kv => oset (fst kv) (snd kv) Q) P (pts out)).
    { intros q Hq H. apply IH in H; [|intros; eapply Hl; cbn; eauto]. destruct H as [P [H1 [H2 H3]]].
      exists ((id, q) :: P). cbn. split; [unfold okeys in *; congruence|]. split; [|exact H3].
      intros i x [E|E]; [inv E; exact Hq|eapply H2; eauto]. }
    destruct (smooth id).
    + destruct (smoothing_point inp id p) as [q| | |] eqn:E; cbn [rbind]; try discriminate.
      apply Hgo. eapply smoothing_dim; eauto. eapply Hl; cbn; eauto.
    + apply Hgo. eapply Hl; cbn; eauto.
Qed.
Lemma copy_flag_true l v q0 rest : copy_flag l v q0 rest = true.
Proof. revert q0. induction rest as [|q r IH]; intros q0; cbn; [reflexivity|]. destruct (mem_esel (v, q0) l); auto. Qed.
Lemma loop_edge_copy_any inp es : forall (l : omap point) out out',
  loop_edge_copy inp es l out = Ok out' -> pts out' = fold_left (fun Q kv => oset (fst kv) (snd kv) Q) l (pts out).
Proof.
  induction l as [|[id p] l IH]; intros out out'; cbn [loop_edge_copy]; [intros H; inv H; reflexivity|].
  destruct (ring inp id) as [|q0 rest]; [discriminate|]. rewrite copy_flag_true. intros H. apply IH in H. exact H.
Qed.
Lemma copy_points_any (l : omap point) : forall out : mesh,
  pts (fold_left (fun m kv => set_point m (fst kv) (snd kv)) l out) = fold_left (fun Q kv => oset (fst kv) (snd kv) Q) l (pts out).
Proof. induction l as [|[id p] l IH]; intros out; cbn; [reflexivity|]. rewrite IH. reflexivity. Qed.

Lemma fold_oset_sorted (l : omap point) : forall P : omap point, sorted_keys (P ++ l) ->
  fold_left (fun Q kv => oset (fst kv) (snd kv) Q) l P = P ++ l.
Proof.
  induction l as [|[k p] l IH]; intros P Hs; cbn [fold_left fst snd]; [rewrite app_nil_r; reflexivity|].
  assert (E : oset k p P = P ++ [(k, p)]).
  { apply oset_append. intros j Hj. clear IH. unfold sorted_keys in Hs. rewrite okeys_app in Hs. cbn in Hs.
    induction (okeys P) as [|x ks IHk]; [destruct Hj|]. cbn in Hs. inv Hs. destruct Hj as [->|Hj]; [|auto].
    rewrite Forall_forall in H2. apply H2. apply in_or_app. cbn. auto. }
  rewrite E, IH by (rewrite <- app_assoc; exact Hs). rewrite <- app_assoc. reflexivity.
Qed.

(** The points the run starts from. *)
Lemma copy_c_any s inp f st : sorted_keys (pts inp) -> dims (pts inp) ->
  copy_input_points_c s inp (f, empty_mesh) = Ok st ->
  okeys (pts (snd st)) = okeys (pts inp) /\ dims (pts (snd st)) /\ (s <> CLoop -> pts (snd st) = pts inp).
Proof.
  intros Hs Hd.
  assert (Hplain : forall st, plain_copy_input_points inp (f, empty_mesh) = Ok st -> pts (snd st) = pts inp).
  { intros s1 H. inv H. cbn [snd]. unfold copy_points. rewrite copy_points_any. cbn. apply fold_oset_sorted. exact Hs. }
  assert (Hdl : forall id p, In (id, p) (pts inp) -> length p = kdim O).
  { intros id p H. apply (Hd id p). apply sorted_oget; assumption. }
  assert (Hgo : forall P : omap point, okeys P = okeys (pts inp) -> (forall id p, In (id, p) P -> length p = kdim O) ->
            sorted_keys P /\ dims P).
  { intros P HP HL. split; [unfold sorted_keys; rewrite HP; exact Hs|]. intros id p H. apply oget_In in H. eapply HL; eauto. }
  destruct s; cbn [copy_input_points_c];
    try (intros H; apply Hplain in H; rewrite H; repeat split; auto; fail).
  unfold loop_copy_input_points. destruct (uniform f).
  - destruct (loop_copy_points inp (fun _ => true) (pts inp) empty_mesh) as [o| | |] eqn:E; cbn [rbind]; try discriminate.
    intros H. inv H. cbn [snd]. apply loop_copy_any in E; auto. destruct E as [P [H1 [H2 H3]]].
    destruct (Hgo P H1 H2) as [Hsp Hdp].
    assert (H4 : pts o = P) by (rewrite H3; exact (fold_oset_sorted P [] Hsp)). rewrite H4.
    split; [exact H1|]. split; [exact Hdp|]. congruence.
  - destruct (smoothed_set inp (csel f)) as [ss| | |]; cbn [rbind]; try discriminate.
    destruct (loop_copy_points inp (fun id => memN id ss) (pts inp) empty_mesh) as [o| | |] eqn:E; cbn [rbind]; try discriminate.
    intros H. inv H. cbn [snd]. apply loop_copy_any in E; auto. destruct E as [P [H1 [H2 H3]]].
    destruct (Hgo P H1 H2) as [Hsp Hdp].
    assert (H4 : pts o = P) by (rewrite H3; exact (fold_oset_sorted P [] Hsp)). rewrite H4.
    split; [exact H1|]. split; [exact Hdp|]. congruence.
Qed.
Lemma copy_e_any s inp f st : sorted_keys (pts inp) ->
  copy_input_points_e s inp (f, empty_mesh) = Ok st -> pts (snd st) = pts inp.
Proof.
  intros Hs. destruct s; cbn [copy_input_points_e].
  2:{ unfold loop_edge_copy_input_points.
      destruct (loop_edge_copy inp (esel f) (pts inp) empty_mesh) as [o| | |] eqn:E; cbn [rbind]; try discriminate.
      intros H. inv H. cbn [snd]. apply loop_edge_copy_any in E. rewrite E. apply (fold_oset_sorted _ []). exact Hs. }
  all: intros H; inv H; cbn [snd]; unfold copy_points; rewrite copy_points_any; apply (fold_oset_sorted _ []); exact Hs.
Qed.

(** *** Update() *)
Lemma update_inv (Inv : N -> omap point -> Prop) k fuel f inp f' out :
  (forall n P, Inv n P -> dims P) ->
  (forall n P p, Inv n P -> length p = kdim O -> Inv (n + 1) (oset n p P)) ->
  (forall n P, Inv n P -> Inv (osize P) P) ->
  sorted_keys (pts inp) -> dims (pts inp) ->
  (forall P : omap point, okeys P = okeys (pts inp) -> dims P -> (k <> CellF CLoop -> P = pts inp) -> Inv (osize P) P) ->
  update k fuel f inp = Ok (f', out) -> Inv (osize (pts out)) (pts out).
Proof.
  intros I1 I2 I3 Hs Hd H0. unfold update.
  destruct (generate_output_points k inp (f, empty_mesh)) as [st| | |] eqn:E; cbn [rbind]; try discriminate.
  intros H. apply generate_cells_pts in H. cbn [snd] in H. rewrite H. clear H.
  destruct k as [s|s]; cbn [generate_output_points] in E.
  - unfold generate_output_points_c in E.
    destruct (copy_input_points_c s inp (f, empty_mesh)) as [s1| | |] eqn:Ec; cbn [rbind] in E; try discriminate.
    apply copy_c_any in Ec; auto. destruct Ec as [K1 [K2 K3]].
    assert (HI : Inv (osize (pts (snd s1))) (pts (snd s1))).
    { apply H0; auto. intros Hk. apply K3. congruence. }
    destruct (cells inp) as [cs|]; [|discriminate]. cbv zeta in E.
    match type of E with (if ?b then _ else _) = _ => destruct b end.
    + eapply uniform_loop_inv in E; eauto.
    + eapply selected_loop_inv in E; eauto.
  - unfold generate_output_points_e in E.
    destruct (copy_input_points_e s inp (f, empty_mesh)) as [s1| | |] eqn:Ec; cbn [rbind] in E; try discriminate.
    apply copy_e_any in Ec; auto.
    assert (HI : Inv (osize (pts (snd s1))) (pts (snd s1))).
    { rewrite Ec. apply H0; auto. }
    cbv zeta in E.
    match type of E with (if ?b then _ else _) = _ => destruct b end.
    + destruct (ecells inp) as [es|]; [|discriminate]. eapply edges_loop_inv in E; eauto.
    + eapply edges_loop_inv in E; eauto.
Qed.

Lemma update_dims k fuel f inp f' out : sorted_keys (pts inp) -> dims (pts inp) ->
  update k fuel f inp = Ok (f', out) -> dims (pts out) /\ sorted_keys (pts out).
Proof.
  intros Hs Hd. apply (update_inv (fun _ P => dims P /\ sorted_keys P)).
  - intros n P H. apply H.
  - intros n P p [H1 H2] Hp. split; [apply dims_oset; assumption|apply oset_sorted; assumption].
  - auto.
  - exact Hs.
  - exact Hd.
  - intros P HP HdP _. split; [exact HdP|]. unfold sorted_keys. rewrite HP. exact Hs.
Qed.

(** Contiguous ids: the new points follow the old ones. *)
Lemma update_grows k fuel f inp f' out : sorted_keys (pts inp) -> dims (pts inp) -> dense inp ->
  update k fuel f inp = Ok (f', out) ->
  exists P0 L, pts out = P0 ++ idx_from (osize (pts inp)) L /\ okeys P0 = okeys (pts inp) /\
    (k <> CellF CLoop -> P0 = pts inp).
Proof.
  intros Hs Hd Hde E. set (V := osize (pts inp)).
  cut ((fun n P => dims P /\ exists P0 L, P = P0 ++ idx_from V L /\ okeys P0 = okeys (pts inp) /\
          (k <> CellF CLoop -> P0 = pts inp) /\ n = V + N.of_nat (length L)) (osize (pts out)) (pts out)).
  { intros [_ [P0 [L [H1 [H2 [H3 _]]]]]]. eauto. }
  assert (Hsz : forall P0 : omap point, okeys P0 = okeys (pts inp) -> osize P0 = V).
  { intros P0 H. unfold V, osize. f_equal. apply (f_equal (@length N)) in H. unfold okeys in H. rewrite !map_length in H. exact H. }
  revert E. apply update_inv; auto.
  - intros n P H. apply H.
  - intros n P p [H1 [P0 [L [-> [H2 [H3 ->]]]]]] Hp. split; [apply dims_oset; assumption|].
    exists P0, (L ++ [p]). split; [|split; [exact H2|split; [exact H3|rewrite app_length; cbn; lia]]].
    rewrite idx_from_app, idx_from_cons, app_assoc. apply oset_append.
    intros j Hj. unfold okeys in Hj. rewrite map_app, in_app_iff in Hj. destruct Hj as [Hj|Hj].
    + change (In j (okeys P0)) in Hj. rewrite H2 in Hj. apply oget_Some_key in Hj. apply Hde in Hj. fold V in Hj. lia.
    + change (In j (okeys (idx_from V L))) in Hj. apply okeys_idx_from in Hj. lia.
  - intros n P [H1 [P0 [L [-> [H2 [H3 H4]]]]]]. split; [exact H1|]. exists P0, L. repeat split; auto.
    unfold osize. rewrite app_length, idx_from_length. specialize (Hsz P0 H2). unfold osize in Hsz. lia.
  - intros P H1 H2 H3. split; [exact H2|]. exists P, []. cbn. rewrite app_nil_r. repeat split; auto.
    rewrite (Hsz P H1). lia.
Qed.
End PTSANY.
