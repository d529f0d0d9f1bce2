(** * Any: facts about every input mesh, valid or not. *)
From Verif Require Import Base Mesh Filters Drivers Spec SpecSub Lists.

Section ANY.
Context {O : Ops} {D : Type}.
Notation mesh := (mesh O D).
Notation state := (@state O D).
Implicit Types inp out : mesh.

(** ** Non-triangle cells *)
Lemma as_triangle_none c : obind c as_triangle = None <-> cell_tri c = [].
Proof.
  destruct c as [[l|l]|]; cbn; [|tauto|tauto].
  destruct l as [|a [|b [|c [|d l]]]]; split; intros H; (discriminate || reflexivity).
Qed.

Lemma cells_loop_bad inp : forall fuel cs st st' id c,
  In (id, c) cs -> cell_tri c = [] -> cells_loop fuel inp cs st <> Ok st'.
Proof.
  induction fuel as [|fuel IH]; intros cs st st' id c Hin Hc; [discriminate|]. cbn [cells_loop].
  destruct cs as [|[i x] cs]; [destruct Hin|].
  destruct (obind x as_triangle) as [t|] eqn:E; [|eapply IH; eauto].
  destruct Hin as [H|Hin].
  - injection H as -> ->. apply as_triangle_none in Hc. congruence.
  - destruct (split_cell inp i t st); cbn [rbind]; try discriminate. eapply IH; eauto.
Qed.
Lemma sqrt3_loop_bad inp : forall fuel cs st st' id c,
  In (id, c) cs -> cell_tri c = [] -> sqrt3_loop fuel inp cs st <> Ok st'.
Proof.
  induction fuel as [|fuel IH]; intros cs st st' id c Hin Hc; [discriminate|]. cbn [sqrt3_loop].
  destruct cs as [|[i [x|]] cs]; [destruct Hin| |discriminate].
  destruct (as_triangle x) as [t|] eqn:E; [|eapply IH; eauto].
  destruct Hin as [H|Hin].
  - injection H as <- <-. apply as_triangle_none in Hc. cbn in Hc. congruence.
  - destruct (sqrt3_cell inp i t st); cbn [rbind]; try discriminate. eapply IH; eauto.
Qed.

Lemma update_bad k fuel f inp cs id c st : cells inp = Some cs -> In (id, c) cs -> cell_tri c = [] ->
  update k fuel f inp <> Ok st.
Proof.
  intros Hcs Hin Hc. unfold update. destruct (generate_output_points k inp (f, empty_mesh)) as [s| | |];
    cbn [rbind]; try discriminate.
  destruct k as [[]|]; cbn [generate_cells_of]; unfold generate_output_cells, sqrt3_generate_output_cells;
    rewrite Hcs; first [eapply cells_loop_bad | eapply sqrt3_loop_bad]; eauto.
Qed.

(** The cell-area criterion. *)
Lemma area_loop_bad maxarea m : forall fuel cs acc l id c,
  In (id, c) cs -> cell_tri c = [] -> cell_area_loop fuel maxarea (m : mesh) cs acc <> Ok l.
Proof.
  induction fuel as [|fuel IH]; intros cs acc l id c Hin Hc; [discriminate|]. cbn [cell_area_loop].
  destruct cs as [|[i x] cs]; [destruct Hin|].
  destruct (obind x as_triangle) as [[[p q] r]|] eqn:E; [|eapply IH; eauto].
  destruct Hin as [H|Hin].
  - injection H as -> ->. apply as_triangle_none in Hc. congruence.
  - destruct (get_pt m p); cbn [rbind]; try discriminate.
    destruct (get_pt m q); cbn [rbind]; try discriminate.
    destruct (get_pt m r); cbn [rbind]; try discriminate.
    destruct (kgtb O _ _); eapply IH; eauto.
Qed.
(** It hangs as soon as the triangles before the first other cell have their points. *)
Lemma area_loop_hangs maxarea m : forall fuel cs acc id c,
  In (id, c) cs -> cell_tri c = [] ->
  (forall i p q r x, In (i, Some (Poly [p; q; r])) cs -> In x [p; q; r] -> oget x (pts m) <> None) ->
  cell_area_loop fuel maxarea (m : mesh) cs acc = OutOfFuel.
Proof.
  induction fuel as [|fuel IH]; intros cs acc id c Hin Hc Hp; [reflexivity|]. cbn [cell_area_loop].
  destruct cs as [|[i x] cs]; [destruct Hin|].
  destruct (obind x as_triangle) as [[[p q] r]|] eqn:E; [|eapply IH; eauto].
  destruct Hin as [H|Hin].
  - injection H as -> ->. apply as_triangle_none in Hc. congruence.
  - destruct x as [[l|l]|]; try discriminate.
    destruct l as [|a [|b [|d [|e l]]]]; try discriminate. cbn in E. injection E as -> -> ->.
    assert (Hg : forall y, In y [p; q; r] -> exists z, get_pt m y = Ok z).
    { intros y Hy. unfold get_pt. specialize (Hp i p q r y (or_introl eq_refl) Hy).
      destruct (oget y (pts m)); [eauto|congruence]. }
    destruct (Hg p) as [zp ->]; [cbn; auto|]. destruct (Hg q) as [zq ->]; [cbn; auto|].
    destruct (Hg r) as [zr ->]; [cbn; auto|]. cbn [rbind].
    destruct (kgtb O _ _); (eapply IH; [exact Hin|exact Hc|]); intros; eapply Hp; cbn; eauto.
Qed.

(** ** Runs keep the members they do not own *)
Lemma emit_members inp id track t st st' : emit inp id track t st = Ok st' ->
  uniform (fst st') = uniform (fst st) /\ esel (fst st') = esel (fst st) /\
  epid (fst st') = epid (fst st) /\ (track = false -> csel (fst st') = csel (fst st)).
Proof.
  destruct t as [[a b] c], st as [f out]. unfold emit. destruct (add_face out [a; b; c]) as [o1 e].
  destruct track.
  - destruct e; [|discriminate]. intros H; inv H. cbn. repeat split; congruence.
  - intros H; inv H. cbn. auto.
Qed.
Lemma emit_all_members inp id track l : forall st st', emit_all inp id track l st = Ok st' ->
  uniform (fst st') = uniform (fst st) /\ esel (fst st') = esel (fst st) /\
  epid (fst st') = epid (fst st) /\ (track = false -> csel (fst st') = csel (fst st)).
Proof.
  induction l as [|t l IH]; intros st st' H; cbn [emit_all] in H; [inv H; auto|].
  destruct (emit inp id track t st) as [s| | |] eqn:E; cbn [rbind] in H; try discriminate.
  apply emit_members in E. apply IH in H. intuition congruence.
Qed.
Lemma cells_loop_members inp : forall fuel cs st st', cells_loop fuel inp cs st = Ok st' ->
  uniform (fst st') = uniform (fst st) /\ esel (fst st') = esel (fst st) /\
  (uniform (fst st) = true -> csel (fst st') = csel (fst st)).
Proof.
  induction fuel as [|fuel IH]; intros cs st st' H; [discriminate|]. cbn [cells_loop] in H.
  destruct cs as [|[id c] cs]; [inv H; auto|].
  destruct (obind c as_triangle) as [t|]; [|eapply IH; eauto].
  destruct (split_cell inp id t st) as [s| | |] eqn:E; cbn [rbind] in H; try discriminate.
  destruct t as [[a b] d]. unfold split_cell in E. apply emit_all_members in E. apply IH in H.
  destruct E as [E1 [E2 [E3 E4]]]. destruct H as [H1 [H2 H3]].
  split; [congruence|]. split; [congruence|]. intros Hu. rewrite H3 by congruence. apply E4.
  rewrite Hu. apply andb_false_r.
Qed.
Lemma sqrt3_edge_members inp id t ab st st' b : sqrt3_edge inp id t ab st = Ok (st', b) ->
  uniform (fst st') = uniform (fst st) /\ esel (fst st') = esel (fst st) /\
  (uniform (fst st) = true -> csel (fst st') = csel (fst st)).
Proof.
  unfold sqrt3_edge. intros H.
  assert (Hm : forall tr u s s', emit inp id tr u s = Ok s' -> (uniform (fst s) = true -> tr = false) ->
    uniform (fst s') = uniform (fst s) /\ esel (fst s') = esel (fst s) /\
    (uniform (fst s) = true -> csel (fst s') = csel (fst s))).
  { intros tr u s s' E Ht. apply emit_members in E. intuition. }
  assert (Hneg : forall s : state, uniform (fst s) = true -> negb (uniform (fst s)) = false) by (intros s ->; reflexivity).
  destruct (find_edge inp (fst ab) (snd ab)) as [e|]; [|destruct (emit inp id false t st) as [s| | |] eqn:E; cbn [rbind] in H; inv H; eapply Hm; eauto].
  destruct (eget_opt (Some e) (epid (fst st))) as [c|];
    [|destruct (emit inp id false t st) as [s| | |] eqn:E; cbn [rbind] in H; inv H; eapply Hm; eauto].
  destruct (N.eqb c id_max); [inv H; auto|].
  assert (Hb : forall r, rbind (emit inp id (negb (uniform (fst st))) r st) (fun st1 => Ok (st1, false)) = Ok (st', b) ->
    uniform (fst st') = uniform (fst st) /\ esel (fst st') = esel (fst st) /\
    (uniform (fst st) = true -> csel (fst st') = csel (fst st))).
  { intros r Hr. destruct (emit inp id (negb (uniform (fst st))) r st) as [s| | |] eqn:E; cbn [rbind] in Hr; inv Hr.
    eapply Hm; eauto. }
  destruct (is_at_border inp e); [eapply Hb; eauto|].
  destruct (eget (sym e) (epid (fst st))) as [d|]; [|eapply Hb; eauto].
  destruct (emit inp id (negb (uniform (fst st))) (c, d, snd e) st) as [s1| | |] eqn:E1; cbn [rbind] in H; try discriminate.
  destruct (emit inp id (negb (uniform (fst st))) (d, c, fst e) s1) as [s2| | |] eqn:E2; cbn [rbind] in H; try discriminate.
  inv H. cbn [fst]. apply Hm in E1; [|apply Hneg]. destruct E1 as [A1 [A2 A3]].
  apply Hm in E2; [|intros Hu; apply Hneg; congruence]. destruct E2 as [B1 [B2 B3]]. cbn.
  split; [congruence|]. split; [congruence|]. intros Hu. rewrite B3 by congruence. auto.
Qed.
Lemma sqrt3_loop_members inp : forall fuel cs st st', sqrt3_loop fuel inp cs st = Ok st' ->
  uniform (fst st') = uniform (fst st) /\ esel (fst st') = esel (fst st) /\
  (uniform (fst st) = true -> csel (fst st') = csel (fst st)).
Proof.
  assert (Hc : forall id t st st', sqrt3_cell inp id t st = Ok st' ->
    uniform (fst st') = uniform (fst st) /\ esel (fst st') = esel (fst st) /\
    (uniform (fst st) = true -> csel (fst st') = csel (fst st))).
  { intros id [[a b] c] st st' H. unfold sqrt3_cell in H.
    destruct (sqrt3_edge inp id (a, b, c) (a, b) st) as [[s1 b1]| | |] eqn:E1; cbn [rbind] in H; try discriminate.
    apply sqrt3_edge_members in E1. destruct b1; [inv H; auto|].
    destruct (sqrt3_edge inp id (a, b, c) (b, c) s1) as [[s2 b2]| | |] eqn:E2; cbn [rbind] in H; try discriminate.
    apply sqrt3_edge_members in E2. destruct E1 as [A1 [A2 A3]]. destruct E2 as [B1 [B2 B3]].
    destruct b2; [inv H; repeat split; try congruence; intros; rewrite B3; auto; congruence|].
    destruct (sqrt3_edge inp id (a, b, c) (c, a) s2) as [[s3 b3]| | |] eqn:E3; cbn [rbind] in H; try discriminate.
    apply sqrt3_edge_members in E3. destruct E3 as [C1 [C2 C3]]. inv H.
    repeat split; try congruence. intros. rewrite C3, B3; auto; congruence. }
  induction fuel as [|fuel IH]; intros cs st st' H; [discriminate|]. cbn [sqrt3_loop] in H.
  destruct cs as [|[id [c|]] cs]; [inv H; auto| |discriminate].
  destruct (as_triangle c) as [t|]; [|eapply IH; eauto].
  destruct (sqrt3_cell inp id t st) as [s| | |] eqn:E; cbn [rbind] in H; try discriminate.
  apply Hc in E. apply IH in H. destruct E as [A1 [A2 A3]]. destruct H as [B1 [B2 B3]].
  repeat split; try congruence. intros. rewrite B3, A3; auto; congruence.
Qed.

Lemma generate_cells_members k fuel inp st st' : generate_cells_of k fuel inp st = Ok st' ->
  uniform (fst st') = uniform (fst st) /\ esel (fst st') = esel (fst st) /\
  (uniform (fst st) = true -> csel (fst st') = []).
Proof.
  intros H. destruct k as [[]|]; cbn [generate_cells_of] in H;
    unfold generate_output_cells, sqrt3_generate_output_cells in H; destruct (cells inp) as [cs|]; try discriminate;
    first [apply cells_loop_members in H | apply sqrt3_loop_members in H]; cbn [fst uniform esel csel set_cells_to_be_subdivided] in H; exact H.
Qed.

(** *** Points phase *)
Definition same_members (st st' : state) : Prop :=
  uniform (fst st') = uniform (fst st) /\ esel (fst st') = esel (fst st) /\ csel (fst st') = csel (fst st).
Lemma same_refl st : same_members st st.
Proof. repeat split. Qed.
Lemma same_trans a b c : same_members a b -> same_members b c -> same_members a c.
Proof. unfold same_members. intuition congruence. Qed.

Lemma edge_step_members inp newpt ab np st np' st' : edge_step inp newpt ab (np, st) = Ok (np', st') -> same_members st st'.
Proof.
  unfold edge_step. destruct (eget_opt _ _); [intros H; inv H; apply same_refl|].
  destruct (find_edge inp (fst ab) (snd ab)) as [e|]; [|discriminate].
  destruct (newpt e); cbn [rbind]; try discriminate. intros H. inv H. destruct st. repeat split.
Qed.
Lemma add_cell_members s inp c st st' : add_new_cell_points s inp c st = Ok st' -> same_members st st'.
Proof.
  assert (H3 : forall newpt x y z, three_edge_steps inp newpt x y z st = Ok st' -> same_members st st').
  { intros newpt x y z. unfold three_edge_steps.
    destruct (edge_step inp newpt (x, y) _) as [[n1 s1]| | |] eqn:E1; cbn [rbind]; try discriminate.
    destruct (edge_step inp newpt (y, z) _) as [[n2 s2]| | |] eqn:E2; cbn [rbind]; try discriminate.
    destruct (edge_step inp newpt (z, x) _) as [[n3 s3]| | |] eqn:E3; cbn [rbind]; try discriminate.
    intros H. inv H. apply edge_step_members in E1, E2, E3. cbn [snd].
    eapply same_trans; [exact E1|]. eapply same_trans; eauto. }
  destruct s; cbn [add_new_cell_points]; unfold linear_add_new_cell_points, loop_add_new_cell_points,
    butterfly_add_new_cell_points, sqrt3_add_new_cell_points; destruct (as_triangle c) as [[[x y] z]|]; try discriminate; eauto.
  destruct (elem_pt inp x); cbn [rbind]; try discriminate. destruct (elem_pt inp y); cbn [rbind]; try discriminate.
  destruct (elem_pt inp z); cbn [rbind]; try discriminate. intros H. inv H. repeat split.
Qed.
Lemma uniform_loop_members s inp cs : forall st st',
  uniform_cells_loop (add_new_cell_points s inp) cs st = Ok st' -> same_members st st'.
Proof.
  induction cs as [|[i [c|]] cs IH]; intros st st' H; cbn [uniform_cells_loop] in H; [inv H; apply same_refl| |discriminate].
  destruct (add_new_cell_points s inp c st) as [s1| | |] eqn:E; cbn [rbind] in H; try discriminate.
  eapply same_trans; [eapply add_cell_members; eauto|eauto].
Qed.
Lemma selected_loop_members s inp cs sel : forall st st',
  selected_cells_loop (add_new_cell_points s inp) cs sel st = Ok st' -> same_members st st'.
Proof.
  induction sel as [|i sel IH]; intros st st' H; cbn [selected_cells_loop] in H; [inv H; apply same_refl|].
  destruct (oget i cs) as [[c|]|]; try discriminate; [|eauto].
  destruct (add_new_cell_points s inp c st) as [s1| | |] eqn:E; cbn [rbind] in H; try discriminate.
  eapply same_trans; [eapply add_cell_members; eauto|eauto].
Qed.
Lemma edges_loop_members s inp l : forall st st', edges_loop s inp l st = Ok st' -> same_members st st'.
Proof.
  induction l as [|[e|] l IH]; intros st st' H; cbn [edges_loop] in H; [inv H; apply same_refl| |eauto].
  unfold add_new_edge_points in H. destruct (find_edge _ _ _); [|discriminate].
  destruct (edge_point s inp e); cbn [rbind] in H; try discriminate.
  eapply same_trans; [|eapply IH; exact H]. destruct st. repeat split.
Qed.

(** The edge phase does not look at the list of cells. *)
Lemma edges_loop_csel s inp c l : forall f out,
  edges_loop s inp l (set_cells_to_be_subdivided f c, out) =
  rbind (edges_loop s inp l (f, out)) (fun st => Ok (set_cells_to_be_subdivided (fst st) c, snd st)).
Proof.
  induction l as [|[e|] l IH]; intros f out; cbn [edges_loop]; [reflexivity| |apply IH].
  unfold add_new_edge_points. destruct (find_edge _ _ _); [|reflexivity].
  destruct (edge_point s inp e); cbn [rbind]; try reflexivity. cbn [insert_edge_point snd].
  rewrite <- IH. reflexivity.
Qed.

(** *** Second run *)
Lemma copy_c_members s inp f out st : copy_input_points_c s inp (f, out) = Ok st -> fst st = f.
Proof.
  destruct s; cbn [copy_input_points_c]; try (intros H; inv H; reflexivity).
  unfold loop_copy_input_points. destruct (uniform f).
  - destruct (loop_copy_points _ _ _ _); cbn [rbind]; try discriminate. intros H. inv H. reflexivity.
  - destruct (smoothed_set _ _); cbn [rbind]; try discriminate.
    destruct (loop_copy_points _ _ _ _); cbn [rbind]; try discriminate. intros H. inv H. reflexivity.
Qed.
Lemma copy_c_indep s inp f g out : (s = CLoop -> uniform f = true /\ uniform g = true) ->
  copy_input_points_c s inp (g, out) =
  rbind (copy_input_points_c s inp (f, out)) (fun st => Ok (g, snd st)).
Proof.
  intros H. destruct s; cbn [copy_input_points_c]; try reflexivity.
  destruct (H eq_refl) as [Hf Hg]. unfold loop_copy_input_points. rewrite Hf, Hg.
  destruct (loop_copy_points _ _ _ _); reflexivity.
Qed.
Lemma copy_e_indep s inp f g out : esel f = esel g ->
  copy_input_points_e s inp (g, out) =
  rbind (copy_input_points_e s inp (f, out)) (fun st => Ok (g, snd st)).
Proof.
  intros H. destruct s; cbn [copy_input_points_e]; try reflexivity.
  unfold loop_edge_copy_input_points. rewrite H. destruct (loop_edge_copy _ _ _ _); reflexivity.
Qed.
Lemma copy_e_members s inp f out st : copy_input_points_e s inp (f, out) = Ok st -> fst st = f.
Proof.
  destruct s; cbn [copy_input_points_e]; try (intros H; inv H; reflexivity).
  unfold loop_edge_copy_input_points. destruct (loop_edge_copy _ _ _ _); cbn [rbind]; try discriminate.
  intros H. inv H. reflexivity.
Qed.

Lemma points_members k inp f st : generate_output_points k inp (f, empty_mesh) = Ok st ->
  esel (fst st) = esel f /\ csel (fst st) = csel f /\
  uniform (fst st) = match k with CellF _ => is_nil (csel f) | EdgeF _ => is_nil (esel f) end.
Proof.
  destruct k as [s|s]; cbn [generate_output_points].
  - unfold generate_output_points_c. destruct (copy_input_points_c s inp (f, empty_mesh)) as [s1| | |] eqn:E; cbn [rbind]; try discriminate.
    apply copy_c_members in E. destruct s1 as [f1 o1]. cbn [fst snd] in *. subst f1.
    destruct (cells inp) as [cs|]; [|discriminate]. cbn [uniform set_uniform csel set_epid].
    destruct (is_nil (csel f)).
    + intros H. apply uniform_loop_members in H. destruct H as [A [B C]]. rewrite A, B, C. auto.
    + intros H. apply selected_loop_members in H. destruct H as [A [B C]]. rewrite A, B, C. auto.
  - unfold generate_output_points_e. destruct (copy_input_points_e s inp (f, empty_mesh)) as [s1| | |] eqn:E; cbn [rbind]; try discriminate.
    apply copy_e_members in E. destruct s1 as [f1 o1]. cbn [fst snd] in *. subst f1. cbn [uniform set_uniform esel set_epid].
    destruct (is_nil (esel f)).
    + destruct (ecells inp); [|discriminate]. intros H. apply edges_loop_members in H. destruct H as [A [B C]]. rewrite A, B, C. auto.
    + intros H. apply edges_loop_members in H. destruct H as [A [B C]]. rewrite A, B, C. auto.
Qed.

Lemma update_members k fuel f inp f' out : update k fuel f inp = Ok (f', out) ->
  esel f' = esel f /\ uniform f' = match k with CellF _ => is_nil (csel f) | EdgeF _ => is_nil (esel f) end /\
  (uniform f' = true -> csel f' = []).
Proof.
  unfold update. destruct (generate_output_points k inp (f, empty_mesh)) as [s| | |] eqn:E; cbn [rbind]; try discriminate.
  apply points_members in E. intros H. apply generate_cells_members in H. cbn [fst] in H.
  destruct E as [A [B C]]. destruct H as [P [Q R]].
  split; [congruence|]. split; [congruence|]. intros Hu. apply R. congruence.
Qed.

(** The cell phase starts by clearing the list. *)
Lemma generate_cells_csel k fuel inp f c out :
  generate_cells_of k fuel inp (set_cells_to_be_subdivided f c, out) = generate_cells_of k fuel inp (f, out).
Proof. destruct k as [[]|]; reflexivity. Qed.

Lemma rerun_cell s fuel f inp f' out : csel f = [] -> (s = CLoop -> uniform f = true) ->
  update (CellF s) fuel f inp = Ok (f', out) -> update (CellF s) fuel f' inp = Ok (f', out).
Proof.
  intros Hc Hl E. pose proof (update_members _ _ _ _ _ _ E) as [He [Hu Hcs]]. rewrite Hc in Hu. cbn in Hu.
  specialize (Hcs Hu). rewrite <- E. unfold update. f_equal. cbn [generate_output_points].
  unfold generate_output_points_c. rewrite (copy_c_indep s inp f f') by (intros; auto).
  destruct (copy_input_points_c s inp (f, empty_mesh)) as [[f1 o1]| | |] eqn:E1; cbn [rbind]; try reflexivity.
  apply copy_c_members in E1. cbn [fst snd] in *. subst f1.
  assert (Hs : set_uniform (set_epid f' []) (is_nil (csel (set_epid f' []))) =
               set_uniform (set_epid f []) (is_nil (csel (set_epid f [])))).
  { unfold set_uniform, set_epid. cbn. rewrite Hcs, Hc, He. reflexivity. }
  rewrite Hs. reflexivity.
Qed.
Lemma rerun_edge s fuel f inp f' out :
  update (EdgeF s) fuel f inp = Ok (f', out) -> update (EdgeF s) fuel f' inp = Ok (f', out).
Proof.
  intros E. pose proof (update_members _ _ _ _ _ _ E) as [He [Hu Hcs]].
  rewrite <- E. unfold update. cbn [generate_output_points].
  unfold generate_output_points_e. rewrite (copy_e_indep s inp f f') by auto.
  destruct (copy_input_points_e s inp (f, empty_mesh)) as [[f1 o1]| | |] eqn:E1; cbn [rbind]; try reflexivity.
  apply copy_e_members in E1. cbn [fst snd] in *. subst f1.
  assert (Hs : set_uniform (set_epid f' []) (is_nil (esel (set_epid f' []))) =
               set_cells_to_be_subdivided (set_uniform (set_epid f []) (is_nil (esel (set_epid f [])))) (csel f')).
  { unfold set_uniform, set_epid, set_cells_to_be_subdivided. cbn. rewrite He. reflexivity. }
  rewrite Hs. cbn [uniform set_cells_to_be_subdivided set_uniform esel]. 
  assert (HL : forall l g o, rbind (edges_loop s inp l (set_cells_to_be_subdivided g (csel f'), o)) (generate_cells_of (EdgeF s) fuel inp) =
    rbind (edges_loop s inp l (g, o)) (generate_cells_of (EdgeF s) fuel inp)).
  { intros l g o. rewrite edges_loop_csel. destruct (edges_loop s inp l (g, o)) as [[f2 o2]| | |]; cbn [rbind]; try reflexivity. }
  cbn [esel set_epid].
  destruct (is_nil (esel f)).
  - destruct (ecells inp); [|reflexivity]. apply HL.
  - apply HL.
Qed.
End ANY.

(** C27.  No filter ever produces an output for a mesh with a cell that is not a triangle, and
    neither does the cell-area criterion; the latter hangs unless a point is missing. *)
Lemma C27_never_completes_pf : forall (O : Ops) (D : Type) k f (inp : mesh O D) cs id c,
  cells inp = Some cs -> In (id, c) cs -> cell_tri c = [] ->
  (forall fuel st, update k fuel f inp <> Ok st) /\
  (forall maxarea fuel old s, cell_area_criterion maxarea fuel inp old <> Ok s).
Proof.
  intros O D k f inp cs id c Hcs Hin Hc. split.
  - intros. eapply update_bad; eauto.
  - intros maxarea fuel old s. unfold cell_area_criterion. rewrite Hcs. destruct old; cbn [sel_clear];
    (destruct (cell_area_loop fuel maxarea inp cs []) as [l'| | |] eqn:E; cbn [rbind]; try discriminate;
    exfalso; eapply area_loop_bad; eauto).
Qed.

Lemma C27_area_criterion_hangs_pf : forall (O : Ops) (D : Type) (inp : mesh O D) maxarea old cs id c,
  cells inp = Some cs -> In (id, c) cs -> cell_tri c = [] ->
  (forall t x, In t (tris inp) -> In x (tverts t) -> oget x (pts inp) <> None) ->
  diverges (fun fuel => cell_area_criterion maxarea fuel inp old).
Proof.
  intros O D inp maxarea old cs id c Hcs Hin Hc Hp fuel. unfold cell_area_criterion. rewrite Hcs.
  destruct old; cbn [sel_clear]; (rewrite (area_loop_hangs maxarea inp fuel cs [] id c Hin Hc); [reflexivity|];
  intros i p q r x Hx Hy; apply (Hp (p, q, r)); [|exact Hy];
  unfold tris, faces; rewrite Hcs; apply in_map_iff; exists (i, (p, q, r)); split; [reflexivity|];
  apply in_flat_map; eexists; (split; [exact Hx|]); cbn; auto).
Qed.

(** C31.  Running the same filter again on the same input is idempotent for every mesh: for all
    edge filters with any list, for all cell filters without a selection. *)
Lemma C31_rerun_pf : forall (O : Ops) (D : Type) k fuel f (inp : mesh O D) f' out,
  match k with
  | CellF s => csel f = [] /\ (s = CLoop -> uniform f = true)
  | EdgeF _ => True
  end ->
  update k fuel f inp = Ok (f', out) -> update k fuel f' inp = Ok (f', out).
Proof.
  intros O D k fuel f inp f' out Hk E. destruct k as [s|s].
  - destruct Hk. eapply rerun_cell; eauto.
  - eapply rerun_edge; eauto.
Qed.
