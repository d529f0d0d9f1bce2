(** * Update: complete runs of the face-split filters on valid meshes. *)
From Coq Require Import Permutation Sorted.
From Verif Require Import Base Mesh Filters Spec SpecSub Lists AddFace SplitTri Split Points Valid Run.

Section UPDATE.
Context {O : Ops} {D : Type}.
Notation mesh := (mesh O D).
Notation state := (@state O D).
Notation point := (list (K O)).
Implicit Types inp out : mesh.

(** The selected ids exist. *)
Notation known := existing.
(** The triangles AddNewCellPoints is called with. *)
Definition sel_tris (inp : mesh) (sel : list N) : list tri :=
  flat_map (fun i => map snd (filter (fun it => N.eqb (fst it) i) (faces inp))) sel.
Definition visited (inp : mesh) (sel : list N) : list tri :=
  if is_nil sel then tris inp else sel_tris inp sel.

Lemma faces_keys_sorted inp : sound inp -> sorted_keys (faces inp).
Proof.
  intros Hv. pose proof (v_cells_sorted _ Hv _ (valid_cells _ Hv)) as H.
  unfold sorted_keys, okeys in *. rewrite map_map in H. cbn [fst] in H. exact H.
Qed.

Lemma faces_fun inp i t u : sound inp -> In (i, t) (faces inp) -> In (i, u) (faces inp) -> t = u.
Proof.
  intros Hv Ht Hu. pose proof (faces_keys_sorted _ Hv) as Hs.
  assert (oget i (faces inp) = Some t) by (apply sorted_oget; auto).
  assert (oget i (faces inp) = Some u) by (apply sorted_oget; auto). congruence.
Qed.

Lemma sel_tris_In inp sel t : In t (sel_tris inp sel) <-> exists i, In i sel /\ In (i, t) (faces inp).
Proof.
  unfold sel_tris. rewrite in_flat_map. split.
  - intros [i [Hi H]]. apply in_map_iff in H. destruct H as [[j u] [E H]]. cbn in E. subst u.
    apply filter_In in H. destruct H as [H E]. cbn in E. apply N.eqb_eq in E. subst j. eauto.
  - intros [i [Hi H]]. exists i. split; [exact Hi|]. apply in_map_iff. exists (i, t). split; [reflexivity|].
    apply filter_In. split; [exact H|]. cbn. apply N.eqb_refl.
Qed.

Lemma filter_key (i : N) (t : tri) (l : list (N * tri)) :
  NoDup (map fst l) -> In (i, t) l -> filter (fun it => N.eqb (fst it) i) l = [(i, t)].
Proof.
  induction l as [|[j u] l IH]; intros Hnd Hin; [destruct Hin|].
  cbn [map fst] in Hnd. inv Hnd. cbn [filter fst].
  destruct Hin as [E|Hin].
  - inv E. rewrite N.eqb_refl. f_equal.
    assert (Hno : forall x, In x l -> N.eqb (fst x) i = false).
    { intros [k w] Hx. cbn. apply N.eqb_neq. intros ->. apply H1. apply in_map_iff. exists (i, w). auto. }
    clear - Hno. induction l as [|x l IH]; [reflexivity|]. cbn. rewrite Hno by (cbn; auto).
    apply IH. intros y Hy. apply Hno. cbn. auto.
  - destruct (N.eqb_spec j i).
    + subst. exfalso. apply H1. apply in_map_iff. exists (i, t). auto.
    + apply IH; auto.
Qed.

Lemma sel_tris_Forall2 inp sel cs : sound inp -> cells inp = Some cs -> known inp sel ->
  Forall2 (fun i t => oget i cs = Some (poly t)) sel (sel_tris inp sel).
Proof.
  intros Hv Hcs Hk. rewrite (valid_cells _ Hv) in Hcs. inv Hcs.
  pose proof (faces_keys_sorted _ Hv) as Hs. pose proof (sorted_NoDup_keys _ Hs) as Hnd.
  induction sel as [|i sel IH]; [constructor|].
  destruct (Hk i) as [t Ht]; [cbn; auto|].
  unfold sel_tris. cbn [flat_map]. rewrite (filter_key i t _ Hnd Ht). cbn [map app].
  constructor; [|apply IH; intros j Hj; apply Hk; cbn; auto].
  rewrite (oget_map (fun t => poly t)). rewrite (sorted_oget _ _ _ Hs Ht). reflexivity.
Qed.

Lemma sel_tris_incl inp sel t : In t (sel_tris inp sel) -> In t (tris inp).
Proof.
  intros H. apply sel_tris_In in H. destruct H as [i [_ H]]. unfold tris. apply in_map_iff. exists (i, t). auto.
Qed.
Lemma visited_incl inp sel t : In t (visited inp sel) -> In t (tris inp).
Proof. unfold visited. destruct (is_nil sel); [auto|apply sel_tris_incl]. Qed.

(** ** New edge points *)
Definition cell_point (s : cscheme) : mesh -> dedge -> res point :=
  match s with
  | CLinear => linear_point | CLoop => loop_point | CButterfly => butterfly_point
  | CSqrt3 => fun _ _ => OutOfFuel
  end.
Definition val_of (g : dedge -> res point) (e : dedge) : point := match g e with Ok p => p | _ => [] end.

Definition face_split (s : cscheme) : Prop := s <> CSqrt3.

Lemma cell_point_ok s inp e : sound inp -> face_split s -> In e (dirs (tris inp)) ->
  cell_point s inp e = Ok (val_of (cell_point s inp) e) /\ length (val_of (cell_point s inp) e) = kdim O.
Proof.
  intros Hv Hs He. destruct e as [a b]. unfold val_of.
  assert (Hj : joined inp a b) by (apply (v_face_edges _ Hv); exact He).
  destruct s; cbn [cell_point].
  - destruct (linear_point_ok inp a b Hv Hj) as [p [-> L]]. auto.
  - destruct (loop_point_ok inp a b Hv (or_introl He)) as [p [-> L]]. auto.
  - destruct (butterfly_point_ok inp a b Hv Hj) as [p [-> L]]. auto.
  - exfalso. apply Hs. reflexivity.
Qed.

(** Linear reads the points from the output; originals are still there. *)
Definition keeps_points (s : cscheme) (inp : mesh) (P0 : omap point) : Prop :=
  s = CLinear -> P0 = pts inp.

Lemma add_new_cell_points_ok s inp f0 out0 V P0 t I :
  sound inp -> dense inp -> V = osize (pts inp) -> copied inp P0 -> face_split s -> keeps_points s inp P0 ->
  In t (tris inp) ->
  let val := val_of (cell_point s inp) in
  add_new_cell_points s inp (Poly (tverts t)) (st_of f0 out0 V P0 val I) =
  Ok (st_of f0 out0 V P0 val (fold_left ins_step (tdirs t) I)).
Proof.
  intros Hv Hd HV Hc Hs Hk Ht val.
  assert (HP0 : densemap V P0) by (subst V; apply copied_densemap; auto).
  destruct t as [[a b] c].
  assert (Hdir : forall d, In d (tdirs (a, b, c)) -> In d (dirs (tris inp))).
  { intros d Hd'. apply in_flat_map. eauto. }
  assert (Hedge : forall x y, In (x, y) (tdirs (a, b, c)) -> In y (ring inp x)).
  { intros x y H. apply (v_face_edges _ Hv). auto. }
  assert (Hpt : forall d, In d (tdirs (a, b, c)) -> cell_point s inp d = Ok (val d)).
  { intros d H. apply (cell_point_ok s inp d Hv Hs). auto. }
  destruct s; cbn [add_new_cell_points].
  - unfold linear_add_new_cell_points. cbn [as_triangle tverts].
    apply three_steps_ok; try (apply Hedge; cbn; auto); [exact HP0|].
    intros d Hin. rewrite <- (Hpt d Hin). cbn [cell_point].
    assert (Hv1 : forall x, x < V -> get_pt (snd (st_of f0 out0 V P0 val I)) x = get_pt inp x).
    { intros x Hx. unfold get_pt, st_of. cbn [snd pts set_pts].
      rewrite densemap_app_old by assumption. rewrite (Hk eq_refl). reflexivity. }
    assert (Hlt : fst d < V /\ snd d < V).
    { destruct d as [x y]. destruct (tdirs_verts _ _ _ Hin) as [Vx Vy]. cbn [fst snd].
      subst V. split; apply Hd; eapply (v_verts _ Hv); eauto. }
    unfold linear_point. rewrite !Hv1 by tauto. reflexivity.
  - unfold loop_add_new_cell_points. cbn [as_triangle tverts].
    apply three_steps_ok; try (apply Hedge; cbn; auto); [exact HP0|exact Hpt].
  - unfold butterfly_add_new_cell_points. cbn [as_triangle tverts].
    apply three_steps_ok; try (apply Hedge; cbn; auto); [exact HP0|exact Hpt].
  - exfalso. apply Hs. reflexivity.
Qed.

(** ** Copying phase *)
(** Which points the Loop cell filter smooths. *)
Definition smooths (f : fstate) (id : N) : bool := uniform f || memN id (csel f).

(** The Loop filters dereference the edge of every point they smooth. *)
(* see SpecSub *)
Definition copy_ready (s : cscheme) (f : fstate) (inp : mesh) : Prop :=
  s = CLoop -> known inp (csel f) /\
    forall id, oget id (pts inp) <> None -> smooths f id = true -> ring inp id <> [].

Lemma smoothed_set_ok inp sel : sound inp -> known inp sel -> smoothed_set inp sel = Ok sel.
Proof.
  intros Hv Hk. induction sel as [|i sel IH]; [reflexivity|]. cbn [smoothed_set].
  rewrite (valid_cells _ Hv). destruct (Hk i) as [t Ht]; [cbn; auto|].
  rewrite (oget_map (fun t => poly t)). rewrite (sorted_oget _ _ _ (faces_keys_sorted _ Hv) Ht).
  cbn [option_map poly]. rewrite IH by (intros j Hj; apply Hk; cbn; auto). cbn [rbind].
  destruct t as [[a b] c]. reflexivity.
Qed.

(** The original points after the copy. *)
Definition copy_result (s : cscheme) (f : fstate) (inp : mesh) (P0 : omap point) : Prop :=
  forall id p, oget id P0 = Some p -> exists q, oget id (pts inp) = Some q /\
    (s <> CLoop /\ p = q \/
     s = CLoop /\ smooths f id = false /\ p = q \/
     s = CLoop /\ smooths f id = true /\ smoothing_point inp id q = Ok p).

Lemma copy_phase_ok s f inp : sound inp -> copy_ready s f inp ->
  exists P0, copy_input_points_c s inp (f, empty_mesh) = Ok (f, set_pts empty_mesh P0) /\
    copied inp P0 /\ (s <> CLoop -> P0 = pts inp) /\ copy_result s f inp P0.
Proof.
  intros Hv Hr.
  assert (Hplain : s <> CLoop ->
    exists P0, plain_copy_input_points inp (f, empty_mesh) = Ok (f, set_pts empty_mesh P0) /\
    copied inp P0 /\ (s <> CLoop -> P0 = pts inp) /\ copy_result s f inp P0).
  { intros Hs. exists (pts inp). unfold plain_copy_input_points. cbn [fst snd]. rewrite (plain_copy_ok _ Hv).
    split; [reflexivity|]. split; [|split; [auto|]].
    - split; [reflexivity|]. apply (v_pts_dim _ Hv).
    - intros id p Hp. exists p. split; [exact Hp|]. auto. }
  assert (Hloop : forall (sm : N -> bool),
    (forall id, oget id (pts inp) <> None -> sm id = true -> ring inp id <> []) ->
    exists P0, loop_copy_points inp sm (pts inp) empty_mesh = Ok (set_pts empty_mesh P0) /\
      copied inp P0 /\ forall id p, oget id P0 = Some p -> exists q, oget id (pts inp) = Some q /\
        (sm id = false /\ p = q \/ sm id = true /\ smoothing_point inp id q = Ok p)).
  { intros sm Hsm. pose proof (v_pts_sorted _ Hv) as Hs.
    destruct (loop_copy_ok inp sm Hv (pts inp) empty_mesh) as [P [E [Hk [Hl Hin]]]].
    - intros id p Hp. eapply (v_pts_dim _ Hv). apply sorted_oget; eauto.
    - intros id p Hp. apply Hsm. rewrite (sorted_oget _ _ _ Hs Hp). discriminate.
    - exact Hs.
    - exists P. split; [exact E|]. split.
      + split; [exact Hk|]. intros id p Hp. eapply Hl. apply oget_In. exact Hp.
      + intros id p Hp. apply oget_In in Hp. destruct (Hin id p Hp) as [q [Hq Hc]]. exists q.
        split; [apply sorted_oget; auto|exact Hc]. }
  destruct s; cbn [copy_input_points_c]; try (apply Hplain; discriminate).
  destruct (Hr eq_refl) as [Hkn Hring]. unfold loop_copy_input_points.
  destruct (uniform f) eqn:Hu.
  - destruct (Hloop (fun _ => true)) as [P0 [E [Hc Hin]]].
    { intros id Hid _. apply Hring; [exact Hid|]. unfold smooths. rewrite Hu. reflexivity. }
    rewrite E. cbn [rbind]. exists P0. split; [reflexivity|]. split; [exact Hc|]. split; [congruence|].
    intros id p Hp. destruct (Hin id p Hp) as [q [Hq [[? ?]|[_ ?]]]]; [discriminate|].
    exists q. split; [exact Hq|]. right. right. unfold smooths. rewrite Hu. auto.
  - rewrite (smoothed_set_ok _ _ Hv Hkn). cbn [rbind].
    destruct (Hloop (fun id => memN id (csel f))) as [P0 [E [Hc Hin]]].
    { intros id Hid Hm. apply Hring; [exact Hid|]. unfold smooths. rewrite Hm. apply orb_true_r. }
    rewrite E. cbn [rbind]. exists P0. split; [reflexivity|]. split; [exact Hc|]. split; [congruence|].
    intros id p Hp. destruct (Hin id p Hp) as [q [Hq Hcase]]. exists q. split; [exact Hq|].
    unfold smooths. rewrite Hu. cbn [orb]. tauto.
Qed.

(** ** Cell-based filters *)
Definition cells_inserted (inp : mesh) (sel : list N) : list dedge := ins_list (dirs (visited inp sel)).

Lemma st_of_nil f0 (out0 : mesh) V P0 val :
  st_of f0 out0 V P0 val [] = (set_epid f0 [], set_pts out0 P0).
Proof. unfold st_of. cbn. rewrite app_nil_r. reflexivity. Qed.

Lemma points_phase_c s f inp : sound inp -> dense inp -> face_split s -> known inp (csel f) ->
  copy_ready s f inp ->
  exists P0, generate_output_points_c s inp (f, empty_mesh) =
      Ok (st_of (set_uniform f (is_nil (csel f))) empty_mesh (osize (pts inp)) P0
                (val_of (cell_point s inp)) (cells_inserted inp (csel f))) /\
    copied inp P0 /\ (s <> CLoop -> P0 = pts inp) /\ copy_result s f inp P0.
Proof.
  intros Hv Hd Hs Hkn Hr.
  destruct (copy_phase_ok s f inp Hv Hr) as [P0 [E [Hc [Hk Hres]]]].
  exists P0. split; [|auto].
  unfold generate_output_points_c. rewrite E. cbn [rbind fst snd].
  rewrite (valid_cells _ Hv).
  set (f2 := set_uniform f (is_nil (csel f))).
  set (val := val_of (cell_point s inp)). set (V := osize (pts inp)).
  assert (Hst : (set_uniform (set_epid f []) (is_nil (csel (set_epid f []))), set_pts empty_mesh P0) =
                st_of f2 (@empty_mesh O D) V P0 val []).
  { rewrite st_of_nil. reflexivity. }
  rewrite Hst.
  assert (Hkeep : keeps_points s inp P0) by (intros ->; apply Hk; discriminate).
  unfold cells_inserted, visited.
  change (uniform (set_uniform (set_epid f []) (is_nil (csel (set_epid f []))))) with (is_nil (csel f)).
  change (csel (set_uniform (set_epid f []) (is_nil (csel (set_epid f []))))) with (csel f).
  destruct (is_nil (csel f)).
  - rewrite (uniform_loop_ok f2 empty_mesh V P0 val _ _ (tris inp)).
    + reflexivity.
    + unfold tris. rewrite !map_map. reflexivity.
    + intros t I Ht. apply add_new_cell_points_ok; auto.
  - rewrite (selected_loop_ok f2 empty_mesh V P0 val _ _ _ (sel_tris inp (csel f))).
    + reflexivity.
    + apply sel_tris_Forall2; [exact Hv|apply (valid_cells _ Hv)|exact Hkn].
    + intros t I Ht. apply add_new_cell_points_ok; auto. eapply sel_tris_incl; eauto.
Qed.

(** What a face-split run leaves behind: [Is] the inserted edges. *)
Record split_run (inp : mesh) (u : bool) (Is : list dedge) (val : dedge -> point) (P0 : omap point)
       (es : list (option dedge)) (f' : fstate) (out : mesh) : Prop := {
  r_built : built out (split_tris (tris inp) (sp (osize (pts inp)) Is));
  r_pts : pts out = P0 ++ idx_from (osize (pts inp)) (map val Is);
  r_cdata : cdata out = mk_data (dat inp (plan (sp (osize (pts inp)) Is) u (faces inp)));
  r_filter : f' = FState u (tracked (plan (sp (osize (pts inp)) Is) u (faces inp))) es
                         (ep (osize (pts inp)) Is)
}.

Lemma update_cell s f inp fuel : valid inp -> dense inp -> face_split s -> known inp (csel f) ->
  copy_ready s f inp -> (length (tris inp) < fuel)%nat ->
  exists P0 f' out, update (CellF s) fuel f inp = Ok (f', out) /\
    split_run inp (is_nil (csel f)) (cells_inserted inp (csel f)) (val_of (cell_point s inp)) P0 (esel f) f' out /\
    copied inp P0 /\ (s <> CLoop -> P0 = pts inp) /\ copy_result s f inp P0.
Proof.
  intros Hv Hd Hs Hkn Hr Hfuel.
  destruct (points_phase_c s f inp Hv Hd Hs Hkn Hr) as [P0 [E [Hc [Hk Hres]]]].
  destruct (cells_phase inp fuel (set_uniform f (is_nil (csel f))) P0 (val_of (cell_point s inp))
              (cells_inserted inp (csel f)) Hv Hd Hc Hfuel)
    as [out [E' [Hb [Hp Hcd]]]].
  exists P0. eexists. exists out. split.
  - unfold update. cbn [generate_output_points]. rewrite E. cbn [rbind].
    destruct s; cbn [generate_cells_of]; try exact E'. exfalso. apply Hs. reflexivity.
  - split; [|auto]. constructor; auto.
Qed.

(** ** Edge-based filters *)
Definition edge_list (inp : mesh) (sel : list (option dedge)) : list (option dedge) :=
  if is_nil sel then match ecells inp with Some es => map snd es | None => [] end else sel.

Definition copy_ready_e (s : escheme) (inp : mesh) : Prop := s = ELoop -> no_isolated inp.
Definition edges_ready (s : escheme) (inp : mesh) (l : list (option dedge)) : Prop :=
  forall a b, In (Some (a, b)) l -> joined inp a b /\
    (s = ELoop -> In (a, b) (dirs (tris inp)) \/ In (b, a) (dirs (tris inp))).

Lemma edge_point_ok s inp l e : sound inp -> edges_ready s inp l -> In (Some e) l ->
  edge_point s inp e = Ok (val_of (edge_point s inp) e) /\ length (val_of (edge_point s inp) e) = kdim O.
Proof.
  intros Hv Hr He. destruct e as [a b]. destruct (Hr a b He) as [Hj Hl]. unfold val_of.
  destruct s; cbn [edge_point].
  - destruct (linear_point_ok inp a b Hv Hj) as [p [-> L]]. auto.
  - destruct (loop_point_ok inp a b Hv (Hl eq_refl)) as [p [-> L]]. auto.
  - destruct (butterfly_point_ok inp a b Hv Hj) as [p [-> L]]. auto.
Qed.

(** Which points the Loop edge filter moves. *)
Definition edge_moves (esel : list (option dedge)) (inp : mesh) (id : N) : bool :=
  match ring inp id with [] => false | q0 :: rest => negb (copy_flag esel id q0 rest) end.

(** [copyFlag] is true whatever the list: the Loop edge filter moves nothing. *)
Lemma copy_flag_true l v : forall rest q0, copy_flag l v q0 rest = true.
Proof.
  induction rest as [|q1 t IH]; intros q0; cbn [copy_flag]; [reflexivity|].
  destruct (mem_esel (v, q0) l); [reflexivity|apply IH].
Qed.

Lemma loop_edge_copy_ok inp l : sound inp -> no_isolated inp ->
  forall (ps : omap point) out, sorted_keys (pts out ++ ps) ->
  (forall id p, In (id, p) ps -> oget id (pts inp) <> None) ->
  loop_edge_copy inp l ps out = Ok (set_pts out (pts out ++ ps)).
Proof.
  intros Hv Hni. induction ps as [|[k p] ps IH]; intros out Hs Hin; cbn [loop_edge_copy].
  - rewrite app_nil_r. destruct out; reflexivity.
  - pose proof (Hni k (Hin k p (or_introl eq_refl))) as Hr. destruct (ring inp k) as [|q0 r]; [congruence|].
    rewrite copy_flag_true.
    assert (E : set_point out k p = set_pts out (pts out ++ [(k, p)])).
    { pose proof (copy_points_ok [(k, p)] out) as H. cbn [fold_left fst snd] in H. apply H.
      unfold sorted_keys, okeys in *. rewrite map_app in *. cbn [map fst] in *.
      clear - Hs. induction (map fst (pts out)) as [|a t IHt]; cbn in *; [repeat constructor|].
      inv Hs. constructor; [auto|]. apply Forall_app. rewrite Forall_app in H2. destruct H2 as [H2 H3].
      inv H3. auto. }
    rewrite E, IH.
    + cbn. rewrite <- app_assoc. reflexivity.
    + cbn. rewrite <- app_assoc. exact Hs.
    + intros id q Hq. apply (Hin id q). cbn. auto.
Qed.

Lemma copy_phase_e s f inp : sound inp -> copy_ready_e s inp ->
  copy_input_points_e s inp (f, empty_mesh) = Ok (f, set_pts empty_mesh (pts inp)).
Proof.
  intros Hv Hr.
  destruct s; cbn [copy_input_points_e];
    try (unfold plain_copy_input_points; cbn [fst snd]; rewrite (plain_copy_ok _ Hv); reflexivity).
  unfold loop_edge_copy_input_points. rewrite loop_edge_copy_ok.
  - reflexivity.
  - exact Hv.
  - apply Hr. reflexivity.
  - apply (v_pts_sorted _ Hv).
  - intros id p Hp. rewrite (sorted_oget _ _ _ (v_pts_sorted _ Hv) Hp). discriminate.
Qed.

Lemma copied_self inp : sound inp -> copied inp (pts inp).
Proof. intros Hv. split; [reflexivity|apply (v_pts_dim _ Hv)]. Qed.

Lemma points_phase_e s f inp : sound inp -> dense inp -> copy_ready_e s inp ->
  edges_ready s inp (edge_list inp (esel f)) ->
  generate_output_points_e s inp (f, empty_mesh) =
    Ok (st_of (set_uniform f (is_nil (esel f))) empty_mesh (osize (pts inp)) (pts inp)
              (val_of (edge_point s inp)) (somes (edge_list inp (esel f)))).
Proof.
  intros Hv Hd Hr He. unfold generate_output_points_e. rewrite (copy_phase_e s f inp Hv Hr). cbn [rbind fst snd].
  set (f2 := set_uniform f (is_nil (esel f))).
  set (val := val_of (edge_point s inp)). set (V := osize (pts inp)).
  assert (Hst : (set_uniform (set_epid f []) (is_nil (esel (set_epid f []))), set_pts empty_mesh (pts inp)) =
                st_of f2 (@empty_mesh O D) V (pts inp) val []).
  { rewrite st_of_nil. reflexivity. }
  rewrite Hst.
  change (uniform (set_uniform (set_epid f []) (is_nil (esel (set_epid f []))))) with (is_nil (esel f)).
  change (esel (set_uniform (set_epid f []) (is_nil (esel (set_epid f []))))) with (esel f).
  assert (Hrun : edges_loop s inp (edge_list inp (esel f)) (st_of f2 (@empty_mesh O D) V (pts inp) val []) =
                 Ok (st_of f2 empty_mesh V (pts inp) val ([] ++ somes (edge_list inp (esel f))))).
  { apply edges_loop_ok.
    - apply (dense_map _ Hv Hd).
    - intros [a b] Hin. split; [apply (He a b Hin)|]. apply (edge_point_ok s inp _ _ Hv He Hin). }
  cbn [app] in Hrun. unfold edge_list in *.
  destruct (is_nil (esel f)).
  - destruct (v_ecells _ Hv) as [es [Hes _]]. rewrite Hes in *. exact Hrun.
  - exact Hrun.
Qed.

Lemma update_edge s f inp fuel : valid inp -> dense inp -> copy_ready_e s inp ->
  edges_ready s inp (edge_list inp (esel f)) ->
  (length (tris inp) < fuel)%nat ->
  exists f' out, update (EdgeF s) fuel f inp = Ok (f', out) /\
    split_run inp (is_nil (esel f)) (somes (edge_list inp (esel f))) (val_of (edge_point s inp)) (pts inp)
              (esel f) f' out.
Proof.
  intros Hv Hd Hr He Hfuel.
  destruct (cells_phase inp fuel (set_uniform f (is_nil (esel f))) (pts inp) (val_of (edge_point s inp))
              (somes (edge_list inp (esel f))) Hv Hd (copied_self _ Hv) Hfuel)
    as [out [E' [Hb [Hp Hcd]]]].
  eexists. exists out. split.
  - unfold update. cbn [generate_output_points]. rewrite (points_phase_e s f inp Hv Hd Hr He). cbn [rbind].
    cbn [generate_cells_of]. exact E'.
  - constructor; auto.
Qed.

(** The edge container lists every edge once. *)
Lemma ecells_udistinct inp : sound inp -> udistinct (somes (edge_list inp [])).
Proof.
  intros Hv. unfold edge_list. cbn [is_nil]. destruct (v_ecells _ Hv) as [es [-> [Hs [Ha [_ Hc]]]]].
  assert (Hsome : exists L, es = map (fun ie => (fst ie, Some (snd ie))) L /\ somes (map snd es) = map snd L).
  { clear Hs Hc. induction es as [|[i o] es IH]; [exists []; auto|].
    destruct (Ha i o) as [a [b [-> _]]]; [cbn; auto|].
    destruct IH as [L [-> E]]; [intros id o' H; apply (Ha id); cbn; auto|].
    exists ((i, (a, b)) :: L). split; [reflexivity|]. unfold somes in *. cbn. f_equal. exact E. }
  destruct Hsome as [L [-> ->]]. intros i j e f Hi Hj Hu.
  rewrite nth_error_map in Hi, Hj.
  destruct (nth_error L i) as [[n e']|] eqn:Ei; [|discriminate].
  destruct (nth_error L j) as [[n' f']|] eqn:Ej; [|discriminate]. cbn in Hi, Hj. inv Hi. inv Hj.
  assert (n = n').
  { apply (Hc n n' e f); [| |exact Hu].
    - apply in_map_iff. exists (n, e). split; [reflexivity|eapply nth_error_In; eauto].
    - apply in_map_iff. exists (n', f). split; [reflexivity|eapply nth_error_In; eauto]. }
  subst n'. apply sorted_NoDup_keys in Hs. unfold okeys in Hs. rewrite map_map in Hs. cbn [fst] in Hs.
  apply (proj1 (NoDup_nth_error (map fst L)) Hs).
  - apply nth_error_Some. rewrite nth_error_map, Ei. discriminate.
  - rewrite !nth_error_map, Ei, Ej. reflexivity.
Qed.

(** ** The output is valid *)
Lemma split_run_valid inp u Is val P0 es f' out :
  valid inp -> dense inp -> copied inp P0 -> tris inp <> [] ->
  (forall e, In e Is -> length (val e) = kdim O) ->
  split_run inp u Is val P0 es f' out -> valid out /\ dense out.
Proof.
  intros Hv Hd Hc Hne Hval [Hb Hp _ _]. set (V := osize (pts inp)) in *.
  pose proof (valid_splitting inp V Is Hv Hd eq_refl) as HS.
  assert (Hdm : densemap (V + N.of_nat (length (map val Is))) (P0 ++ idx_from V (map val Is))).
  { apply sorted_app_idx. apply copied_densemap; auto. }
  rewrite map_length in Hdm.
  apply (built_valid out (split_tris (tris inp) (sp V Is)) (V + N.of_nat (length Is)) Hb).
  - unfold split_tris. destruct (tris inp) as [|[[a b] c] T]; [congruence|]. cbn [flat_map split_tri].
    destruct (sp V Is a b), (sp V Is b c), (sp V Is c a); discriminate.
  - apply (split_good _ _ _ HS).
    + cbn. intros; lia.
    + intros a b m Hm. apply sp_range_any in Hm. lia.
  - apply (split_tris_notwin _ _ _ HS).
  - rewrite Hp. exact Hdm.
  - rewrite Hp. intros id p Hid.
    assert (HP0 : densemap V P0) by (apply copied_densemap; auto).
    destruct (N.lt_ge_cases id V) as [Hlt|Hge].
    + rewrite densemap_app_old in Hid by assumption. eapply (proj2 Hc); eauto.
    + rewrite densemap_app_new in Hid by assumption. rewrite nth_error_map in Hid.
      destruct (nth_error Is (N.to_nat (id - V))) as [e|] eqn:E; [|discriminate]. inv Hid.
      apply Hval. eapply nth_error_In; eauto.
Qed.
End UPDATE.
