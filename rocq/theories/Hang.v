(** * Hang: meshes that contain cells which are not triangles. *)
From Verif Require Import Base Mesh Filters Drivers Spec SpecSub Lists AddFace SplitTri Split Points Valid Run Update Struct Count Face FaceProps Any Robust.

Section HANG.
Context {O : Ops} {D : Type}.
Notation mesh := (mesh O D).
Notation state := (@state O D).
Notation point := (list (K O)).
Variable inp : mesh.
Variable cs : omap (option cell).
Hypothesis Hcs : cells inp = Some cs.
Hypothesis Hsorted : sorted_keys cs.
Notation inp0 := (only_triangles inp).
Hypothesis Hv : valid inp0.
Hypothesis Hd : dense inp0.

Lemma cells0 : cells inp0 = Some (filter (fun ic => is_tri_cell (snd ic)) cs).
Proof. unfold only_triangles. cbn. rewrite Hcs. reflexivity. Qed.

Lemma is_tri_cell_inv c : is_tri_cell c = true -> exists t, c = poly t /\ cell_tri c = [t].
Proof.
  unfold is_tri_cell. destruct c as [[l|l]|]; cbn; try discriminate.
  destruct l as [|x [|y [|z [|w l]]]]; try discriminate. intros _. exists (x, y, z). auto.
Qed.

Lemma faces_full : faces inp0 = faces inp.
Proof.
  unfold faces. rewrite cells0, Hcs. clear. induction cs as [|[i c] l IH]; [reflexivity|].
  cbn [filter snd]. unfold is_tri_cell at 1. destruct (cell_tri c) eqn:E; cbn [flat_map fst snd]; rewrite E.
  - exact IH.
  - cbn [app map]. rewrite <- IH. reflexivity.
Qed.

Lemma left0 e : left_set inp0 e = true -> left_set inp e = true.
Proof.
  unfold left_set, left, cells_list. rewrite cells0, Hcs. clear. induction cs as [|[i c] l IH]; cbn; [discriminate|].
  destruct (is_tri_cell c); cbn [left_in]; destruct (cell_has_dir e c); auto.
Qed.

Lemma loop_point_full a b : In (a, b) (dirs (tris inp0)) \/ In (b, a) (dirs (tris inp0)) ->
  exists p, loop_point inp (a, b) = Ok p /\ length p = kdim O.
Proof.
  intros Hd'.
  assert (Hj : joined inp0 a b).
  { destruct Hd' as [H|H]; [|apply (v_ring_sym _ Hv)]; apply (v_face_edges _ Hv); exact H. }
  destruct (joined_pts _ _ _ Hv Hj) as [p [q [Ha [Hb [Hp Hq]]]]].
  change (pts inp0) with (pts inp) in Ha, Hb.
  unfold loop_point, get_pt. cbn [fst snd]. rewrite Ha, Hb. cbn [rbind].
  destruct (dest_ok inp0 (lnext inp0 (a, b)) Hv) as [p2 [E2 L2]]; [intros f Hf; eapply lnext_joined; eauto|].
  destruct (dest_ok inp0 (rprev inp0 (a, b)) Hv) as [p3 [E3 L3]]; [intros f Hf; eapply rprev_joined; eauto|].
  change (dest_or_zero inp0 (lnext inp0 (a, b))) with (dest_or_zero inp (lnext inp (a, b))) in E2.
  change (dest_or_zero inp0 (rprev inp0 (a, b))) with (dest_or_zero inp (rprev inp (a, b))) in E3.
  rewrite E2, E3. cbn [rbind].
  assert (Hs : left_set inp (a, b) = true \/ left_set inp (b, a) = true).
  { destruct Hd' as [H|H]; [left|right]; apply left0; apply valid_left; auto. }
  unfold is_internal, is_at_border, right_set, sym. cbn [fst snd].
  assert (Lc : length (comb pzero loop_weights [p; q; p2; p3]) = kdim O).
  { apply comb_length; [apply repeat_length|]. intros z Hz. cbn in Hz. destruct Hz as [<-|[<-|[<-|[<-|[]]]]]; assumption. }
  pose proof (midpoint_length p q Hp Hq) as Lm.
  destruct (left_set inp (a, b)), (left_set inp (b, a)); cbn; eauto. destruct Hs; discriminate.
Qed.

Lemma new_point_full s e : In e (dirs (tris inp0)) -> face_split s ->
  exists p, cell_point s inp e = Ok p /\ length p = kdim O.
Proof.
  intros He Hs. destruct e as [a b].
  assert (Hj : joined inp0 a b) by (apply (v_face_edges _ Hv); exact He).
  destruct s; cbn [cell_point].
  - apply (linear_point_ok inp0 a b Hv Hj).
  - apply loop_point_full. auto.
  - apply (butterfly_point_ok inp0 a b Hv Hj).
  - exfalso. apply Hs. reflexivity.
Qed.

(** ** Points *)
Lemma smooth_sums_full v r : (forall d, In d r -> oget d (pts inp) <> None) ->
  forall (bpt opt : point) nb nn, length bpt = kdim O -> length opt = kdim O ->
  exists bpt' nb' opt' nn', smooth_sums inp v r bpt nb opt nn = Ok (bpt', nb', opt', nn') /\
    length bpt' = kdim O /\ length opt' = kdim O.
Proof.
  induction r as [|d r IH]; intros Hr bpt opt nb nn Hb Ho; cbn [smooth_sums]; [eauto 10|].
  unfold elem_pt. specialize (Hr d (or_introl eq_refl)) as Hd'. destruct (oget d (pts inp)) as [p|] eqn:E; [|congruence].
  assert (Lp : length p = kdim O) by (eapply (v_pts_dim _ Hv); exact E). cbn [rbind].
  assert (Hr' : forall x, In x r -> oget x (pts inp) <> None) by (intros; apply Hr; cbn; auto).
  assert (Lpad : forall x : point, length x = kdim O -> length (padd x p) = kdim O) by (intros; apply map2_length; auto).
  destruct (is_at_border inp (v, d)); apply IH; auto.
Qed.
Lemma smoothing_full v ipt : ring inp v <> [] -> length ipt = kdim O ->
  exists p, smoothing_point inp v ipt = Ok p /\ length p = kdim O.
Proof.
  intros Hne Hi. unfold smoothing_point. destruct (ring inp v) as [|d r] eqn:Hr; [congruence|].
  destruct (smooth_sums_full v (d :: r)) with (bpt := pzero (O := O)) (opt := pzero (O := O)) (nb := 0) (nn := 0)
    as [b [n [o [m [E [Lb Lo]]]]]]; try (unfold pzero; apply repeat_length).
  { intros x Hx. apply (v_ring_pts _ Hv v). unfold joined. change (ring inp0 v) with (ring inp v). rewrite Hr. exact Hx. }
  rewrite E. cbn [rbind]. destruct (N.eqb n 0); eexists; (split; [reflexivity|]); apply map2_length; auto.
Qed.

Lemma loop_copy_full sm : forall (l : omap point) out,
  (forall id p, In (id, p) l -> length p = kdim O) ->
  (forall id p, In (id, p) l -> ring inp id <> []) ->
  sorted_keys (pts out ++ l) ->
  exists P, loop_copy_points inp sm l out = Ok (set_pts out (pts out ++ P)) /\
    okeys P = okeys l /\ (forall id p, In (id, p) P -> length p = kdim O).
Proof.
  induction l as [|[k p] l IH]; intros out Hl Hr Hs; cbn [loop_copy_points].
  - exists []. rewrite app_nil_r. split; [destruct out; reflexivity|]. split; [reflexivity|intros ? ? []].
  - assert (Hset : forall q, set_point out k q = set_pts out (pts out ++ [(k, q)])).
    { intros q. unfold set_point. f_equal. apply oset_append. intros j Hj.
      clear - Hs Hj. unfold sorted_keys, okeys in *. rewrite map_app in Hs. cbn [map fst] in Hs.
      induction (map fst (pts out)) as [|a t IHt]; [destruct Hj|]. cbn in Hs. inv Hs.
      destruct Hj as [<-|Hj]; [|auto]. rewrite Forall_forall in H2. apply H2. apply in_or_app. cbn. auto. }
    assert (Hgo : forall q, length q = kdim O -> exists P, loop_copy_points inp sm l (set_point out k q) = Ok (set_pts out (pts out ++ P)) /\
       okeys P = okeys ((k, p) :: l) /\ (forall id p, In (id, p) P -> length p = kdim O)).
    { intros q Hq. rewrite Hset. destruct (IH (set_pts out (pts out ++ [(k, q)]))) as [P [E [HP HL]]].
      - intros; eapply Hl; cbn; eauto.
      - intros; eapply Hr; cbn; eauto.
      - cbn [pts set_pts]. unfold sorted_keys, okeys in *. rewrite <- app_assoc. rewrite map_app in *. exact Hs.
      - exists ((k, q) :: P). rewrite E. cbn [pts set_pts]. rewrite <- app_assoc. split; [reflexivity|].
        split; [cbn; f_equal; exact HP|]. intros id r [H|H]; [inv H; exact Hq|eauto]. }
    destruct (sm k).
    + destruct (smoothing_full k p) as [q [-> Lq]]; [eapply Hr; cbn; eauto|eapply Hl; cbn; eauto|]. cbn [rbind]. auto.
    + apply Hgo. eapply Hl. cbn. auto.
Qed.

Lemma sorted_pts : sorted_keys (pts inp).
Proof. apply (v_pts_sorted _ Hv). Qed.

Lemma existing_full f : existing inp0 (csel f) -> smoothed_set inp (csel f) = Ok (csel f).
Proof.
  intros Hk. induction (csel f) as [|i sel IH]; [reflexivity|]. cbn [smoothed_set]. rewrite Hcs.
  destruct (Hk i) as [t Ht]; [cbn; auto|].
  assert (Hg : oget i cs = Some (poly t)).
  { apply sorted_oget; [exact Hsorted|]. rewrite faces_full in Ht. unfold faces in Ht. rewrite Hcs in Ht.
    apply in_flat_map in Ht. destruct Ht as [[j c] [Hj Ht]]. cbn in Ht. apply in_map_iff in Ht. destruct Ht as [u [E Hu]].
    inv E. destruct (is_tri_cell_inv c) as [u [-> Eu]].
    - unfold is_tri_cell. destruct (cell_tri c); [destruct Hu|reflexivity].
    - rewrite Eu in Hu. destruct Hu as [->|[]]. exact Hj. }
  rewrite Hg. cbn [poly]. rewrite IH by (intros j Hj; apply Hk; cbn; auto). cbn [rbind].
  destruct t as [[a b] c]. reflexivity.
Qed.

Lemma copy_full s f : existing inp0 (csel f) -> (s = CLoop -> no_isolated inp0) ->
  exists P0, copy_input_points_c s inp (f, empty_mesh) = Ok (f, set_pts empty_mesh P0) /\
    copied inp0 P0 /\ (s <> CLoop -> P0 = pts inp).
Proof.
  intros Hex Hni.
  assert (Hplain : plain_copy_input_points inp (f, empty_mesh) = Ok (f, set_pts empty_mesh (pts inp))).
  { unfold plain_copy_input_points. cbn [fst snd]. unfold copy_points.
    rewrite copy_points_ok by (cbn; apply sorted_pts). reflexivity. }
  destruct s; cbn [copy_input_points_c];
    try (exists (pts inp); split; [exact Hplain|split; [exact (copied_self _ Hv)|reflexivity]]).
  assert (Hl : forall sm, exists P0, loop_copy_points inp sm (pts inp) empty_mesh = Ok (set_pts empty_mesh P0) /\ copied inp0 P0).
  { intros sm. destruct (loop_copy_full sm (pts inp) empty_mesh) as [P [E [HP HL]]].
    - intros id p Hp. eapply (v_pts_dim _ Hv). apply sorted_oget; [apply sorted_pts|exact Hp].
    - intros id p Hp. apply (Hni eq_refl). change (pts inp0) with (pts inp).
      rewrite (sorted_oget _ _ _ sorted_pts Hp). discriminate.
    - exact sorted_pts.
    - exists P. split; [exact E|]. split; [exact HP|]. intros id p Hp. eapply HL. apply oget_In. exact Hp. }
  unfold loop_copy_input_points. destruct (uniform f).
  - destruct (Hl (fun _ => true)) as [P0 [-> Hc]]. exists P0. cbn [rbind]. split; [reflexivity|]. split; [exact Hc|congruence].
  - rewrite (existing_full f Hex). cbn [rbind]. destruct (Hl (fun id => memN id (csel f))) as [P0 [-> Hc]].
    exists P0. cbn [rbind]. split; [reflexivity|]. split; [exact Hc|congruence].
Qed.

Lemma add_cell_full s f0 out0 P0 t I : copied inp0 P0 -> face_split s -> (s = CLinear -> P0 = pts inp) ->
  In t (tris inp0) ->
  let val := val_of (cell_point s inp) in
  add_new_cell_points s inp (Poly (tverts t)) (st_of f0 out0 (osize (pts inp)) P0 val I) =
  Ok (st_of f0 out0 (osize (pts inp)) P0 val (fold_left ins_step (tdirs t) I)).
Proof.
  intros Hc Hs Hk Ht val. set (V := osize (pts inp)).
  assert (HP0 : densemap V P0) by (apply (copied_densemap inp0); auto).
  destruct t as [[a b] c].
  assert (Hdir : forall d, In d (tdirs (a, b, c)) -> In d (dirs (tris inp0))).
  { intros d Hd'. apply in_flat_map. eauto. }
  assert (Hedge : forall x y, In (x, y) (tdirs (a, b, c)) -> In y (ring inp x)).
  { intros x y H. apply (v_face_edges _ Hv). auto. }
  assert (Hpt : forall d, In d (tdirs (a, b, c)) -> cell_point s inp d = Ok (val d)).
  { intros d H. destruct (new_point_full s d (Hdir d H) Hs) as [p [E _]]. unfold val, val_of. rewrite E. reflexivity. }
  destruct s; cbn [add_new_cell_points].
  - unfold linear_add_new_cell_points. cbn [as_triangle tverts].
    apply three_steps_ok; try (apply Hedge; cbn; auto); [exact HP0|].
    intros d Hin. rewrite <- (Hpt d Hin). cbn [cell_point].
    assert (Hv1 : forall x, x < V -> get_pt (snd (st_of f0 out0 V P0 val I)) x = get_pt inp x).
    { intros x Hx. unfold get_pt, st_of. cbn [snd pts set_pts].
      rewrite densemap_app_old by assumption. rewrite (Hk eq_refl). reflexivity. }
    assert (Hlt : fst d < V /\ snd d < V).
    { destruct d as [x y]. destruct (tdirs_verts _ _ _ Hin) as [Vx Vy]. cbn [fst snd].
      split; apply Hd; eapply (v_verts _ Hv); eauto. }
    unfold linear_point. rewrite !Hv1 by tauto. reflexivity.
  - unfold loop_add_new_cell_points. cbn [as_triangle tverts].
    apply three_steps_ok; try (apply Hedge; cbn; auto); [exact HP0|exact Hpt].
  - unfold butterfly_add_new_cell_points. cbn [as_triangle tverts].
    apply three_steps_ok; try (apply Hedge; cbn; auto); [exact HP0|exact Hpt].
  - exfalso. apply Hs. reflexivity.
Qed.

Lemma points_full_c s f : face_split s -> existing inp0 (csel f) -> (s = CLoop -> no_isolated inp0) -> csel f <> [] ->
  exists P0, generate_output_points_c s inp (f, empty_mesh) =
      Ok (st_of (set_uniform f false) empty_mesh (osize (pts inp)) P0
                (val_of (cell_point s inp)) (cells_inserted inp0 (csel f))) /\ copied inp0 P0.
Proof.
  intros Hs Hex Hni Hne. destruct (copy_full s f Hex Hni) as [P0 [E [Hc HP]]]. exists P0. split; [|exact Hc].
  unfold generate_output_points_c. rewrite E. cbn [rbind fst snd]. rewrite Hcs.
  assert (Hnil : is_nil (csel f) = false) by (destruct (csel f); [congruence|reflexivity]).
  cbn [uniform set_uniform csel set_epid]. rewrite Hnil.
  set (val := val_of (cell_point s inp)).
  assert (Hst : (set_uniform (set_epid f []) false, set_pts empty_mesh P0) =
                st_of (set_uniform f false) (@empty_mesh O D) (osize (pts inp)) P0 val []).
  { rewrite st_of_nil. reflexivity. }
  rewrite Hst.
  rewrite (selected_loop_ok (set_uniform f false) empty_mesh (osize (pts inp)) P0 val _ _ _ (sel_tris inp0 (csel f))).
  - unfold cells_inserted, visited. rewrite Hnil. reflexivity.
  - pose proof (sel_tris_Forall2 inp0 (csel f) _ Hv cells0 Hex) as HF.
    clear - HF Hsorted. induction HF as [|i t l T H HF IH]; constructor; auto.
    apply sorted_oget; [exact Hsorted|]. apply oget_In in H. apply filter_In in H. apply H.
  - intros t I Ht. apply add_cell_full; auto.
    + intros ->. apply HP. discriminate.
    + eapply sel_tris_incl; eauto.
Qed.

Lemma loop_edge_copy_full l : forall (ps : omap point) out, loop_edge_copy inp l ps out = loop_edge_copy inp0 l ps out.
Proof.
  induction ps as [|[k p] ps IH]; intros out; cbn [loop_edge_copy]; [reflexivity|].
  change (ring inp0 k) with (ring inp k). destruct (ring inp k); [reflexivity|]. rewrite !copy_flag_true. apply IH.
Qed.

Lemma points_full_e s f : copy_ready_e s inp0 -> edges_ready s inp0 (edge_list inp0 (esel f)) ->
  generate_output_points_e s inp (f, empty_mesh) =
    Ok (st_of (set_uniform f (is_nil (esel f))) empty_mesh (osize (pts inp)) (pts inp)
              (val_of (edge_point s inp)) (somes (edge_list inp0 (esel f)))).
Proof.
  intros Hr He. unfold generate_output_points_e.
  assert (Hcopy : copy_input_points_e s inp (f, empty_mesh) = Ok (f, set_pts empty_mesh (pts inp))).
  { transitivity (copy_input_points_e s inp0 (f, empty_mesh)); [|exact (copy_phase_e s f inp0 Hv Hr)].
    destruct s; cbn [copy_input_points_e]; try reflexivity.
    unfold loop_edge_copy_input_points. rewrite loop_edge_copy_full. reflexivity. }
  rewrite Hcopy. cbn [rbind fst snd].
  set (f2 := set_uniform f (is_nil (esel f))).
  set (val := val_of (edge_point s inp)). set (V := osize (pts inp)).
  assert (Hst : (set_uniform (set_epid f []) (is_nil (esel (set_epid f []))), set_pts empty_mesh (pts inp)) =
                st_of f2 (@empty_mesh O D) V (pts inp) val []).
  { rewrite st_of_nil. reflexivity. }
  rewrite Hst.
  change (uniform (set_uniform (set_epid f []) (is_nil (esel (set_epid f []))))) with (is_nil (esel f)).
  change (esel (set_uniform (set_epid f []) (is_nil (esel (set_epid f []))))) with (esel f).
  assert (Hrun : edges_loop s inp (edge_list inp0 (esel f)) (st_of f2 (@empty_mesh O D) V (pts inp) val []) =
                 Ok (st_of f2 empty_mesh V (pts inp) val ([] ++ somes (edge_list inp0 (esel f))))).
  { apply edges_loop_ok.
    - apply (dense_map inp0 Hv Hd).
    - intros [a b] Hin. destruct (He a b Hin) as [Hj Hloop]. split; [exact Hj|].
      assert (Hok : exists p, edge_point s inp (a, b) = Ok p).
      { destruct s; cbn [edge_point].
        - destruct (linear_point_ok inp0 a b Hv Hj) as [p [E _]]. exists p. exact E.
        - destruct (loop_point_full a b (Hloop eq_refl)) as [p [E _]]. eauto.
        - destruct (butterfly_point_ok inp0 a b Hv Hj) as [p [E _]]. exists p. exact E. }
      destruct Hok as [p E]. unfold val, val_of. rewrite E. reflexivity. }
  cbn [app] in Hrun. unfold edge_list in *. change (ecells inp0) with (ecells inp) in *.
  destruct (is_nil (esel f)).
  - destruct (v_ecells _ Hv) as [es [Hes _]]. change (ecells inp0) with (ecells inp) in Hes. rewrite Hes in *. exact Hrun.
  - exact Hrun.
Qed.

(** ** Cells *)
Lemma cells_loop_hangs EP u (Sp : N -> N -> option N) id c rest F : forall fuel st st',
  cell_tri c = [] ->
  (forall id t, In (id, t) F -> forall a b, In (a, b) (tdirs t) -> eget_opt (find_edge inp a b) EP = Sp a b) ->
  epid (fst st) = EP -> uniform (fst st) = u ->
  run_plan inp (plan Sp u F) st = Ok st' ->
  cells_loop fuel inp (map (fun it => (fst it, poly (snd it))) F ++ (id, c) :: rest) st = OutOfFuel.
Proof.
  induction F as [|[i [[x y] z]] F IH]; intros fuel st st' Hc HSp HE Hu Hrun.
  - apply as_triangle_none in Hc. cbn [map app]. revert st HE Hu Hrun.
    induction fuel as [|fuel IHf]; intros st HE Hu Hrun; cbn [cells_loop]; [reflexivity|]. rewrite Hc. apply IHf; auto.
  - destruct fuel as [|fuel]; [reflexivity|].
    cbn [cells_loop map app fst snd obind poly tverts as_triangle].
    unfold plan in Hrun. cbn [flat_map] in Hrun. rewrite run_plan_app in Hrun.
    unfold split_cell. rewrite emit_all_plan. rewrite HE, Hu.
    rewrite (HSp i (x, y, z)) by (cbn; auto). rewrite (HSp i (x, y, z)) by (cbn; auto).
    rewrite (HSp i (x, y, z)) by (cbn; auto).
    match goal with |- rbind ?w _ = _ => destruct w as [s| | |] eqn:Es end;
      unfold plan_cell in Hrun; rewrite Es in Hrun; cbn [rbind] in *; try discriminate.
    apply run_plan_keeps in Es. destruct Es as [E1 [E2 _]].
    eapply IH; try congruence; eauto. intros id' t Ht. apply (HSp id'). cbn. auto.
Qed.

Lemma bad_split id c : In (id, c) cs -> cell_tri c = [] ->
  exists F1 F2 i b rest, cs = map (fun it => (fst it, poly (snd it))) F1 ++ (i, b) :: rest /\
    cell_tri b = [] /\ faces inp0 = F1 ++ F2.
Proof.
  intros Hin Hc. rewrite faces_full. unfold faces. rewrite Hcs. revert Hin. clear - Hc.
  induction cs as [|[i x] l IH]; intros Hin; [destruct Hin|].
  destruct (is_tri_cell x) eqn:E.
  - destruct (is_tri_cell_inv x E) as [t [-> Et]].
    destruct Hin as [H|Hin]; [inv H; congruence|].
    destruct (IH Hin) as [F1 [F2 [j [b [rest [E1 [E2 E3]]]]]]].
    exists ((i, t) :: F1), F2, j, b, rest. cbn [map fst snd app flat_map]. rewrite Et. cbn. rewrite E3.
    split; [rewrite E1; reflexivity|]. auto.
  - exists [], (flat_map (fun ic => map (pair (fst ic)) (cell_tri (snd ic))) ((i, x) :: l)), i, x, l.
    split; [reflexivity|]. split; [|reflexivity]. unfold is_tri_cell in E. destruct (cell_tri x); [reflexivity|discriminate].
Qed.

Lemma cells_hang fuel f0 P0 val Is id c : copied inp0 P0 -> udistinct Is -> In (id, c) cs -> cell_tri c = [] ->
  generate_output_cells fuel inp (st_of f0 empty_mesh (osize (pts inp)) P0 val Is) = OutOfFuel.
Proof.
  intros Hcop HI Hin Hc. set (V := osize (pts inp)).
  destruct (bad_split id c Hin Hc) as [F1 [F2 [i [b [rest [E1 [E2 E3]]]]]]].
  unfold generate_output_cells. rewrite Hcs, E1.
  pose proof (valid_splitting inp0 V Is Hv Hd eq_refl) as HS.
  set (st0 := st_of f0 (@empty_mesh O D) V P0 val Is).
  set (st := (set_cells_to_be_subdivided (fst st0) [], snd st0)).
  assert (Hdm : densemap (V + N.of_nat (length (map val Is))) (P0 ++ idx_from V (map val Is))).
  { apply sorted_app_idx. apply (copied_densemap inp0); auto. }
  rewrite map_length in Hdm.
  destruct (run_plan_ok inp (plan (sp V Is) (uniform f0) F1) [] (fst st) (snd st)
              (fun v => v < V + N.of_nat (length Is))) as [out' [Er _]].
  - unfold st. cbn. apply built_empty.
  - cbn [app]. rewrite plan_tris.
    apply good_prefix with (U := split_tris (map snd F2) (sp V Is)).
    assert (Hs : split_tris (tris inp0) (sp V Is) = split_tris (map snd F1) (sp V Is) ++ split_tris (map snd F2) (sp V Is)).
    { unfold tris. rewrite E3, map_app. unfold split_tris. apply flat_map_app. }
    rewrite <- Hs. apply (split_good _ _ _ HS).
    + cbn. intros x Hx. lia.
    + intros x y m Hm. apply (sp_range _ _ _ _ _ HI) in Hm. lia.
  - intros v Hv'. unfold st. cbn. apply (densemap_get _ _ _ Hdm). exact Hv'.
  - reflexivity.
  - reflexivity.
  - eapply cells_loop_hangs with (EP := ep V Is) (u := uniform f0) (Sp := sp V Is); [exact E2| | | |].
    + intros j t Ht x y Hxy. unfold find_edge.
      assert (memN y (ring inp x) = true) as ->; [|reflexivity].
      apply memN_In. apply (v_face_edges _ Hv). apply dirs_tri. exists t. split; [|exact Hxy].
      unfold tris. rewrite E3. apply in_map_iff. exists (j, t). split; [reflexivity|apply in_or_app; auto].
    + reflexivity.
    + reflexivity.
    + exact Er.
Qed.

Lemma update_hangs k f fuel id c : ready k f inp0 -> In (id, c) cs -> cell_tri c = [] ->
  match k with CellF _ => csel f <> [] | EdgeF _ => True end ->
  update k fuel f inp = OutOfFuel.
Proof.
  intros Hr Hin Hc Hk. unfold update. destruct k as [s|s]; cbn [generate_output_points].
  - pose proof Hr as [Hsf [Hl Hex]].
    assert (Hfs : face_split s) by (intros ->; apply Hsf; reflexivity).
    destruct (points_full_c s f Hfs Hex) as [P0 [-> Hcop]]; [intros ->; apply Hl; left; reflexivity|exact Hk|].
    cbn [rbind].
    assert (H := cells_hang fuel (set_uniform f false) P0 (val_of (cell_point s inp)) (cells_inserted inp0 (csel f)) id c
              Hcop (ins_list_udistinct _) Hin Hc).
    destruct s; try exact H. exfalso. apply Hfs. reflexivity.
  - destruct (edges_ready_of s f inp0 Hv Hr) as [He Hu].
    rewrite (points_full_e s f); [|intros ->; apply Hr; right; reflexivity|exact He]. cbn [rbind generate_cells_of].
    apply (cells_hang fuel _ _ _ _ id c (copied_self _ Hv) Hu Hin Hc).
Qed.

(** Uniform cell-based use: the exception is raised while the points are computed. *)
Lemma uniform_throws s f fuel id c : csel f = [] -> In (id, c) cs -> cell_tri c = [] ->
  (forall id x, In (id, x) cs -> x <> None) -> (s = CLoop -> no_isolated inp0) ->
  update (CellF s) fuel f inp = Throw NotTriangle.
Proof.
  intros Hsel Hin Hc Hnull Hni. unfold update. cbn [generate_output_points]. unfold generate_output_points_c.
  destruct (copy_full s f) as [P0 [E [Hcop HP]]]; [rewrite Hsel; intros i []|exact Hni|].
  rewrite E. cbn [rbind fst snd]. rewrite Hcs. cbn [uniform set_uniform csel set_epid]. rewrite Hsel. cbn [is_nil].
  destruct (bad_split id c Hin Hc) as [F1 [F2 [i [b [rest [E1 [E2 E3]]]]]]].
  assert (Hb : exists x, b = Some x /\ as_triangle x = None).
  { destruct b as [x|].
    - exists x. split; [reflexivity|]. apply as_triangle_none in E2. exact E2.
    - exfalso. apply (Hnull i None); [rewrite E1; apply in_or_app; cbn; auto|reflexivity]. }
  destruct Hb as [x [-> Hx]]. rewrite E1.
  assert (Hadd : forall st : state, add_new_cell_points s inp x st = Throw NotTriangle).
  { intros st. destruct s; cbn [add_new_cell_points]; unfold linear_add_new_cell_points, loop_add_new_cell_points,
      butterfly_add_new_cell_points, sqrt3_add_new_cell_points; rewrite Hx; reflexivity. }
  assert (HF1 : forall t, In t (map snd F1) -> In t (tris inp0)).
  { intros t Ht. unfold tris. rewrite E3, map_app. apply in_or_app. auto. }
  assert (Happ : forall add l1 l2 (st : state), uniform_cells_loop add (l1 ++ l2) st = rbind (uniform_cells_loop add l1 st) (uniform_cells_loop add l2)).
  { clear. intros add l1 l2. induction l1 as [|[j [y|]] l1 IH]; intros st; cbn [app uniform_cells_loop]; try reflexivity.
    destruct (add y st); cbn [rbind]; auto. }
  rewrite Happ.
  set (f2 := set_uniform (set_epid f []) true).
  assert (Hok : exists st', uniform_cells_loop (add_new_cell_points s inp) (map (fun it => (fst it, poly (snd it))) F1) (f2, set_pts empty_mesh P0) = Ok st').
  { assert (Hs : s = CSqrt3 \/ face_split s) by (destruct s; [right; discriminate..|left; reflexivity]).
    destruct Hs as [->|Hs].
    - cbn [add_new_cell_points]. generalize (f2, set_pts (@empty_mesh O D) P0). clear - HF1 Hv.
      induction F1 as [|[j t] F1 IH]; intros st; cbn [map uniform_cells_loop fst snd]; [eauto|]. unfold poly.
      destruct (sqrt3_add_ok inp0 t st Hv (HF1 t (or_introl eq_refl))) as [st1 E].
      change (sqrt3_add_new_cell_points inp0) with (sqrt3_add_new_cell_points inp) in E. rewrite E. cbn [rbind].
      apply IH. intros u Hu. apply HF1. cbn. auto.
    - set (val := val_of (cell_point s inp)).
      assert (Hst : (f2, set_pts empty_mesh P0) = st_of (set_uniform f true) (@empty_mesh O D) (osize (pts inp)) P0 val []).
      { rewrite st_of_nil. reflexivity. }
      rewrite Hst.
      rewrite (uniform_loop_ok (set_uniform f true) empty_mesh (osize (pts inp)) P0 val _ _ (map snd F1)).
      + eauto.
      + rewrite !map_map. reflexivity.
      + intros t I Ht. apply add_cell_full; auto. intros ->. apply HP. discriminate. }
  destruct Hok as [st' ->]. cbn [rbind uniform_cells_loop]. rewrite Hadd. reflexivity.
Qed.
End HANG.

Lemma C27_hangs_pf : forall (O : Ops) (D : Type) k f (inp : mesh O D) cs id c,
  cells inp = Some cs -> sorted_keys cs -> In (id, c) cs -> cell_tri c = [] ->
  valid (only_triangles inp) -> dense (only_triangles inp) -> ready k f (only_triangles inp) ->
  match k with CellF _ => csel f <> [] | EdgeF _ => True end ->
  diverges (fun fuel => update k fuel f inp).
Proof. intros O D k f inp cs id c Hcs Hs Hin Hc Hv Hd Hr Hk fuel. eapply update_hangs; eauto. Qed.

Lemma C27_uniform_throws_pf : forall (O : Ops) (D : Type) s f (inp : mesh O D) cs id c,
  cells inp = Some cs -> sorted_keys cs -> In (id, c) cs -> cell_tri c = [] ->
  (forall id x, In (id, x) cs -> x <> None) ->
  valid (only_triangles inp) -> dense (only_triangles inp) -> (s = CLoop -> no_isolated inp) ->
  csel f = [] ->
  completes (fun fuel => update (CellF s) fuel f inp) (Throw NotTriangle).
Proof.
  intros O D s f inp cs id c Hcs Hs Hin Hc Hnull Hv Hd Hni Hsel. split; [discriminate|]. exists 0%nat. intros fuel _.
  eapply uniform_throws; eauto.
Qed.
