(** * Robust: isolated points, wire edges, unknown ids, cells that are not triangles. *)
From Verif Require Import Base Mesh Filters Drivers Spec SpecSub Lists AddFace SplitTri Split Points Valid Run Update Struct Count Face FaceProps Conn Any.

Lemma first_such {A} (P : A -> Prop) (dec : forall x, {P x} + {~ P x}) (l : list A) :
  (exists x, In x l /\ P x) -> exists l1 x l2, l = l1 ++ x :: l2 /\ P x /\ forall y, In y l1 -> ~ P y.
Proof.
  induction l as [|a l IH]; intros [x [Hin Hx]]; [destruct Hin|].
  destruct (dec a) as [Ha|Ha].
  - exists [], a, l. split; [reflexivity|]. split; [exact Ha|]. intros y [].
  - destruct Hin as [->|Hin]; [contradiction|]. destruct IH as [l1 [y [l2 [-> [Hy Hn]]]]]; [eauto|].
    exists (a :: l1), y, l2. split; [reflexivity|]. split; [exact Hy|]. intros z [<-|Hz]; auto.
Qed.

Section ROBUST.
Context {O : Ops} {D : Type}.
Notation mesh := (mesh O D).
Notation state := (@state O D).
Notation point := (list (K O)).
Implicit Types inp out : mesh.

Definition isolated (m : mesh) (id : N) : Prop := oget id (pts m) <> None /\ ring m id = [].

(** ** Splitting loops *)
Lemma selected_app add cs l1 l2 (st : state) :
  selected_cells_loop add cs (l1 ++ l2) st = rbind (selected_cells_loop add cs l1 st) (selected_cells_loop add cs l2).
Proof.
  revert st. induction l1 as [|i l1 IH]; intros st; cbn [app selected_cells_loop]; [reflexivity|].
  destruct (oget i cs) as [[c|]|]; cbn [rbind]; try reflexivity; [|apply IH].
  destruct (add c st); cbn [rbind]; auto.
Qed.
Lemma edges_loop_app s inp l1 l2 (st : state) :
  edges_loop s inp (l1 ++ l2) st = rbind (edges_loop s inp l1 st) (edges_loop s inp l2).
Proof.
  revert st. induction l1 as [|[e|] l1 IH]; intros st; cbn [app edges_loop]; [reflexivity| |apply IH].
  destruct (add_new_edge_points s inp e st); cbn [rbind]; auto.
Qed.
Lemma loop_copy_app inp sm (l1 l2 : omap point) out :
  loop_copy_points inp sm (l1 ++ l2) out = rbind (loop_copy_points inp sm l1 out) (loop_copy_points inp sm l2).
Proof.
  revert out. induction l1 as [|[id p] l1 IH]; intros out; cbn [app loop_copy_points]; [reflexivity|].
  destruct (sm id); [|apply IH]. destruct (smoothing_point inp id p); cbn [rbind]; auto.
Qed.
Lemma loop_edge_copy_app inp l (l1 l2 : omap point) out :
  loop_edge_copy inp l (l1 ++ l2) out = rbind (loop_edge_copy inp l l1 out) (loop_edge_copy inp l l2).
Proof.
  revert out. induction l1 as [|[id p] l1 IH]; intros out; cbn [app loop_edge_copy]; [reflexivity|].
  destruct (ring inp id) as [|q r]; [reflexivity|]. rewrite copy_flag_true. apply IH.
Qed.

(** ** Isolated points and the Loop filters *)
Lemma loop_copy_null inp sm id : valid inp -> isolated inp id -> sm id = true ->
  forall out, loop_copy_points inp sm (pts inp) out = Undef NullDeref.
Proof.
  intros Hv [Hid Hr] Hsm out.
  destruct (first_such (fun kv : N * point => ring inp (fst kv) = [] /\ sm (fst kv) = true)) with (l := pts inp)
    as [l1 [[i p] [l2 [E [[Hi Hs] Hn]]]]].
  - intros [k p]. cbn. destruct (ring inp k); [|right; intros [? _]; discriminate].
    destruct (sm k); [left; auto|right; intros [_ ?]; discriminate].
  - destruct (oget id (pts inp)) as [p|] eqn:Ep; [|congruence]. exists (id, p). split; [apply oget_In; exact Ep|].
    cbn. auto.
  - rewrite E, loop_copy_app. cbn [fst] in *.
    assert (Hok : exists o, loop_copy_points inp sm l1 out = Ok o).
    { assert (Hl : forall id p, In (id, p) l1 -> length p = kdim O).
      { intros k q Hq. eapply (v_pts_dim _ Hv). apply sorted_oget; [apply (v_pts_sorted _ Hv)|].
        rewrite E. apply in_or_app. left. exact Hq. }
      clear E. revert out. induction l1 as [|[k q] l1 IH]; intros out; cbn [loop_copy_points]; [eauto|].
      assert (Hn' : forall y, In y l1 -> ~ (ring inp (fst y) = [] /\ sm (fst y) = true)) by (intros; apply Hn; cbn; auto).
      assert (Hl' : forall id p, In (id, p) l1 -> length p = kdim O) by (intros; eapply Hl; cbn; eauto).
      destruct (sm k) eqn:Ek; [|apply IH; auto].
      destruct (smoothing_ok inp k q Hv) as [z [-> _]].
      - intros Hc. apply (Hn (k, q)); cbn; auto.
      - eapply Hl. cbn. auto.
      - cbn [rbind]. apply IH; auto. }
    destruct Hok as [o ->]. cbn [rbind loop_copy_points]. rewrite Hs. unfold smoothing_point. rewrite Hi. reflexivity.
Qed.

Lemma loop_edge_copy_null inp id l : valid inp -> isolated inp id ->
  forall out, loop_edge_copy inp l (pts inp) out = Undef NullDeref.
Proof.
  intros Hv [Hid Hr] out.
  destruct (first_such (fun kv : N * point => ring inp (fst kv) = [])) with (l := pts inp)
    as [l1 [[i p] [l2 [E [Hi Hn]]]]].
  - intros [k p]. cbn. destruct (ring inp k); [left; reflexivity|right; discriminate].
  - destruct (oget id (pts inp)) as [p|] eqn:Ep; [|congruence]. exists (id, p). split; [apply oget_In; exact Ep|exact Hr].
  - rewrite E, loop_edge_copy_app. clear E. cbn [fst] in *.
    assert (Hok : exists o, loop_edge_copy inp l l1 out = Ok o).
    { revert out. induction l1 as [|[k q] l1 IH]; intros out; cbn [loop_edge_copy]; [eauto|].
      destruct (ring inp k) eqn:Ek; [exfalso; apply (Hn (k, q)); cbn; auto|]. rewrite copy_flag_true. apply IH.
      intros y Hy. apply Hn. cbn. auto. }
    destruct Hok as [o ->]. cbn [rbind loop_edge_copy]. rewrite Hi. reflexivity.
Qed.

Lemma old_joined inp out S mid Ls a b : valid inp -> subdivision inp out S mid Ls ->
  oget a (pts inp) <> None -> oget b (pts inp) <> None -> a <> b -> joined out a b ->
  In (a, b) (dirs (tris inp)) \/ In (b, a) (dirs (tris inp)).
Proof.
  intros Hv Hsd Ha Hb Hab Hj.
  assert (Hkey : forall a b, oget a (pts inp) <> None -> oget b (pts inp) <> None -> a <> b ->
            In (a, b) (dirs (tris out)) -> In (a, b) (dirs (tris inp)) \/ In (b, a) (dirs (tris inp))).
  { clear - Hv Hsd. intros a b Ha Hb Hab Hin. rewrite (sd_tris _ _ _ _ _ Hsd) in Hin.
    apply dirs_tri in Hin. destruct Hin as [u [Hu Hd]]. apply in_concat in Hu. destruct Hu as [L [HL Hu]].
    apply In_nth_error in HL. destruct HL as [i Hi].
    destruct (Forall2_nth_r _ _ _ (sd_refines _ _ _ _ _ Hsd) i L Hi) as [t [Ht HR]].
    destruct (tdirs_verts _ _ _ Hd) as [Va Vb].
    assert (Hold : forall x, In x (tverts u) -> oget x (pts inp) <> None -> In x (tverts t)).
    { intros x Hx Ho. destruct (rf_verts _ _ _ HR u x Hu Hx) as [H|[p [q [_ H]]]]; [exact H|].
      exfalso. apply Ho. apply (sd_new _ _ _ _ _ Hsd). eauto. }
    pose proof (Hold a Va Ha) as Ta. pose proof (Hold b Vb Hb) as Tb. apply nth_error_In in Ht.
    assert (Hdt : In (a, b) (tdirs t) \/ In (b, a) (tdirs t)).
    { destruct t as [[x y] z]. cbn in Ta, Tb |- *. in_cases Ta; in_cases Tb; subst; try congruence;
      (left; in_solve) || (right; in_solve). }
    destruct Hdt as [H|H]; [left|right]; apply dirs_tri; eauto. }
  destruct (sd_nowire _ _ _ _ _ Hsd a b Hj) as [H|H]; [apply Hkey; auto|].
  destruct (Hkey b a) as [H'|H']; auto.
Qed.

(** A point without edges stays without edges. *)
Lemma isolated_out inp out S mid Ls id : valid inp -> valid out -> subdivision inp out S mid Ls ->
  isolated inp id -> isolated out id.
Proof.
  intros Hv Hvo Hsd [Hid Hr]. split; [apply (sd_old _ _ _ _ _ Hsd); exact Hid|].
  destruct (ring out id) as [|x r] eqn:Ex; [reflexivity|]. exfalso.
  assert (Hj : joined out id x) by (unfold joined; rewrite Ex; cbn; auto).
  assert (Hface : exists t, In t (tris inp) /\ In id (tverts t)).
  { assert (Hd : exists u, In u (tris out) /\ In id (tverts u)).
    { destruct (sd_nowire _ _ _ _ _ Hsd id x Hj) as [H|H]; apply dirs_tri in H; destruct H as [u [Hu H]];
        exists u; (split; [exact Hu|]); apply tdirs_verts in H; tauto. }
    destruct Hd as [u [Hu Hd]]. rewrite (sd_tris _ _ _ _ _ Hsd) in Hu. apply in_concat in Hu. destruct Hu as [L [HL Hu]].
    apply In_nth_error in HL. destruct HL as [i Hi].
    destruct (Forall2_nth_r _ _ _ (sd_refines _ _ _ _ _ Hsd) i L Hi) as [t [Ht HR]].
    exists t. split; [eapply nth_error_In; eauto|].
    destruct (rf_verts _ _ _ HR u id Hu Hd) as [H|[p [q [_ H]]]]; [exact H|].
    exfalso. apply Hid. apply (sd_new _ _ _ _ _ Hsd). eauto. }
  destruct Hface as [t [Ht Hin]].
  assert (Hd : exists y, In (id, y) (tdirs t)).
  { destruct t as [[p q] w]. cbn in Hin |- *. destruct Hin as [<-|[<-|[<-|[]]]]; [exists q|exists w|exists p]; auto. }
  destruct Hd as [y Hy].
  assert (joined inp id y) by (apply (v_face_edges _ Hv); apply dirs_tri; eauto).
  unfold joined in *. rewrite Hr in *. contradiction.
Qed.

(** ** Unknown ids *)
Lemma sqrt3_add_ok inp t (st : state) : valid inp -> In t (tris inp) ->
  exists st', sqrt3_add_new_cell_points inp (Poly (tverts t)) st = Ok st'.
Proof.
  intros Hv Ht. destruct t as [[a b] c]. unfold sqrt3_add_new_cell_points. cbn [as_triangle tverts].
  assert (Hp : forall x, In x [a; b; c] -> exists p, elem_pt inp x = Ok p).
  { intros x Hx. unfold elem_pt. pose proof (v_verts _ Hv (a, b, c) x Ht Hx) as H.
    destruct (oget x (pts inp)); [eauto|congruence]. }
  destruct (Hp a) as [pa ->]; [cbn; auto|]. destruct (Hp b) as [pb ->]; [cbn; auto|].
  destruct (Hp c) as [pc ->]; [cbn; auto|]. cbn [rbind]. eauto.
Qed.

Lemma smoothed_set_missing inp pre i post : valid inp -> existing inp pre ->
  (forall t, ~ In (i, t) (faces inp)) -> smoothed_set inp (pre ++ i :: post) = Undef MissingKey.
Proof.
  intros Hv Hk Hi. induction pre as [|j pre IH]; cbn [app smoothed_set]; rewrite (valid_cells _ Hv).
  - rewrite (oget_map (fun t => poly t)). destruct (oget i (faces inp)) as [t|] eqn:E; [|reflexivity].
    exfalso. apply (Hi t). apply oget_In. exact E.
  - destruct (Hk j) as [t Ht]; [cbn; auto|].
    rewrite (oget_map (fun t => poly t)). rewrite (sorted_oget _ _ _ (faces_keys_sorted _ Hv) Ht).
    cbn [option_map poly]. rewrite IH by (intros k Hk'; apply Hk; cbn; auto). reflexivity.
Qed.

Lemma unknown_id s f inp fuel i : valid inp -> dense inp -> In i (csel f) ->
  (forall t, ~ In (i, t) (faces inp)) -> (s = CLoop -> no_isolated inp) ->
  update (CellF s) fuel f inp = Undef MissingKey.
Proof.
  intros Hv Hd Hi Hno Hl.
  destruct (first_such (fun j => oget j (faces inp) = None)) with (l := csel f) as [pre [j [post [E [Hj Hpre]]]]].
  { intros j. destruct (oget j (faces inp)); [right; discriminate|left; reflexivity]. }
  { exists i. split; [exact Hi|]. destruct (oget i (faces inp)) as [t|] eqn:E; [|reflexivity].
    exfalso. apply (Hno t). apply oget_In. exact E. }
  clear i Hi Hno.
  assert (Hex : existing inp pre).
  { intros k Hk. specialize (Hpre k Hk). destruct (oget k (faces inp)) as [t|] eqn:Et; [|congruence].
    exists t. apply oget_In. exact Et. }
  assert (Hjn : forall t, ~ In (j, t) (faces inp)).
  { intros t Ht. rewrite (sorted_oget _ _ _ (faces_keys_sorted _ Hv) Ht) in Hj. discriminate. }
  assert (Hnil : is_nil (csel f) = false) by (rewrite E; destruct pre; reflexivity).
  assert (Hsel : forall add (cs : omap (option cell)) (st st' : state), cells inp = Some cs ->
    selected_cells_loop add cs pre st = Ok st' -> selected_cells_loop add cs (csel f) st = Undef MissingKey).
  { intros add cs st st' Hcs Hst. rewrite E, selected_app, Hst. cbn [rbind selected_cells_loop].
    rewrite (valid_cells _ Hv) in Hcs. injection Hcs as <-. rewrite (oget_map (fun t => poly t)), Hj. reflexivity. }
  unfold update. cbn [generate_output_points]. unfold generate_output_points_c.
  (* the copy *)
  assert (Hcopy : s = CLoop /\ copy_input_points_c s inp (f, empty_mesh) = Undef MissingKey \/
     exists P0, copy_input_points_c s inp (f, empty_mesh) = Ok (f, set_pts empty_mesh P0) /\ copied inp P0 /\
       (s <> CLoop -> P0 = pts inp)).
  { destruct s; cbn [copy_input_points_c];
      try (right; exists (pts inp); unfold plain_copy_input_points; cbn [fst snd]; rewrite (plain_copy_ok _ Hv);
           split; [reflexivity|split; [apply copied_self; exact Hv|reflexivity]]).
    unfold loop_copy_input_points. destruct (uniform f) eqn:Hu.
    - right. destruct (copy_phase_ok CLoop (set_cells_to_be_subdivided f pre) inp Hv) as [P0 [Ec [Hc _]]].
      + intros _. split; [exact Hex|]. intros id Hid _. apply (Hl eq_refl). exact Hid.
      + exists P0. cbn [copy_input_points_c] in Ec. unfold loop_copy_input_points in Ec.
        cbn [uniform set_cells_to_be_subdivided] in Ec. rewrite Hu in Ec.
        destruct (loop_copy_points inp (fun _ => true) (pts inp) empty_mesh) as [o| | |]; cbn [rbind] in *; try discriminate.
        inv Ec. split; [reflexivity|]. split; [exact Hc|congruence].
    - left. split; [reflexivity|]. rewrite E, (smoothed_set_missing inp pre j post Hv Hex Hjn). reflexivity. }
  destruct Hcopy as [[_ ->]|[P0 [-> [Hc HP]]]]; [reflexivity|]. cbn [rbind fst snd].
  rewrite (valid_cells _ Hv). cbn [uniform set_uniform csel set_epid]. rewrite Hnil.
  set (cs := map (fun it => (fst it, poly (snd it))) (faces inp)).
  set (f2 := set_uniform (set_epid f []) false).
  assert (Hok : exists st', selected_cells_loop (add_new_cell_points s inp) cs pre (f2, set_pts empty_mesh P0) = Ok st').
  { assert (HF : Forall2 (fun i t => oget i cs = Some (poly t)) pre (sel_tris inp pre)).
    { apply sel_tris_Forall2; [exact Hv|apply (valid_cells _ Hv)|exact Hex]. }
    assert (Hs : s = CSqrt3 \/ face_split s) by (destruct s; [right; discriminate..|left; reflexivity]).
    destruct Hs as [->|Hs].
    - (* sqrt(3) *)
      cbn [add_new_cell_points].
      assert (HT : forall t, In t (sel_tris inp pre) -> In t (tris inp)) by (intros t; apply sel_tris_incl).
      generalize (f2, set_pts (@empty_mesh O D) P0). clear - Hv HF HT. revert HF HT. generalize (sel_tris inp pre) as T.
      induction pre as [|i l IH]; intros T HF HT st; inv HF; cbn [selected_cells_loop]; [eauto|].
      rewrite H1. unfold poly. destruct (sqrt3_add_ok inp y st Hv (HT y (or_introl eq_refl))) as [st1 ->]. cbn [rbind].
      eapply IH; eauto. intros t Ht. apply HT. cbn. auto.
    - set (v0 := val_of (cell_point s inp)).
      assert (Hst : (f2, set_pts empty_mesh P0) =
                    st_of (set_uniform f false) (@empty_mesh O D) (osize (pts inp)) P0 v0 []).
      { rewrite st_of_nil. reflexivity. }
      rewrite Hst.
      rewrite (selected_loop_ok (set_uniform f false) empty_mesh (osize (pts inp)) P0 v0 _ _ _ (sel_tris inp pre)).
      + eauto.
      + exact HF.
      + intros t I Ht. apply add_new_cell_points_ok; auto.
        * intros E'. apply HP. rewrite E'. discriminate.
        * eapply sel_tris_incl; eauto. }
  destruct Hok as [st' Hok]. rewrite (Hsel _ cs _ _ (valid_cells _ Hv) Hok). reflexivity.
Qed.

(** ** Wire edges and the Loop edge filter *)
Lemma wire_throw inp a b : valid inp -> wire_edge inp a b -> loop_point inp (a, b) = Throw WireEdge.
Proof.
  intros Hv [Hj [Ha Hb]]. unfold loop_point, is_internal, is_at_border, right_set, sym. cbn [fst snd].
  assert (left_set inp (a, b) = false) as -> by (apply valid_left_false; auto).
  assert (left_set inp (b, a) = false) as -> by (apply valid_left_false; auto). reflexivity.
Qed.

Lemma loop_edge_wire f inp fuel a b : valid inp -> dense inp -> no_isolated inp ->
  (esel f <> [] -> edges_listed inp (esel f)) ->
  wire_edge inp a b -> (esel f = [] \/ In (Some (a, b)) (esel f) \/ In (Some (b, a)) (esel f)) ->
  update (EdgeF ELoop) fuel f inp = Throw WireEdge.
Proof.
  intros Hv Hd Hni Hl Hw Hin.
  unfold update. cbn [generate_output_points]. unfold generate_output_points_e.
  rewrite (copy_phase_e ELoop f inp Hv) by (intros _; exact Hni). cbn [rbind fst snd].
  set (f2 := set_uniform f (is_nil (esel f))).
  set (val := val_of (edge_point ELoop inp)). set (V := osize (pts inp)).
  assert (Hst : (set_uniform (set_epid f []) (is_nil (esel (set_epid f []))), set_pts empty_mesh (pts inp)) =
                st_of f2 (@empty_mesh O D) V (pts inp) val []).
  { rewrite st_of_nil. reflexivity. }
  rewrite Hst.
  change (uniform (set_uniform (set_epid f []) (is_nil (esel (set_epid f []))))) with (is_nil (esel f)).
  change (esel (set_uniform (set_epid f []) (is_nil (esel (set_epid f []))))) with (esel f).
  assert (Hrun : edges_loop ELoop inp (edge_list inp (esel f)) (st_of f2 (@empty_mesh O D) V (pts inp) val []) = Throw WireEdge).
  { assert (Hjoin : edges_listed inp (edge_list inp (esel f))).
    { unfold edge_list. destruct (esel f) as [|e l] eqn:Ee; cbn [is_nil]; [|apply Hl; discriminate].
      destruct (v_ecells _ Hv) as [es [-> [_ [Ha _]]]]. intros x y Hxy. apply in_map_iff in Hxy.
      destruct Hxy as [[id o] [Eo Ho]]. cbn in Eo. subst o. destruct (Ha id _ Ho) as [p [q [Ep Hj]]]. inv Ep. exact Hj. }
    assert (Hex : exists o, In o (edge_list inp (esel f)) /\ exists x y, o = Some (x, y) /\ wire_edge inp x y).
    { assert (Hw' : wire_edge inp b a).
      { destruct Hw as [H1 [H2 H3]]. split; [apply (v_ring_sym _ Hv); exact H1|auto]. }
      destruct Hin as [Hn|[Hn|Hn]].
      - unfold edge_list. rewrite Hn. cbn [is_nil]. destruct (v_ecells _ Hv) as [es [-> [_ [_ [Hc _]]]]].
        destruct (Hc a b (proj1 Hw)) as [id [e [He Hu]]]. exists (Some e). split; [apply in_map_iff; exists (id, Some e); auto|].
        destruct Hu as [-> | ->]; cbn; eauto.
      - exists (Some (a, b)). split; [|eauto]. unfold edge_list. destruct (esel f); [destruct Hn|exact Hn].
      - exists (Some (b, a)). split; [|eauto]. unfold edge_list. destruct (esel f); [destruct Hn|exact Hn]. }
    destruct (first_such (fun o => exists x y, o = Some (x, y) /\ wire_edge inp x y)) with (l := edge_list inp (esel f))
      as [l1 [o [l2 [E [[x [y [-> Hxy]]] Hn]]]]].
    { intros [[x y]|]; [|right; intros [x [y [? _]]]; discriminate].
      destruct (left_set inp (x, y)) eqn:E1.
      - right. intros [x' [y' [Ex [_ [Hx _]]]]]. inv Ex. apply Hx. apply valid_left; auto.
      - destruct (left_set inp (y, x)) eqn:E2.
        + right. intros [x' [y' [Ex [_ [_ Hx]]]]]. inv Ex. apply Hx. apply valid_left; auto.
        + destruct (memN y (ring inp x)) eqn:E3.
          * left. exists x, y. split; [reflexivity|]. split; [apply memN_In; exact E3|].
            split; apply valid_left_false; auto.
          * right. intros [x' [y' [Ex [Hx _]]]]. inv Ex. apply memN_In in Hx. congruence. }
    { exact Hex. }
    rewrite E, edges_loop_app. rewrite E in Hjoin.
    rewrite (edges_loop_ok inp f2 empty_mesh V (pts inp) val (dense_map _ Hv Hd) ELoop l1 []).
    - cbn [rbind edges_loop]. unfold add_new_edge_points, find_edge. cbn [fst snd].
      assert (memN y (ring inp x) = true) as -> by (apply memN_In; apply Hxy). cbn [edge_point].
      rewrite (wire_throw _ _ _ Hv Hxy). reflexivity.
    - intros [p q] Hpq. cbn [fst snd].
      assert (Hj : joined inp p q) by (apply Hjoin; apply in_or_app; auto).
      split; [exact Hj|]. unfold val, val_of. cbn [edge_point].
      destruct (loop_point_ok inp p q Hv) as [z [-> _]]; [|reflexivity].
      specialize (Hn _ Hpq).
      destruct (left_set inp (p, q)) eqn:E1; [left; apply valid_left; auto|].
      destruct (left_set inp (q, p)) eqn:E2; [right; apply valid_left; auto|].
      exfalso. apply Hn. exists p, q. split; [reflexivity|]. split; [exact Hj|].
      split; apply valid_left_false; auto. }
  unfold edge_list in Hrun.
  destruct (is_nil (esel f)).
  - destruct (v_ecells _ Hv) as [es [Hes _]]. rewrite Hes in *. rewrite Hrun. reflexivity.
  - rewrite Hrun. reflexivity.
Qed.
End ROBUST.

(** C28. *)
Lemma C28_isolated_kept_pf : forall (O : Ops) (D : Type) k f (inp : mesh O D) fuel f' out id p,
  valid inp -> dense inp -> ready k f inp -> tris inp <> [] -> k <> CellF CLoop ->
  oget id (pts inp) = Some p -> ring inp id = [] ->
  update k fuel f inp = Ok (f', out) ->
  oget id (pts out) = Some p /\ ring out id = [].
Proof.
  intros O D k f inp fuel f' out id p Hv Hd Hr Hne Hk Hp Hring E.
  destruct (face_run k f inp fuel f' out Hv Hd Hr E) as [mid [Ls FR]].
  split; [apply (fr_old _ _ _ _ _ _ _ FR); auto|].
  destruct (fr_valid _ _ _ _ _ _ _ FR Hne) as [Hvo _].
  apply (isolated_out inp out _ mid Ls id Hv Hvo (fr_sub _ _ _ _ _ _ _ FR)). split; [congruence|exact Hring].
Qed.
Lemma C28_loop_undefined_pf : forall (O : Ops) (D : Type) f (inp : mesh O D) fuel id,
  valid inp -> oget id (pts inp) <> None -> ring inp id = [] ->
  (uniform f = true \/ existing inp (csel f) /\ In id (csel f) -> update (CellF CLoop) fuel f inp = Undef NullDeref) /\
  update (EdgeF ELoop) fuel f inp = Undef NullDeref.
Proof.
  intros O D f inp fuel id Hv Hid Hr. assert (Hi : isolated inp id) by (split; assumption). split.
  - intros Hu. unfold update. cbn [generate_output_points]. unfold generate_output_points_c.
    cbn [copy_input_points_c]. unfold loop_copy_input_points. destruct (uniform f) eqn:Eu.
    + rewrite (loop_copy_null inp _ id Hv Hi eq_refl). reflexivity.
    + destruct Hu as [Hu|[Hex Hin]]; [discriminate|].
      rewrite (smoothed_set_ok _ _ Hv Hex). cbn [rbind].
      rewrite (loop_copy_null inp _ id Hv Hi) by (apply memN_In; exact Hin). reflexivity.
  - unfold update. cbn [generate_output_points]. unfold generate_output_points_e.
    cbn [copy_input_points_e]. unfold loop_edge_copy_input_points.
    rewrite (loop_edge_copy_null inp id _ Hv Hi). reflexivity.
Qed.

(** C29. *)
Lemma C29_unknown_id_undefined_pf : forall (O : Ops) (D : Type) s f (inp : mesh O D) fuel i,
  valid inp -> dense inp -> (s = CLoop -> no_isolated inp) ->
  In i (csel f) -> (forall t, ~ In (i, t) (faces inp)) ->
  update (CellF s) fuel f inp = Undef MissingKey.
Proof. intros. eapply unknown_id; eauto. Qed.

(** C47. *)
Lemma C47_wire_edges_pf : forall (O : Ops) (D : Type) s f (inp : mesh O D) a b,
  valid inp -> dense inp -> ready (CellF s) f inp -> wire_edge inp a b ->
  exists f' out mid Ls, completes (fun fuel => update (CellF s) fuel f inp) (Ok (f', out)) /\
    subdivision inp out (to_split (CellF s) f inp) mid Ls /\
    mid a b = None /\ ~ joined out a b.
Proof.
  intros O D s f inp a b Hv Hd Hr Hw.
  destruct (face_completes (CellF s) f inp Hv Hd Hr) as [f' [out [Hc1 Hc2]]].
  destruct Hc2 as [n Hn]. destruct (face_run _ f inp n f' out Hv Hd Hr (Hn n (le_n n))) as [mid [Ls FR]].
  exists f', out, mid, Ls. split; [split; [exact Hc1|eauto]|].
  pose proof (fr_sub _ _ _ _ _ _ _ FR) as Hsd. split; [exact Hsd|].
  destruct Hw as [Hj [H1 H2]]. split.
  - destruct (mid a b) as [m|] eqn:Em; [|reflexivity].
    assert (Hts : to_split (CellF s) f inp a b) by (apply (sd_dom _ _ _ _ _ Hsd); congruence).
    apply cell_split_face in Hts. tauto.
  - intros Hjo. destruct (joined_pts _ _ _ Hv Hj) as [p [q [Ha [Hb _]]]].
    destruct (old_joined inp out _ mid Ls a b Hv Hsd) as [H|H]; try congruence; auto.
    intros ->. apply (v_ring_irr _ Hv b). exact Hj.
Qed.
Lemma C47_loop_edge_filter_throws_pf : forall (O : Ops) (D : Type) f (inp : mesh O D) fuel a b,
  valid inp -> dense inp -> no_isolated inp -> wire_edge inp a b ->
  (esel f <> [] -> edges_listed inp (esel f)) ->
  esel f = [] \/ In (Some (a, b)) (esel f) \/ In (Some (b, a)) (esel f) ->
  update (EdgeF ELoop) fuel f inp = Throw WireEdge.
Proof. intros. eapply loop_edge_wire; eauto. Qed.
