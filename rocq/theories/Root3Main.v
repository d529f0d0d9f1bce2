(** * Root3Main: what a run of the sqrt(3) filter gives. *)
From Coq Require Import Permutation Sorted.
From Verif Require Import Base Mesh Filters Spec SpecSub Lists AddFace SplitTri Split Points Valid Run Update Struct Count Face PtsAny SpecRoot3 Root3 Root3Run.

Section MAIN3.
Context {O : Ops} {D : Type}.
Notation mesh := (mesh O D).
Notation state := (@state O D).
Implicit Types inp out : mesh.

Definition cenm inp (f : fstate) : tri -> option N := cen3 (osize (pts inp)) (visited inp (csel f)).

Lemma cenm_Some inp f t g : valid inp -> NoDup (csel f) -> In t (tris inp) ->
  cenm inp f t = Some g <-> exists i, nth_error (visited inp (csel f)) i = Some t /\ g = osize (pts inp) + N.of_nat i.
Proof.
  intros Hv Hs Ht. apply (cen3_Some (tris inp)).
  - apply (v_dirs _ Hv).
  - intros x. apply visited_incl.
  - apply visited_nodup; auto.
  - apply (v_proper _ Hv).
  - exact Ht.
Qed.
Lemma cenE_cenm inp f e : valid inp -> NoDup (csel f) ->
  cenE (tris inp) (cenm inp f) e = eget e (ep3 (osize (pts inp)) (visited inp (csel f))).
Proof.
  intros Hv Hs. apply (cenE_ep3 (tris inp)).
  - apply (v_dirs _ Hv).
  - intros x. apply visited_incl.
  - apply visited_nodup; auto.
  - apply (v_proper _ Hv).
Qed.

Lemma cenm_centring inp f : valid inp -> dense inp -> NoDup (csel f) ->
  centring (tris inp) (cenm inp f) (fun x => x < osize (pts inp)).
Proof.
  intros Hv Hd Hs. constructor.
  - intros t u g Ht Hu H1 H2. apply cenm_Some in H1; auto. apply cenm_Some in H2; auto.
    destruct H1 as [i [H1 ->]], H2 as [j [H2 E]]. assert (i = j) by lia. subst. congruence.
  - intros t g Ht H. apply cenm_Some in H; auto. destruct H as [i [_ ->]]. lia.
  - intros t x Ht Hx. apply Hd. apply (v_verts _ Hv t x Ht Hx).
  - apply (v_proper _ Hv).
  - apply (v_dirs _ Hv).
  - apply (v_notwin _ Hv).
  - intros v. apply valid_umbrella. exact Hv.
Qed.

(** The order in which the triangles of the output are made. *)
Definition plan3 inp (f : fstate) : list item :=
  let Cn := cenE (tris inp) (cenm inp f) in ptasks Cn (is_nil (csel f)) [] (tasks Cn (faces inp)).

Lemma plan3_root3 inp f : valid inp -> dense inp -> NoDup (csel f) ->
  Permutation (root3 (tris inp) (cenm inp f)) (map it_tri (plan3 inp f)).
Proof.
  intros Hv Hd Hs. exact (plan3_perm _ _ _ (cenm_centring inp f Hv Hd Hs) _ (faces inp) eq_refl).
Qed.

Lemma visited_le inp sel : sound inp -> NoDup sel -> (length (visited inp sel) <= length (tris inp))%nat.
Proof.
  intros Hv Hs. apply NoDup_incl_length; [apply visited_nodup; auto|]. intros t. apply visited_incl.
Qed.
Lemma tris_len inp : sound inp -> Z.of_nat (length (tris inp)) = nF inp.
Proof.
  intros Hv. unfold nF. rewrite (valid_cells _ Hv). unfold tris. rewrite !map_length. reflexivity.
Qed.

Lemma cenm_range inp f t g : valid inp -> NoDup (csel f) -> In t (tris inp) -> cenm inp f t = Some g ->
  osize (pts inp) <= g < osize (pts inp) + N.of_nat (length (visited inp (csel f))).
Proof.
  intros Hv Hs Ht H. apply cenm_Some in H; auto. destruct H as [i [Hi ->]].
  assert (i < length (visited inp (csel f)))%nat by (apply nth_error_Some; congruence). lia.
Qed.

Lemma root3_good_m inp f : valid inp -> dense inp -> NoDup (csel f) ->
  good (fun v => v < osize (pts inp) + N.of_nat (length (visited inp (csel f)))) (map it_tri (plan3 inp f)).
Proof.
  intros Hv Hd Hs. apply (good_perm _ _ _ (plan3_root3 inp f Hv Hd Hs)).
  apply (root3_good _ _ _ (cenm_centring inp f Hv Hd Hs)).
  - cbn. intros x Hx. lia.
  - intros t g Ht Hg. apply (cenm_range inp f t g Hv Hs Ht) in Hg. lia.
Qed.

(** The filter state when the triangles are about to be made. *)
Definition start3 inp (f : fstate) : fstate :=
  set_cells_to_be_subdivided (fst (st3 inp (set_uniform f (is_nil (csel f))) (visited inp (csel f)))) [].

Record run3 inp (f f' : fstate) out : Prop := {
  q_run : exists f2, run_plan inp (plan3 inp f) (start3 inp f, set_pts empty_mesh (pts out)) = Ok (f2, out);
  q_built : built out (map it_tri (plan3 inp f));
  q_pts : pts out = pts inp ++ idx_from (osize (pts inp)) (map (cpt inp) (visited inp (csel f)));
  q_data : cdata out = mk_data (dat inp (plan3 inp f));
  q_uniform : uniform f' = is_nil (csel f);
  q_csel : csel f' = tracked (plan3 inp f);
  q_esel : esel f' = esel f
}.

Lemma update3 f inp fuel : valid inp -> dense inp -> ready3 f inp -> (length (tris inp) < fuel)%nat ->
  exists f' out, update (CellF CSqrt3) fuel f inp = Ok (f', out) /\ run3 inp f f' out.
Proof.
  intros Hv Hd [He [Hs Hfit]] Hfuel.
  set (V := osize (pts inp)). set (L := visited inp (csel f)). set (u := is_nil (csel f)).
  set (Cn := cenE (tris inp) (cenm inp f)).
  assert (HCn : forall e, Cn e = eget e (ep3 V L)) by (intros e; apply cenE_cenm; assumption).
  pose proof (cenm_centring inp f Hv Hd Hs) as HC.
  assert (HCr : forall e c, Cn e = Some c -> exists t, In t (tris inp) /\ In e (tdirs t) /\ cenm inp f t = Some c)
    by (intros e c; apply cenE_Some).
  assert (Hmax : forall e c, Cn e = Some c -> c <> id_max).
  { intros e c Hc. destruct (HCr e c Hc) as [t [Ht [_ Hg]]]. apply (cenm_range inp f t c Hv Hs Ht) in Hg.
    pose proof (visited_le inp (csel f) Hv Hs) as Hle. pose proof (tris_len inp Hv) as Hl.
    unfold nV in Hfit. unfold osize in Hg. change id_max with (2 ^ 64 - 1). lia. }
  assert (Hdir : forall e c, Cn e = Some c -> In e (dirs (tris inp))).
  { intros e c Hc. destruct (HCr e c Hc) as [t [Ht [H _]]]. apply in_flat_map. eauto. }
  set (f1 := set_cells_to_be_subdivided (fst (st3 inp (set_uniform f u) L)) []).
  set (o1 := snd (st3 inp (set_uniform f u) L)).
  assert (Hdm : densemap (V + N.of_nat (length (map (cpt inp) L))) (pts o1)).
  { unfold o1, st3. cbn [snd pts set_pts]. apply sorted_app_idx. apply dense_map; auto. }
  rewrite map_length in Hdm.
  destruct (run_plan_ok inp (plan3 inp f) [] f1 o1 (fun v => v < V + N.of_nat (length L))) as [out' [Er [Hb [Hp Hc]]]].
  { unfold o1, st3. cbn. apply built_empty. }
  { cbn [app]. apply root3_good_m; assumption. }
  { intros v Hv'. apply (densemap_get _ _ _ Hdm). exact Hv'. }
  { reflexivity. }
  { reflexivity. }
  cbn [app] in Er, Hb, Hc.
  match type of Er with _ = Ok ?s => destruct (sqrt3_loop_ok inp Cn u Hv Hmax Hdir (faces inp) _ [] (f1, o1) s fuel eq_refl) as [EP' El] end.
  { unfold tris in Hfuel. rewrite map_length in Hfuel. exact Hfuel. }
  { reflexivity. }
  { intros e. unfold f1, st3. cbn [fst epid set_epid set_cells_to_be_subdivided]. fold V. rewrite <- HCn. split; [auto|].
    intros c Hc'. split; [congruence|]. intros _. exact Hc'. }
  { intros it Hit. assert (Ht : In (snd it) (tris inp)) by (apply in_map; exact Hit). split; [exact Ht|].
    intros e e' H1 H2. unfold Cn. rewrite (cenE_face _ _ _ HC _ e Ht H1), (cenE_face _ _ _ HC _ e' Ht H2). auto. }
  { apply (v_dirs _ Hv). }
  { intros e _ []. }
  { exact Er. }
  eexists _, out'. split.
  - unfold update. cbn [generate_output_points generate_cells_of]. rewrite (points3 inp f Hv Hd He Hs). cbn [rbind].
    unfold sqrt3_generate_output_cells. rewrite (valid_cells _ Hv). fold L u. fold f1 o1. rewrite El. reflexivity.
  - constructor; auto. eexists. rewrite Hp. exact Er.
Qed.

Lemma update3_inv f inp fuel f' out : valid inp -> dense inp -> ready3 f inp ->
  update (CellF CSqrt3) fuel f inp = Ok (f', out) -> run3 inp f f' out.
Proof.
  intros Hv Hd Hr E.
  destruct (update3 f inp (S (length (tris inp))) Hv Hd Hr ltac:(lia)) as [f1 [out1 [E1 H]]].
  assert (Hsame : Ok (f', out) = Ok (f1, out1)).
  { rewrite <- E, <- E1. apply update_fuel; congruence. }
  inv Hsame. exact H.
Qed.

(** ** Everything known about a finished run *)
Definition ksel inp (f : fstate) : nat := length (visited inp (csel f)).

Record root3_result (f : fstate) inp (f' : fstate) out (cen : tri -> option N) : Prop := {
  rr_sub : root3_subdivision inp out (selected inp (csel f)) cen;
  rr_valid : tris inp <> [] -> valid out /\ dense out;
  rr_dense : dense out;
  rr_nV : (nV out = nV inp + Z.of_nat (ksel inp f))%Z;
  rr_nF : (nF out = nF inp + 2 * Z.of_nat (ksel inp f))%Z;
  rr_border : forall a b, border_dir out a b <-> border_dir inp a b;
  rr_gone : forall a b, In (a, b) (dirs (tris inp)) ->
     (joined out a b <-> (forall h, ~ centred inp cen a b h) \/ (forall h, ~ centred inp cen b a h));
  rr_join : forall a b g h, centred inp cen a b g -> centred inp cen b a h -> joined out g h;
  rr_data : forall id w pid, In (id, w) (faces out) -> source3 inp cen pid w -> cell_datum out id = cell_datum inp pid;
  rr_source : forall id w, In (id, w) (faces out) -> exists pid, source3 inp cen pid w;
  rr_data_only : forall id, cell_datum out id <> None -> exists w, In (id, w) (faces out);
  rr_sorted : StronglySorted N.lt (csel f');
  rr_csel : forall id, In id (csel f') <-> csel f <> [] /\ exists w, In (id, w) (faces out) /\ has_new inp w;
  rr_old : forall id p, oget id (pts inp) = Some p -> oget id (pts out) = Some p;
  rr_new : forall t g, In t (tris inp) -> cen t = Some g -> oget g (pts out) = Some (cpt inp t);
  rr_uniform : uniform f' = is_nil (csel f);
  rr_esel : esel f' = esel f;
  rr_ids : forall id w, In (id, w) (faces out) <-> nth_error (tris out) (N.to_nat id) = Some w
}.

Lemma visited_selected inp sel t : In t (visited inp sel) <-> selected inp sel t.
Proof.
  unfold visited, selected. destruct sel as [|i sel]; cbn [is_nil].
  - split; [auto|]. intros [[_ H]|[i [[] _]]]; exact H.
  - rewrite sel_tris_In. split; [auto|]. intros [[H _]|H]; [discriminate|exact H].
Qed.

Section RESULT.
Variables (f : fstate) (inp : mesh) (f' : fstate) (out : mesh).
Hypothesis Hv : valid inp.
Hypothesis Hd : dense inp.
Hypothesis Hs : NoDup (csel f).
Hypothesis HR : run3 inp f f' out.

Let cen := cenm inp f.
Let T := tris inp.
Let V := osize (pts inp).
Let L := visited inp (csel f).
Let HC : centring T cen (fun x => x < V) := cenm_centring inp f Hv Hd Hs.

Lemma old_pts id : oget id (pts inp) <> None <-> id < V.
Proof. apply Hd. Qed.
Lemma old_none id : oget id (pts inp) = None <-> ~ id < V.
Proof.
  rewrite <- old_pts. destruct (oget id (pts inp)); split; intros H; try congruence.
  exfalso. apply H. discriminate.
Qed.
Lemma out_tris w : In w (tris out) <-> In w (root3 T cen).
Proof.
  rewrite (built_tris _ _ (q_built _ _ _ _ HR)). pose proof (plan3_root3 inp f Hv Hd Hs) as HP.
  split; intros H; [eapply Permutation_in; [symmetry; exact HP|exact H]|eapply Permutation_in; [exact HP|exact H]].
Qed.
Lemma out_dirs d : In d (dirs (tris out)) <-> In d (dirs (root3 T cen)).
Proof. unfold dirs. rewrite !in_flat_map. split; intros [w [Hw H]]; exists w; (split; [apply out_tris; exact Hw|exact H]). Qed.
Lemma out_joined a b : joined out a b <-> In (a, b) (dirs (tris out)) \/ In (b, a) (dirs (tris out)).
Proof.
  unfold joined. rewrite (i_ring _ _ _ _ (q_built _ _ _ _ HR)), (built_tris _ _ (q_built _ _ _ _ HR)). reflexivity.
Qed.
Lemma pts_dm : densemap (V + N.of_nat (length L)) (pts out).
Proof.
  rewrite (q_pts _ _ _ _ HR). rewrite <- (map_length (cpt inp)). apply sorted_app_idx. apply dense_map; auto.
Qed.
Lemma out_pts id : oget id (pts out) <> None <-> id < V + N.of_nat (length L).
Proof. apply densemap_get. apply pts_dm. Qed.
Lemma pts_old id p : oget id (pts inp) = Some p -> oget id (pts out) = Some p.
Proof.
  intros H. assert (Hlt : id < V) by (apply old_pts; congruence). rewrite (q_pts _ _ _ _ HR).
  rewrite densemap_app_old; [exact H| |exact Hlt]. apply dense_map; auto.
Qed.
Lemma pts_new t g : In t T -> cen t = Some g -> oget g (pts out) = Some (cpt inp t).
Proof.
  intros Ht Hg. apply cenm_Some in Hg; auto. destruct Hg as [i [Hi ->]]. rewrite (q_pts _ _ _ _ HR). fold V L in Hi |- *.
  rewrite densemap_app_new; [| apply dense_map; auto | lia].
  replace (N.to_nat (V + N.of_nat i - V)) with i by lia. rewrite nth_error_map, Hi. reflexivity.
Qed.

Lemma centred_cenE a b h : centred inp cen a b h <-> cenE T cen (a, b) = Some h.
Proof.
  unfold centred. split.
  - intros [u [Hu [He Hh]]]. rewrite (cenE_face _ _ _ HC u _ Hu He). exact Hh.
  - apply cenE_Some.
Qed.
Lemma centred_None a b : (forall h, ~ centred inp cen a b h) <-> cenE T cen (a, b) = None.
Proof.
  split.
  - intros H. destruct (cenE T cen (a, b)) as [h|] eqn:E; [|reflexivity]. exfalso. apply (H h). apply centred_cenE. exact E.
  - intros H h Hh. apply centred_cenE in Hh. congruence.
Qed.

Lemma sub_ok : root3_subdivision inp out (selected inp (csel f)) cen.
Proof.
  constructor.
  - intros t Ht. rewrite <- visited_selected. apply (cen3_In T).
    + apply (v_dirs _ Hv).
    + intros x. apply visited_incl.
    + apply visited_nodup; auto.
    + apply (v_proper _ Hv).
    + exact Ht.
  - apply (c_inj _ _ _ HC).
  - intros id H. apply out_pts. apply old_pts in H. lia.
  - intros id. rewrite old_none, out_pts. split.
    + intros [t [Ht H]]. apply (cenm_range inp f t id Hv Hs Ht) in H. fold V L in H. lia.
    + intros [H1 H2]. assert (Hi : (N.to_nat (id - V) < length L)%nat) by lia.
      destruct (nth_error L (N.to_nat (id - V))) as [t|] eqn:E; [|apply nth_error_None in E; lia].
      assert (Ht : In t T) by (eapply visited_incl; eapply nth_error_In; eauto). exists t. split; [exact Ht|].
      apply cenm_Some; auto. exists (N.to_nat (id - V)). split; [exact E|]. fold V. lia.
  - intros w. rewrite out_tris, root3_In. split.
    + intros [[Hw E]|[t [g [a [b [Ht [E [H ->]]]]]]]].
      * exists w. split; [exact Hw|]. left. split; auto.
      * exists t. split; [exact Ht|]. right. unfold etri. destruct (cenE T cen (b, a)) as [h|] eqn:Eh.
        -- right. exists g, h, a, b. repeat split; auto. apply centred_cenE. exact Eh.
        -- left. exists g, a, b. repeat split; auto. apply centred_None. exact Eh.
    + intros [t [Ht [[E ->]|[[g [a [b [E [H [Hn ->]]]]]]|[g [h [a [b [E [H [Hn ->]]]]]]]]]]].
      * auto.
      * right. exists t, g, a, b. repeat split; auto. unfold etri. apply centred_None in Hn. rewrite Hn. reflexivity.
      * right. exists t, g, a, b. repeat split; auto. unfold etri. apply centred_cenE in Hn. rewrite Hn. reflexivity.
  - rewrite (built_tris _ _ (q_built _ _ _ _ HR)). eapply Permutation_NoDup; [apply plan3_root3; assumption|].
    apply (root3_nodup _ _ _ HC).
  - intros a b Hj. apply out_joined. exact Hj.
Qed.

Lemma dense_ok : dense out.
Proof. intros id. rewrite out_pts. unfold osize. destruct pts_dm as [_ [H _]]. unfold osize in H. rewrite H. reflexivity. Qed.

Lemma valid_ok3 : tris inp <> [] -> valid out /\ dense out.
Proof.
  intros Hne. pose proof (plan3_root3 inp f Hv Hd Hs) as HP.
  apply (built_valid out (map it_tri (plan3 inp f)) (V + N.of_nat (length L)) (q_built _ _ _ _ HR)).
  - intros E. rewrite E in HP. apply Permutation_sym, Permutation_nil in HP.
    assert (Hl := root3_length T cen). unfold T, cen in Hl. rewrite HP in Hl. cbn [length] in Hl.
    apply Hne. apply length_zero_iff_nil. lia.
  - apply root3_good_m; assumption.
  - intros t u Ht Hu. apply (root3_notwin _ _ _ HC); eapply Permutation_in; try (symmetry; exact HP); assumption.
  - apply pts_dm.
  - intros id p Hid. destruct (N.lt_ge_cases id V) as [Hlt|Hge].
    + apply old_pts in Hlt. destruct (oget id (pts inp)) as [q|] eqn:E; [|congruence].
      rewrite (pts_old _ _ E) in Hid. inv Hid. apply (v_pts_dim _ Hv _ _ E).
    + destruct (proj2 (r3_new _ _ _ _ sub_ok id)) as [t [Ht Hg]].
      { split; [apply old_none; lia|congruence]. }
      rewrite (pts_new t id Ht Hg) in Hid. inv Hid. apply (centre_ok inp t Hv Ht).
Qed.

Lemma count_centred : length (filter (centredb cen) T) = length L.
Proof.
  apply Permutation_length. apply NoDup_Permutation.
  - apply NoDup_filter. apply NoDup_dirs_NoDup. apply (v_dirs _ Hv).
  - apply visited_nodup; auto.
  - intros t. rewrite filter_In. split.
    + intros [Ht H]. unfold centredb in H. apply visited_selected. apply (r3_dom _ _ _ _ sub_ok t Ht).
      destruct (cen t); congruence.
    + intros Ht. assert (Ht' : In t T) by (eapply visited_incl; eauto). split; [exact Ht'|].
      apply visited_selected in Ht. apply (r3_dom _ _ _ _ sub_ok t Ht') in Ht. unfold centredb. destruct (cen t); congruence.
Qed.
Lemma nV_ok : (nV out = nV inp + Z.of_nat (ksel inp f))%Z.
Proof.
  unfold nV, ksel. fold L. destruct pts_dm as [_ [H _]]. unfold osize, V in H. unfold osize in H. lia.
Qed.
Lemma tris_length3 : length (tris out) = (length T + 2 * length L)%nat.
Proof.
  rewrite (built_tris _ _ (q_built _ _ _ _ HR)). rewrite <- (Permutation_length (plan3_root3 inp f Hv Hd Hs)).
  fold T cen. rewrite root3_length, count_centred. reflexivity.
Qed.
Lemma faces_idx id w : In (id, w) (faces out) <-> nth_error (tris out) (N.to_nat id) = Some w.
Proof.
  destruct (tris out) as [|t0 T0] eqn:ET.
  - assert (faces out = []) as -> by (unfold tris in ET; destruct (faces out); [reflexivity|discriminate]).
    destruct (N.to_nat id); split; intros H; try discriminate; destruct H.
  - rewrite <- ET. rewrite (built_faces _ _ (q_built _ _ _ _ HR)).
    + rewrite (built_tris _ _ (q_built _ _ _ _ HR)). apply idx_In.
    + rewrite <- (built_tris _ _ (q_built _ _ _ _ HR)), ET. discriminate.
Qed.
Lemma nF_ok : (nF out = nF inp + 2 * Z.of_nat (ksel inp f))%Z.
Proof.
  rewrite <- (tris_len inp Hv). fold T. unfold ksel. fold L.
  assert (nF out = Z.of_nat (length (tris out))) as ->; [|rewrite tris_length3; lia].
  unfold nF. pose proof (i_cells _ _ _ _ (q_built _ _ _ _ HR)) as H. unfold cells_list in H.
  rewrite (built_tris _ _ (q_built _ _ _ _ HR)). rewrite H. unfold idx. rewrite <- (map_length snd), idx_from_snd, map_length. reflexivity.
Qed.

Lemma border_ok a b : border_dir out a b <-> border_dir inp a b.
Proof. unfold border_dir. rewrite !out_dirs. apply (root3_border T cen _ HC). Qed.

Lemma gone_ok a b : In (a, b) (dirs (tris inp)) ->
  (joined out a b <-> (forall h, ~ centred inp cen a b h) \/ (forall h, ~ centred inp cen b a h)).
Proof.
  intros H. rewrite out_joined, !out_dirs, !centred_None. destruct (dir_old _ _ _ HC a b H) as [Oa [Ob _]]. split.
  - intros [H'|H']; apply (root3_dir_old _ _ _ HC) in H'; tauto.
  - intros H'. left. apply (root3_dir_kept _ _ _ HC); assumption.
Qed.
Lemma join_ok a b g h : centred inp cen a b g -> centred inp cen b a h -> joined out g h.
Proof.
  rewrite !centred_cenE. intros Hg Hh. apply out_joined. left. apply out_dirs.
  destruct (cenE_at _ _ _ _ _ Hg) as [t A]. apply (etri_dirs_in T cen t g a b); [exact A|].
  apply etri_dirs. right. right. exists h. auto.
Qed.

(** *** Items and cells *)
Lemma out_item id w : In (id, w) (faces out) -> exists x, nth_error (plan3 inp f) (N.to_nat id) = Some x /\ it_tri x = w.
Proof.
  rewrite faces_idx, (built_tris _ _ (q_built _ _ _ _ HR)), nth_error_map.
  destruct (nth_error (plan3 inp f) (N.to_nat id)) as [x|]; [|discriminate]. intros H. cbn in H. inv H. eauto.
Qed.
Lemma item_out id x : nth_error (plan3 inp f) (N.to_nat id) = Some x -> In (id, it_tri x) (faces out).
Proof. intros H. rewrite faces_idx, (built_tris _ _ (q_built _ _ _ _ HR)), nth_error_map, H. reflexivity. Qed.

Lemma tasks_sorted F : sorted_keys F -> StronglySorted (fun x y => tid x <= tid y) (tasks (cenE T cen) F).
Proof.
  intros HF. induction F as [|it F IH]; [constructor|]. unfold sorted_keys, okeys in HF. cbn [map] in HF. inv HF.
  specialize (IH H1). unfold tasks. cbn [flat_map]. fold (tasks (cenE T cen) F).
  assert (Hhd : forall k, In k (cell_tasks (cenE T cen) it) -> tid k = fst it).
  { intros k. unfold cell_tasks. destruct it as [id [[a b] c]]. cbn [fst snd tdirs]. destruct (cenE T cen (a, b)).
    - intros Hk. apply in_map_iff in Hk. destruct Hk as [e [<- _]]. reflexivity.
    - intros [<-|[]]. reflexivity. }
  assert (Htl : forall k, In k (tasks (cenE T cen) F) -> fst it <= tid k).
  { intros k Hk. unfold tasks in Hk. apply in_flat_map in Hk. destruct Hk as [it' [Hit Hk]].
    assert (Hk' : tid k = fst it').
    { revert Hk. unfold cell_tasks. destruct it' as [id [[a b] c]]. cbn [fst snd tdirs]. destruct (cenE T cen (a, b)).
      - intros Hk. apply in_map_iff in Hk. destruct Hk as [e [<- _]]. reflexivity.
      - intros [<-|[]]. reflexivity. }
    rewrite Hk'. rewrite Forall_forall in H2. assert (fst it < fst it') by (apply H2; apply in_map; exact Hit). lia. }
  induction (cell_tasks (cenE T cen) it) as [|k l IHl]; [exact IH|]. cbn [app]. constructor.
  - apply IHl. intros k' Hk'. apply Hhd. right. exact Hk'.
  - apply Forall_forall. intros k' Hk'. rewrite (Hhd k) by (left; reflexivity). apply in_app_or in Hk'.
    destruct Hk' as [Hk'|Hk']; [rewrite (Hhd k') by (right; exact Hk'); lia|auto].
Qed.

Lemma F_in3 it : In it (faces inp) -> In (snd it) T.
Proof. intros H. apply in_map. exact H. Qed.

(** Where an item comes from, in terms of the input faces. *)
Lemma item_source x : In x (plan3 inp f) ->
  (it_track x = false \/ it_track x = negb (is_nil (csel f))) /\
  (it_track x = false -> csel f <> [] -> kept3 cen (it_tri x) (it_tri x) /\ In (it_tri x) T) /\
  (it_track x = true -> has_new inp (it_tri x)) /\
  source3 inp cen (it_parent x) (it_tri x).
Proof.
  intros Hx. unfold plan3 in Hx.
  destruct (ptasks_first T cen (is_nil (csel f)) (tasks (cenE T cen) (faces inp)) (tasks_sorted _ (faces_keys_sorted inp Hv))) with (P := @nil dedge) (x := x)
    as [[Ht Hi]|[Ht [e [g [Hg [Hw Hi]]]]]].
  - intros id e He. apply (tasks_inr T cen _ HC) in He; [|exact F_in3]. destruct He as [t [Hit [_ He]]].
    apply (sym_neq T cen _ HC). apply in_flat_map. exists t. split; [apply (F_in3 _ Hit)|exact He].
  - exact Hx.
  - apply (tasks_inl T cen _ HC) in Hi; [|exact F_in3]. destruct Hi as [Hi E]. split; [auto|]. split; [|split].
    + intros _ _. split; [split; auto|apply (F_in3 _ Hi)].
    + congruence.
    + exists (it_tri x). split; [exact Hi|]. left. split; auto.
  - split; [auto|]. destruct e as [a b]. cbn [fst snd] in Hw. change (sym (a, b)) with (b, a) in Hi.
    destruct (cenE_at _ _ _ _ _ Hg) as [t A]. pose proof (at_edge_old _ _ _ HC _ _ _ _ A) as [_ [_ [_ Hng]]].
    assert (Hvg : In g (tverts (it_tri x))).
    { rewrite Hw. apply (tdirs_verts _ b g). apply etri_has_own. }
    split; [|split].
    + intros E Hne. exfalso. rewrite Ht in E. clear - E Hne; destruct (csel f); [congruence|discriminate].
    + intros _. exists g. split; [exact Hvg|]. apply old_none. exact Hng.
    + destruct A as [Htt [Hgt He]].
      destruct Hi as [[Hn Hi]|[Hn [e0 [He0 [[Hi _] Hmin]]]]].
      * apply (tasks_inr T cen _ HC) in Hi; [|exact F_in3]. destruct Hi as [t' [Hi [_ He']]].
        assert (t' = t) by (apply (c_unique _ _ _ HC t' t (a, b)); auto; apply (F_in3 _ Hi)). subst t'.
        exists t. split; [exact Hi|]. right. left. exists g, a, b. split; [exact Hgt|]. split; [exact He|]. split.
        -- apply centred_None. exact Hn.
        -- rewrite Hw. unfold etri. rewrite Hn. reflexivity.
      * destruct (cenE T cen (b, a)) as [h|] eqn:Eh; [clear Hn|congruence].
        destruct (cenE_at _ _ _ _ _ Eh) as [u [Hu [Hgu Heu]]].
        apply (tasks_inr T cen _ HC) in Hi; [|exact F_in3]. destruct Hi as [t' [Hi [_ He']]].
        assert (Hq : forall t2 ee, In t2 T -> In ee (tdirs t2) -> cen t2 <> None -> exists qid, In (qid, t2) (faces inp) /\
                  In (inr (qid, ee)) (tasks (cenE T cen) (faces inp))).
        { intros t2 ee Ht2 Hee Hc2. unfold T, tris in Ht2. apply in_map_iff in Ht2. destruct Ht2 as [[qid t3] [E3 Hq]].
          cbn in E3. subst t3. exists qid. split; [exact Hq|]. apply (tasks_inr T cen _ HC); [exact F_in3|]. eauto. }
        destruct He0 as [-> | ->].
        -- assert (t' = t) by (apply (c_unique _ _ _ HC t' t (a, b)); auto; apply (F_in3 _ Hi)). subst t'.
           destruct (Hq u (b, a) Hu Heu) as [qid [Hq1 Hq2]]; [congruence|].
           exists t. split; [exact Hi|]. right. right. exists qid, u, g, h, a, b. repeat (split; [assumption|]).
           split; [apply Hmin; exact Hq2|]. left. rewrite Hw. unfold etri. rewrite Eh. reflexivity.
        -- change (sym (a, b)) with (b, a) in *.
           assert (t' = u) by (apply (c_unique _ _ _ HC t' u (b, a)); auto; apply (F_in3 _ Hi)). subst t'.
           destruct (Hq t (a, b) Htt He) as [qid [Hq1 Hq2]]; [congruence|].
           exists u. split; [exact Hi|]. right. right. exists qid, t, h, g, b, a. repeat (split; [assumption|]).
           split; [apply Hmin; exact Hq2|]. right. rewrite Hw. unfold etri. rewrite Eh. reflexivity.
Qed.

(** The source of a triangle is unique. *)
Lemma source_etri pid w : source3 inp cen pid w ->
  (In w T /\ cen w = None /\ In (pid, w) (faces inp)) \/
  exists e g t, at_edge T cen t g (fst e) (snd e) /\ w = etri T cen g (fst e) (snd e) /\
    ((cenE T cen (sym e) = None /\ In (pid, t) (faces inp)) \/
     exists u h, at_edge T cen u h (snd e) (fst e) /\
       exists p1 p2, In (p1, t) (faces inp) /\ In (p2, u) (faces inp) /\ pid = N.min p1 p2).
Proof.
  intros [t [Hpid H]]. assert (Ht : In t T) by (apply (F_in3 _ Hpid)).
  destruct H as [[E ->]|[[g [a [b [E [He [Hn ->]]]]]]|[qid [u [g [h [a [b [Hq [E [Eu [He [Heu [Hle Hw]]]]]]]]]]]]]].
  - left. auto.
  - right. exists (a, b), g, t. cbn [fst snd]. apply centred_None in Hn. split; [split; auto|]. split.
    + unfold etri. rewrite Hn. reflexivity.
    + left. split; [exact Hn|exact Hpid].
  - assert (Hu : In u T) by (apply (F_in3 _ Hq)).
    assert (Ea : cenE T cen (a, b) = Some g) by (rewrite (cenE_face _ _ _ HC t) by auto; exact E).
    assert (Eb : cenE T cen (b, a) = Some h) by (rewrite (cenE_face _ _ _ HC u) by auto; exact Eu).
    right. destruct Hw as [-> | ->].
    + exists (a, b), g, t. cbn [fst snd]. split; [split; auto|]. split; [unfold etri; rewrite Eb; reflexivity|].
      right. exists u, h. split; [split; auto|]. exists pid, qid. repeat split; auto. lia.
    + exists (b, a), h, u. cbn [fst snd]. split; [split; auto|]. split; [unfold etri; rewrite Ea; reflexivity|].
      right. exists t, g. split; [split; auto|]. exists qid, pid. repeat split; auto. lia.
Qed.
Lemma face_id t p q : In (p, t) (faces inp) -> In (q, t) (faces inp) -> p = q.
Proof.
  intros Hp Hq. pose proof (NoDup_dirs_NoDup _ (v_dirs _ Hv)) as Hnd. apply In_nth_error in Hp. apply In_nth_error in Hq.
  destruct Hp as [i Hi], Hq as [j Hj].
  assert (i = j).
  { apply (proj1 (NoDup_nth_error (tris inp)) Hnd).
    - unfold tris. rewrite map_length. apply nth_error_Some. congruence.
    - unfold tris. rewrite !nth_error_map, Hi, Hj. reflexivity. }
  subst. congruence.
Qed.
Lemma source_unique p q w : source3 inp cen p w -> source3 inp cen q w -> p = q.
Proof.
  intros H1 H2. apply source_etri in H1. apply source_etri in H2.
  destruct H1 as [[Hw [E H1]]|[e [g [t [A [Hw H1]]]]]], H2 as [[Hw2 [E2 H2]]|[e2 [g2 [t2 [A2 [Hw2 H2]]]]]].
  - eapply face_id; eauto.
  - exfalso. subst w. apply (etri_kept T cen _ HC _ _ _ _ _ (snd e2) g2 A2 Hw E); [apply etri_has_own|apply etri_has_own].
  - exfalso. subst w. apply (etri_kept T cen _ HC _ _ _ _ _ (snd e) g A Hw2 E2); [apply etri_has_own|apply etri_has_own].
  - assert (Ee : e = e2).
    { destruct e as [a b], e2 as [a2 b2]. cbn [fst snd] in *. apply (etri_unique T cen _ HC _ _ _ _ _ _ _ _ b g A A2).
      - apply etri_has_own.
      - rewrite <- Hw2, Hw. apply etri_has_own. }
    subst e2. destruct (at_edge_eq _ _ _ HC _ _ _ _ _ _ _ _ A A2 eq_refl) as [<- <-].
    destruct H1 as [[Hn H1]|[u [h [B [p1 [p2 [P1 [P2 ->]]]]]]]], H2 as [[Hn2 H2]|[u2 [h2 [B2 [q1 [q2 [Q1 [Q2 ->]]]]]]]].
    + eapply face_id; eauto.
    + exfalso. apply (at_edge_cenE _ _ _ HC) in B2. unfold sym in Hn. congruence.
    + exfalso. apply (at_edge_cenE _ _ _ HC) in B. unfold sym in Hn2. congruence.
    + destruct (at_edge_eq _ _ _ HC _ _ _ _ _ _ _ _ B B2 eq_refl) as [<- <-].
      rewrite (face_id t p1 q1), (face_id u p2 q2); auto.
Qed.

Lemma result_ok : root3_result f inp f' out cen.
Proof.
  constructor.
  - apply sub_ok.
  - apply valid_ok3.
  - apply dense_ok.
  - apply nV_ok.
  - apply nF_ok.
  - apply border_ok.
  - apply gone_ok.
  - apply join_ok.
  - intros id w pid Hw Hsrc. apply out_item in Hw. destruct Hw as [x [Hx <-]].
    destruct (item_source x (nth_error_In _ _ Hx)) as [_ [_ [_ Hsx]]].
    rewrite (source_unique _ _ _ Hsrc Hsx). unfold cell_datum. rewrite (q_data _ _ _ _ HR).
    pose proof (dat_get inp (plan3 inp f) id) as Hdg. rewrite Hx in Hdg. unfold parent_data in Hdg.
    rewrite <- Hdg. unfold mk_data. destruct (dat inp (plan3 inp f)); reflexivity.
  - intros id w Hw. apply out_item in Hw. destruct Hw as [x [Hx <-]].
    destruct (item_source x (nth_error_In _ _ Hx)) as [_ [_ [_ Hsx]]]. eauto.
  - intros id H. unfold cell_datum in H. rewrite (q_data _ _ _ _ HR) in H.
    assert (H' : oget id (dat inp (plan3 inp f)) <> None).
    { unfold mk_data in H. destruct (dat inp (plan3 inp f)); [congruence|exact H]. }
    rewrite dat_get in H'. destruct (nth_error (plan3 inp f) (N.to_nat id)) as [x|] eqn:Hx; [|congruence].
    exists (it_tri x). apply item_out. exact Hx.
  - rewrite (q_csel _ _ _ _ HR). apply tracked_sorted.
  - intros id. rewrite (q_csel _ _ _ _ HR), tracked_In. split.
    + intros [x [Hx Ht]]. destruct (item_source x (nth_error_In _ _ Hx)) as [H1 [_ [H3 _]]]. split.
      * intros E. rewrite E in H1. cbn in H1. destruct H1; congruence.
      * exists (it_tri x). split; [apply item_out; exact Hx|auto].
    + intros [Hne [w [Hw Hnew]]]. apply out_item in Hw. destruct Hw as [x [Hx <-]]. exists x. split; [exact Hx|].
      destruct (item_source x (nth_error_In _ _ Hx)) as [H1 [H2 _]]. destruct (it_track x); [reflexivity|exfalso].
      destruct (H2 eq_refl Hne) as [_ Ht]. destruct Hnew as [v [Hvv Hnv]]. apply (v_verts _ Hv _ v Ht Hvv). exact Hnv.
  - apply pts_old.
  - apply pts_new.
  - apply (q_uniform _ _ _ _ HR).
  - apply (q_esel _ _ _ _ HR).
  - apply faces_idx.
Qed.
End RESULT.

Lemma root3_run f inp fuel f' out : valid inp -> dense inp -> ready3 f inp ->
  update (CellF CSqrt3) fuel f inp = Ok (f', out) -> root3_result f inp f' out (cenm inp f).
Proof.
  intros Hv Hd Hr E. apply result_ok; auto; [apply Hr|]. eapply update3_inv; eauto.
Qed.
Lemma root3_completes f inp : valid inp -> dense inp -> ready3 f inp ->
  exists f' out, (forall fuel, (length (tris inp) < fuel)%nat -> update (CellF CSqrt3) fuel f inp = Ok (f', out)) /\
    root3_result f inp f' out (cenm inp f).
Proof.
  intros Hv Hd Hr. destruct (update3 f inp (S (length (tris inp))) Hv Hd Hr ltac:(lia)) as [f' [out [E H]]].
  exists f', out. split.
  - intros fuel Hf. destruct (update3 f inp fuel Hv Hd Hr Hf) as [f2 [out2 [E2 _]]].
    rewrite <- E. apply update_fuel; congruence.
  - eapply root3_run; eauto.
Qed.
Lemma ksel_all inp f : csel f = [] -> valid inp -> Z.of_nat (ksel inp f) = nF inp.
Proof. intros E Hv. unfold ksel, visited. rewrite E. cbn [is_nil]. apply tris_len. exact Hv. Qed.
Lemma ksel_sel inp f : csel f <> [] -> valid inp -> existing inp (csel f) -> ksel inp f = length (csel f).
Proof.
  intros E Hv He. unfold ksel, visited. destruct (csel f) as [|i l] eqn:Ec; [congruence|]. cbn [is_nil].
  rewrite <- Ec in *. clear Ec E. destruct (v_tris _ Hv) as [cs [Hc _]].
  pose proof (sel_tris_Forall2 inp (csel f) cs Hv Hc He) as HF. clear - HF. induction HF; cbn [length]; congruence.
Qed.
End MAIN3.
