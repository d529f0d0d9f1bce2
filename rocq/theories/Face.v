(** * Face: consequences of the run lemmas for the face-split filters. *)
From Coq Require Import Permutation Sorted.
From Verif Require Import Base Mesh Filters Spec SpecSub Lists AddFace SplitTri Split Points Valid Run Update Struct Count.

Lemma combine_map_In {A B} (g : A -> B) l x y : In (x, y) (combine l (map g l)) <-> In x l /\ y = g x.
Proof.
  induction l as [|a l IH]; cbn; [tauto|]. rewrite IH. split.
  - intros [E|[H ->]]; [inv E; auto|auto].
  - intros [[->|H] ->]; auto.
Qed.

Lemma tracked_In E id : In id (tracked E) <-> exists x, nth_error E (N.to_nat id) = Some x /\ it_track x = true.
Proof.
  unfold tracked. rewrite in_flat_map. split.
  - intros [[i x] [Hi H]]. cbn [fst snd] in H. destruct (it_track x) eqn:Et; [|destruct H].
    destruct H as [<-|[]]. apply idx_In in Hi. eauto.
  - intros [x [Hx Ht]]. exists (id, x). split; [apply idx_In; exact Hx|]. cbn [fst snd]. rewrite Ht. cbn. auto.
Qed.

Lemma tracked_sorted E : StronglySorted N.lt (tracked E).
Proof.
  induction E as [|x E IH] using rev_ind; [constructor|]. rewrite tracked_snoc.
  assert (Hlt : forall i, In i (tracked E) -> i < N.of_nat (length E)).
  { intros i Hi. apply tracked_In in Hi. destruct Hi as [y [Hy _]].
    assert (N.to_nat i < length E)%nat by (apply nth_error_Some; congruence). lia. }
  destruct (it_track x); [|rewrite app_nil_r; exact IH].
  clear - IH Hlt. induction (tracked E) as [|i l IHl]; cbn; [repeat constructor|].
  inv IH. constructor; [apply IHl; auto; intros; apply Hlt; cbn; auto|].
  apply Forall_app. split; [assumption|]. constructor; [apply Hlt; cbn; auto|constructor].
Qed.

Lemma dat_get {O : Ops} {D : Type} (inp : mesh O D) E id :
  oget id (dat inp E) = match nth_error E (N.to_nat id) with Some x => parent_data inp (it_parent x) | None => None end.
Proof.
  induction E as [|x E IH] using rev_ind; [cbn; destruct (N.to_nat id); reflexivity|].
  rewrite dat_snoc, oget_app, IH.
  destruct (Nat.lt_ge_cases (N.to_nat id) (length E)) as [Hlt|Hge].
  - rewrite nth_error_app1 by exact Hlt. destruct (nth_error E (N.to_nat id)) as [y|] eqn:Ey.
    + destruct (parent_data inp (it_parent y)); [reflexivity|].
      destruct (parent_data inp (it_parent x)); [|reflexivity].
      cbn [oget]. destruct (N.eqb_spec (N.of_nat (length E)) id); [|reflexivity].
      exfalso. subst. rewrite Nat2N.id in Hlt. lia.
    + apply nth_error_None in Ey. lia.
  - rewrite nth_error_app2 by exact Hge.
    assert (nth_error E (N.to_nat id) = None) as -> by (apply nth_error_None; exact Hge).
    destruct (Nat.eq_dec (N.to_nat id) (length E)) as [He|Hne].
    + rewrite He, Nat.sub_diag. cbn [nth_error]. destruct (parent_data inp (it_parent x)); [|reflexivity].
      cbn [oget]. destruct (N.eqb_spec (N.of_nat (length E)) id); [reflexivity|]. exfalso. lia.
    + destruct (N.to_nat id - length E)%nat as [|q] eqn:Eq; [lia|].
      assert (nth_error [x] (Datatypes.S q) = None) as -> by (destruct q; reflexivity).
      destruct (parent_data inp (it_parent x)); [|reflexivity].
      cbn [oget]. destruct (N.eqb_spec (N.of_nat (length E)) id); [|reflexivity]. exfalso. lia.
Qed.

Section FACE.
Context {O : Ops} {D : Type}.
Notation mesh := (mesh O D).
Notation state := (@state O D).
Notation point := (list (K O)).
Implicit Types inp out : mesh.

(** Everything known about a finished run. *)
Record face_result (k : kind) (f : fstate) inp (f' : fstate) out (mid : N -> N -> option N)
       (Ls : list (list tri)) : Prop := {
  fr_sub : subdivision inp out (to_split k f inp) mid Ls;
  fr_valid : tris inp <> [] -> valid out /\ dense out;
  fr_dense : dense out;
  fr_count : (nV out = nV inp + Z.of_nat (length (inserted k f inp)))%Z;
  fr_sorted : StronglySorted N.lt (csel f');
  fr_csel : forall id, In id (csel f') <->
     whole k f = false /\ exists pid t u, In (id, u) (faces out) /\ child_of inp Ls pid t u /\ nsplit mid t = 3%nat;
  fr_data : forall id pid t u, In (id, u) (faces out) -> child_of inp Ls pid t u ->
     cell_datum out id = cell_datum inp pid;
  fr_data_only : forall id, cell_datum out id <> None -> exists u, In (id, u) (faces out);
  fr_old : forall id p, oget id (pts inp) = Some p -> k <> CellF CLoop -> oget id (pts out) = Some p;
  fr_old_loop : forall id p, oget id (pts inp) = Some p -> k = CellF CLoop ->
     if smooths f id then smoothing_point inp id p = match oget id (pts out) with Some q => Ok q | None => Undef Uninit end
     else oget id (pts out) = Some p;
  fr_new : forall a b m, mid a b = Some m -> exists e p, undirected_eq e (a, b) /\
     In e (inserted k f inp) /\ new_point k inp e = Ok p /\ oget m (pts out) = Some p;
  fr_uniform : uniform f' = whole k f;
  fr_esel : esel f' = esel f;
  fr_ids : forall id u, In (id, u) (faces out) <-> nth_error (tris out) (N.to_nat id) = Some u;
  fr_nF : nF out = Z.of_nat (length (tris out));
  fr_tris : forall cs id c, cells out = Some cs -> In (id, c) cs -> exists x y z, c = Some (Poly [x; y; z]) /\ In (x, y, z) (tris out);
  fr_mid : mid = sp (osize (pts inp)) (inserted k f inp);
  fr_Ls : Ls = map (split_tri mid) (tris inp)
}.

Lemma ins_dirs inp k f e : valid inp -> In e (inserted k f inp) -> ready k f inp ->
  joined inp (fst e) (snd e).
Proof.
  intros Hv He Hr. destruct k as [s|s]; cbn [inserted] in He.
  - apply ins_list_In in He. destruct e as [a b]. apply dirs_tri in He. destruct He as [t [Ht He]].
    apply (v_face_edges _ Hv). apply dirs_tri. exists t. split; [eapply visited_incl; eauto|exact He].
  - destruct (edges_ready_of s f inp Hv Hr) as [H _]. apply somes_In in He. destruct e as [a b].
    apply (H a b He).
Qed.

Lemma all_three_nsplit mid a b c :
  all_three (mid a b) (mid b c) (mid c a) = true <-> nsplit mid (a, b, c) = 3%nat.
Proof.
  rewrite nsplit_olist. destruct (mid a b), (mid b c), (mid c a); cbn; split; congruence.
Qed.

Lemma face_run k f inp fuel f' out : valid inp -> dense inp -> ready k f inp ->
  update k fuel f inp = Ok (f', out) ->
  exists mid Ls, face_result k f inp f' out mid Ls.
Proof.
  intros Hv Hd Hr E.
  destruct (update_split_inv k f inp fuel f' out Hv Hd Hr E) as [P0 [Hrun [Hc [Hcs [HI Hval]]]]].
  set (V := osize (pts inp)). set (Is := inserted k f inp) in *. set (mid := sp V Is).
  set (Ls := map (split_tri mid) (tris inp)).
  exists mid, Ls.
  pose proof (valid_splitting inp V Is Hv Hd eq_refl) as HS. fold mid in HS.
  pose proof (split_run_subdivision k f inp P0 _ f' out Hv Hd HI Hc Hrun) as Hsub.
  fold V Is mid Ls in Hsub.
  pose proof Hrun as [Hb Hp Hcd Hf]. fold V Is mid in Hb, Hp, Hcd, Hf.
  set (PL := plan mid (whole k f) (faces inp)) in *.
  assert (HPL : map it_tri PL = tris out).
  { unfold PL. rewrite plan_tris, (built_tris _ _ Hb). reflexivity. }
  assert (HP0 : densemap V P0) by (apply copied_densemap; auto).
  set (val := val_of (new_point k inp)) in *.
  assert (Hdm : densemap (V + N.of_nat (length (map val Is))) (P0 ++ idx_from V (map val Is))).
  { apply sorted_app_idx. exact HP0. }
  rewrite map_length in Hdm.
  assert (Hfaces : forall id u, In (id, u) (faces out) <-> nth_error (tris out) (N.to_nat id) = Some u).
  { intros id u. destruct (tris inp) as [|t0 T0] eqn:ET.
    - assert (H0 : tris out = []) by (rewrite (sd_tris _ _ _ _ _ Hsub); unfold Ls; reflexivity).
      unfold tris in H0 |- *. destruct (faces out); [|discriminate]. cbn.
      split; [tauto|]. destruct (N.to_nat id); discriminate.
    - rewrite (built_faces _ _ Hb).
      + rewrite (built_tris _ _ Hb). apply idx_In.
      + rewrite <- (built_tris _ _ Hb), (sd_tris _ _ _ _ _ Hsub). unfold Ls. cbn [map concat].
        destruct t0 as [[a b] c]. cbn [split_tri]. destruct (mid a b), (mid b c), (mid c a); discriminate. }
  assert (Hchild : forall pid t u, child_of inp Ls pid t u <-> In (pid, t) (faces inp) /\ In u (split_tri mid t)).
  { intros pid t u. unfold child_of, Ls, tris. rewrite map_map. split.
    - intros [L [HL Hu]]. apply combine_map_In in HL. destruct HL as [H1 ->]. auto.
    - intros [H1 H2]. eexists. split; [apply combine_map_In; eauto|exact H2]. }
  assert (Hitem : forall id u, nth_error (tris out) (N.to_nat id) = Some u ->
    exists x, nth_error PL (N.to_nat id) = Some x /\ it_tri x = u /\
      exists t, In (it_parent x, t) (faces inp) /\ In u (split_tri mid t) /\
        it_track x = negb (whole k f) && Nat.eqb (nsplit mid t) 3).
  { intros id u Hu. rewrite <- HPL, nth_error_map in Hu.
    destruct (nth_error PL (N.to_nat id)) as [x|] eqn:Ex; [|discriminate]. cbn in Hu. inv Hu.
    exists x. split; [reflexivity|]. split; [reflexivity|].
    assert (Hx : In x PL) by (eapply nth_error_In; eauto).
    unfold PL, plan in Hx. apply in_flat_map in Hx. destruct Hx as [[pid [[a b] c]] [Hin Hx]].
    cbn [plan_cell] in Hx. apply in_map_iff in Hx. destruct Hx as [w [<- Hw]].
    exists (a, b, c). cbn [it_parent it_tri it_track fst snd]. split; [exact Hin|]. split; [exact Hw|].
    pose proof (all_three_nsplit mid a b c) as H3.
    destruct (all_three (mid a b) (mid b c) (mid c a)).
    - rewrite (proj1 H3 eq_refl). destruct (whole k f); reflexivity.
    - destruct (Nat.eqb_spec (nsplit mid (a, b, c)) 3) as [H4|H4].
      + apply H3 in H4. discriminate.
      + rewrite andb_false_r. reflexivity. }
  assert (Htris : forall pid t, In (pid, t) (faces inp) -> In t (tris inp)).
  { intros pid t H. unfold tris. apply in_map_iff. exists (pid, t). auto. }
  assert (Huniq : forall pid t pid' t' u, In (pid, t) (faces inp) -> In (pid', t') (faces inp) ->
            In u (split_tri mid t) -> In u (split_tri mid t') -> pid = pid' /\ t = t').
  { intros pid t pid' t' u H1 H2 H3 H4.
    assert (t = t').
    { destruct u as [[x y] z]. apply (child_dirs_unique (tris inp) mid _ HS t t' (x, y)); eauto;
      apply in_flat_map; exists (x, y, z); cbn; auto. }
    subst t'. split; [|reflexivity].
    apply In_nth_error in H1, H2. destruct H1 as [i Hi], H2 as [j Hj].
    assert (i = j); [|congruence].
    destruct t as [[x y] z].
    apply (NoDup_dirs_index (tris inp) i j (x, y, z) (x, y, z) (x, y) (v_dirs _ Hv)); try (cbn; auto; fail);
    unfold tris; rewrite nth_error_map; [rewrite Hi|rewrite Hj]; reflexivity. }
  assert (Hdense : dense out).
  { intros id. rewrite Hp. rewrite (densemap_get _ _ _ Hdm).
    destruct Hdm as [_ [Hz _]]. rewrite Hz. tauto. }
  constructor.
  - exact Hsub.
  - intros Hne. eapply split_run_valid; eauto. intros e He. apply Hval. exact He.
  - exact Hdense.
  - unfold nV. rewrite Hp. rewrite app_length, idx_from_length, map_length.
    destruct Hc as [Hk _]. assert (length P0 = length (pts inp)).
    { rewrite <- (map_length fst P0), <- (map_length fst (pts inp)). unfold okeys in Hk. rewrite Hk. reflexivity. }
    fold Is. lia.
  - rewrite Hf. cbn [csel]. apply tracked_sorted.
  - intros id. rewrite Hf. cbn [csel]. rewrite tracked_In. split.
    + intros [x [Hx Ht]]. destruct (Hitem id (it_tri x)) as [x' [Hx' [_ [t [Hpt [Hu Htr]]]]]].
      { rewrite <- HPL, nth_error_map, Hx. reflexivity. }
      rewrite Hx in Hx'. inv Hx'. rewrite Ht in Htr. symmetry in Htr. apply andb_prop in Htr.
      destruct Htr as [H1 H2]. split; [destruct (whole k f); [discriminate|reflexivity]|].
      apply Nat.eqb_eq in H2. exists (it_parent x'), t, (it_tri x').
      split; [apply Hfaces; rewrite <- HPL, nth_error_map, Hx; reflexivity|].
      split; [apply Hchild; auto|exact H2].
    + intros [Hw [pid [t [u [Hu [Hch H3]]]]]]. apply Hfaces in Hu. apply Hchild in Hch. destruct Hch as [Hpt Hut].
      destruct (Hitem id u Hu) as [x [Hx [Hxu [t' [Hpt' [Hut' Htr]]]]]].
      exists x. split; [exact Hx|]. rewrite Htr, Hw. cbn [negb andb]. apply Nat.eqb_eq.
      destruct (Huniq _ _ _ _ _ Hpt Hpt' Hut Hut') as [_ <-]. exact H3.
  - intros id pid t u Hu Hch. apply Hfaces in Hu. apply Hchild in Hch. destruct Hch as [Hpt Hut].
    destruct (Hitem id u Hu) as [x [Hx [Hxu [t' [Hpt' [Hut' Htr]]]]]].
    destruct (Huniq _ _ _ _ _ Hpt Hpt' Hut Hut') as [Hpid _].
    assert (Hdat : cell_datum out id = oget id (dat inp PL)).
    { unfold cell_datum. rewrite Hcd. destruct (dat inp PL); reflexivity. }
    rewrite Hdat, dat_get, Hx, <- Hpid. reflexivity.
  - intros id Hne.
    assert (Hdat : cell_datum out id = oget id (dat inp PL)).
    { unfold cell_datum. rewrite Hcd. destruct (dat inp PL); reflexivity. }
    rewrite Hdat, dat_get in Hne. destruct (nth_error PL (N.to_nat id)) as [x|] eqn:Ex; [|congruence].
    exists (it_tri x). apply Hfaces. rewrite <- HPL, nth_error_map, Ex. reflexivity.
  - intros id p Hid Hk. destruct Hcs as [Hcs _]. rewrite Hp, (Hcs Hk), oget_app, Hid. reflexivity.
  - intros id p Hid Hk. destruct Hcs as [_ Hcs]. specialize (Hcs Hk).
    assert (Hlt : id < V) by (apply Hd; congruence).
    destruct (oget id P0) as [q|] eqn:Eq.
    2:{ exfalso. apply (densemap_get _ _ _ HP0) in Hlt. congruence. }
    rewrite Hp, oget_app, Eq.
    destruct (Hcs id q Eq) as [p' [Hp' Hcase]]. rewrite Hid in Hp'. inv Hp'.
    destruct (smooths f id) eqn:Es.
    + destruct Hcase as [[H _]|[[_ [H _]]|[_ [_ H]]]]; [congruence|discriminate|exact H].
    + destruct Hcase as [[H _]|[[_ [_ H]]|[_ [H _]]]]; [congruence|congruence|discriminate].
  - intros a b m Hm. unfold mid in Hm. pose proof (sp_range _ _ _ _ _ HI Hm) as Hrange.
    apply (sp_Some _ _ _ _ _ HI) in Hm. destruct Hm as [Hge [e [He Hu]]].
    exists e, (val e). assert (HeI : In e Is) by (eapply nth_error_In; eauto).
    split; [|split; [exact HeI|split]].
    + destruct e as [x y]. unfold undirected_eq in *. cbn in *. intuition congruence.
    + apply Hval. exact HeI.
    + rewrite Hp, (densemap_app_new _ _ _ _ HP0 Hge), nth_error_map, He. reflexivity.
  - rewrite Hf. reflexivity.
  - rewrite Hf. reflexivity.
  - exact Hfaces.
  - pose proof (i_cells _ _ _ _ Hb) as Hic. rewrite <- (built_tris _ _ Hb) in Hic. unfold cells_list in Hic.
    unfold nF. rewrite Hic, idx_length, map_length. reflexivity.
  - pose proof (i_cells _ _ _ _ Hb) as Hic. rewrite <- (built_tris _ _ Hb) in Hic. unfold cells_list in Hic.
    intros cs id c Hcell Hin. rewrite Hcell in Hic. subst cs. apply idx_In in Hin. rewrite nth_error_map in Hin.
    destruct (nth_error (tris out) (N.to_nat id)) as [[[x y] z]|] eqn:Et; [|discriminate]. cbn in Hin. inv Hin.
    exists x, y, z. split; [reflexivity|]. eapply nth_error_In; eauto.
  - reflexivity.
  - reflexivity.
Qed.

Lemma face_completes k f inp : valid inp -> dense inp -> ready k f inp ->
  exists f' out, completes (fun fuel => update k fuel f inp) (Ok (f', out)).
Proof.
  intros Hv Hd Hr.
  destruct (update_split k f inp (Datatypes.S (length (tris inp))) Hv Hd Hr ltac:(lia)) as [P0 [f' [out [E _]]]].
  exists f', out. rewrite <- E. apply update_completes. congruence.
Qed.

(** ** Uniform runs *)
Lemma nsplit_all S mid Ls inp out t :
  subdivision inp out S mid Ls -> (forall a b, In (a, b) (tdirs t) -> S a b) -> nsplit mid t = 3%nat.
Proof.
  intros Hsd HS. destruct t as [[a b] c]. apply all_three_nsplit.
  pose proof (proj2 (sd_dom _ _ _ _ _ Hsd a b)) as H1. pose proof (proj2 (sd_dom _ _ _ _ _ Hsd b c)) as H2.
  pose proof (proj2 (sd_dom _ _ _ _ _ Hsd c a)) as H3.
  specialize (H1 (HS a b ltac:(cbn; auto))). specialize (H2 (HS b c ltac:(cbn; auto))).
  specialize (H3 (HS c a ltac:(cbn; auto))).
  destruct (mid a b), (mid b c), (mid c a); cbn; congruence.
Qed.

Lemma selected_nsplit s f S mid Ls inp out t :
  subdivision inp out S mid Ls -> (forall a b, to_split (CellF s) f inp a b -> S a b) ->
  selected inp (csel f) t -> nsplit mid t = 3%nat.
Proof.
  intros Hsd HS Ht. eapply nsplit_all; eauto. intros a b Hab. apply HS. exists t. split; [exact Ht|left; exact Hab].
Qed.

Lemma uniform_split_all k f inp t a b : valid inp -> whole k f = true -> In t (tris inp) -> In (a, b) (tdirs t) ->
  to_split k f inp a b.
Proof.
  intros Hv Hw Ht Hab. destruct k as [s|s]; cbn [whole to_split] in *; apply is_nil_true in Hw.
  - exists t. split; [left; auto|left; exact Hab].
  - left. split; [exact Hw|]. apply (v_face_edges _ Hv). apply dirs_tri. eauto.
Qed.

Lemma children_length inp mid Ls n : Forall2 (refines mid) (tris inp) Ls ->
  (forall t, In t (tris inp) -> nsplit mid t = n) -> length (concat Ls) = (S n * length (tris inp))%nat.
Proof.
  generalize (tris inp) as T. intros T HF. induction HF as [|t L T Ls HR HF IH]; intros H; [cbn; lia|].
  cbn [concat length]. rewrite app_length, IH by (intros; apply H; cbn; auto).
  rewrite (rf_count _ _ _ HR), (H t) by (cbn; auto). lia.
Qed.

(** nF counts triangles whenever all cells are triangles; also for the output. *)
Lemma face_nF k f inp f' out mid Ls : face_result k f inp f' out mid Ls -> tris inp <> [] ->
  nF out = Z.of_nat (length (tris out)).
Proof. intros H Hne. apply nF_tris. apply (fr_valid _ _ _ _ _ _ _ H Hne). Qed.

(** ** Points of the output lie on faces *)
Lemma no_isolated_out inp out S mid Ls : valid inp -> valid out -> subdivision inp out S mid Ls ->
  no_isolated inp -> no_wire inp -> (forall a b, S a b -> joined inp a b) -> no_isolated out.
Proof.
  intros Hv Hvo Hsd Hni Hnw HS id Hid.
  assert (Huse : forall t x, In t (tris inp) ->
     (In x (tverts t) \/ exists a b, In (a, b) (tdirs t) /\ mid a b = Some x) -> ring out x <> []).
  { intros t x Ht Hx. apply In_nth_error in Ht. destruct Ht as [i Hi].
    destruct (Forall2_nth _ _ _ (sd_refines _ _ _ _ _ Hsd) i t Hi) as [L [HL HR]].
    destruct (rf_used _ _ _ HR x Hx) as [u [Hu Hxu]].
    assert (Hut : In u (tris out)).
    { rewrite (sd_tris _ _ _ _ _ Hsd). apply in_concat. exists L. split; [eapply nth_error_In; eauto|exact Hu]. }
    assert (exists y, In (x, y) (tdirs u)) as [y Hy].
    { destruct u as [[p q] r]. cbn in Hxu |- *. in_cases Hxu; subst; eauto 6. }
    assert (Hj : joined out x y) by (apply (v_face_edges _ Hvo); apply dirs_tri; eauto).
    intros E. unfold joined in Hj. rewrite E in Hj. destruct Hj. }
  assert (Hedge : forall a b, joined inp a b -> exists t, In t (tris inp) /\ (In (a, b) (tdirs t) \/ In (b, a) (tdirs t))).
  { intros a b Hj. destruct (Hnw a b Hj) as [H|H]; apply dirs_tri in H; destruct H as [t [Ht H]]; eauto. }
  destruct (oget id (pts inp)) as [p|] eqn:Ep.
  - assert (Hr : ring inp id <> []) by (apply Hni; congruence).
    destruct (ring inp id) as [|y r] eqn:Er; [congruence|].
    destruct (Hedge id y) as [t [Ht H]]; [unfold joined; rewrite Er; cbn; auto|].
    apply (Huse t id Ht). left. destruct H as [H|H]; destruct (tdirs_verts _ _ _ H); auto.
  - destruct (proj2 (sd_new _ _ _ _ _ Hsd id) (conj Ep Hid)) as [a [b Hab]].
    assert (HSab : S a b) by (apply (sd_dom _ _ _ _ _ Hsd); congruence).
    destruct (Hedge a b (HS a b HSab)) as [t [Ht [H|H]]]; apply (Huse t id Ht); right.
    + exists a, b. auto.
    + exists b, a. rewrite (sd_sym _ _ _ _ _ Hsd b a). auto.
Qed.

Lemma to_split_joined k f inp a b : valid inp -> ready k f inp -> to_split k f inp a b -> joined inp a b.
Proof.
  intros Hv Hr H. destruct k as [s|s]; cbn [to_split] in H.
  - destruct H as [t [Ht He]].
    assert (Hin : In t (tris inp)).
    { destruct Ht as [[_ Ht]|[i [_ Ht]]]; [exact Ht|]. unfold tris. apply in_map_iff. exists (i, t). auto. }
    destruct He as [He|He]; [|apply (v_ring_sym _ Hv)]; apply (v_face_edges _ Hv); apply dirs_tri; eauto.
  - destruct H as [[_ H]|H]; [exact H|].
    destruct Hr as [_ [_ [_ He]]].
    destruct (esel f) as [|o l] eqn:E; [destruct H as [[]|[]]|].
    destruct (He ltac:(discriminate)) as [Hl _].
    destruct H as [H|H]; [apply Hl; exact H|apply (v_ring_sym _ Hv); apply Hl; exact H].
Qed.

Lemma to_split_face k f inp a b : valid inp -> ready k f inp -> no_wire inp -> to_split k f inp a b ->
  In (a, b) (dirs (tris inp)) \/ In (b, a) (dirs (tris inp)).
Proof. intros Hv Hr Hw H. apply Hw. eapply to_split_joined; eauto. Qed.

Lemma cell_split_face s f inp a b : to_split (CellF s) f inp a b ->
  In (a, b) (dirs (tris inp)) \/ In (b, a) (dirs (tris inp)).
Proof.
  intros [t [Ht He]].
  assert (Hin : In t (tris inp)).
  { destruct Ht as [[_ Ht]|[i [_ Ht]]]; [exact Ht|]. unfold tris. apply in_map_iff. exists (i, t). auto. }
  destruct He as [He|He]; [left|right]; apply dirs_tri; eauto.
Qed.

(** ** No T-junctions *)
Lemma out_edge_cut inp out S mid Ls a b : valid inp -> valid out -> subdivision inp out S mid Ls ->
  S a b -> oget a (pts inp) <> None -> oget b (pts inp) <> None -> a <> b -> ~ joined out a b.
Proof.
  intros Hv Hvo Hsd HS Ha Hb Hab Hj.
  assert (Hm : mid a b <> None) by (apply (sd_dom _ _ _ _ _ Hsd); exact HS).
  assert (Hkey : forall a b, mid a b <> None -> oget a (pts inp) <> None -> oget b (pts inp) <> None -> a <> b ->
            ~ In (a, b) (dirs (tris out))).
  { clear - Hv Hsd. intros a b Hm Ha Hb Hab Hin. rewrite (sd_tris _ _ _ _ _ Hsd) in Hin.
    apply dirs_tri in Hin. destruct Hin as [u [Hu Hd]]. apply in_concat in Hu. destruct Hu as [L [HL Hu]].
    apply In_nth_error in HL. destruct HL as [i Hi].
    destruct (Forall2_nth_r _ _ _ (sd_refines _ _ _ _ _ Hsd) i L Hi) as [t [Ht HR]].
    destruct (tdirs_verts _ _ _ Hd) as [Va Vb].
    assert (Hold : forall x, In x (tverts u) -> oget x (pts inp) <> None -> In x (tverts t)).
    { intros x Hx Ho. destruct (rf_verts _ _ _ HR u x Hu Hx) as [H|[p [q [_ H]]]]; [exact H|].
      exfalso. apply Ho. apply (sd_new _ _ _ _ _ Hsd). eauto. }
    pose proof (Hold a Va Ha) as Ta. pose proof (Hold b Vb Hb) as Tb.
    assert (Hdt : In (a, b) (tdirs t) \/ In (b, a) (tdirs t)).
    { destruct t as [[x y] z]. cbn in Ta, Tb |- *. in_cases Ta; in_cases Tb; subst; try congruence;
      (left; in_solve) || (right; in_solve). }
    assert (HdL : In (a, b) (dirs L)) by (apply dirs_tri; eauto).
    destruct Hdt as [H|H].
    - destruct (rf_cut _ _ _ HR a b H Hm). contradiction.
    - rewrite (sd_sym _ _ _ _ _ Hsd) in Hm. destruct (rf_cut _ _ _ HR b a H Hm). contradiction. }
  destruct (sd_nowire _ _ _ _ _ Hsd a b Hj) as [H|H].
  - revert H. apply Hkey; auto.
  - revert H. apply Hkey; auto. rewrite (sd_sym _ _ _ _ _ Hsd). exact Hm.
Qed.

End FACE.
