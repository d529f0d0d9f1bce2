(** * Repeat3: sqrt(3) runs with a selection in which a cell occurs several times. *)
From Coq Require Import Permutation Sorted.
From Verif Require Import Base Mesh Filters Spec SpecSub SpecRenum Lists AddFace SplitTri Split Points Valid Run Update Struct Count Face PtsAny
  Renum SpecRoot3 Root3 Root3Run Root3Main Repeat.
Open Scope N_scope.

(** ** First occurrences *)
Lemma tri_eq_dec (t u : tri) : {t = u} + {t <> u}.
Proof. repeat decide equality. Qed.

Fixpoint fpos (t : tri) (L : list tri) : option nat :=
  match L with
  | [] => None
  | u :: L' => if tri_eq_dec t u then Some 0%nat else option_map S (fpos t L')
  end.
Lemma fpos_Some t L : forall i, fpos t L = Some i -> nth_error L i = Some t /\ forall j, (j < i)%nat -> nth_error L j <> Some t.
Proof.
  induction L as [|u L IH]; intros i H; cbn [fpos] in H; [discriminate|].
  destruct (tri_eq_dec t u) as [->|Hn].
  - inv H. split; [reflexivity|]. intros j Hj. lia.
  - destruct (fpos t L) as [k|] eqn:E; [|discriminate]. cbn in H. inv H. destruct (IH k eq_refl) as [H1 H2].
    split; [exact H1|]. intros [|j] Hj; cbn; [congruence|]. apply H2. lia.
Qed.
Lemma fpos_In t L : fpos t L <> None <-> In t L.
Proof.
  induction L as [|u L IH]; cbn [fpos In]; [tauto|]. destruct (tri_eq_dec t u) as [->|Hn].
  - split; [auto|discriminate].
  - destruct (fpos t L); cbn [option_map]; split; intros H; try discriminate; try tauto.
    + right. apply IH. discriminate.
    + destruct H as [H|H]; [congruence|]. apply IH in H. tauto.
Qed.
Lemma fpos_snoc t u L : fpos t (L ++ [u]) =
  match fpos t L with Some i => Some i | None => if tri_eq_dec t u then Some (length L) else None end.
Proof.
  induction L as [|w L IH]; cbn [fpos app length].
  - destruct (tri_eq_dec t u); reflexivity.
  - destruct (tri_eq_dec t w); [reflexivity|]. rewrite IH.
    destruct (fpos t L); [reflexivity|]. destruct (tri_eq_dec t u); reflexivity.
Qed.

Definition cenr (V : N) (L : list tri) (t : tri) : option N := option_map (fun i => V + N.of_nat i) (fpos t L).

Section REPEAT3.
Context {O : Ops} {D : Type}.
Notation mesh := (mesh O D).
Notation state := (@state O D).
Notation point := (list (K O)).
Implicit Types inp out : mesh.

Lemma cenr_range V L t g : cenr V L t = Some g -> V <= g < V + N.of_nat (length L).
Proof.
  unfold cenr. destruct (fpos t L) as [i|] eqn:E; [|discriminate]. cbn. intros H. inv H.
  apply fpos_Some in E. destruct E as [E _]. assert (i < length L)%nat by (apply nth_error_Some; congruence). lia.
Qed.
Lemma cenr_nth V L t g : cenr V L t = Some g -> nth_error L (N.to_nat (g - V)) = Some t /\
  forall j, (j < N.to_nat (g - V))%nat -> nth_error L j <> Some t.
Proof.
  unfold cenr. destruct (fpos t L) as [i|] eqn:E; [|discriminate]. cbn. intros H. inv H.
  replace (N.to_nat (V + N.of_nat i - V)) with i by lia. apply fpos_Some. exact E.
Qed.
Lemma cenr_In V L t : cenr V L t <> None <-> In t L.
Proof. rewrite <- fpos_In. unfold cenr. destruct (fpos t L); cbn; split; congruence. Qed.

Lemma cenr_centring inp L : valid inp -> dense inp ->
  centring (tris inp) (cenr (osize (pts inp)) L) (fun x => x < osize (pts inp)).
Proof.
  intros Hv Hd. constructor.
  - intros t u g Ht Hu H1 H2. apply cenr_nth in H1. apply cenr_nth in H2. destruct H1 as [H1 _], H2 as [H2 _]. congruence.
  - intros t g Ht H. apply cenr_range in H. lia.
  - intros t x Ht Hx. apply Hd. apply (v_verts _ Hv t x Ht Hx).
  - apply (v_proper _ Hv).
  - apply (v_dirs _ Hv).
  - apply (v_notwin _ Hv).
  - intros v. apply valid_umbrella. exact Hv.
Qed.

(** ** The point phase *)
Definition cnr inp L (e : dedge) : option N := cenE (tris inp) (cenr (osize (pts inp)) L) e.
Definition at3 inp (f0 : fstate) L (st : state) : Prop :=
  (exists EP, fst st = set_epid f0 EP /\ forall e, eget e EP = cnr inp L e) /\
  snd st = set_pts empty_mesh (pts inp ++ idx_from (osize (pts inp)) (map (cpt inp) L)).

Lemma cnr_face inp L t e : valid inp -> dense inp -> In t (tris inp) -> In e (tdirs t) ->
  cnr inp L e = cenr (osize (pts inp)) L t.
Proof. intros Hv Hd Ht He. exact (cenE_face _ _ _ (cenr_centring inp L Hv Hd) t e Ht He). Qed.
Lemma cnr_none inp L e : (forall t, In t (tris inp) -> In e (tdirs t) -> cenr (osize (pts inp)) L t = None) -> cnr inp L e = None.
Proof.
  intros H. unfold cnr. destruct (cenE (tris inp) (cenr (osize (pts inp)) L) e) as [g|] eqn:E; [|reflexivity].
  apply cenE_Some in E. destruct E as [t [Ht [He E]]]. rewrite (H t Ht He) in E. discriminate.
Qed.
Lemma cnr_other inp L e : ~ In e (dirs (tris inp)) -> cnr inp L e = None.
Proof. intros H. apply cnr_none. intros t Ht He. exfalso. apply H. apply in_flat_map. eauto. Qed.

Lemma cenr_snoc V L t u : cenr V (L ++ [u]) t =
  match cenr V L t with Some g => Some g | None => if tri_eq_dec t u then Some (V + N.of_nat (length L)) else None end.
Proof.
  unfold cenr. rewrite fpos_snoc. destruct (fpos t L); [reflexivity|]. destruct (tri_eq_dec t u); reflexivity.
Qed.

Lemma dirs_dec (T : list tri) (e : dedge) : In e (dirs T) \/ ~ In e (dirs T).
Proof.
  destruct (mem_dedge e (dirs T)) eqn:E; [left; apply mem_dedge_In; exact E|right].
  intros H. apply mem_dedge_In in H. congruence.
Qed.

(** The new map, for any keys. *)
Lemma cnr_snoc inp L t e : valid inp -> dense inp -> In t (tris inp) ->
  cnr inp (L ++ [t]) e =
  match cnr inp L e with
  | Some g => Some g
  | None => if mem_dedge e (tdirs t) then Some (osize (pts inp) + N.of_nat (length L)) else None
  end.
Proof.
  intros Hv Hd Ht. destruct (dirs_dec (tris inp) e) as [He|He].
  - destruct e as [a b]. apply dirs_tri in He. destruct He as [u [Hu He]].
    rewrite !(cnr_face inp _ u (a, b) Hv Hd Hu He), cenr_snoc.
    destruct (cenr (osize (pts inp)) L u) as [g|]; [reflexivity|].
    destruct (tri_eq_dec u t) as [->|Hn].
    + assert (mem_dedge (a, b) (tdirs t) = true) as -> by (apply mem_dedge_In; exact He). reflexivity.
    + destruct (mem_dedge (a, b) (tdirs t)) eqn:E; [|reflexivity]. apply mem_dedge_In in E.
      exfalso. apply Hn. exact (c_unique _ _ _ (cenr_centring inp L Hv Hd) u t (a, b) Hu Ht He E).
  - rewrite !cnr_other by assumption. destruct (mem_dedge e (tdirs t)) eqn:E; [|reflexivity].
    apply mem_dedge_In in E. exfalso. apply He. apply in_flat_map. eauto.
Qed.

Lemma step_get inp g ab m e : find_edge inp (fst ab) (snd ab) = Some ab ->
  eget e (sqrt3_edge_step inp g ab m) =
  match eget e m with Some x => Some x | None => if eqb_dedge ab e then Some g else None end.
Proof.
  intros H. unfold sqrt3_edge_step. rewrite H. destruct (eget ab m) as [x|] eqn:E.
  - destruct (eget e m) eqn:E2; [reflexivity|]. destruct (eqb_dedge ab e) eqn:E3; [|reflexivity].
    apply eqb_dedge_eq in E3. subst. congruence.
  - cbn [eget]. destruct (eqb_dedge ab e) eqn:E3.
    + apply eqb_dedge_eq in E3. subst. rewrite E. reflexivity.
    + destruct (eget e m); reflexivity.
Qed.

Lemma at3_step inp f0 L t st : valid inp -> dense inp -> In t (tris inp) -> at3 inp f0 L st ->
  exists st', sqrt3_add_new_cell_points inp (Poly (tverts t)) st = Ok st' /\ at3 inp f0 (L ++ [t]) st'.
Proof.
  intros Hv Hd Ht [[EP [Hf HEP]] Ho]. destruct (centre_ok inp t Hv Ht) as [Hc _].
  set (V := osize (pts inp)) in *.
  assert (Hnum : num_points (snd st) = V + N.of_nat (length L)).
  { rewrite Ho. apply (st3_num inp f0 L Hv Hd). }
  destruct t as [[a b] c].
  assert (Hfe : forall x y, In (x, y) (tdirs (a, b, c)) -> find_edge inp x y = Some (x, y)).
  { intros x y H. unfold find_edge. assert (memN y (ring inp x) = true) as ->; [|reflexivity].
    apply memN_In. apply (v_face_edges _ Hv). apply dirs_tri. eauto. }
  unfold sqrt3_add_new_cell_points. cbn [tverts as_triangle].
  unfold centre_point in Hc.
  destruct (elem_pt inp a) as [pa| | |]; try discriminate. cbn [rbind] in *.
  destruct (elem_pt inp b) as [pb| | |]; try discriminate. cbn [rbind] in *.
  destruct (elem_pt inp c) as [pc| | |]; try discriminate. cbn [rbind] in *.
  assert (Hc2 : pscale (kdiv O (kZ O 1) (kZ O 3)) (padd (padd (padd pzero pa) pb) pc) = cpt inp (a, b, c)) by congruence.
  rewrite Hc2, Hnum. eexists. split; [reflexivity|]. split.
  - eexists. split.
    + cbn [fst]. rewrite Hf. reflexivity.
    + intros e. rewrite (cnr_snoc inp L (a, b, c) e Hv Hd Ht). fold V.
      rewrite !step_get by (cbn [fst snd]; apply Hfe; cbn; auto). cbn [epid set_epid].
      rewrite HEP. destruct (cnr inp L e) as [g|]; [reflexivity|]. unfold mem_dedge. cbn [tdirs existsb].
      assert (Hsw : forall x y, eqb_dedge x y = eqb_dedge y x).
      { intros x y. destruct (eqb_dedge x y) eqn:E.
        - apply eqb_dedge_eq in E. subst. symmetry. apply eqb_dedge_refl.
        - apply eqb_dedge_neq in E. symmetry. apply eqb_dedge_neq. congruence. }
      rewrite (Hsw (a, b) e), (Hsw (b, c) e), (Hsw (c, a) e).
      destruct (eqb_dedge e (a, b)), (eqb_dedge e (b, c)), (eqb_dedge e (c, a)); reflexivity.
  - cbn [snd]. rewrite Ho. unfold set_point. cbn [pts set_pts]. unfold set_pts. cbn [pts rings cells ecells cdata]. f_equal.
    rewrite map_app. cbn [map]. rewrite idx_from_app, app_assoc, map_length, idx_from_cons.
    fold V. change (idx_from (V + N.of_nat (length L) + 1) []) with (@nil (N * point)).
    apply oset_append. intros j Hj.
    destruct (sorted_app_idx V _ (map (cpt inp) L) (dense_map _ Hv Hd)) as [_ [_ H]]. apply H in Hj. rewrite map_length in Hj. exact Hj.
Qed.

Lemma at3_selected inp f0 (cs : omap (option cell)) (sel : list N) : valid inp -> dense inp -> forall (T : list tri) L st,
  Forall2 (fun i t => oget i cs = Some (poly t)) sel T -> (forall t, In t T -> In t (tris inp)) -> at3 inp f0 L st ->
  exists st', selected_cells_loop (sqrt3_add_new_cell_points inp) cs sel st = Ok st' /\ at3 inp f0 (L ++ T) st'.
Proof.
  intros Hv Hd. induction sel as [|i sel IH]; intros T L st HF Hin Hst; inv HF.
  - exists st. rewrite app_nil_r. split; [reflexivity|exact Hst].
  - cbn [selected_cells_loop]. rewrite H1. unfold poly.
    destruct (at3_step inp f0 L y st Hv Hd (Hin y (or_introl eq_refl)) Hst) as [st1 [E1 Hst1]].
    rewrite E1. cbn [rbind].
    destruct (IH l' (L ++ [y]) st1) as [st2 [E2 Hst2]]; [assumption|intros u Hu; apply Hin; cbn; auto|exact Hst1|].
    exists st2. split; [exact E2|]. rewrite <- app_assoc in Hst2. exact Hst2.
Qed.

Lemma points3r inp f : valid inp -> dense inp -> existing inp (csel f) -> csel f <> [] ->
  exists st, generate_output_points_c CSqrt3 inp (f, empty_mesh) = Ok st /\
    at3 inp (set_uniform f false) (sel_tris inp (csel f)) st.
Proof.
  intros Hv Hd He Hne. unfold generate_output_points_c. cbn [copy_input_points_c].
  unfold plain_copy_input_points. cbn [rbind fst snd]. rewrite (plain_copy_ok inp Hv).
  rewrite (valid_cells _ Hv).
  change (uniform (set_uniform (set_epid f []) (is_nil (csel (set_epid f []))))) with (is_nil (csel f)).
  change (csel (set_uniform (set_epid f []) (is_nil (csel (set_epid f []))))) with (csel f).
  assert (Hn : is_nil (csel f) = false) by (destruct (csel f); [congruence|reflexivity]). 
  change (csel (set_epid f [])) with (csel f). rewrite Hn.
  apply (at3_selected inp (set_uniform f false) _ _ Hv Hd (sel_tris inp (csel f)) []).
  - apply sel_tris_Forall2; [exact Hv|apply (valid_cells _ Hv)|exact He].
  - intros t. apply sel_tris_incl.
  - split.
    + exists []. split; [reflexivity|]. intros e. cbn [eget]. symmetry. apply cnr_none. intros t _ _. reflexivity.
    + cbn. unfold idx_from. cbn. rewrite app_nil_r. reflexivity.
Qed.

(** ** The cell phase *)
Definition planr inp L : list item := ptasks (cnr inp L) false [] (tasks (cnr inp L) (faces inp)).

Lemma planr_root3 inp L : valid inp -> dense inp ->
  Permutation (root3 (tris inp) (cenr (osize (pts inp)) L)) (map it_tri (planr inp L)).
Proof. intros Hv Hd. exact (plan3_perm _ _ _ (cenr_centring inp L Hv Hd) _ (faces inp) eq_refl). Qed.

Record run3r inp (L : list tri) (f f' : fstate) out : Prop := {
  rq_built : built out (map it_tri (planr inp L));
  rq_pts : pts out = pts inp ++ idx_from (osize (pts inp)) (map (cpt inp) L);
  rq_data : cdata out = mk_data (dat inp (planr inp L));
  rq_csel : csel f' = tracked (planr inp L);
  rq_esel : esel f' = esel f
}.

Lemma planr_good inp L : valid inp -> dense inp ->
  good (fun v => v < osize (pts inp) + N.of_nat (length L)) (map it_tri (planr inp L)).
Proof.
  intros Hv Hd. apply (good_perm _ _ _ (planr_root3 inp L Hv Hd)).
  apply (root3_good _ _ _ (cenr_centring inp L Hv Hd)).
  - cbn. intros x Hx. lia.
  - intros t g Ht Hg. apply cenr_range in Hg. lia.
Qed.

Lemma update3r f inp fuel : valid inp -> dense inp -> existing inp (csel f) -> csel f <> [] ->
  (nV inp + Z.of_nat (length (csel f)) < 2 ^ 64)%Z -> (length (tris inp) < fuel)%nat ->
  exists f' out, update (CellF CSqrt3) fuel f inp = Ok (f', out) /\ run3r inp (sel_tris inp (csel f)) f f' out.
Proof.
  intros Hv Hd He Hne Hfit Hfuel.
  set (V := osize (pts inp)). set (L := sel_tris inp (csel f)).
  assert (HlenL : length L = length (csel f)).
  { pose proof (sel_tris_Forall2 inp (csel f) _ Hv (valid_cells _ Hv) He) as HF. unfold L. clear - HF. induction HF; cbn [length]; congruence. }
  pose proof (cenr_centring inp L Hv Hd) as HC.
  assert (HCr : forall e c, cnr inp L e = Some c -> exists t, In t (tris inp) /\ In e (tdirs t) /\ cenr V L t = Some c)
    by (intros e c; apply cenE_Some).
  assert (Hmax : forall e c, cnr inp L e = Some c -> c <> id_max).
  { intros e c Hc. destruct (HCr e c Hc) as [t [Ht [_ Hg]]]. apply cenr_range in Hg.
    unfold nV in Hfit. unfold V, osize in Hg. change id_max with (2 ^ 64 - 1). lia. }
  assert (Hdir : forall e c, cnr inp L e = Some c -> In e (dirs (tris inp))).
  { intros e c Hc. destruct (HCr e c Hc) as [t [Ht [H _]]]. apply in_flat_map. eauto. }
  destruct (points3r inp f Hv Hd He Hne) as [[f0 o1] [E0 [[EP [Hf HEP]] Ho]]]. fold L in Hf, HEP, Ho. cbn [fst snd] in Hf, Ho.
  set (f1 := set_cells_to_be_subdivided f0 []).
  assert (Hdm : densemap (V + N.of_nat (length (map (cpt inp) L))) (pts o1)).
  { rewrite Ho. cbn [pts set_pts]. apply sorted_app_idx. apply dense_map; auto. }
  rewrite map_length in Hdm.
  destruct (run_plan_ok inp (planr inp L) [] f1 o1 (fun v => v < V + N.of_nat (length L))) as [out' [Er [Hb [Hp Hc]]]].
  { rewrite Ho. cbn. apply built_empty. }
  { cbn [app]. apply planr_good; assumption. }
  { intros v Hv'. apply (densemap_get _ _ _ Hdm). exact Hv'. }
  { rewrite Ho. reflexivity. }
  { reflexivity. }
  cbn [app] in Er, Hb, Hc.
  match type of Er with _ = Ok ?s => destruct (sqrt3_loop_ok inp (cnr inp L) false Hv Hmax Hdir (faces inp) _ [] (f1, o1) s fuel eq_refl) as [EP' El] end.
  { unfold tris in Hfuel. rewrite map_length in Hfuel. exact Hfuel. }
  { unfold f1. rewrite Hf. reflexivity. }
  { intros e. unfold f1. rewrite Hf. cbn [fst epid set_epid set_cells_to_be_subdivided]. rewrite HEP. split; [auto|].
    intros c Hc'. split; [congruence|]. intros _. exact Hc'. }
  { intros it Hit. assert (Ht : In (snd it) (tris inp)) by (apply in_map; exact Hit). split; [exact Ht|].
    intros e e' H1 H2. rewrite (cnr_face inp L _ e Hv Hd Ht H1), (cnr_face inp L _ e' Hv Hd Ht H2). auto. }
  { apply (v_dirs _ Hv). }
  { intros e _ []. }
  { exact Er. }
  eexists _, out'. split.
  - unfold update. cbn [generate_output_points generate_cells_of]. rewrite E0. cbn [rbind].
    unfold sqrt3_generate_output_cells. rewrite (valid_cells _ Hv). cbn [fst snd]. fold f1. rewrite El. reflexivity.
  - constructor; auto.
    + rewrite Hp, Ho. reflexivity.
    + unfold f1. rewrite Hf. reflexivity.
Qed.
Lemma update3r_inv f inp fuel f' out : valid inp -> dense inp -> existing inp (csel f) -> csel f <> [] ->
  (nV inp + Z.of_nat (length (csel f)) < 2 ^ 64)%Z ->
  update (CellF CSqrt3) fuel f inp = Ok (f', out) -> run3r inp (sel_tris inp (csel f)) f f' out.
Proof.
  intros Hv Hd He Hn Hf E.
  destruct (update3r f inp (S (length (tris inp))) Hv Hd He Hn Hf ltac:(lia)) as [f1 [out1 [E1 H]]].
  assert (Hsame : Ok (f', out) = Ok (f1, out1)).
  { rewrite <- E, <- E1. apply update_fuel; congruence. }
  inv Hsame. exact H.
Qed.

(** ** Renaming *)
Lemma items_map r C1 C2 u P id e : (forall e, C2 e = option_map r (C1 e)) ->
  r (fst e) = fst e -> r (snd e) = snd e -> items C2 u P id e = map (imap r) (items C1 u P id e).
Proof.
  intros HC H1 H2. unfold items. rewrite !HC. destruct (C1 e) as [g|]; [|reflexivity]. cbn [option_map].
  destruct (C1 (sym e)) as [h|]; cbn [option_map].
  - destruct (mem_dedge (sym e) P); [reflexivity|]. unfold imap. cbn [map fst snd tmap]. rewrite H1, H2. reflexivity.
  - unfold imap. cbn [map fst snd tmap]. rewrite H1, H2. reflexivity.
Qed.
Definition task_old (r : N -> N) (k : task) : Prop :=
  match k with
  | inl (_, t) => tmap r t = t
  | inr (_, e) => r (fst e) = fst e /\ r (snd e) = snd e
  end.
Lemma ptasks_map r C1 C2 u : (forall e, C2 e = option_map r (C1 e)) -> forall ts P,
  (forall k, In k ts -> task_old r k) -> ptasks C2 u P ts = map (imap r) (ptasks C1 u P ts).
Proof.
  intros HC. induction ts as [|[[id t]|[id e]] ts IH]; intros P Hk; cbn [ptasks]; [reflexivity| |].
  - cbn [map]. rewrite IH by (intros; apply Hk; cbn; auto). f_equal. unfold imap. cbn [fst snd].
    pose proof (Hk (inl (id, t)) (or_introl eq_refl)) as H. cbn in H. rewrite H. reflexivity.
  - rewrite map_app, IH by (intros; apply Hk; cbn; auto). f_equal.
    destruct (Hk (inr (id, e)) (or_introl eq_refl)) as [H1 H2]. apply items_map; assumption.
Qed.
Lemma tasks_eq C1 C2 r F : (forall e, C2 e = option_map r (C1 e)) -> tasks C2 F = tasks C1 F.
Proof.
  intros HC. unfold tasks. apply flat_map_ext. intros it. unfold cell_tasks.
  destruct (tdirs (snd it)) as [|e l]; [reflexivity|]. rewrite HC. destruct (C1 e); reflexivity.
Qed.
Lemma tasks_old r C F : (forall it x, In it F -> In x (tverts (snd it)) -> r x = x) ->
  forall k, In k (tasks C F) -> task_old r k.
Proof.
  intros Hr k Hk. unfold tasks in Hk. apply in_flat_map in Hk. destruct Hk as [[id [[a b] c]] [Hit Hk]].
  pose proof (fun x => Hr _ x Hit) as Hx. cbn [snd tverts] in Hx.
  unfold cell_tasks in Hk. cbn [snd tdirs fst] in Hk. destruct (C (a, b)).
  - cbn [map] in Hk. in_cases Hk; subst; cbn; split; apply Hx; cbn; auto.
  - in_cases Hk; subst. cbn. rewrite !Hx by (cbn; auto). reflexivity.
Qed.

Lemma rq_tris inp L f f' out w : valid inp -> dense inp -> run3r inp L f f' out ->
  In w (tris out) <-> In w (root3 (tris inp) (cenr (osize (pts inp)) L)).
Proof.
  intros Hv Hd HR. rewrite (built_tris _ _ (rq_built _ _ _ _ _ HR)). pose proof (planr_root3 inp L Hv Hd) as HP.
  split; intros H; [eapply Permutation_in; [symmetry; exact HP|exact H]|eapply Permutation_in; [exact HP|exact H]].
Qed.
Lemma rq_corner inp L f f' out w x : valid inp -> dense inp -> run3r inp L f f' out ->
  In w (tris out) -> In x (tverts w) ->
  oget x (pts inp) <> None \/ exists t, In t (tris inp) /\ cenr (osize (pts inp)) L t = Some x.
Proof.
  intros Hv Hd HR Hw Hx. apply (rq_tris _ _ _ _ _ _ Hv Hd HR) in Hw.
  destruct (root3_verts _ _ _ (cenr_centring inp L Hv Hd) w x Hw Hx) as [H|H]; [left; apply Hd; exact H|right; exact H].
Qed.
Lemma rq_dm inp L f f' out : valid inp -> dense inp -> run3r inp L f f' out ->
  densemap (osize (pts inp) + N.of_nat (length L)) (pts out).
Proof.
  intros Hv Hd HR. rewrite (rq_pts _ _ _ _ _ HR). rewrite <- (map_length (cpt inp)). apply sorted_app_idx. apply dense_map; auto.
Qed.
Lemma rq_old inp L f f' out id p : valid inp -> dense inp -> run3r inp L f f' out ->
  oget id (pts inp) = Some p -> oget id (pts out) = Some p.
Proof.
  intros Hv Hd HR H. assert (Hlt : id < osize (pts inp)) by (apply Hd; congruence). rewrite (rq_pts _ _ _ _ _ HR).
  rewrite densemap_app_old; [exact H| |exact Hlt]. apply dense_map; auto.
Qed.
Lemma rq_new inp L f f' out t g : valid inp -> dense inp -> run3r inp L f f' out ->
  cenr (osize (pts inp)) L t = Some g -> oget g (pts out) = Some (cpt inp t).
Proof.
  intros Hv Hd HR Hg. pose proof (cenr_range _ _ _ _ Hg) as Hr. destruct (cenr_nth _ _ _ _ Hg) as [Hn _].
  rewrite (rq_pts _ _ _ _ _ HR). rewrite densemap_app_new; [| apply dense_map; auto | lia].
  rewrite nth_error_map, Hn. reflexivity.
Qed.
Lemma rq_nF inp L f f' out : run3r inp L f f' out -> nF out = Z.of_nat (length (planr inp L)).
Proof.
  intros HR. pose proof (rq_built _ _ _ _ _ HR) as HB. unfold nF. pose proof (i_cells _ _ _ _ HB) as Hc. unfold cells_list in Hc.
  rewrite <- (map_length it_tri). destruct (cells out) as [cs|] eqn:Ec.
  - rewrite Hc. unfold idx. rewrite idx_from_length, map_length. reflexivity.
  - destruct (map it_tri (planr inp L)) as [|t T]; [reflexivity|]. rewrite (i_some _ _ _ _ HB) in Ec; discriminate.
Qed.

Lemma face_id_one inp t p q : valid inp -> In (p, t) (faces inp) -> In (q, t) (faces inp) -> p = q.
Proof. intros Hv. exact (face_id inp Hv t p q). Qed.

Lemma centred_count inp sel : valid inp -> existing inp sel ->
  length (filter (centredb (cenr (osize (pts inp)) (sel_tris inp sel))) (tris inp)) = length (nodup N.eq_dec sel).
Proof.
  intros Hv He. set (V := osize (pts inp)). set (L := sel_tris inp sel).
  assert (Hb : forall id t, In (id, t) (faces inp) -> centredb (cenr V L) t = true <-> In id sel).
  { intros id t Ht. unfold centredb. assert (Hi : cenr V L t <> None <-> In id sel).
    { rewrite cenr_In. unfold L. rewrite sel_tris_In. split.
      - intros [j [Hj H]]. rewrite (face_id_one inp t id j Hv Ht H). exact Hj.
      - intros H. eauto. }
    destruct (cenr V L t); rewrite <- Hi; split; congruence. }
  assert (Hf : filter (centredb (cenr V L)) (tris inp) = map snd (filter (fun it => centredb (cenr V L) (snd it)) (faces inp))).
  { unfold tris. clear Hb. induction (faces inp) as [|it F IH]; [reflexivity|]. cbn [map filter].
    destruct (centredb (cenr V L) (snd it)); cbn [map]; rewrite IH; reflexivity. }
  rewrite Hf, map_length, <- (map_length fst).
  pose proof (sorted_NoDup_keys _ (faces_keys_sorted _ Hv)) as Hnd.
  assert (Hn1 : NoDup (map fst (filter (fun it => centredb (cenr V L) (snd it)) (faces inp)))).
  { clear - Hnd. induction (faces inp) as [|it F IH]; [constructor|]. cbn [filter]. unfold okeys in Hnd. cbn [map] in Hnd. inv Hnd.
    destruct (centredb (cenr V L) (snd it)); [|auto]. cbn [map]. constructor; [|auto].
    intros H. apply H1. apply in_map_iff in H. destruct H as [x [<- Hx]]. apply filter_In in Hx. apply in_map. tauto. }
  assert (Hs : forall id, In id (map fst (filter (fun it => centredb (cenr V L) (snd it)) (faces inp))) <-> In id sel).
  { intros id. rewrite in_map_iff. split.
    - intros [[i t] [<- H]]. apply filter_In in H. destruct H as [H1 H2]. apply (Hb _ _ H1). exact H2.
    - intros H. destruct (He id H) as [t Ht]. exists (id, t). split; [reflexivity|]. apply filter_In. split; [exact Ht|].
      apply (Hb _ _ Ht). exact H. }
  apply Nat.le_antisymm; apply NoDup_incl_length; auto using NoDup_nodup; intros x Hx.
  - apply nodup_In. apply Hs. exact Hx.
  - apply Hs. apply nodup_In in Hx. exact Hx.
Qed.

(** The cell at a position of the selection. *)
Lemma sel_tris_nth inp l1 i l2 t : valid inp -> existing inp (l1 ++ i :: l2) -> In (i, t) (faces inp) ->
  nth_error (sel_tris inp (l1 ++ i :: l2)) (length l1) = Some t.
Proof.
  intros Hv He Ht. pose proof (sel_tris_Forall2 inp _ _ Hv (valid_cells _ Hv) He) as HF.
  apply Forall2_app_inv_l in HF. destruct HF as [T1 [T2 [H1 [H2 E]]]]. rewrite E.
  assert (Hl : length T1 = length l1) by (clear - H1; induction H1; cbn [length]; congruence).
  rewrite nth_error_app2, Hl, Nat.sub_diag by lia. inv H2. cbn.
  assert (Hi : oget i (map (fun it => (fst it, poly (snd it))) (faces inp)) = Some (poly t)).
  { apply sorted_oget.
    - apply (v_cells_sorted _ Hv _ (valid_cells _ Hv)).
    - apply in_map_iff. exists (i, t). auto. }
  rewrite Hi in H3. f_equal. injection H3 as H3. destruct t as [[? ?] ?], y as [[? ?] ?]. cbn in H3. congruence.
Qed.
End REPEAT3.

(** ** The theorems *)
Lemma C44_repeated_pf : forall (O : Ops) (D : Type) f (inp : mesh O D),
  valid inp -> dense inp -> existing inp (csel f) -> csel f <> [] -> (nV inp + Z.of_nat (length (csel f)) < 2 ^ 64)%Z ->
  exists f' out, (exists n, forall fuel, (n <= fuel)%nat -> update (CellF CSqrt3) fuel f inp = Ok (f', out)) /\
    valid out /\ dense out /\
    (nV out = nV inp + Z.of_nat (length (csel f)))%Z /\
    (nF out = nF inp + 2 * Z.of_nat (length (nodup N.eq_dec (csel f))))%Z /\
    (forall id p, oget id (pts inp) = Some p -> oget id (pts out) = Some p) /\
    forall l1 i l2 g, csel f = l1 ++ i :: l2 -> Z.of_N g = (nV inp + Z.of_nat (length l1))%Z ->
      oget g (pts out) <> None /\
      (** the first entry of a cell gives its centre, the others give points of no face *)
      (~ In i l1 -> exists u, In u (tris out) /\ In g (tverts u)) /\
      (In i l1 -> ring out g = [] /\ forall u, In u (tris out) -> ~ In g (tverts u)).
Proof.
  intros O D f inp Hv Hd He Hne Hfit.
  destruct (update3r f inp (S (length (tris inp))) Hv Hd He Hne Hfit ltac:(lia)) as [f' [out [E HR]]].
  exists f', out. split.
  { exists (S (length (tris inp))). intros fuel Hfuel.
    destruct (update3r f inp fuel Hv Hd He Hne Hfit ltac:(lia)) as [f1 [o1 [E1 _]]].
    rewrite <- E. apply update_fuel; congruence. }
  set (V := osize (pts inp)) in *. set (L := sel_tris inp (csel f)) in *.
  assert (HL : length L = length (csel f)).
  { pose proof (sel_tris_Forall2 inp (csel f) _ Hv (valid_cells _ Hv) He) as HF. unfold L. clear - HF. induction HF; cbn [length]; congruence. }
  assert (HV : Z.of_N V = nV inp) by (unfold V, osize, nV; lia).
  pose proof (cenr_centring inp L Hv Hd) as HC. fold V in HC.
  pose proof (rq_dm _ _ _ _ _ Hv Hd HR) as Hdm. fold V in Hdm.
  assert (HnV : (nV out = nV inp + Z.of_nat (length (csel f)))%Z).
  { unfold nV. rewrite (rq_pts _ _ _ _ _ HR), app_length, idx_from_length, map_length, HL. lia. }
  assert (Hte : tris inp <> []).
  { destruct (csel f) as [|i sel] eqn:Es; [congruence|]. destruct (He i) as [t Ht]; [cbn; auto|].
    unfold tris. intros H. apply (in_map snd) in Ht. rewrite H in Ht. exact Ht. }
  assert (Hval : valid out /\ dense out).
  { pose proof (planr_root3 inp L Hv Hd) as HP. fold V in HP.
    apply (built_valid out (map it_tri (planr inp L)) (V + N.of_nat (length L)) (rq_built _ _ _ _ _ HR)).
    - intros E'. rewrite E' in HP. apply Permutation_sym, Permutation_nil in HP.
      assert (Hl := root3_length (tris inp) (cenr V L)). rewrite HP in Hl. cbn [length] in Hl.
      apply Hte. apply length_zero_iff_nil. lia.
    - apply planr_good; assumption.
    - intros t u Ht Hu. apply (root3_notwin _ _ _ HC); eapply Permutation_in; try (symmetry; exact HP); assumption.
    - exact Hdm.
    - intros id p Hp. rewrite (rq_pts _ _ _ _ _ HR) in Hp. fold V in Hp. destruct (N.lt_ge_cases id V) as [Hlt|Hge].
      + rewrite densemap_app_old in Hp; [|apply dense_map; auto|exact Hlt]. apply (v_pts_dim _ Hv id). exact Hp.
      + rewrite densemap_app_new in Hp; [|apply dense_map; auto|exact Hge]. rewrite nth_error_map in Hp.
        destruct (nth_error L (N.to_nat (id - V))) as [t|] eqn:Et; [|discriminate]. cbn in Hp. inv Hp.
        destruct (centre_ok inp t Hv) as [_ H]; [|exact H]. eapply sel_tris_incl. eapply nth_error_In. exact Et. }
  split; [apply Hval|]. split; [apply Hval|]. split; [exact HnV|]. split.
  { rewrite (rq_nF _ _ _ _ _ HR), <- (map_length it_tri), <- (Permutation_length (planr_root3 inp L Hv Hd)), root3_length.
    unfold L. rewrite (centred_count inp (csel f) Hv He). rewrite <- (tris_len inp Hv). lia. }
  split; [intros id p; apply (rq_old _ _ _ _ _ _ _ Hv Hd HR)|].
  intros l1 i l2 g Hsel Hg. assert (Hg' : g = V + N.of_nat (length l1)) by lia.
  assert (Hi : In i (csel f)) by (rewrite Hsel; apply in_or_app; cbn; auto).
  destruct (He i Hi) as [t Ht].
  assert (Htin : In t (tris inp)) by (unfold tris; apply in_map_iff; exists (i, t); auto).
  assert (Hn : nth_error L (length l1) = Some t).
  { unfold L. rewrite Hsel. apply sel_tris_nth; [exact Hv|rewrite <- Hsel; exact He|exact Ht]. }
  split; [|split].
  - apply (densemap_get _ _ _ Hdm). assert (length l1 < length L)%nat by (apply nth_error_Some; congruence). lia.
  - intros Hni. assert (Hc : cenr V L t = Some g).
    { unfold cenr. destruct (fpos t L) as [k|] eqn:Ek.
      - cbn. f_equal. destruct (fpos_Some _ _ _ Ek) as [K1 K2].
        assert (k = length l1); [|lia]. destruct (Nat.lt_trichotomy k (length l1)) as [Hlt|[Heq|Hgt]]; [|exact Heq|].
        + exfalso. destruct (nth_error l1 k) as [j|] eqn:Ej; [|apply nth_error_None in Ej; lia].
          apply nth_error_split in Ej. destruct Ej as [k1 [k2 [Ek1 Elen]]].
          assert (Hj : In j (csel f)) by (rewrite Hsel, Ek1; apply in_or_app; left; apply in_or_app; cbn; auto).
          destruct (He j Hj) as [u Hu].
          assert (Hk : nth_error L k = Some u).
          { unfold L. rewrite Hsel, Ek1, <- app_assoc. cbn [app]. rewrite <- Elen. apply sel_tris_nth; [exact Hv| |exact Hu].
            intros x Hx. apply He. rewrite Hsel, Ek1, <- app_assoc. exact Hx. }
          rewrite K1 in Hk. injection Hk as ->. apply Hni. rewrite (face_id_one inp u i j Hv Ht Hu), Ek1. apply in_or_app; cbn; auto.
        + exfalso. apply (K2 _ Hgt). exact Hn.
      - exfalso. apply (proj2 (fpos_In t L)); [eapply nth_error_In; exact Hn|exact Ek]. }
    destruct t as [[a b] c]. exists (etri (tris inp) (cenr V L) g a b). split.
    + apply (rq_tris _ _ _ _ _ _ Hv Hd HR). apply root3_In. right. exists (a, b, c), g, a, b. cbn. auto.
    + apply (tdirs_verts _ b g). apply etri_has_own.
  - intros Hin. assert (Hno : forall u, In u (tris out) -> ~ In g (tverts u)).
    { intros u Hu Hx. destruct (rq_corner _ _ _ _ _ _ _ Hv Hd HR Hu Hx) as [H|[t' [Ht' H]]].
      - apply Hd in H. fold V in H. lia.
      - fold V in H. destruct (cenr_nth _ _ _ _ H) as [K1 K2].
        replace (N.to_nat (g - V)) with (length l1) in K1, K2 by lia. rewrite K1 in Hn. injection Hn as ->.
        apply in_split in Hin. destruct Hin as [k1 [k2 Ek]].
        apply (K2 (length k1)); [rewrite Ek, app_length; cbn [length]; lia|].
        unfold L. rewrite Hsel, Ek, <- app_assoc. cbn [app]. apply sel_tris_nth; [exact Hv| |exact Ht].
        intros x Hx'. apply He. rewrite Hsel, Ek, <- app_assoc. exact Hx'. }
    split; [|exact Hno]. destruct (ring out g) as [|w r] eqn:Er; [reflexivity|]. exfalso.
    assert (Hj : joined out g w) by (unfold joined; rewrite Er; cbn; auto).
    apply (i_ring _ _ _ _ (rq_built _ _ _ _ _ HR)) in Hj. rewrite <- (built_tris _ _ (rq_built _ _ _ _ _ HR)) in Hj.
    destruct Hj as [Hj|Hj]; apply dirs_tri in Hj; destruct Hj as [u [Hu Hin']]; apply (Hno u Hu);
    destruct u as [[x y] z]; cbn in Hin' |- *; in_cases Hin'; inv Hin'; auto.
Qed.

(** New points of one run named after those of another. *)
Definition ren3 (V : N) (L1 L2 : list tri) (x : N) : N :=
  if x <? V then x else
  match nth_error L1 (N.to_nat (x - V)) with
  | Some t => match cenr V L2 t with Some y => y | None => x end
  | None => x
  end.
Lemma ren3_old V L1 L2 x : x < V -> ren3 V L1 L2 x = x.
Proof. intros H. unfold ren3. destruct (N.ltb_spec x V); [reflexivity|lia]. Qed.
Lemma ren3_mid V L1 L2 t x y : cenr V L1 t = Some x -> cenr V L2 t = Some y -> ren3 V L1 L2 x = y.
Proof.
  intros H1 H2. pose proof (cenr_range _ _ _ _ H1) as Hr. destruct (cenr_nth _ _ _ _ H1) as [Hn _].
  unfold ren3. destruct (N.ltb_spec x V); [lia|]. rewrite Hn, H2. reflexivity.
Qed.

Lemma C44_same_cells_pf : forall (O : Ops) (D : Type) f1 f2 (inp : mesh O D) fuel1 fuel2 f1' f2' out1 out2,
  valid inp -> dense inp -> existing inp (csel f1) -> csel f1 <> [] -> (forall i, In i (csel f1) <-> In i (csel f2)) ->
  (nV inp + Z.of_nat (length (csel f1)) < 2 ^ 64)%Z -> (nV inp + Z.of_nat (length (csel f2)) < 2 ^ 64)%Z ->
  update (CellF CSqrt3) fuel1 f1 inp = Ok (f1', out1) ->
  update (CellF CSqrt3) fuel2 f2 inp = Ok (f2', out2) ->
  exists r r' : N -> N,
    (forall id, oget id (pts inp) <> None -> r id = id) /\
    (forall u x, In u (tris out1) -> In x (tverts u) -> r' (r x) = x /\ oget (r x) (pts out2) = oget x (pts out1)) /\
    tris out2 = map (tmap r) (tris out1) /\ nF out1 = nF out2 /\ csel f1' = csel f2' /\
    (forall id, cell_datum out1 id = cell_datum out2 id).
Proof.
  intros O D f1 f2 inp fuel1 fuel2 f1' f2' out1 out2 Hv Hd He Hne Hsame Hfit1 Hfit2 E1 E2.
  assert (He2 : existing inp (csel f2)) by (intros i Hi; apply He; apply Hsame; exact Hi).
  assert (Hne2 : csel f2 <> []).
  { destruct (csel f1) as [|i l]; [congruence|]. intros H. specialize (Hsame i). rewrite H in Hsame. destruct Hsame as [H1 _]. apply H1. cbn. auto. }
  pose proof (update3r_inv _ _ _ _ _ Hv Hd He Hne Hfit1 E1) as R1.
  pose proof (update3r_inv _ _ _ _ _ Hv Hd He2 Hne2 Hfit2 E2) as R2.
  set (V := osize (pts inp)) in *. set (L1 := sel_tris inp (csel f1)) in *. set (L2 := sel_tris inp (csel f2)) in *.
  assert (HL : forall t, In t L1 <-> In t L2).
  { intros t. unfold L1, L2. rewrite !sel_tris_In. split; intros [i [Hi H]]; exists i; (split; [apply Hsame; exact Hi|exact H]). }
  set (r := ren3 V L1 L2). set (r' := ren3 V L2 L1).
  assert (HC : forall t, cenr V L2 t = option_map r (cenr V L1 t)).
  { intros t. destruct (cenr V L1 t) as [x|] eqn:Ex.
    - assert (Hi : cenr V L2 t <> None) by (apply cenr_In, HL, (cenr_In V); congruence).
      destruct (cenr V L2 t) as [y|] eqn:Ey; [|congruence]. cbn. f_equal. symmetry. exact (ren3_mid _ _ _ _ _ _ Ex Ey).
    - destruct (cenr V L2 t) as [y|] eqn:Ey; [|reflexivity]. exfalso.
      assert (Hi : cenr V L1 t <> None) by (apply cenr_In, HL, (cenr_In V); congruence). congruence. }
  assert (HCn : forall e, cnr inp L2 e = option_map r (cnr inp L1 e)).
  { intros e. unfold cnr, cenE. fold V. destruct (find (has_dir e) (tris inp)); [apply HC|reflexivity]. }
  assert (Hold : forall id, oget id (pts inp) <> None -> r id = id /\ r' id = id).
  { intros id H. apply Hd in H. split; apply ren3_old; exact H. }
  assert (HP : planr inp L2 = map (imap r) (planr inp L1)).
  { unfold planr. rewrite (tasks_eq _ _ r _ HCn). apply ptasks_map; [exact HCn|]. apply tasks_old.
    intros [id t] x Hit Hx. apply Hold. apply (v_verts _ Hv t); [|exact Hx]. unfold tris. apply in_map_iff. exists (id, t). auto. }
  assert (HT : tris out2 = map (tmap r) (tris out1)).
  { rewrite (built_tris _ _ (rq_built _ _ _ _ _ R1)), (built_tris _ _ (rq_built _ _ _ _ _ R2)), HP, !map_map. reflexivity. }
  exists r, r'. split; [intros id H; apply Hold; exact H|]. split; [|split; [exact HT|split; [|split]]].
  - intros u x Hu Hx. destruct (rq_corner _ _ _ _ _ _ _ Hv Hd R1 Hu Hx) as [H|[t [Ht H]]].
    + destruct (Hold x H) as [-> ->]. split; [reflexivity|]. destruct (oget x (pts inp)) as [p|] eqn:E; [|congruence].
      rewrite (rq_old _ _ _ _ _ _ _ Hv Hd R1 E), (rq_old _ _ _ _ _ _ _ Hv Hd R2 E). reflexivity.
    + fold V in H. assert (H2 : cenr V L2 t = Some (r x)) by (rewrite HC, H; reflexivity).
      split; [exact (ren3_mid _ _ _ _ _ _ H2 H)|].
      rewrite (rq_new _ _ _ _ _ _ _ Hv Hd R1 H), (rq_new _ _ _ _ _ _ _ Hv Hd R2 H2). reflexivity.
  - rewrite (rq_nF _ _ _ _ _ R1), (rq_nF _ _ _ _ _ R2), HP, map_length. reflexivity.
  - rewrite (rq_csel _ _ _ _ _ R1), (rq_csel _ _ _ _ _ R2), HP. symmetry. apply tracked_map. reflexivity.
  - intros id. unfold cell_datum. rewrite (rq_data _ _ _ _ _ R1), (rq_data _ _ _ _ _ R2), HP, dat_map by reflexivity. reflexivity.
Qed.
