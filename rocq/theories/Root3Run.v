(** * Root3Run: complete runs of the sqrt(3) filter on valid meshes. *)
From Coq Require Import Permutation Sorted.
From Verif Require Import Base Mesh Filters Spec SpecSub Lists AddFace SplitTri Split Points Valid Run Update Struct Count
  Face PtsAny Root3.

(** ** The map from oriented edges to centres *)
Lemma eget_In m e v : NoDup (map fst m) -> eget e m = Some v <-> In (e, v) m.
Proof.
  induction m as [|[k w] m IH]; intros Hnd; cbn [eget In]; [split; [discriminate|tauto]|].
  cbn [map fst] in Hnd. inv Hnd. destruct (eqb_dedge k e) eqn:E.
  - apply eqb_dedge_eq in E. subst k. split.
    + intros H. inv H. auto.
    + intros [H|H]; [inv H; reflexivity|]. exfalso. apply H1. apply in_map_iff. exists (e, v). auto.
  - apply eqb_dedge_neq in E. rewrite IH by assumption. split; [auto|]. intros [H|H]; [inv H; congruence|exact H].
Qed.

Definition entries (it : N * tri) : list (dedge * N) := map (fun e => (e, fst it)) (tdirs (snd it)).
Definition ep3 (V : N) (L : list tri) : list (dedge * N) := rev (flat_map entries (idx_from V L)).

Lemma ep3_snoc V L a b c : ep3 V (L ++ [(a, b, c)]) =
  let g := V + N.of_nat (length L) in ((c, a), g) :: ((b, c), g) :: ((a, b), g) :: ep3 V L.
Proof.
  unfold ep3. rewrite idx_from_app, flat_map_app, rev_app_distr. rewrite idx_from_cons.
  cbn [flat_map]. rewrite app_nil_r. reflexivity.
Qed.

Lemma entries_keys V L : map fst (flat_map entries (idx_from V L)) = dirs L.
Proof.
  revert V. induction L as [|t L IH]; intros V; [reflexivity|].
  rewrite idx_from_cons. cbn [flat_map]. rewrite map_app, IH. unfold entries at 1. cbn [fst snd].
  rewrite map_map. cbn [fst]. rewrite map_id. reflexivity.
Qed.
Lemma ep3_keys V L : NoDup (dirs L) -> NoDup (map fst (ep3 V L)).
Proof.
  intros H. unfold ep3. rewrite map_rev. apply NoDup_rev. rewrite entries_keys. exact H.
Qed.
Lemma ep3_get V L e g : NoDup (dirs L) -> eget e (ep3 V L) = Some g <->
  exists i t, nth_error L i = Some t /\ In e (tdirs t) /\ g = V + N.of_nat i.
Proof.
  intros Hnd. rewrite eget_In by (apply ep3_keys; exact Hnd). unfold ep3. rewrite <- in_rev, in_flat_map. split.
  - intros [[k t] [Hi He]]. unfold entries in He. cbn [fst snd] in He. apply in_map_iff in He.
    destruct He as [e' [E He]]. inv E. apply idx_from_In in Hi. destruct Hi as [H1 H2].
    exists (N.to_nat (g - V)), t. repeat split; auto. lia.
  - intros [i [t [Hi [He ->]]]]. exists (V + N.of_nat i, t). split.
    + apply idx_from_In. split; [lia|]. replace (N.to_nat (V + N.of_nat i - V)) with i by lia. exact Hi.
    + unfold entries. cbn [fst snd]. apply in_map_iff. eauto.
Qed.
Lemma ep3_None V L e : NoDup (dirs L) -> eget e (ep3 V L) = None <-> ~ In e (dirs L).
Proof.
  intros Hnd. split.
  - intros H Hin. destruct e as [a b]. apply dirs_tri in Hin. destruct Hin as [t [Ht He]].
    apply In_nth_error in Ht. destruct Ht as [i Hi].
    assert (eget (a, b) (ep3 V L) = Some (V + N.of_nat i)) by (apply ep3_get; eauto). congruence.
  - intros H. destruct (eget e (ep3 V L)) as [g|] eqn:E; [|reflexivity]. exfalso. apply H.
    apply ep3_get in E; [|exact Hnd]. destruct E as [i [t [Hi [He _]]]]. destruct e as [a b].
    apply dirs_tri. exists t. split; [eapply nth_error_In; eauto|exact He].
Qed.

(** The centre of a triangle: that of its first edge. *)
Definition cen3 (V : N) (L : list tri) (t : tri) : option N :=
  match tdirs t with e :: _ => eget e (ep3 V L) | [] => None end.

Section CEN3.
Variable T L : list tri.
Variable V : N.
Hypothesis HT : NoDup (dirs T).
Hypothesis HL : forall t, In t L -> In t T.
Hypothesis HnL : NoDup L.

Lemma L_dirs : (forall t, In t T -> proper t) -> NoDup (dirs L).
Proof.
  intros Hp. apply dirs_nodup; auto. intros t u e Ht Hu H1 H2.
  apply HL in Ht. apply HL in Hu. apply In_nth_error in Ht. apply In_nth_error in Hu.
  destruct Ht as [i Ht], Hu as [j Hu].
  assert (i = j) by (eapply NoDup_dirs_index; eauto). congruence.
Qed.
Hypothesis Hp : forall t, In t T -> proper t.

Lemma face_eq t u e : In t T -> In u T -> In e (tdirs t) -> In e (tdirs u) -> t = u.
Proof.
  intros Ht Hu H1 H2. apply In_nth_error in Ht. apply In_nth_error in Hu.
  destruct Ht as [i Ht], Hu as [j Hu].
  assert (i = j) by (eapply NoDup_dirs_index; eauto). congruence.
Qed.

Lemma ep3_face t e g : In t T -> In e (tdirs t) ->
  eget e (ep3 V L) = Some g <-> exists i, nth_error L i = Some t /\ g = V + N.of_nat i.
Proof.
  intros Ht He. rewrite (ep3_get V L e g (L_dirs Hp)). split.
  - intros [i [u [Hi [Hu ->]]]]. assert (t = u); [|subst; eauto].
    apply (face_eq t u e); auto. apply HL. eapply nth_error_In; eauto.
  - intros [i [Hi ->]]. eauto.
Qed.
Lemma cen3_edge t e : In t T -> In e (tdirs t) -> eget e (ep3 V L) = cen3 V L t.
Proof.
  intros Ht He. unfold cen3.
  assert (H0 : exists e0 l, tdirs t = e0 :: l) by (destruct t as [[a b] c]; cbn; eauto).
  destruct H0 as [e0 [l E]]. rewrite E.
  assert (He0 : In e0 (tdirs t)) by (rewrite E; cbn; auto).
  destruct (eget e (ep3 V L)) as [g|] eqn:E1, (eget e0 (ep3 V L)) as [g'|] eqn:E2; auto.
  - apply (ep3_face t e g Ht He) in E1. apply (ep3_face t e0 g' Ht He0) in E2.
    destruct E1 as [i [H1 ->]], E2 as [j [H2 ->]]. do 2 f_equal. f_equal.
    apply (proj1 (NoDup_nth_error L) HnL); [apply nth_error_Some; congruence|congruence].
  - apply (ep3_face t e g Ht He) in E1. apply (ep3_face t e0 g Ht He0) in E1. congruence.
  - apply (ep3_face t e0 g' Ht He0) in E2. apply (ep3_face t e g' Ht He) in E2. congruence.
Qed.
Lemma cen3_Some t g : In t T -> cen3 V L t = Some g <-> exists i, nth_error L i = Some t /\ g = V + N.of_nat i.
Proof.
  intros Ht. destruct t as [[a b] c]. unfold cen3. cbn [tdirs]. apply ep3_face; [exact Ht|cbn; auto].
Qed.
Lemma cen3_In t : In t T -> cen3 V L t <> None <-> In t L.
Proof.
  intros Ht. split.
  - intros H. destruct (cen3 V L t) as [g|] eqn:E; [|congruence]. apply cen3_Some in E; [|exact Ht].
    destruct E as [i [Hi _]]. eapply nth_error_In; eauto.
  - intros H E. apply In_nth_error in H. destruct H as [i Hi].
    assert (cen3 V L t = Some (V + N.of_nat i)) by (apply cen3_Some; eauto). congruence.
Qed.
Lemma cenE_ep3 e : cenE T (cen3 V L) e = eget e (ep3 V L).
Proof.
  unfold cenE. destruct (find (has_dir e) T) as [t|] eqn:E.
  - apply find_some in E. destruct E as [Ht E]. apply mem_dedge_In in E. symmetry. apply cen3_edge; auto.
  - symmetry. apply ep3_None; [apply L_dirs; exact Hp|]. intros H. destruct e as [a b]. apply dirs_tri in H.
    destruct H as [t [Ht H]]. pose proof (find_none _ _ E t (HL _ Ht)) as Hf. unfold has_dir in Hf.
    assert (mem_dedge (a, b) (tdirs t) = true) by (apply mem_dedge_In; exact H). congruence.
Qed.
End CEN3.

(** ** The point phase *)
Section POINTS3.
Context {O : Ops} {D : Type}.
Notation mesh := (mesh O D).
Notation state := (@state O D).
Notation point := (list (K O)).
Implicit Types inp out : mesh.

(** The point AddNewCellPoints computes. *)
Definition centre_point (inp : mesh) (t : tri) : res point :=
  let '(a, b, c) := t in
  rbind (elem_pt inp a) (fun pa => rbind (elem_pt inp b) (fun pb => rbind (elem_pt inp c) (fun pc =>
  Ok (pscale (kdiv O (kZ O 1) (kZ O 3)) (padd (padd (padd pzero pa) pb) pc))))).
Definition cpt (inp : mesh) (t : tri) : point := match centre_point inp t with Ok p => p | _ => [] end.

Lemma centre_ok inp t : sound inp -> In t (tris inp) ->
  centre_point inp t = Ok (cpt inp t) /\ length (cpt inp t) = kdim O.
Proof.
  intros Hv Ht. unfold cpt. destruct t as [[a b] c].
  assert (Hpt : forall x, In x [a; b; c] -> exists p, oget x (pts inp) = Some p /\ length p = kdim O).
  { intros x Hx. pose proof (v_verts _ Hv _ x Ht Hx) as H. destruct (oget x (pts inp)) as [p|] eqn:E; [|congruence].
    exists p. split; [reflexivity|]. eapply (v_pts_dim _ Hv); eauto. }
  destruct (Hpt a ltac:(cbn; auto)) as [pa [Ea La]]. destruct (Hpt b ltac:(cbn; auto)) as [pb [Eb Lb]].
  destruct (Hpt c ltac:(cbn; auto)) as [pc [Ec Lc]].
  unfold centre_point, elem_pt. rewrite Ea, Eb, Ec. cbn [rbind]. split; [reflexivity|].
  unfold pscale. rewrite map_length. unfold padd.
  apply map2_length; [|exact Lc]. apply map2_length; [|exact Lb]. apply map2_length; [|exact La].
  unfold pzero. apply repeat_length.
Qed.

Definition st3 (inp : mesh) (f0 : fstate) (L : list tri) : state :=
  (set_epid f0 (ep3 (osize (pts inp)) L),
   set_pts empty_mesh (pts inp ++ idx_from (osize (pts inp)) (map (cpt inp) L))).

Lemma st3_num inp f0 L : sound inp -> dense inp ->
  num_points (snd (st3 inp f0 L)) = osize (pts inp) + N.of_nat (length L).
Proof.
  intros Hv Hd. unfold num_points, st3. cbn [snd pts set_pts].
  destruct (sorted_app_idx _ _ (map (cpt inp) L) (dense_map _ Hv Hd)) as [_ [H _]]. rewrite H, map_length. reflexivity.
Qed.

Lemma add3_ok inp f0 L t : sound inp -> dense inp -> In t (tris inp) -> NoDup (dirs (L ++ [t])) ->
  sqrt3_add_new_cell_points inp (Poly (tverts t)) (st3 inp f0 L) = Ok (st3 inp f0 (L ++ [t])).
Proof.
  intros Hv Hd Ht Hnd. destruct (centre_ok inp t Hv Ht) as [Hc _].
  set (V := osize (pts inp)).
  assert (Hnum := st3_num inp f0 L Hv Hd). fold V in Hnum.
  rewrite dirs_app, dirs_one in Hnd.
  assert (HndL : NoDup (dirs L)) by (eapply NoDup_app_l; eauto).
  assert (Hno : forall e, In e (tdirs t) -> eget e (ep3 V L) = None).
  { intros e He. apply ep3_None; [exact HndL|]. intros H. eapply NoDup_app_disj; eauto. }
  assert (HndT : NoDup (tdirs t)) by (eapply NoDup_app_r; eauto).
  destruct t as [[a b] c].
  assert (Hfe : forall x y, In (x, y) (tdirs (a, b, c)) -> find_edge inp x y = Some (x, y)).
  { intros x y H. unfold find_edge. assert (memN y (ring inp x) = true) as ->; [|reflexivity].
    apply memN_In. apply (v_face_edges _ Hv). apply dirs_tri. eauto. }
  unfold sqrt3_add_new_cell_points. cbn [tverts as_triangle].
  unfold centre_point in Hc.
  destruct (elem_pt inp a) as [pa| | |]; try discriminate. cbn [rbind] in *.
  destruct (elem_pt inp b) as [pb| | |]; try discriminate. cbn [rbind] in *.
  destruct (elem_pt inp c) as [pc| | |]; try discriminate. cbn [rbind] in *.
  assert (Hc2 : pscale (kdiv O (kZ O 1) (kZ O 3)) (padd (padd (padd pzero pa) pb) pc) = cpt inp (a, b, c)) by congruence.
  rewrite Hc2, Hnum.
  unfold sqrt3_edge_step. cbn [fst snd].
  rewrite (Hfe a b), (Hfe b c), (Hfe c a) by (cbn; auto).
  change (epid (fst (st3 inp f0 L))) with (ep3 V L).
  rewrite (Hno (a, b)) by (cbn; auto).
  cbn [tdirs] in HndT. inv HndT. inv H2. cbn [In] in H1, H3.
  cbn [eget].
  assert (eqb_dedge (a, b) (b, c) = false) as -> by (apply eqb_dedge_neq; intuition congruence).
  rewrite (Hno (b, c)) by (cbn; auto). cbn [eget].
  assert (eqb_dedge (b, c) (c, a) = false) as -> by (apply eqb_dedge_neq; intuition congruence).
  assert (eqb_dedge (a, b) (c, a) = false) as -> by (apply eqb_dedge_neq; intuition congruence).
  rewrite (Hno (c, a)) by (cbn; auto).
  unfold st3. fold V. rewrite ep3_snoc. cbv zeta. f_equal. f_equal.
  unfold set_point. cbn [snd pts set_pts]. unfold set_pts. cbn [pts rings cells ecells cdata]. f_equal.
  rewrite map_app. cbn [map]. rewrite idx_from_app, app_assoc, map_length, idx_from_cons.
  change (idx_from (V + N.of_nat (length L) + 1) []) with (@nil (N * point)).
  apply oset_append. intros j Hj.
  destruct (sorted_app_idx V _ (map (cpt inp) L) (dense_map _ Hv Hd)) as [_ [_ H]]. apply H in Hj. rewrite map_length in Hj. exact Hj.
Qed.

Lemma uniform3_ok inp f0 (cs : omap (option cell)) : sound inp -> dense inp -> forall (T : list tri) L,
  map snd cs = map poly T -> (forall t, In t T -> In t (tris inp)) -> NoDup (dirs (L ++ T)) ->
  uniform_cells_loop (sqrt3_add_new_cell_points inp) cs (st3 inp f0 L) = Ok (st3 inp f0 (L ++ T)).
Proof.
  intros Hv Hd. induction cs as [|[i c] cs IH]; intros [|t T] L Hc Hin Hnd; try discriminate.
  - rewrite app_nil_r. reflexivity.
  - cbn [map snd] in Hc. inv Hc. cbn [uniform_cells_loop]. unfold poly.
    rewrite add3_ok; auto.
    + cbn [rbind]. rewrite (IH T).
      * rewrite <- app_assoc. reflexivity.
      * assumption.
      * intros u Hu. apply Hin. cbn. auto.
      * rewrite <- app_assoc. exact Hnd.
    + apply Hin. cbn. auto.
    + replace (L ++ t :: T) with ((L ++ [t]) ++ T) in Hnd by (rewrite <- app_assoc; reflexivity).
      rewrite dirs_app in Hnd. eapply NoDup_app_l; eauto.
Qed.
Lemma selected3_ok inp f0 (cs : omap (option cell)) (sel : list N) : sound inp -> dense inp -> forall (T : list tri) L,
  Forall2 (fun i t => oget i cs = Some (poly t)) sel T -> (forall t, In t T -> In t (tris inp)) -> NoDup (dirs (L ++ T)) ->
  selected_cells_loop (sqrt3_add_new_cell_points inp) cs sel (st3 inp f0 L) = Ok (st3 inp f0 (L ++ T)).
Proof.
  intros Hv Hd. induction sel as [|i sel IH]; intros T L HF Hin Hnd; inv HF.
  - rewrite app_nil_r. reflexivity.
  - cbn [selected_cells_loop]. rewrite H1. unfold poly.
    rewrite add3_ok; auto.
    + cbn [rbind]. rewrite (IH l').
      * rewrite <- app_assoc. reflexivity.
      * assumption.
      * intros u Hu. apply Hin. cbn. auto.
      * rewrite <- app_assoc. exact Hnd.
    + apply Hin. cbn. auto.
    + replace (L ++ y :: l') with ((L ++ [y]) ++ l') in Hnd by (rewrite <- app_assoc; reflexivity).
      rewrite dirs_app in Hnd. eapply NoDup_app_l; eauto.
Qed.

Lemma visited_nodup inp sel : sound inp -> NoDup sel -> NoDup (visited inp sel).
Proof.
  intros Hv Hs. unfold visited. destruct (is_nil sel).
  - apply NoDup_dirs_NoDup. apply (v_dirs _ Hv).
  - unfold sel_tris. apply NoDup_flat_map; [exact Hs| |].
    + intros i _. apply NoDup_map_in.
      * intros [j t] [k u] H1 H2 E. apply filter_In in H1, H2. cbn in *.
        destruct H1 as [_ H1], H2 as [_ H2]. apply N.eqb_eq in H1, H2. congruence.
      * apply NoDup_filter. pose proof (sorted_NoDup_keys _ (faces_keys_sorted _ Hv)) as H.
        unfold okeys in H. eapply NoDup_map_inv; eauto.
    + intros i j t Hi Hj H1 H2. apply in_map_iff in H1, H2.
      destruct H1 as [[k u] [E1 H1]], H2 as [[l w] [E2 H2]]. apply filter_In in H1, H2. cbn in *. subst u w.
      destruct H1 as [H1 K1], H2 as [H2 K2]. apply N.eqb_eq in K1, K2. subst k l.
      pose proof (NoDup_dirs_NoDup _ (v_dirs _ Hv)) as Hnd. unfold tris in Hnd.
      assert (E := NoDup_map_inj snd _ _ _ Hnd H1 H2 eq_refl). congruence.
Qed.

Lemma visited_dirs inp sel : sound inp -> NoDup sel -> NoDup (dirs (visited inp sel)).
Proof.
  intros Hv Hs. apply (L_dirs (tris inp)).
  - apply (v_dirs _ Hv).
  - intros t. apply visited_incl.
  - apply visited_nodup; assumption.
  - apply (v_proper _ Hv).
Qed.

Lemma points3 inp f : sound inp -> dense inp -> existing inp (csel f) -> NoDup (csel f) ->
  generate_output_points_c CSqrt3 inp (f, empty_mesh) =
  Ok (st3 inp (set_uniform f (is_nil (csel f))) (visited inp (csel f))).
Proof.
  intros Hv Hd He Hs. unfold generate_output_points_c. cbn [copy_input_points_c].
  unfold plain_copy_input_points. cbn [rbind fst snd]. rewrite (plain_copy_ok inp Hv).
  rewrite (valid_cells _ Hv).
  set (f2 := set_uniform f (is_nil (csel f))).
  assert (Hst : (set_uniform (set_epid f []) (is_nil (csel (set_epid f []))), set_pts empty_mesh (pts inp)) =
                st3 inp f2 []).
  { unfold st3, f2. cbn. unfold idx_from. cbn. rewrite app_nil_r. reflexivity. }
  rewrite Hst.
  change (uniform (set_uniform (set_epid f []) (is_nil (csel (set_epid f []))))) with (is_nil (csel f)).
  change (csel (set_uniform (set_epid f []) (is_nil (csel (set_epid f []))))) with (csel f).
  pose proof (visited_dirs inp (csel f) Hv Hs) as Hnd. unfold visited in *.
  destruct (is_nil (csel f)).
  - rewrite (uniform3_ok inp f2 _ Hv Hd (tris inp) []); auto.
    unfold tris. rewrite !map_map. reflexivity.
  - rewrite (selected3_ok inp f2 _ _ Hv Hd (sel_tris inp (csel f)) []); auto.
    + apply sel_tris_Forall2; [exact Hv|apply (valid_cells _ Hv)|exact He].
    + intros t. apply sel_tris_incl.
Qed.
End POINTS3.

(** ** The cell phase *)
Section CELLS3.
Context {O : Ops} {D : Type}.
Notation mesh := (mesh O D).
Notation state := (@state O D).
Variable inp : mesh.
Variable Cn : dedge -> option N.      (* centres before the cell phase *)
Variable u : bool.

Definition task : Type := (N * tri) + (N * dedge).
Definition items (P : list dedge) (id : N) (e : dedge) : list item :=
  match Cn e with
  | None => []
  | Some g =>
      match Cn (sym e) with
      | Some h => if mem_dedge (sym e) P then []
                  else [(id, negb u, (g, h, snd e)); (id, negb u, (h, g, fst e))]
      | None => [(id, negb u, (fst e, snd e, g))]
      end
  end.
Fixpoint ptasks (P : list dedge) (ts : list task) : list item :=
  match ts with
  | [] => []
  | inl (id, t) :: r => (id, false, t) :: ptasks P r
  | inr (id, e) :: r => items P id e ++ ptasks (e :: P) r
  end.
Definition cell_tasks (it : N * tri) : list task :=
  match tdirs (snd it) with
  | e :: _ => match Cn e with None => [inl it] | Some _ => map (fun e => inr (fst it, e)) (tdirs (snd it)) end
  | [] => []
  end.
Definition tasks (F : list (N * tri)) : list task := flat_map cell_tasks F.

(** Edges already done. *)
Fixpoint done (P : list dedge) (ts : list task) : list dedge :=
  match ts with
  | [] => P
  | inl _ :: r => done P r
  | inr (_, e) :: r => done (e :: P) r
  end.
Lemma ptasks_app ts ts' : forall P, ptasks P (ts ++ ts') = ptasks P ts ++ ptasks (done P ts) ts'.
Proof.
  induction ts as [|[[id t]|[id e]] ts IH]; intros P; cbn [ptasks done app]; [reflexivity| |].
  - rewrite IH. reflexivity.
  - rewrite IH, app_assoc. reflexivity.
Qed.
Definition tedges (ts : list task) : list dedge := flat_map (fun k => match k with inl _ => [] | inr (_, e) => [e] end) ts.
Lemma done_In ts : forall P e, In e (done P ts) <-> In e P \/ In e (tedges ts).
Proof.
  induction ts as [|[[id t]|[id f]] ts IH]; intros P e; cbn [done tedges flat_map app In]; [tauto| |].
  - apply IH.
  - rewrite IH. cbn [In]. fold (tedges ts). tauto.
Qed.
Lemma tedges_app ts ts' : tedges (ts ++ ts') = tedges ts ++ tedges ts'.
Proof. apply flat_map_app. Qed.

(** The entries of m_EdgesPointIdentifier once the edges in [P] are done. *)
Definition epinv (P : list dedge) (EP : list (dedge * N)) : Prop :=
  forall e, (Cn e = None -> eget e EP = None) /\
    forall c, Cn e = Some c -> eget e EP <> None /\
      (~ In e P -> eget e EP = Some (if mem_dedge (sym e) P then match Cn (sym e) with Some _ => id_max | None => c end else c)).

Definition with_ep (EP : list (dedge * N)) (st : state) : state := (set_epid (fst st) EP, snd st).

Lemma emit_ep id track t EP st :
  emit inp id track t (with_ep EP st) = rbind (emit inp id track t st) (fun st' => Ok (with_ep EP st')).
Proof.
  unfold emit, with_ep. destruct t as [[a b] c]. destruct st as [f out]. cbn [fst snd].
  destruct (add_face out [a; b; c]) as [o e]. destruct track; [destruct e|]; reflexivity.
Qed.
Lemma run_plan_ep E : forall EP st,
  run_plan inp E (with_ep EP st) = rbind (run_plan inp E st) (fun st' => Ok (with_ep EP st')).
Proof.
  induction E as [|x E IH]; intros EP st; [reflexivity|]. cbn [run_plan]. rewrite emit_ep.
  destruct (emit inp (it_parent x) (it_track x) (it_tri x) st) as [s| | |]; cbn [rbind]; auto.
Qed.
Lemma run_plan_app_inv E E' st st' : run_plan inp (E ++ E') st = Ok st' ->
  exists s, run_plan inp E st = Ok s /\ run_plan inp E' s = Ok st'.
Proof.
  rewrite run_plan_app. destruct (run_plan inp E st) as [s| | |]; cbn [rbind]; intros H; try discriminate. eauto.
Qed.
Lemma with_ep_same st : with_ep (epid (fst st)) st = st.
Proof. destruct st as [f out]. destruct f. reflexivity. Qed.
Lemma with_ep_twice A B st : with_ep A (with_ep B st) = with_ep A st.
Proof. reflexivity. Qed.

Hypothesis Hv : sound inp.
Hypothesis Hmax : forall e c, Cn e = Some c -> c <> id_max.
Hypothesis Hdir : forall e c, Cn e = Some c -> In e (dirs (tris inp)).

Lemma find_face_edge a b : In (a, b) (dirs (tris inp)) -> find_edge inp a b = Some (a, b).
Proof.
  intros H. unfold find_edge. assert (memN b (ring inp a) = true) as ->; [|reflexivity].
  apply memN_In. apply (v_face_edges _ Hv). exact H.
Qed.

Lemma sqrt3_edge_ok id t a b P st : uniform (fst st) = u -> epinv P (epid (fst st)) ->
  In (a, b) (dirs (tris inp)) -> ~ In (a, b) P -> Cn (a, b) <> None ->
  exists EP', epinv ((a, b) :: P) EP' /\
    sqrt3_edge inp id t (a, b) st =
    rbind (run_plan inp (items P id (a, b)) st) (fun st' => Ok (with_ep EP' st', false)).
Proof.
  intros Hu Hep Hd HP Hc. destruct (Cn (a, b)) as [g|] eqn:Eg; [clear Hc|congruence].
  assert (Hab : a <> b).
  { intros ->. apply (dirs_irr _ b Hv). exact Hd. }
  pose proof (proj2 (Hep (a, b)) g Eg) as [_ He]. specialize (He HP). change (sym (a, b)) with (b, a) in He.
  unfold sqrt3_edge. cbn [fst snd]. rewrite (find_face_edge a b Hd). cbn [eget_opt].
  unfold items. rewrite Eg. change (sym (a, b)) with (b, a). cbn [fst snd].
  assert (Hstay : Cn (b, a) = None \/ In (b, a) P -> epinv ((a, b) :: P) (epid (fst st))).
  { intros Hcase e. split; [apply Hep|]. intros c Hcc. split; [apply (proj2 (Hep e) c Hcc)|].
    intros Hn. cbn [In] in Hn. rewrite (proj2 (proj2 (Hep e) c Hcc)) by tauto. f_equal.
    cbn [mem_dedge existsb]. unfold mem_dedge. cbn [existsb]. 
    destruct (eqb_dedge (sym e) (a, b)) eqn:Es; [|reflexivity].
    apply eqb_dedge_eq in Es. assert (e = (b, a)) by (apply sym_inj; rewrite Es; reflexivity). subst e.
    exfalso. destruct Hcase as [Hcase|Hcase]; [congruence|tauto]. }
  destruct (Cn (b, a)) as [h|] eqn:Eh.
  - assert (Hbd : is_at_border inp (a, b) = false).
    { unfold is_at_border, right_set. assert (left_set inp (a, b) = true) as -> by (apply valid_left; auto).
      assert (left_set inp (sym (a, b)) = true) as ->; [|reflexivity].
      apply valid_left; [exact Hv|]. apply (Hdir (b, a) h Eh). }
    destruct (mem_dedge (b, a) P) eqn:Em.
    + cbn [eget_opt] in *. rewrite He. rewrite N.eqb_refl. cbn [run_plan rbind]. exists (epid (fst st)).
      split; [apply Hstay; right; apply mem_dedge_In; exact Em|]. rewrite with_ep_same. reflexivity.
    + rewrite He. destruct (N.eqb_spec g id_max) as [E|_]; [exfalso; exact (Hmax _ _ Eg E)|].
      rewrite Hbd.
      assert (Hnb : ~ In (b, a) P).
      { intros H. apply mem_dedge_In in H. congruence. }
      pose proof (proj2 (Hep (b, a)) h Eh) as [_ Hh]. specialize (Hh Hnb). change (sym (b, a)) with (a, b) in Hh.
      assert (Hma : mem_dedge (a, b) P = false).
      { destruct (mem_dedge (a, b) P) eqn:E; [|reflexivity]. apply mem_dedge_In in E. contradiction. }
      rewrite Hma in Hh. rewrite Hh. exists (((b, a), id_max) :: epid (fst st)). split.
      * intros e. split.
        -- intros Hn. cbn [eget]. destruct (eqb_dedge (b, a) e) eqn:Ee; [|apply Hep; exact Hn].
           apply eqb_dedge_eq in Ee. subst e. congruence.
        -- intros c Hcc. cbn [eget]. destruct (eqb_dedge (b, a) e) eqn:Ee.
           ++ apply eqb_dedge_eq in Ee. subst e. split; [discriminate|]. intros _. change (sym (b, a)) with (a, b). rewrite Eg.
              unfold mem_dedge. cbn [existsb]. rewrite eqb_dedge_refl. reflexivity.
           ++ apply eqb_dedge_neq in Ee. split; [apply (proj2 (Hep e) c Hcc)|]. intros Hn. cbn [In] in Hn.
              rewrite (proj2 (proj2 (Hep e) c Hcc)) by tauto. f_equal.
              unfold mem_dedge. cbn [existsb]. destruct (eqb_dedge (sym e) (a, b)) eqn:Es; [|reflexivity].
              apply eqb_dedge_eq in Es. exfalso. apply Ee. apply sym_inj. rewrite Es. reflexivity.
      * cbn [run_plan it_parent it_track it_tri fst snd]. rewrite Hu.
        destruct (emit inp id (negb u) (g, h, b) st) as [s1| | |] eqn:E1; cbn [rbind]; try reflexivity.
        destruct (emit inp id (negb u) (h, g, a) s1) as [s2| | |] eqn:E2; cbn [rbind]; try reflexivity.
        apply emit_keeps in E1. apply emit_keeps in E2. unfold with_ep.
        destruct E1 as [E1 _], E2 as [E2 _]. rewrite E2, E1. reflexivity.
  - assert (Hg : eget (a, b) (epid (fst st)) = Some g) by (rewrite He; destruct (mem_dedge (b, a) P); reflexivity).
    rewrite Hg. destruct (N.eqb_spec g id_max) as [E|_]; [exfalso; exact (Hmax _ _ Eg E)|].
    assert (Hn : eget (b, a) (epid (fst st)) = None) by (apply Hep; exact Eh). 
    rewrite Hn. exists (epid (fst st)). split; [apply Hstay; auto|].
    cbn [run_plan it_parent it_track it_tri fst snd]. rewrite Hu.
    assert (E0 : forall A (x : A), (match is_at_border inp (a, b) with true => x | false => x end) = x).
    { intros. destruct (is_at_border inp (a, b)); reflexivity. }
    destruct (is_at_border inp (a, b));
      (destruct (emit inp id (negb u) (a, b, g) st) as [s1| | |] eqn:E1; cbn [rbind]; try reflexivity;
       apply emit_keeps in E1; destruct E1 as [E1 _]; rewrite <- E1, with_ep_same; reflexivity).
Qed.

Definition cn_face (t : tri) : Prop := forall e e', In e (tdirs t) -> In e' (tdirs t) -> Cn e = None -> Cn e' = None.

Lemma sqrt3_cell_ok id t P st st' : uniform (fst st) = u -> epinv P (epid (fst st)) ->
  In t (tris inp) -> cn_face t -> (forall e, In e (tdirs t) -> ~ In e P) ->
  run_plan inp (ptasks P (cell_tasks (id, t))) st = Ok st' ->
  exists EP', epinv (done P (cell_tasks (id, t))) EP' /\ sqrt3_cell inp id t st = Ok (with_ep EP' st').
Proof.
  intros Hu Hep Ht Hcn HP. pose proof (v_proper _ Hv t Ht) as Hp.
  destruct t as [[a b] c]. unfold cell_tasks. cbn [snd fst tdirs].
  assert (Hd : forall e, In e (tdirs (a, b, c)) -> In e (dirs (tris inp))).
  { intros e He. apply in_flat_map. eauto. }
  destruct (Cn (a, b)) as [g|] eqn:Eg.
  - assert (Hsome : forall e, In e (tdirs (a, b, c)) -> Cn e <> None).
    { intros e He En. rewrite (Hcn e (a, b) He ltac:(cbn; auto) En) in Eg. discriminate. }
    cbn [map ptasks done]. rewrite app_nil_r. intros HR0.
    assert (HR : run_plan inp (items P id (a, b) ++ items ((a, b) :: P) id (b, c) ++ items ((b, c) :: (a, b) :: P) id (c, a)) st = Ok st') by exact HR0.
    destruct Hp as [Hab [Hbc Hca]].
    destruct (sqrt3_edge_ok id (a, b, c) a b P st Hu Hep) as [EP1 [Hep1 E1]].
    { apply Hd. cbn. auto. } { apply HP. cbn. auto. } { apply Hsome. cbn. auto. }
    unfold sqrt3_cell. rewrite E1. rewrite run_plan_app in HR.
    destruct (run_plan inp (items P id (a, b)) st) as [s1| | |] eqn:R1; cbn [rbind] in HR |- *; try discriminate HR.
    apply run_plan_keeps in R1. destruct R1 as [R1 [R1u _]].
    destruct (sqrt3_edge_ok id (a, b, c) b c ((a, b) :: P) (with_ep EP1 s1)) as [EP2 [Hep2 E2]].
    { unfold with_ep. cbn. congruence. } { exact Hep1. } { apply Hd. cbn. auto. }
    { cbn [In]. intros [E|E]; [congruence|]. apply (HP (b, c)); cbn; auto. } { apply Hsome. cbn. auto. }
    destruct (run_plan_app_inv _ _ _ _ HR) as [s2 [R2 HR2]].
    rewrite E2, run_plan_ep, R2. cbn [rbind].
    apply run_plan_keeps in R2. destruct R2 as [R2 [R2u _]]. rewrite with_ep_twice.
    destruct (sqrt3_edge_ok id (a, b, c) c a ((b, c) :: (a, b) :: P) (with_ep EP2 s2)) as [EP3 [Hep3 E3]].
    { unfold with_ep. cbn. congruence. } { exact Hep2. } { apply Hd. cbn. auto. }
    { cbn [In]. intros [E|[E|E]]; [congruence|congruence|]. apply (HP (c, a)); cbn; auto. } { apply Hsome. cbn. auto. }
    rewrite E3, run_plan_ep, HR2. cbn [rbind]. exists EP3. split; [exact Hep3|reflexivity].
  - cbn [ptasks done run_plan it_parent it_track it_tri fst snd]. intros HR. exists (epid (fst st)). split; [exact Hep|].
    unfold sqrt3_cell, sqrt3_edge. cbn [fst snd]. rewrite (find_face_edge a b) by (apply Hd; cbn; auto).
    cbn [eget_opt]. rewrite (proj1 (Hep (a, b)) Eg).
    destruct (emit inp id false (a, b, c) st) as [s1| | |] eqn:E1; cbn [rbind] in *; try discriminate.
    inv HR. apply emit_keeps in E1. destruct E1 as [E1 _]. rewrite <- E1, with_ep_same. reflexivity.
Qed.

Lemma tedges_cell it : (forall e, In e (tedges (cell_tasks it)) -> In e (tdirs (snd it))).
Proof.
  intros e. unfold cell_tasks. destruct it as [id [[a b] c]]. cbn [fst snd tdirs].
  destruct (Cn (a, b)); cbn [map tedges flat_map app In]; tauto.
Qed.

(** The whole loop: any fuel beyond the number of cells will do. *)
Lemma sqrt3_loop_ok (F : list (N * tri)) : forall cs P st st' fuel,
  cs = map (fun it => (fst it, poly (snd it))) F ->
  (length F < fuel)%nat -> uniform (fst st) = u -> epinv P (epid (fst st)) ->
  (forall it, In it F -> In (snd it) (tris inp) /\ cn_face (snd it)) ->
  NoDup (dirs (map snd F)) -> (forall e, In e (dirs (map snd F)) -> ~ In e P) ->
  run_plan inp (ptasks P (tasks F)) st = Ok st' ->
  exists EP', sqrt3_loop fuel inp cs st = Ok (with_ep EP' st').
Proof.
  induction F as [|[id t] F IH]; intros cs P st st' fuel -> Hfuel Hu Hep HF Hnd HP HR.
  - cbn in HR. inv HR. exists (epid (fst st')). rewrite with_ep_same. destruct fuel; [inversion Hfuel|]. reflexivity.
  - destruct fuel as [|fuel]; [inversion Hfuel|]. cbn [map fst snd sqrt3_loop].
    unfold tasks in HR. cbn [flat_map] in HR. rewrite ptasks_app, run_plan_app in HR.
    destruct (run_plan inp (ptasks P (cell_tasks (id, t))) st) as [s1| | |] eqn:R1; cbn [rbind] in HR; try discriminate.
    destruct (HF (id, t) (or_introl eq_refl)) as [Ht Hcn]. cbn [snd] in Ht, Hcn.
    unfold dirs in Hnd, HP. cbn [map snd flat_map] in Hnd, HP. pose proof (NoDup_app_r _ _ Hnd) as Hnd'.
    destruct (sqrt3_cell_ok id t P st s1 Hu Hep Ht Hcn) as [EP1 [Hep1 E1]].
    { intros e He. apply HP. apply in_or_app. auto. } { exact R1. }
    assert (Hstep : forall X, match poly t with None => Undef NullDeref | Some c => match as_triangle c with None => X | Some tri => rbind (sqrt3_cell inp id tri st) (fun st' => sqrt3_loop fuel inp (map (fun it => (fst it, poly (snd it))) F) st') end end = rbind (sqrt3_cell inp id t st) (fun st' => sqrt3_loop fuel inp (map (fun it => (fst it, poly (snd it))) F) st')).
    { intros X. destruct t as [[x y] z]. reflexivity. }
    rewrite Hstep, E1. cbn [rbind].
    assert (HR' : run_plan inp (ptasks (done P (cell_tasks (id, t))) (tasks F)) (with_ep EP1 s1) = Ok (with_ep EP1 st')).
    { rewrite run_plan_ep. fold (tasks F) in HR. rewrite HR. reflexivity. }
    destruct (IH _ (done P (cell_tasks (id, t))) (with_ep EP1 s1) (with_ep EP1 st') fuel eq_refl) as [EP2 E2].
    + cbn [length] in Hfuel. lia.
    + apply run_plan_keeps in R1. destruct R1 as [_ [R1 _]]. unfold with_ep. cbn. congruence.
    + exact Hep1.
    + intros it Hit. apply HF. right. exact Hit.
    + exact Hnd'.
    + intros e He. rewrite done_In. intros [Hin|Hin].
      * apply (HP e); [apply in_or_app; auto|exact Hin].
      * apply tedges_cell in Hin. cbn [snd] in Hin. exact (NoDup_app_disj _ _ e Hnd Hin He).
    + exact HR'.
    + exists EP2. rewrite E2. reflexivity.
Qed.
End CELLS3.

(** ** The triangles of the cell phase are those of [root3], in another order *)
Section PERM3.
Variable T : list tri.
Variable Cen : tri -> option N.
Variable old : N -> Prop.
Hypothesis HC : centring T Cen old.
Variable u : bool.
Notation Cn := (cenE T Cen).
Notation etri e g := (Root3.etri T Cen g (fst e) (snd e)).
Notation ptasks := (ptasks Cn u).
Notation items := (items Cn u).
Notation tasks := (tasks Cn).

Definition owner (ts : list task) (P : list dedge) (id : N) (e0 : dedge) : Prop :=
  In (inr (id, e0)) ts /\ ~ In (sym e0) P.

(** Where an item comes from. *)
Lemma items_In P id e x : In x (items P id e) ->
  it_parent x = id /\ it_track x = negb u /\
  exists g, Cn e = Some g /\
   ((Cn (sym e) = None /\ it_tri x = etri e g) \/
    (~ In (sym e) P /\ Cn (sym e) <> None /\
      (it_tri x = etri e g \/ exists h, Cn (sym e) = Some h /\ it_tri x = etri (sym e) h))).
Proof.
  unfold Root3Run.items. destruct e as [a b]. change (sym (a, b)) with (b, a). cbn [fst snd].
  destruct (Cn (a, b)) as [g|] eqn:Eg; [|intros []].
  destruct (Cn (b, a)) as [h|] eqn:Eh.
  - destruct (mem_dedge (b, a) P) eqn:Em; [intros []|].
    assert (Hn : ~ In (b, a) P) by (intros H; apply mem_dedge_In in H; congruence).
    intros [<-|[<-|[]]]; unfold it_parent, it_track, it_tri; cbn [fst snd]; repeat split; exists g; (split; [reflexivity|]);
      right; (split; [exact Hn|]); (split; [congruence|]).
    + left. unfold Root3.etri. rewrite Eh. reflexivity.
    + right. exists h. split; [reflexivity|]. unfold Root3.etri. rewrite Eg. reflexivity.
  - intros [<-|[]]; unfold it_parent, it_track, it_tri; cbn [fst snd]; repeat split; exists g; (split; [reflexivity|]).
    left. split; [reflexivity|]. unfold Root3.etri. rewrite Eh. reflexivity.
Qed.

Lemma ptasks_origin ts : forall P x, In x (ptasks P ts) ->
  (it_track x = false /\ In (inl (it_parent x, it_tri x)) ts) \/
  (it_track x = negb u /\ exists e g, Cn e = Some g /\ it_tri x = etri e g /\
    ((Cn (sym e) = None /\ In (inr (it_parent x, e)) ts) \/
     (Cn (sym e) <> None /\ exists e0, (e0 = e \/ e0 = sym e) /\ owner ts P (it_parent x) e0))).
Proof.
  induction ts as [|[[id t]|[id e]] ts IH]; intros P x; cbn [Root3Run.ptasks]; [intros []| |].
  - intros [<-|H].
    + left. split; [reflexivity|]. left. reflexivity.
    + destruct (IH P x H) as [[H1 H2]|[H1 [e [g [H2 [H3 H4]]]]]].
      * left. split; [exact H1|]. right. exact H2.
      * right. split; [exact H1|]. exists e, g. split; [exact H2|]. split; [exact H3|].
        destruct H4 as [[H4 H5]|[H4 [e0 [H5 [H6 H7]]]]]; [left|right].
        -- split; [exact H4|]. right. exact H5.
        -- split; [exact H4|]. exists e0. split; [exact H5|]. split; [right; exact H6|exact H7].
  - intros H. apply in_app_or in H. destruct H as [H|H].
    + apply items_In in H. destruct H as [H1 [H2 [g [Hg H]]]]. right. split; [exact H2|]. rewrite H1.
      destruct H as [[H3 H4]|[H3 [H3' [H4|[h [Hh H4]]]]]].
      * exists e, g. split; [exact Hg|]. split; [exact H4|]. left. split; [exact H3|left; reflexivity].
      * exists e, g. split; [exact Hg|]. split; [exact H4|]. right. split; [exact H3'|].
        exists e. split; [left; reflexivity|]. split; [left; reflexivity|exact H3].
      * exists (sym e), h. split; [exact Hh|]. split; [exact H4|]. right. split.
        -- rewrite sym_sym. congruence.
        -- exists e. split; [right; rewrite sym_sym; reflexivity|]. split; [left; reflexivity|exact H3].
    + destruct (IH _ x H) as [[H1 H2]|[H1 [e1 [g [H2 [H3 H4]]]]]].
      * left. split; [exact H1|]. right. exact H2.
      * right. split; [exact H1|]. exists e1, g. split; [exact H2|]. split; [exact H3|].
        destruct H4 as [[H4 H5]|[H4 [e0 [H5 [H6 H7]]]]]; [left|right].
        -- split; [exact H4|]. right. exact H5.
        -- split; [exact H4|]. exists e0. split; [exact H5|]. split; [right; exact H6|].
           intros Hin. apply H7. right. exact Hin.
Qed.

(** The owner of an edge shared by two subdivided triangles is the one met first. *)
Definition tid (k : task) : N := match k with inl (id, _) => id | inr (id, _) => id end.
Lemma ptasks_first ts : Sorted.StronglySorted (fun x y => tid x <= tid y) ts ->
  (forall id e, In (inr (id, e)) ts -> sym e <> e) ->
  forall P x, In x (ptasks P ts) ->
  (it_track x = false /\ In (inl (it_parent x, it_tri x)) ts) \/
  (it_track x = negb u /\ exists e g, Cn e = Some g /\ it_tri x = etri e g /\
    ((Cn (sym e) = None /\ In (inr (it_parent x, e)) ts) \/
     (Cn (sym e) <> None /\ exists e0, (e0 = e \/ e0 = sym e) /\ owner ts P (it_parent x) e0 /\
       forall id', In (inr (id', sym e0)) ts -> it_parent x <= id'))).
Proof.
  intros Hs. induction Hs as [|k ts Hs IH Hk]; intros Hirr P x; [intros []|].
  assert (Hirr' : forall id e, In (inr (id, e)) ts -> sym e <> e) by (intros id e H; apply (Hirr id); right; exact H).
  specialize (IH Hirr'). rewrite Forall_forall in Hk.
  destruct k as [[id t]|[id e]]; cbn [Root3Run.ptasks].
  - intros [<-|H].
    + left. split; [reflexivity|]. left. reflexivity.
    + destruct (IH P x H) as [[H1 H2]|[H1 [e [g [H2 [H3 H4]]]]]].
      * left. split; [exact H1|]. right. exact H2.
      * right. split; [exact H1|]. exists e, g. split; [exact H2|]. split; [exact H3|].
        destruct H4 as [[H4 H5]|[H4 [e0 [H5 [[H6 H7] H8]]]]]; [left|right].
        -- split; [exact H4|]. right. exact H5.
        -- split; [exact H4|]. exists e0. split; [exact H5|]. split; [split; [right; exact H6|exact H7]|].
           intros id' [E|E]; [discriminate|auto].
  - intros H. apply in_app_or in H. destruct H as [H|H].
    + apply items_In in H. destruct H as [H1 [H2 [g [Hg H]]]]. right. split; [exact H2|]. rewrite H1.
      assert (Hle : forall id', In (inr (id', sym e)) (inr (id, e) :: ts) -> id <= id').
      { intros id' [E|E]; [|apply (Hk _ E)]. exfalso. injection E as E1 E2. apply (Hirr id e); [left; reflexivity|congruence]. }
      destruct H as [[H3 H4]|[H3 [H3' [H4|[h [Hh H4]]]]]].
      * exists e, g. split; [exact Hg|]. split; [exact H4|]. left. split; [exact H3|left; reflexivity].
      * exists e, g. split; [exact Hg|]. split; [exact H4|]. right. split; [exact H3'|].
        exists e. split; [left; reflexivity|]. split; [split; [left; reflexivity|exact H3]|exact Hle].
      * exists (sym e), h. split; [exact Hh|]. split; [exact H4|]. right. split.
        -- rewrite sym_sym. congruence.
        -- exists e. split; [right; rewrite sym_sym; reflexivity|]. split; [split; [left; reflexivity|exact H3]|exact Hle].
    + destruct (IH _ x H) as [[H1 H2]|[H1 [e1 [g [H2 [H3 H4]]]]]].
      * left. split; [exact H1|]. right. exact H2.
      * right. split; [exact H1|]. exists e1, g. split; [exact H2|]. split; [exact H3|].
        destruct H4 as [[H4 H5]|[H4 [e0 [H5 [[H6 H7] H8]]]]]; [left|right].
        -- split; [exact H4|]. right. exact H5.
        -- split; [exact H4|]. exists e0. split; [exact H5|]. split.
           ++ split; [right; exact H6|]. intros Hin. apply H7. right. exact Hin.
           ++ intros id' [E|E]; [|auto]. exfalso. injection E as _ E. apply H7. left. congruence.
Qed.

(** Completeness: every edge with a centre gives its triangle exactly when it should. *)
Lemma items_has P id e g : Cn e = Some g -> Cn (sym e) = None -> In (etri e g) (map it_tri (items P id e)).
Proof.
  destruct e as [a b]. unfold Root3Run.items. change (sym (a, b)) with (b, a). intros Eg En. rewrite Eg, En. left.
  unfold Root3.etri. cbn [fst snd]. rewrite En. reflexivity.
Qed.
Lemma items_has2 P id e g h : Cn e = Some g -> Cn (sym e) = Some h -> ~ In (sym e) P ->
  In (etri e g) (map it_tri (items P id e)) /\ In (etri (sym e) h) (map it_tri (items P id e)).
Proof.
  destruct e as [a b]. unfold Root3Run.items. change (sym (a, b)) with (b, a). intros Eg Eh Hn. rewrite Eg, Eh.
  assert (Em : mem_dedge (b, a) P = false).
  { destruct (mem_dedge (b, a) P) eqn:Em; [|reflexivity]. apply mem_dedge_In in Em. contradiction. }
  rewrite Em. unfold Root3.etri. cbn [fst snd map it_tri]. rewrite Eg, Eh. split; [left|right; left]; reflexivity.
Qed.

Lemma ptasks_edge ts : forall P e g, Cn e = Some g ->
  (forall e0, In e0 (tedges ts) -> ~ In e0 P) ->
  ((Cn (sym e) = None /\ In e (tedges ts)) \/
   (Cn (sym e) <> None /\ ((In e (tedges ts) /\ ~ In (sym e) P) \/ (In (sym e) (tedges ts) /\ ~ In e P)))) ->
  NoDup (tedges ts) ->
  In (etri e g) (map it_tri (ptasks P ts)).
Proof.
  induction ts as [|[[id t]|[id e1]] ts IH]; intros P e g Hg HP Hin Hnd; cbn [Root3Run.ptasks].
  - cbn in Hin. tauto.
  - cbn [map]. right. apply IH; auto.
  - rewrite map_app. apply in_or_app. cbn [tedges flat_map app] in Hin, HP, Hnd. fold (tedges ts) in Hin, HP, Hnd.
    inversion Hnd as [|? ? Hn1 Hnd']; subst.
    assert (HP' : forall e0, In e0 (tedges ts) -> ~ In e0 (e1 :: P)).
    { intros e0 H0 [<-|H1]; [contradiction|]. apply (HP e0); [right; exact H0|exact H1]. }
    assert (Hrest : ((Cn (sym e) = None /\ In e (tedges ts)) \/
       (Cn (sym e) <> None /\ ((In e (tedges ts) /\ ~ In (sym e) (e1 :: P)) \/ (In (sym e) (tedges ts) /\ ~ In e (e1 :: P))))) ->
       In (etri e g) (map it_tri (items P id e1)) \/ In (etri e g) (map it_tri (ptasks (e1 :: P) ts))).
    { intros H. right. apply IH; auto. }
    destruct Hin as [[Hs Hin]|[Hs Hin]].
    + destruct Hin as [<-|Hin]; [left; apply items_has; auto|]. apply Hrest. left. auto.
    + destruct (Cn (sym e)) as [h|] eqn:Eh; [clear Hs|congruence].
      destruct (dedge_dec e1 e) as [->|Hne].
      { left. assert (Hns : ~ In (sym e) P).
        { destruct Hin as [[_ H]|[[H|H] H']]; [exact H| |].
          - rewrite <- H. exact H'.
          - apply HP. right. exact H. }
        apply (items_has2 P id e g h); auto. }
      destruct (dedge_dec e1 (sym e)) as [->|Hne'].
      { left. assert (Hns : ~ In e P).
        { destruct Hin as [[[H|H] _]|[_ H]]; [congruence| |exact H]. apply HP. right. exact H. }
        rewrite <- (sym_sym e) in Hg, Hns. 
        pose proof (items_has2 P id (sym e) h g Eh Hg Hns) as [_ H]. rewrite sym_sym in H. exact H. }
      apply Hrest. right. split; [congruence|].
      destruct Hin as [[[H|H] H']|[[H|H] H']]; try congruence; [left|right]; (split; [exact H|]); intros [E|E]; congruence || contradiction.
Qed.
Lemma ptasks_copy ts : forall P id t, In (inl (id, t)) ts -> In t (map it_tri (ptasks P ts)).
Proof.
  induction ts as [|[[id1 t1]|[id1 e1]] ts IH]; intros P id t H; cbn [Root3Run.ptasks]; [destruct H| |].
  - destruct H as [H|H]; [left; unfold it_tri; cbn; congruence|right; eapply IH; eauto].
  - destruct H as [H|H]; [discriminate|]. rewrite map_app. apply in_or_app. right. eapply IH; eauto.
Qed.

Lemma etri_eq e g e' g' : Cn e = Some g -> Cn e' = Some g' -> etri e g = etri e' g' -> e = e'.
Proof.
  destruct e as [a b], e' as [a' b']. cbn [fst snd]. intros H H' E.
  apply cenE_at in H. apply cenE_at in H'. destruct H as [t A], H' as [t' A'].
  apply (etri_unique T Cen old HC t g a b t' g' a' b' b g A A').
  - apply etri_has_own.
  - rewrite <- E. apply etri_has_own.
Qed.

(** What the tasks say about the copied triangles. *)
Definition copies (ts : list task) : list tri := flat_map (fun k => match k with inl (_, t) => [t] | inr _ => [] end) ts.
Lemma copies_In ts t : In t (copies ts) <-> exists id, In (inl (id, t)) ts.
Proof.
  unfold copies. rewrite in_flat_map. split.
  - intros [[[id t']|[id e]] [H H']]; [|destruct H']. destruct H' as [->|[]]. eauto.
  - intros [id H]. exists (inl (id, t)). split; [exact H|left; reflexivity].
Qed.
Lemma tedges_In ts e : In e (tedges ts) <-> exists id, In (inr (id, e)) ts.
Proof.
  unfold tedges. rewrite in_flat_map. split.
  - intros [[[id t']|[id e']] [H H']]; [destruct H'|]. destruct H' as [->|[]]. eauto.
  - intros [id H]. exists (inr (id, e)). split; [exact H|left; reflexivity].
Qed.
Definition kept (t : tri) : Prop := In t T /\ Cen t = None.

Lemma ptasks_nodup ts : forall P, NoDup (copies ts) -> (forall t, In t (copies ts) -> kept t) ->
  NoDup (tedges ts) -> (forall e, In e (tedges ts) -> ~ In e P) -> (forall e, In e (tedges ts) -> sym e <> e) ->
  NoDup (map it_tri (ptasks P ts)).
Proof.
  assert (Hck : forall e g t, Cn e = Some g -> kept t -> etri e g <> t).
  { intros [a b] g t Hg [Ht Hn] E. cbn [fst snd] in E. apply cenE_at in Hg. destruct Hg as [t0 A].
    apply (etri_kept T Cen old HC t0 g a b t b g A Ht Hn); [apply etri_has_own|rewrite <- E; apply etri_has_own]. }
  induction ts as [|[[id t]|[id e]] ts IH]; intros P H1 H2 H3 H4 H5; cbn [Root3Run.ptasks]; [constructor| |].
  - cbn [copies flat_map app] in H1, H2. fold (copies ts) in H1, H2. inversion H1 as [|? ? Hnin Hnd1]; subst.
    cbn [map]. constructor; [|apply IH; auto; intros t' Ht'; apply H2; right; exact Ht'].
    intros Hin. apply in_map_iff in Hin. destruct Hin as [x [Ex Hx]]. unfold it_tri at 2 in Ex. cbn [snd] in Ex.
    destruct (ptasks_origin ts P x Hx) as [[_ Hx']|[_ [e [g [Hg [Ht _]]]]]].
    + rewrite Ex in Hx'. apply Hnin. apply copies_In. eauto.
    + apply (Hck e g t Hg); [apply H2; left; reflexivity|congruence].
  - cbn [tedges flat_map app] in H3, H4, H5. fold (tedges ts) in H3, H4, H5. inversion H3 as [|? ? Hne Hnd]; subst.
    rewrite map_app. apply NoDup_app_intro.
    + unfold Root3Run.items. destruct e as [a b]. change (sym (a, b)) with (b, a). cbn [fst snd].
      destruct (Cn (a, b)) as [g|] eqn:Eg; [|constructor]. destruct (Cn (b, a)) as [h|] eqn:Eh.
      * destruct (mem_dedge (b, a) P); [constructor|]. constructor; [|repeat constructor; auto].
        intros [E|[]]. apply (H5 (a, b)); [left; reflexivity|]. 
        apply (etri_eq (b, a) h (a, b) g Eh Eg). unfold Root3.etri. cbn [fst snd]. rewrite Eg, Eh. exact E.
      * repeat constructor; auto.
    + apply IH; auto.
      * intros e0 H0 [<-|H0']; [contradiction|]. apply (H4 e0); [right; exact H0|exact H0'].
      * intros e0 H0. apply H5. right. exact H0.
    + intros w Hw Hw'. apply in_map_iff in Hw. destruct Hw as [x [Ex Hx]].
      apply in_map_iff in Hw'. destruct Hw' as [y [Ey Hy]].
      apply items_In in Hx. destruct Hx as [_ [_ [g [Hg Hx]]]].
      destruct (ptasks_origin ts _ y Hy) as [[_ Hy']|[_ [e1 [g1 [Hg1 [Hy1 Hy']]]]]].
      { assert (Hk : kept w) by (apply H2; apply copies_In; exists (it_parent y); right; rewrite <- Ey; exact Hy').
        destruct Hx as [[_ Hx]|[_ [_ [Hx|[h [Hh Hx]]]]]].
        - apply (Hck e g w Hg Hk). congruence.
        - apply (Hck e g w Hg Hk). congruence.
        - apply (Hck (sym e) h w Hh Hk). congruence. }
      destruct Hx as [[Hs Hx]|[Hs [Hs' [Hx|[h [Hh Hx]]]]]].
      * assert (e1 = e) by (apply (etri_eq e1 g1 e g); congruence). subst e1.
        destruct Hy' as [[_ Hy']|[Hy' _]]; [|congruence]. apply Hne. apply tedges_In. eauto.
      * assert (e1 = e) by (apply (etri_eq e1 g1 e g); congruence). subst e1.
        destruct Hy' as [[Hy' _]|[_ [e0 [[-> | ->] [Ho Ho']]]]]; [congruence| |].
        -- apply Hne. apply tedges_In. eauto.
        -- apply Ho'. rewrite sym_sym. left. reflexivity.
      * assert (e1 = sym e) by (apply (etri_eq e1 g1 (sym e) h); congruence). subst e1. rewrite sym_sym in Hy'.
        destruct Hy' as [[Hy' _]|[_ [e0 [[-> | ->] [Ho Ho']]]]]; [congruence| |].
        -- apply Ho'. rewrite sym_sym. left. reflexivity.
        -- apply Hne. apply tedges_In. eauto.
Qed.

(** The tasks of the faces. *)
Lemma cenE_first t : In t T -> match tdirs t with e :: _ => Cn e | [] => None end = Cen t.
Proof. intros Ht. destruct t as [[a b] c]. cbn [tdirs]. apply (cenE_face T Cen old HC); [exact Ht|left; reflexivity]. Qed.
Lemma cell_tasks_eq it : In (snd it) T -> cell_tasks Cn it =
  match Cen (snd it) with None => [inl it] | Some _ => map (fun e => inr (fst it, e)) (tdirs (snd it)) end.
Proof.
  intros Ht. unfold cell_tasks. destruct it as [id [[a b] c]]. cbn [fst snd tdirs] in *.
  rewrite (cenE_face T Cen old HC (a, b, c)) by (auto; left; reflexivity). reflexivity.
Qed.
Lemma tasks_inl F id t : (forall it, In it F -> In (snd it) T) ->
  In (inl (id, t)) (tasks F) <-> In (id, t) F /\ Cen t = None.
Proof.
  intros HF. unfold Root3Run.tasks. rewrite in_flat_map. split.
  - intros [it [Hit H]]. rewrite cell_tasks_eq in H by auto. destruct (Cen (snd it)) eqn:E.
    + apply in_map_iff in H. destruct H as [e [H _]]. discriminate.
    + destruct H as [H|[]]. injection H as ->. auto.
  - intros [Hit E]. exists (id, t). split; [exact Hit|]. rewrite cell_tasks_eq by (apply HF; exact Hit).
    cbn [snd]. rewrite E. left. reflexivity.
Qed.
Lemma tasks_inr F id e : (forall it, In it F -> In (snd it) T) ->
  In (inr (id, e)) (tasks F) <-> exists t, In (id, t) F /\ Cen t <> None /\ In e (tdirs t).
Proof.
  intros HF. unfold Root3Run.tasks. rewrite in_flat_map. split.
  - intros [it [Hit H]]. rewrite cell_tasks_eq in H by auto. destruct (Cen (snd it)) eqn:E.
    + apply in_map_iff in H. destruct H as [e' [H H']]. injection H as H1 H2. subst.
      exists (snd it). destruct it. cbn [fst snd] in *. repeat split; auto. congruence.
    + destruct H as [H|[]]. discriminate.
  - intros [t [Hit [E He]]]. exists (id, t). split; [exact Hit|]. rewrite cell_tasks_eq by (apply HF; exact Hit).
    cbn [fst snd]. destruct (Cen t); [|congruence]. apply in_map_iff. eauto.
Qed.

Lemma tasks_copies F : (forall it, In it F -> In (snd it) T) -> NoDup (map snd F) -> NoDup (copies (tasks F)).
Proof.
  intros HF Hnd. induction F as [|it F IH]; [constructor|]. unfold Root3Run.tasks. cbn [flat_map].
  unfold copies. rewrite flat_map_app. fold (tasks F). fold (copies (tasks F)). cbn [map] in Hnd. inversion Hnd as [|? ? H1 H2]; subst.
  rewrite cell_tasks_eq by (apply HF; left; reflexivity).
  assert (HF' : forall i, In i F -> In (snd i) T) by (intros i Hi; apply HF; right; exact Hi).
  specialize (IH HF' H2). destruct (Cen (snd it)).
  - assert (forall l, flat_map (fun k : task => match k with inl (_, t) => [t] | inr _ => [] end) (map (fun e => inr (fst it, e)) l) = []) as ->; [|exact IH].
    clear. induction l; auto.
  - destruct it as [id t]. cbn [flat_map app]. constructor; [|exact IH]. intros Hin. apply copies_In in Hin.
    destruct Hin as [id' Hin]. apply tasks_inl in Hin; [|exact HF']. destruct Hin as [Hin _]. apply H1.
    apply in_map_iff. exists (id', t). auto.
Qed.
Lemma tedges_inr it l : tedges (map (fun e => inr (fst (it : N * tri), e)) l) = l.
Proof. induction l as [|e l IH]; [reflexivity|]. cbn. f_equal. exact IH. Qed.
Lemma tasks_tedges F : (forall it, In it F -> In (snd it) T) -> NoDup (dirs (map snd F)) -> NoDup (tedges (tasks F)).
Proof.
  intros HF Hnd. induction F as [|it F IH]; [constructor|]. unfold Root3Run.tasks. cbn [flat_map].
  rewrite tedges_app. fold (tasks F). unfold dirs in Hnd. cbn [map flat_map] in Hnd.
  rewrite cell_tasks_eq by (apply HF; left; reflexivity).
  assert (HF' : forall i, In i F -> In (snd i) T) by (intros i Hi; apply HF; right; exact Hi).
  specialize (IH HF' (NoDup_app_r _ _ Hnd)). destruct (Cen (snd it)).
  - rewrite tedges_inr. apply NoDup_app_intro; [exact (NoDup_app_l _ _ Hnd)|exact IH|].
    intros e He He'. apply (NoDup_app_disj _ _ e Hnd He). apply tedges_In in He'. destruct He' as [id He'].
    apply tasks_inr in He'; [|exact HF']. destruct He' as [t [Ht [_ He']]]. apply in_flat_map. exists t. split; [|exact He'].
    apply in_map_iff. exists (id, t). auto.
  - exact IH.
Qed.

Lemma sym_neq e : In e (dirs T) -> sym e <> e.
Proof. destruct e as [a b]. intros H E. destruct (dir_old T Cen old HC a b H) as [_ [_ Hn]]. injection E as E1 E2. congruence. Qed.

Variable F : list (N * tri).
Hypothesis HF : map snd F = T.
Lemma F_in it : In it F -> In (snd it) T.
Proof. intros H. rewrite <- HF. apply in_map. exact H. Qed.
Lemma F_tri t : In t T -> exists id, In (id, t) F.
Proof. rewrite <- HF. intros H. apply in_map_iff in H. destruct H as [[id t'] [<- H]]. eauto. Qed.

Lemma plan3_perm : Permutation (root3 T Cen) (map it_tri (ptasks [] (tasks F))).
Proof.
  assert (HTd : NoDup (dirs (map snd F))) by (rewrite HF; apply (c_dirs _ _ _ HC)).
  assert (Hte := tasks_tedges F F_in HTd).
  apply NoDup_Permutation.
  - apply (root3_nodup T Cen old HC).
  - apply ptasks_nodup.
    + apply tasks_copies; [exact F_in|]. apply NoDup_dirs_NoDup. exact HTd.
    + intros t Ht. apply copies_In in Ht. destruct Ht as [id Ht]. apply tasks_inl in Ht; [|exact F_in].
      destruct Ht as [Ht E]. split; [apply (F_in _ Ht)|exact E].
    + exact Hte.
    + intros e _ [].
    + intros e He. apply sym_neq. apply tedges_In in He. destruct He as [id He]. apply tasks_inr in He; [|exact F_in].
      destruct He as [t [Ht [_ He]]]. apply in_flat_map. exists t. split; [apply (F_in _ Ht)|exact He].
  - intros w. rewrite (root3_In T Cen). split.
    + intros [[Hw E]|[t [g [a [b [Ht [E [H ->]]]]]]]].
      * destruct (F_tri w Hw) as [id Hid]. apply (ptasks_copy _ [] id). apply tasks_inl; [exact F_in|auto].
      * assert (Hg : Cn (a, b) = Some g) by (rewrite (cenE_face T Cen old HC t) by auto; exact E).
        apply (ptasks_edge _ [] (a, b) g Hg); [intros e _ []| |exact Hte].
        assert (Hin : In (a, b) (tedges (tasks F))).
        { apply tedges_In. destruct (F_tri t Ht) as [id Hid]. exists id. apply tasks_inr; [exact F_in|].
          exists t. repeat split; auto. congruence. }
        destruct (Cn (sym (a, b))) eqn:Es; [right|left]; split; auto. discriminate.
    + intros H. apply in_map_iff in H. destruct H as [x [<- Hx]].
      destruct (ptasks_origin _ _ _ Hx) as [[_ H]|[_ [[a b] [g [Hg [-> _]]]]]].
      * apply tasks_inl in H; [|exact F_in]. destruct H as [H E]. left. split; [apply (F_in _ H)|exact E].
      * right. apply cenE_at in Hg. destruct Hg as [t [Ht [E He]]]. exists t, g, a, b. auto.
Qed.
End PERM3.
