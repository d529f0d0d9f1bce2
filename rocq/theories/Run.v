(** * Run: the cell phase of the face-split filters. *)
From Coq Require Import Permutation Sorted.
From Verif Require Import Base Mesh Filters Spec Lists AddFace SplitTri Split Points Valid.

(** One AddFaceTriangle call: parent cell id, push_back of the new id, triangle. *)
Definition item : Type := N * bool * tri.
Definition it_parent (x : item) : N := fst (fst x).
Definition it_track (x : item) : bool := snd (fst x).
Definition it_tri (x : item) : tri := snd x.

Definition tracked (E : list item) : list N :=
  flat_map (fun ie => if it_track (snd ie) then [fst ie] else []) (idx E).
Lemma tracked_snoc E x :
  tracked (E ++ [x]) = tracked E ++ (if it_track x then [N.of_nat (length E)] else []).
Proof.
  unfold tracked. rewrite idx_snoc, flat_map_app. cbn [flat_map fst snd]. rewrite app_nil_r. reflexivity.
Qed.

Section RUNPLAN.
Context {O : Ops} {D : Type}.
Notation mesh := (mesh O D).
Notation state := (@state O D).
Variable inp : mesh.

Fixpoint run_plan (E : list item) (st : state) : res state :=
  match E with
  | [] => Ok st
  | x :: t => rbind (emit inp (it_parent x) (it_track x) (it_tri x) st) (fun st' => run_plan t st')
  end.

Definition parent_data (id : N) : option D :=
  match cdata inp with Some d => oget id d | None => None end.
Definition dat (E : list item) : list (N * D) :=
  flat_map (fun ie => match parent_data (it_parent (snd ie)) with Some v => [(fst ie, v)] | None => [] end) (idx E).
Definition mk_data (l : list (N * D)) : option (omap D) := match l with [] => None | _ => Some l end.

Lemma dat_snoc E x : dat (E ++ [x]) =
  dat E ++ match parent_data (it_parent x) with Some v => [(N.of_nat (length E), v)] | None => [] end.
Proof.
  unfold dat. rewrite idx_snoc, flat_map_app. cbn [flat_map fst snd]. rewrite app_nil_r. reflexivity.
Qed.
Lemma dat_keys E k : In k (okeys (dat E)) -> k < N.of_nat (length E).
Proof.
  unfold okeys, dat. rewrite in_map_iff. intros [[k' v] [Ek H]]. cbn in Ek. subst k'.
  apply in_flat_map in H. destruct H as [[i x] [Hi H]]. cbn [fst snd] in H.
  destruct (parent_data (it_parent x)); [|destruct H]. destruct H as [H|[]]. inv H.
  apply idx_In in Hi. assert (N.to_nat k < length E)%nat by (apply nth_error_Some; congruence). lia.
Qed.

Lemma run_plan_app E E' st : run_plan (E ++ E') st = rbind (run_plan E st) (run_plan E').
Proof.
  revert st. induction E as [|x E IH]; intros st; [reflexivity|]. cbn [run_plan app].
  destruct (emit inp (it_parent x) (it_track x) (it_tri x) st); cbn [rbind]; auto.
Qed.

Lemma emit_ok (f : fstate) (out : mesh) (E1 : list item) x U (P : N -> Prop) :
  built out (map it_tri E1) -> good P (map it_tri E1 ++ it_tri x :: U) ->
  (forall v, P v -> oget v (pts out) <> None) ->
  cdata out = mk_data (dat E1) ->
  exists out', emit inp (it_parent x) (it_track x) (it_tri x) (f, out) =
      Ok (if it_track x then FState (uniform f) (csel f ++ [N.of_nat (length E1)]) (esel f) (epid f) else f, out') /\
    built out' (map it_tri (E1 ++ [x])) /\ pts out' = pts out /\ cdata out' = mk_data (dat (E1 ++ [x])).
Proof.
  intros Hb Hg HP Hcd. destruct x as [[id track] t]. cbn [it_parent it_track it_tri fst snd] in *.
  destruct (add_face_ok out (map it_tri E1) t U P Hb Hg) as [m1 [E [Hp [Hd Hb1]]]].
  { intros v Hv. apply HP. apply (g_verts _ _ Hg t); [apply in_or_app; cbn; auto|exact Hv]. }
  assert (Hg1 : good P (map it_tri E1 ++ [t])).
  { apply (good_prefix P _ U). rewrite <- app_assoc. exact Hg. }
  destruct t as [[a b] c]. cbn [tverts tdirs hd_error] in E.
  assert (Hl : get_left m1 (a, b) = N.of_nat (length E1)).
  { rewrite <- (map_length it_tri E1). eapply get_left_nth.
    - apply (i_cells _ _ _ _ Hb1).
    - apply (g_dirs _ _ Hg1).
    - rewrite nth_error_app2, Nat.sub_diag by lia. reflexivity.
    - cbn. auto. }
  assert (Hb1' : built m1 (map it_tri (E1 ++ [(id, track, (a, b, c))]))).
  { rewrite map_app. exact Hb1. }
  unfold emit. rewrite E. unfold pass_cell_data.
  assert (Hdat : exists out', match cdata inp with
      | None => m1
      | Some d => match oget id d with None => m1 | Some v => set_cell_data m1 (get_left m1 (a, b)) v end
      end = out' /\ built out' (map it_tri (E1 ++ [(id, track, (a, b, c))])) /\ pts out' = pts out /\
      cdata out' = mk_data (dat (E1 ++ [(id, track, (a, b, c))])) /\ cells out' = cells m1).
  { rewrite dat_snoc. unfold it_parent, parent_data. cbn [fst snd].
    destruct (cdata inp) as [d|]; [destruct (oget id d) as [v|]|].
    - eexists. split; [reflexivity|]. split; [|split; [exact Hp|split; [|reflexivity]]].
      + destruct Hb1' as [A1 A2 A3 A4 A5 A6 A7]. constructor; assumption.
      + unfold set_cell_data. cbn [cdata set_cdata]. rewrite Hl, Hd, Hcd.
        assert (Hset : forall l, (forall k, In k (okeys l) -> k < N.of_nat (length E1)) ->
                  oset (N.of_nat (length E1)) v l = l ++ [(N.of_nat (length E1), v)]).
        { intros l Hl'. apply oset_append. exact Hl'. }
        destruct (dat E1) as [|kv l] eqn:Edat; [reflexivity|].
        cbn [mk_data]. rewrite Hset; [reflexivity|]. intros k Hk. apply dat_keys. rewrite Edat. exact Hk.
    - exists m1. rewrite app_nil_r. split; [reflexivity|]. split; [exact Hb1'|]. split; [exact Hp|].
      split; [congruence|reflexivity].
    - exists m1. rewrite app_nil_r. split; [reflexivity|]. split; [exact Hb1'|]. split; [exact Hp|].
      split; [congruence|reflexivity]. }
  destruct Hdat as [out' [-> [Hb2 [Hp2 [Hc2 Hcells]]]]].
  exists out'. split; [|auto].
  destruct track; [|reflexivity].
  assert (get_left out' (a, b) = get_left m1 (a, b)) as ->.
  { unfold get_left, left, cells_list. rewrite Hcells. reflexivity. }
  rewrite Hl. reflexivity.
Qed.

Lemma run_plan_ok E2 : forall E1 (f : fstate) (out : mesh) (P : N -> Prop),
  built out (map it_tri E1) -> good P (map it_tri (E1 ++ E2)) ->
  (forall v, P v -> oget v (pts out) <> None) ->
  cdata out = mk_data (dat E1) -> csel f = tracked E1 ->
  exists out', run_plan E2 (f, out) = Ok (FState (uniform f) (tracked (E1 ++ E2)) (esel f) (epid f), out') /\
    built out' (map it_tri (E1 ++ E2)) /\ pts out' = pts out /\ cdata out' = mk_data (dat (E1 ++ E2)).
Proof.
  induction E2 as [|x E2 IH]; intros E1 f out P Hb Hg HP Hcd Hcs.
  - exists out. cbn [run_plan]. rewrite app_nil_r. rewrite <- Hcs. split; [destruct f; reflexivity|]. auto.
  - cbn [run_plan].
    destruct (emit_ok f out E1 x (map it_tri E2) P Hb) as [out1 [E [Hb1 [Hp1 Hc1]]]].
    { rewrite map_app in Hg. exact Hg. }
    { exact HP. }
    { exact Hcd. }
    rewrite E. cbn [rbind].
    set (f1 := if it_track x then _ else f) in *.
    assert (Hf1 : uniform f1 = uniform f /\ esel f1 = esel f /\ epid f1 = epid f).
    { unfold f1. destruct (it_track x); auto. }
    destruct Hf1 as [F1 [F2 F3]].
    destruct (IH (E1 ++ [x]) f1 out1 P) as [out' [E' [Hb' [Hp' Hc']]]].
    + exact Hb1.
    + rewrite <- app_assoc. exact Hg.
    + rewrite Hp1. exact HP.
    + exact Hc1.
    + rewrite tracked_snoc, <- Hcs. unfold f1. destruct (it_track x); [reflexivity|]. rewrite app_nil_r. reflexivity.
    + rewrite <- app_assoc in *. exists out'. rewrite E', F1, F2, F3. split; [reflexivity|].
      split; [exact Hb'|]. split; [congruence|exact Hc'].
Qed.

(** ** The plan of the face-split filters *)
Definition plan_cell (Sp : N -> N -> option N) (u : bool) (it : N * tri) : list item :=
  let '(id, (a, b, c)) := it in
  map (fun t => (id, all_three (Sp a b) (Sp b c) (Sp c a) && negb u, t))
      (split_triangle a b c (Sp a b) (Sp b c) (Sp c a)).
Definition plan (Sp : N -> N -> option N) (u : bool) (F : list (N * tri)) : list item :=
  flat_map (plan_cell Sp u) F.

Lemma plan_tris Sp u F : map it_tri (plan Sp u F) = split_tris (map snd F) Sp.
Proof.
  unfold plan, split_tris. induction F as [|[id [[a b] c]] F IH]; [reflexivity|].
  cbn [flat_map map snd]. rewrite map_app, IH. f_equal. unfold plan_cell. rewrite map_map. cbn [split_tri].
  apply map_id.
Qed.

Lemma emit_keeps id track t st st' : emit inp id track t st = Ok st' ->
  epid (fst st') = epid (fst st) /\ uniform (fst st') = uniform (fst st) /\ esel (fst st') = esel (fst st).
Proof.
  unfold emit. destruct t as [[a b] c]. destruct st as [f out]. destruct (add_face out [a; b; c]) as [o e].
  destruct track; [destruct e|]; intros H; inv H; auto.
Qed.
Lemma run_plan_keeps E : forall st st', run_plan E st = Ok st' ->
  epid (fst st') = epid (fst st) /\ uniform (fst st') = uniform (fst st) /\ esel (fst st') = esel (fst st).
Proof.
  induction E as [|x E IH]; intros st st' H; cbn [run_plan] in H; [inv H; auto|].
  destruct (emit inp (it_parent x) (it_track x) (it_tri x) st) as [s| | |] eqn:Es; try discriminate.
  cbn [rbind] in H. apply emit_keeps in Es. apply IH in H. intuition congruence.
Qed.

Lemma emit_all_plan id track l st :
  emit_all inp id track l st = run_plan (map (fun t => (id, track, t)) l) st.
Proof.
  revert st. induction l as [|t l IH]; intros st; [reflexivity|]. cbn [emit_all map run_plan].
  unfold it_parent, it_track, it_tri. cbn [fst snd].
  destruct (emit inp id track t st); cbn [rbind]; auto.
Qed.

Lemma cells_loop_plan EP u (Sp : N -> N -> option N) F : forall fuel st,
  (forall id t, In (id, t) F -> forall a b, In (a, b) (tdirs t) -> eget_opt (find_edge inp a b) EP = Sp a b) ->
  epid (fst st) = EP -> uniform (fst st) = u -> (length F < fuel)%nat ->
  cells_loop fuel inp (map (fun it => (fst it, poly (snd it))) F) st = run_plan (plan Sp u F) st.
Proof.
  induction F as [|[id [[a b] c]] F IH]; intros fuel st HSp HE Hu Hfuel.
  - destruct fuel; [cbn in Hfuel; lia|]. reflexivity.
  - destruct fuel as [|fuel]; [cbn in Hfuel; lia|]. cbn [length] in Hfuel.
    cbn [cells_loop map fst snd obind poly tverts as_triangle].
    unfold plan. cbn [flat_map]. rewrite run_plan_app. unfold split_cell. rewrite emit_all_plan.
    rewrite HE, Hu.
    rewrite (HSp id (a, b, c)) by (cbn; auto). rewrite (HSp id (a, b, c)) by (cbn; auto).
    rewrite (HSp id (a, b, c)) by (cbn; auto).
    match goal with |- rbind ?x _ = rbind ?y _ => change y with x; destruct x as [s| | |] eqn:Es end;
      cbn [rbind]; try reflexivity.
    apply run_plan_keeps in Es. destruct Es as [E1 [E2 _]].
    apply IH; try congruence; [|lia].
    intros id' t Ht. apply (HSp id'). cbn. auto.
Qed.

(** ** The cell phase on a valid mesh *)
Lemma cells_phase fuel f0 P0 val (Is : list dedge) :
  valid inp -> dense inp -> copied inp P0 ->
  let V := osize (pts inp) in
  let T' := split_tris (tris inp) (sp V Is) in
  let E := plan (sp V Is) (uniform f0) (faces inp) in
  (length (tris inp) < fuel)%nat ->
  exists out', generate_output_cells fuel inp (st_of f0 empty_mesh V P0 val Is) =
      Ok (FState (uniform f0) (tracked E) (esel f0) (ep V Is), out') /\
    built out' T' /\ pts out' = P0 ++ idx_from V (map val Is) /\ cdata out' = mk_data (dat E).
Proof.
  intros Hv Hd Hcop V T' E Hfuel.
  assert (HT : map it_tri E = T') by apply plan_tris.
  pose proof (valid_splitting inp V Is Hv Hd eq_refl) as HS.
  unfold generate_output_cells. rewrite (valid_cells _ Hv).
  rewrite (cells_loop_plan (ep V Is) (uniform f0) (sp V Is)).
  - set (st := (_, _)).
    assert (Hdm : densemap (V + N.of_nat (length (map val Is))) (P0 ++ idx_from V (map val Is))).
    { apply sorted_app_idx. apply copied_densemap; auto. }
    rewrite map_length in Hdm.
    destruct (run_plan_ok E [] (fst st) (snd st) (fun v => v < V + N.of_nat (length Is))) as [out' [Er [Hb [Hp Hc]]]].
    + unfold st. cbn. apply built_empty.
    + cbn [app]. rewrite HT. apply (split_good _ _ _ HS).
      * cbn. intros x Hx. lia.
      * intros a b m Hm. apply sp_range_any in Hm. lia.
    + intros v Hv'. unfold st. cbn. apply (densemap_get _ _ _ Hdm). exact Hv'.
    + reflexivity.
    + reflexivity.
    + exists out'. unfold st in Er. cbn in Er. rewrite <- HT. split; [exact Er|]. split; [exact Hb|].
      split; [rewrite Hp; reflexivity|exact Hc].
  - intros id t Ht a b Hab. unfold find_edge.
    assert (memN b (ring inp a) = true) as ->.
    { apply memN_In. apply (v_face_edges _ Hv). apply dirs_tri. exists t. split; [|exact Hab].
      unfold tris. apply in_map_iff. exists (id, t). auto. }
    reflexivity.
  - reflexivity.
  - reflexivity.
  - unfold tris in Hfuel. rewrite map_length in Hfuel. exact Hfuel.
Qed.

(** ** A built mesh over dense points is valid *)
Lemma built_faces (out : mesh) T : built out T -> T <> [] -> faces out = idx T.
Proof.
  intros Hb Hne. unfold faces. rewrite (i_some _ _ _ _ Hb Hne), (i_cells _ _ _ _ Hb). unfold idx.
  generalize 0 as k. clear. induction T as [|[[a b] c] T IH]; intros k; [reflexivity|].
  cbn [map]. rewrite !idx_from_cons. cbn [flat_map fst snd map app]. rewrite IH. reflexivity.
Qed.
Lemma built_tris (out : mesh) T : built out T -> tris out = T.
Proof.
  intros Hb. destruct T as [|t T].
  - unfold tris, faces. pose proof (i_cells _ _ _ _ Hb) as Hc. unfold cells_list in Hc.
    destruct (cells out); [rewrite Hc|]; reflexivity.
  - unfold tris. rewrite (built_faces _ _ Hb) by discriminate. unfold idx. apply idx_from_snd.
Qed.

Lemma built_valid (out : mesh) T W :
  built out T -> T <> [] -> good (fun x => x < W) T ->
  (forall t u, In t T -> In u T -> same_verts t u -> t = u) ->
  densemap W (pts out) -> (forall id p, oget id (pts out) = Some p -> length p = kdim O) ->
  valid out /\ dense out.
Proof.
  intros Hb Hne Hg Htw Hdm Hdim.
  assert (Ht : tris out = T) by (apply built_tris; exact Hb).
  destruct Hb as [H1 H2 H3 H4 H5 H6 [L [HL [HndL [La [Lb Lc]]]]]].
  assert (Hpt : forall x, oget x (pts out) <> None <-> x < W) by (intros; apply densemap_get; exact Hdm).
  assert (Hne' : forall a b, nbr T a b -> a <> b /\ a < W /\ b < W).
  { assert (Hd : forall a b, In (a, b) (dirs T) -> a <> b /\ a < W /\ b < W).
    { intros a b H. apply dirs_tri in H. destruct H as [t [Hin H]].
      destruct (tdirs_verts _ _ _ H) as [Va Vb]. pose proof (g_proper _ _ Hg t Hin) as Hp.
      split; [|split; eapply (g_verts _ _ Hg); eauto].
      destruct t as [[x y] z]. cbn in *. in_cases H; inv H; intuition congruence. }
    intros a b [H|H]; apply Hd in H; intuition congruence. }
  destruct Hdm as [Hs [Hz Hk]].
  split.
  - split; [constructor|rewrite Ht; exact Htw].
    + exact Hs.
    + exact Hdim.
    + exists (cells_list out). split; [apply H2; exact Hne|]. intros id c Hin. rewrite H1 in Hin.
      apply idx_In in Hin. rewrite nth_error_map in Hin. destruct (nth_error T (N.to_nat id)) as [[[x y] z]|]; [|discriminate].
      inv Hin. exists x, y, z. reflexivity.
    + intros cs Hcs. rewrite (H2 Hne) in Hcs. inv Hcs. rewrite H1. apply idx_from_sorted.
    + rewrite Ht. apply (g_proper _ _ Hg).
    + rewrite Ht. intros t x Hin Hx. apply Hpt. apply (g_verts _ _ Hg t x Hin Hx).
    + rewrite Ht. apply (g_dirs _ _ Hg).
    + exact H4.
    + intros a Ha. apply H5 in Ha. apply Hne' in Ha. tauto.
    + intros a b Hab. apply H5. apply H5 in Hab. apply nbr_sym. exact Hab.
    + intros a b Hab. apply H5 in Hab. apply Hpt. apply (Hne' a b Hab).
    + rewrite Ht. intros a b Hab. apply H5. left. exact Hab.
    + rewrite Ht. exact H6.
    + exists (idx (map Some L)). split; [exact HL|]. split; [apply idx_from_sorted|]. split; [|split].
      * intros id o Ho. apply idx_In in Ho. rewrite nth_error_map in Ho.
        destruct (nth_error L (N.to_nat id)) as [[a b]|] eqn:E; [|discriminate]. inv Ho.
        exists a, b. split; [reflexivity|]. apply H5. apply (La (a, b)). eapply nth_error_In; eauto.
      * intros a b Hab. apply H5 in Hab. destruct (Lb a b Hab) as [e [He Hu]].
        apply In_nth_error in He. destruct He as [i Hi]. exists (N.of_nat i), e. split; [|exact Hu].
        apply idx_In. rewrite Nat2N.id, nth_error_map, Hi. reflexivity.
      * intros i j e g Hi Hj Hu. apply idx_In in Hi. apply idx_In in Hj.
        rewrite nth_error_map in Hi, Hj.
        destruct (nth_error L (N.to_nat i)) as [e'|] eqn:Ei; [|discriminate].
        destruct (nth_error L (N.to_nat j)) as [g'|] eqn:Ej; [|discriminate]. inv Hi. inv Hj.
        assert (e = g) by (apply Lc; auto; eapply nth_error_In; eauto). subst g.
        assert (Hij : N.to_nat i = N.to_nat j).
        { apply (proj1 (NoDup_nth_error L) HndL); [apply nth_error_Some; congruence|congruence]. }
        lia.
  - intros id. rewrite Hpt, Hz. tauto.
Qed.
End RUNPLAN.
