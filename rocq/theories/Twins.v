(** * Twins: meshes with two triangles on the same three points.

    AddFaceTriangle refuses a triangle one of whose directed edges already has a face on its left.
    The children of two triangles on the same three points compete for directed edges, so some of
    them are refused: silently in a uniform run, by a null pointer in an adaptive one. *)
From Coq Require Import Permutation Sorted.
From Verif Require Import Base Mesh Filters Spec SpecSub Lists AddFace SplitTri Split Points Valid Run Update Struct Count Face PtsAny SpecRoot3 Root3 Root3Run Root3Main.

Section TWINS.
Context {O : Ops} {D : Type}.
Notation mesh := (mesh O D).
Notation state := (@state O D).
Implicit Types inp out : mesh.

(** ** What AddFaceTriangle accepts *)
Lemma add_missing_cells l : forall m : mesh, cells (fst (add_missing_edges m l)) = cells m.
Proof.
  induction l as [|[a b] l IH]; intros m; cbn [add_missing_edges]; [reflexivity|].
  destruct (find_edge m a b); [apply IH|]. unfold add_edge.
  destruct (ins_ring _ (ring m a) b); [|reflexivity]. destruct (ins_ring _ (ring m b) a); [|reflexivity].
  rewrite IH. reflexivity.
Qed.
Lemma link_corners_cells l : forall m m' : mesh, link_corners m l = Some m' -> cells m' = cells m.
Proof.
  induction l as [|[[a b] c] l IH]; intros m m'; cbn [link_corners]; [intros H; inv H; reflexivity|].
  destruct (link_ring _ (ring m b) c a) as [r|]; [|discriminate]. intros H. apply IH in H. exact H.
Qed.

Lemma poly_dirs_tri a b c : poly_dirs [a; b; c] = tdirs (a, b, c).
Proof. reflexivity. Qed.

Lemma add_face_cases (m : mesh) (T : list tri) (t : tri) : cells_list m = idx (map poly T) -> NoDup (dirs T) ->
  (snd (add_face m (tverts t)) = None /\ cells_list (fst (add_face m (tverts t))) = idx (map poly T)) \/
  (snd (add_face m (tverts t)) <> None /\ cells_list (fst (add_face m (tverts t))) = idx (map poly (T ++ [t])) /\
   NoDup (dirs (T ++ [t]))).
Proof.
  intros Hc Hnd. destruct t as [[a b] c]. cbn [tverts]. unfold add_face.
  destruct (nodupb [a; b; c]) eqn:En; cbn [negb]; [|left; auto].
  destruct (forallb (fun p => omem p (pts m)) [a; b; c]); cbn [negb]; [|left; auto].
  destruct (existsb (left_set m) (poly_dirs [a; b; c])) eqn:Ee; [left; auto|].
  pose proof (add_missing_cells (poly_dirs [a; b; c]) m) as Hm.
  destruct (add_missing_edges m (poly_dirs [a; b; c])) as [m1 ok]. cbn [fst] in Hm.
  assert (Hc1 : cells_list m1 = idx (map poly T)) by (unfold cells_list in *; rewrite Hm; exact Hc).
  destruct ok; [|left; auto].
  destruct (link_corners m1 (poly_corners [a; b; c])) as [m2|] eqn:El; [|left; auto].
  apply link_corners_cells in El.
  assert (Hc2 : cells_list m2 = idx (map poly T)) by (unfold cells_list in *; rewrite El; exact Hc1).
  right. split; [discriminate|]. split.
  - cbn [fst]. unfold push_cell. rewrite Hc2. unfold cells_list at 1. cbn [cells set_cells].
    rewrite map_app. cbn [map]. change (Some (Poly [a; b; c])) with (poly (a, b, c)). apply oset_idx.
  - rewrite dirs_app, dirs_one. apply nodupb_NoDup in En. apply NoDup_app_intro.
    + exact Hnd.
    + inversion En as [|? ? H1 H2]. inversion H2 as [|? ? H3 H4]. cbn in H1, H3.
      cbn [tdirs]. repeat constructor; cbn; intuition congruence.
    + intros e He Ht. apply Bool.not_true_iff_false in Ee. apply Ee. apply existsb_exists. exists e.
      split; [exact Ht|]. apply (left_set_dirs m T e Hc). exact He.
Qed.

Lemma pass_cell_data_cells inp id e out : cells_list (pass_cell_data inp id e out) = cells_list out.
Proof.
  unfold pass_cell_data. destruct e; [|reflexivity]. destruct (cdata inp) as [d'|]; [|reflexivity].
  destruct (oget id d'); reflexivity.
Qed.

(** The triangles of the mesh after a sequence of AddFaceTriangle calls: a part of those asked for,
    all of them exactly when no call was refused. *)
Lemma run_plan_cells inp E : forall (T : list tri) (st st' : state), run_plan inp E st = Ok st' ->
  cells_list (snd st) = idx (map poly T) -> NoDup (dirs T) ->
  exists T', cells_list (snd st') = idx (map poly (T ++ T')) /\ NoDup (dirs (T ++ T')) /\
    (length T' <= length E)%nat /\ (length T' = length E -> T' = map it_tri E) /\
    (forall x, In x E -> it_track x = true -> In (it_tri x) T').
Proof.
  induction E as [|x E IH]; intros T st st' H Hc Hnd; cbn [run_plan] in H.
  - inv H. exists []. rewrite app_nil_r. cbn [length map]. split; [exact Hc|]. split; [exact Hnd|]. split; [lia|]. split; [auto|]. intros x [].
  - destruct (emit inp (it_parent x) (it_track x) (it_tri x) st) as [s| | |] eqn:Es; try discriminate.
    cbn [rbind] in H. destruct x as [[id track] t]. unfold it_parent, it_track, it_tri in Es. cbn [fst snd] in Es.
    unfold emit in Es. destruct t as [[a b] c] eqn:Et. destruct st as [f out]. cbn [snd] in Hc.
    destruct (add_face_cases out T t Hc Hnd) as [[Hn Hcl]|[Hn [Hcl Hnd']]];
      rewrite Et in Hn, Hcl; cbn [tverts] in Hn, Hcl; destruct (add_face out [a; b; c]) as [o e]; cbn [fst snd] in Hn, Hcl.
    + subst e. destruct track; [discriminate|]. inv Es.
      destruct (IH T (f, pass_cell_data inp id None o) st' H) as [T' [H1 [H2 [H3 [H4 H5]]]]].
      { cbn [snd]. rewrite pass_cell_data_cells. exact Hcl. } { exact Hnd. }
      exists T'. split; [exact H1|]. split; [exact H2|]. cbn [length]. split; [lia|]. split; [lia|].
      intros y [<-|Hy] Hy'; [discriminate|]. apply H5; assumption.
    + assert (Hs : cells_list (snd s) = idx (map poly (T ++ [t]))).
      { cbv zeta in Es. rewrite <- Et in Hcl. pose proof (pass_cell_data_cells inp id e o) as Hpd. set (o2 := pass_cell_data inp id e o) in *. clearbody o2. destruct o2 as [p1 p2 p3 p4 p5].
        destruct track; [destruct e as [e|]; [|discriminate]|]; injection Es as <-; cbn [snd]; exact (eq_trans Hpd Hcl). }
      destruct (IH (T ++ [t]) s st' H Hs Hnd') as [T' [H1 [H2 [H3 [H4 H5]]]]].
      exists (t :: T'). rewrite <- app_assoc in H1, H2. cbn [app] in H1, H2. split; [exact H1|]. split; [exact H2|].
      cbn [length map]. split; [lia|]. split.
      * intros Hl. rewrite (H4 ltac:(lia)), Et. reflexivity.
      * intros y [<-|Hy] Hy'; [left; subst t; reflexivity|]. right. apply H5; assumption.
Qed.

Lemma run_plan_outcome inp E : forall st : state,
  (exists st', run_plan inp E st = Ok st') \/ run_plan inp E st = Undef NullDeref.
Proof.
  induction E as [|x E IH]; intros st; cbn [run_plan]; [eauto|].
  unfold emit. destruct (it_tri x) as [[a b] c]. destruct st as [f out]. destruct (add_face out [a; b; c]) as [o e].
  destruct (it_track x); [destruct e|]; cbn [rbind]; auto.
Qed.
Lemma run_plan_untracked inp E : (forall x, In x E -> it_track x = false) -> forall st : state,
  exists st', run_plan inp E st = Ok st'.
Proof.
  induction E as [|x E IH]; intros Hx st; cbn [run_plan]; [eauto|].
  unfold emit. destruct (it_tri x) as [[a b] c]. destruct st as [f out]. destruct (add_face out [a; b; c]) as [o e].
  rewrite (Hx x) by (left; reflexivity). cbn [rbind]. apply IH. intros y Hy. apply Hx. right. exact Hy.
Qed.

Lemma dirs_share (T : list tri) t u e : NoDup (dirs T) -> In t T -> In u T -> In e (tdirs t) -> In e (tdirs u) -> t = u.
Proof.
  intros Hnd Ht Hu He He'. apply In_nth_error in Ht. apply In_nth_error in Hu. destruct Ht as [i Hi], Hu as [j Hj].
  assert (i = j) by (eapply (NoDup_dirs_index T i j); eauto). subst j. congruence.
Qed.

(** ** Two triangles on the same three points have opposite orientations *)
Lemma twin_dirs inp t u : sound inp -> In t (tris inp) -> In u (tris inp) -> t <> u -> same_verts t u ->
  forall e, In e (tdirs t) -> In (sym e) (tdirs u).
Proof.
  intros Hv Ht Hu Hne Hs e He.
  pose proof (v_proper _ Hv t Ht) as Pt. pose proof (v_proper _ Hv u Hu) as Pu.
  assert (Hno : ~ In e (tdirs u)).
  { intros H. apply Hne. exact (dirs_share _ t u e (v_dirs _ Hv) Ht Hu He H). }
  destruct t as [[a b] c], u as [[x y] z]. unfold same_verts in Hs. cbn [tverts] in Hs.
  pose proof (proj1 (Hs a) ltac:(cbn; auto)) as Ha. pose proof (proj1 (Hs b) ltac:(cbn; auto)) as Hb.
  pose proof (proj1 (Hs c) ltac:(cbn; auto)) as Hc. cbn in Ha, Hb, Hc, Pt, Pu.
  destruct Pt as [P1 [P2 P3]]. destruct Pu as [Q1 [Q2 Q3]].
  destruct Ha as [Ha|[Ha|[Ha|[]]]], Hb as [Hb|[Hb|[Hb|[]]]], Hc as [Hc|[Hc|[Hc|[]]]]; subst; try congruence;
    cbn in He, Hno |- *; destruct He as [<-|[<-|[<-|[]]]]; cbn [sym fst snd]; tauto.
Qed.

(** ** Four-way and partial splits *)
Definition st_run k f inp P0 : state :=
  let st := st_of (set_uniform f (whole k f)) empty_mesh (osize (pts inp)) P0 (val_of (new_point k inp)) (inserted k f inp) in
  (set_cells_to_be_subdivided (fst st) [], snd st).
Lemma update_plan k f inp fuel : sound inp -> dense inp -> ready k f inp -> (length (tris inp) < fuel)%nat ->
  exists P0, update k fuel f inp =
    run_plan inp (plan (sp (osize (pts inp)) (inserted k f inp)) (whole k f) (faces inp)) (st_run k f inp P0).
Proof.
  intros Hv Hd Hr Hfuel.
  assert (Hgen : exists P0, generate_output_points k inp (f, empty_mesh) =
     Ok (st_of (set_uniform f (whole k f)) empty_mesh (osize (pts inp)) P0 (val_of (new_point k inp)) (inserted k f inp))).
  { destruct k as [s|s]; cbn [whole inserted new_point generate_output_points].
    - assert (Hfs : face_split s) by (intros ->; destruct Hr as [H _]; apply H; reflexivity).
      pose proof Hr as [_ [_ Hkn]].
      destruct (points_phase_c s f inp Hv Hd Hfs Hkn (ready_copy _ _ _ Hr)) as [P0 [E _]]. exists P0. exact E.
    - destruct (edges_ready_of s f inp Hv Hr) as [He Hu]. exists (pts inp). apply points_phase_e; auto.
      intros ->. apply Hr. right. reflexivity. }
  destruct Hgen as [P0 E]. exists P0. unfold update. rewrite E. cbn [rbind].
  assert (Hk : forall st, generate_cells_of k fuel inp st = generate_output_cells fuel inp st).
  { intros st. destruct k as [s|s]; [|reflexivity]. destruct s; try reflexivity. exfalso. apply (proj1 Hr). reflexivity. }
  rewrite Hk. unfold generate_output_cells. rewrite (valid_cells _ Hv).
  rewrite (cells_loop_plan inp (ep (osize (pts inp)) (inserted k f inp)) (whole k f)
             (sp (osize (pts inp)) (inserted k f inp))); [reflexivity| | | |].
  - intros id t Ht a b Hab. unfold find_edge.
    assert (memN b (ring inp a) = true) as ->.
    { apply memN_In. apply (v_face_edges _ Hv). apply dirs_tri. exists t. split; [|exact Hab].
      unfold tris. apply in_map_iff. exists (id, t). auto. }
    reflexivity.
  - reflexivity.
  - reflexivity.
  - unfold tris in Hfuel. rewrite map_length in Hfuel. exact Hfuel.
Qed.

(** Where all three edges are split, a child of one twin and a child of the other share a
    directed edge. *)
Lemma split_clash Sp (t u : tri) : proper t -> (forall a b, Sp a b = Sp b a) ->
  (forall e, In e (tdirs t) -> Sp (fst e) (snd e) <> None) ->
  (forall a b m, Sp a b = Some m -> ~ In m (tverts t)) ->
  (forall e, In e (tdirs t) -> In (sym e) (tdirs u)) ->
  exists x y e, In x (split_tri Sp t) /\ In y (split_tri Sp u) /\ x <> y /\ In e (tdirs x) /\ In e (tdirs y).
Proof.
  intros Hp Hsy Hall Hold Htw. destruct t as [[a b] c]. destruct u as [[x y] z]. destruct Hp as [P1 [P2 P3]].
  pose proof (Hall (a, b) ltac:(cbn; auto)) as Hab. pose proof (Hall (b, c) ltac:(cbn; auto)) as Hbc.
  pose proof (Hall (c, a) ltac:(cbn; auto)) as Hca. cbn [fst snd] in *.
  destruct (Sp a b) as [p|] eqn:Ep; [|congruence]. destruct (Sp b c) as [q|] eqn:Eq; [|congruence].
  destruct (Sp c a) as [r|] eqn:Er; [|congruence].
  pose proof Ep as Ep'. pose proof Eq as Eq'. pose proof Er as Er'. rewrite Hsy in Ep', Eq', Er'.
  pose proof (Hold _ _ _ Ep) as Op. pose proof (Hold _ _ _ Eq) as Oq. pose proof (Hold _ _ _ Er) as Or. cbn in Op, Oq, Or.
  pose proof (Htw (a, b) ltac:(cbn; auto)) as H1. pose proof (Htw (b, c) ltac:(cbn; auto)) as H2.
  pose proof (Htw (c, a) ltac:(cbn; auto)) as H3. cbn in H1, H2, H3.
  exists (a, p, r).
  assert (Hc : (x, y, z) = (b, a, c) \/ (x, y, z) = (a, c, b) \/ (x, y, z) = (c, b, a)).
  { clear - H1 H2 H3 P1 P2 P3. destruct H1 as [H1|[H1|[H1|[]]]], H2 as [H2|[H2|[H2|[]]]], H3 as [H3|[H3|[H3|[]]]];
      injection H1; injection H2; injection H3; intros; subst; try congruence; auto. }
  cbn [split_tri].
  rewrite Ep, Eq, Er.
  destruct Hc as [E|[E|E]]; injection E as -> -> ->; rewrite ?Ep', ?Eq', ?Er';
   cbn [split_triangle split_three];
   [exists (p, r, q)|exists (r, q, p)|exists (q, p, r)];
   exists (p, r); (split; [cbn; tauto|]); (split; [cbn; tauto|]); (split; [intros E'; injection E'; intros; subst; tauto|]);
   cbn; tauto.
Qed.

Lemma nF_idx out (T : list tri) : cells_list out = idx (map poly T) -> nF out = Z.of_nat (length T).
Proof.
  intros H. unfold nF. f_equal. transitivity (length (cells_list out)); [reflexivity|].
  rewrite H, idx_length, map_length. reflexivity.
Qed.
Lemma nF_faces inp : sound inp -> nF inp = Z.of_nat (length (faces inp)).
Proof. intros Hv. unfold nF. rewrite (valid_cells _ Hv), map_length. reflexivity. Qed.

Lemma clash_in_plan k f inp t u : sound inp -> dense inp -> twins inp t u ->
  (forall e, In e (tdirs t) -> to_split k f inp (fst e) (snd e)) ->
  exists x y e, x <> y /\ In e (tdirs x) /\ In e (tdirs y) /\
    forall z, z = x \/ z = y ->
    exists i w, In (i, w) (faces inp) /\ (w = t \/ w = u) /\
      In (i, negb (whole k f), z) (plan (sp (osize (pts inp)) (inserted k f inp)) (whole k f) (faces inp)).
Proof.
  intros Hv Hd [Ht [Hu [Hne Hs]]] Hall. set (V := osize (pts inp)). set (Is := inserted k f inp).
  assert (Hall' : forall e, In e (tdirs t) -> sp V Is (fst e) (snd e) <> None).
  { intros e He. apply sp_not_None. apply inserted_spec; auto. destruct k; exact I. }
  assert (Hu' : forall e, In e (tdirs u) -> sp V Is (fst e) (snd e) <> None).
  { intros e He. assert (Hs' : same_verts u t) by (intros x; symmetry; apply Hs).
    pose proof (twin_dirs inp u t Hv Hu Ht (not_eq_sym Hne) Hs' e He) as H. apply Hall' in H.
    destruct e as [a b]. cbn [sym fst snd] in *. rewrite sp_sym_any. exact H. }
  destruct (split_clash (sp V Is) t u) as [x [y [e [Hx [Hy [Hxy [He He']]]]]]].
  - apply (v_proper _ Hv). exact Ht.
  - intros a b. apply sp_sym_any.
  - exact Hall'.
  - intros a b m Hm Hin. apply sp_range_any in Hm. assert (m < V); [|lia]. apply Hd.
    apply (v_verts _ Hv t m Ht Hin).
  - apply (twin_dirs inp t u Hv Ht Hu Hne Hs).
  - exists x, y, e. split; [exact Hxy|]. split; [exact He|]. split; [exact He'|].
    assert (Hplan : forall w z, In w (tris inp) -> (forall e, In e (tdirs w) -> sp V Is (fst e) (snd e) <> None) ->
              In z (split_tri (sp V Is) w) ->
              exists i, In (i, w) (faces inp) /\ In (i, negb (whole k f), z) (plan (sp V Is) (whole k f) (faces inp))).
    { intros w z Hw Hsp Hz. unfold tris in Hw. apply in_map_iff in Hw. destruct Hw as [[i w'] [Ew Hw]]. cbn in Ew. subst w'.
      exists i. split; [exact Hw|]. apply in_flat_map. exists (i, w). split; [exact Hw|].
      destruct w as [[a b] c]. cbn [plan_cell].
      pose proof (Hsp (a, b) ltac:(cbn; auto)) as H1. pose proof (Hsp (b, c) ltac:(cbn; auto)) as H2.
      pose proof (Hsp (c, a) ltac:(cbn; auto)) as H3. cbn [fst snd] in H1, H2, H3.
      apply in_map_iff. exists z. split; [|exact Hz].
      destruct (sp V Is a b); [|congruence]. destruct (sp V Is b c); [|congruence]. destruct (sp V Is c a); [|congruence].
      reflexivity. }
    intros z [Hz|Hz]; subst z.
    + destruct (Hplan t x Ht Hall' Hx) as [i [Hi Hp]]. exists i, t. auto.
    + destruct (Hplan u y Hu Hu' Hy) as [i [Hi Hp]]. exists i, u. auto.
Qed.

Lemma C43_twins_adaptive_sec k f inp t u : sound inp -> dense inp -> ready k f inp ->
  (match k with CellF _ => csel f <> [] | EdgeF _ => esel f <> [] end) -> twins inp t u ->
  (forall e, In e (tdirs t) -> to_split k f inp (fst e) (snd e)) ->
  exists n, forall fuel, (n <= fuel)%nat -> update k fuel f inp = Undef NullDeref.
Proof.
  intros Hv Hd Hr Hsel Htw Hall. exists (S (length (tris inp))). intros fuel Hfuel.
  destruct (update_plan k f inp fuel Hv Hd Hr ltac:(lia)) as [P0 ->].
  destruct (run_plan_outcome inp (plan (sp (osize (pts inp)) (inserted k f inp)) (whole k f) (faces inp)) (st_run k f inp P0))
    as [[st' E]|E]; [|exact E]. exfalso.
  assert (Hw : whole k f = false).
  { unfold whole. destruct k; destruct (is_nil _) eqn:En; try reflexivity; apply is_nil_true in En; contradiction. }
  destruct (run_plan_cells inp _ [] _ _ E) as [T' [_ [Hnd [_ [_ Htr]]]]]; [reflexivity|constructor|].
  cbn [app] in Hnd.
  destruct (clash_in_plan k f inp t u Hv Hd Htw Hall) as [x [y [e [Hxy [Hx [Hy Hin]]]]]].
  apply Hxy. apply (dirs_share T' x y e); auto.
  - destruct (Hin x (or_introl eq_refl)) as [i [w [_ [_ Hp]]]]. apply Htr in Hp; [exact Hp|]. rewrite Hw. reflexivity.
  - destruct (Hin y (or_intror eq_refl)) as [i [w [_ [_ Hp]]]]. apply Htr in Hp; [exact Hp|]. rewrite Hw. reflexivity.
Qed.

Lemma plan_length4 Sp u F : (forall it e, In it F -> In e (tdirs (snd it)) -> Sp (fst e) (snd e) <> None) ->
  length (plan Sp u F) = (4 * length F)%nat.
Proof.
  induction F as [|[id [[a b] c]] F IH]; intros H; [reflexivity|]. unfold plan. cbn [flat_map]. rewrite app_length.
  fold (plan Sp u F). rewrite IH by (intros it e Hi; apply H; right; exact Hi).
  pose proof (H (id, (a, b, c)) (a, b) (or_introl eq_refl) ltac:(cbn; auto)) as H1.
  pose proof (H (id, (a, b, c)) (b, c) (or_introl eq_refl) ltac:(cbn; auto)) as H2.
  pose proof (H (id, (a, b, c)) (c, a) (or_introl eq_refl) ltac:(cbn; auto)) as H3. cbn [fst snd] in H1, H2, H3.
  cbn [plan_cell]. rewrite map_length. destruct (Sp a b); [|congruence]. destruct (Sp b c); [|congruence].
  destruct (Sp c a); [|congruence]. cbn [length split_triangle split_three]. lia.
Qed.

Lemma uniform_to_split k f inp t e : sound inp ->
  (match k with CellF _ => csel f = [] | EdgeF _ => esel f = [] end) -> In t (tris inp) -> In e (tdirs t) ->
  to_split k f inp (fst e) (snd e).
Proof.
  intros Hv Hsel Ht He. destruct e as [a b]. destruct k; cbn [to_split fst snd].
  - exists t. split; [left; auto|left; exact He].
  - left. split; [exact Hsel|]. apply (v_face_edges _ Hv). apply dirs_tri. eauto.
Qed.

Lemma C43_twins_uniform_sec k f inp t u : sound inp -> dense inp -> ready k f inp ->
  (match k with CellF _ => csel f = [] | EdgeF _ => esel f = [] end) -> twins inp t u ->
  exists n f' out, (forall fuel, (n <= fuel)%nat -> update k fuel f inp = Ok (f', out)) /\
    (nF out < 4 * nF inp)%Z.
Proof.
  intros Hv Hd Hr Hsel Htw.
  set (E := plan (sp (osize (pts inp)) (inserted k f inp)) (whole k f) (faces inp)).
  assert (Hw : whole k f = true) by (unfold whole; destruct k; rewrite Hsel; reflexivity).
  destruct (update_plan k f inp (S (length (tris inp))) Hv Hd Hr ltac:(lia)) as [P0 E0]. fold E in E0.
  destruct (run_plan_untracked inp E) with (st := st_run k f inp P0) as [[f' out] E1].
  { intros x Hx. unfold E, plan in Hx. apply in_flat_map in Hx. destruct Hx as [[i [[a b] c]] [_ Hx]].
    unfold plan_cell in Hx. apply in_map_iff in Hx. destruct Hx as [z [<- _]]. unfold it_track. cbn [fst snd].
    rewrite Hw. apply Bool.andb_false_r. }
  exists (S (length (tris inp))), f', out. split.
  - rewrite E1 in E0. intros fuel Hf. transitivity (update k (S (length (tris inp))) f inp); [|exact E0].
    replace fuel with (S (length (tris inp)) + (fuel - S (length (tris inp))))%nat by lia. apply update_mono. congruence.
  - destruct (run_plan_cells inp E [] _ _ E1) as [T' [Hc [Hnd [Hle [Heq _]]]]]; [reflexivity|constructor|].
    cbn [app snd] in Hc, Hnd. rewrite (nF_idx _ _ Hc), (nF_faces _ Hv).
    assert (HE : length E = (4 * length (faces inp))%nat).
    { apply plan_length4. intros [i w] e Hi He. apply sp_not_None. apply inserted_spec; [auto|destruct k; exact I|].
      apply (uniform_to_split k f inp w e Hv Hsel); [|exact He]. unfold tris. apply in_map_iff. exists (i, w). auto. }
    destruct (Nat.eq_dec (length T') (length E)) as [Hl|Hl]; [|lia]. exfalso. specialize (Heq Hl).
    destruct (clash_in_plan k f inp t u Hv Hd Htw) as [x [y [e [Hxy [Hx [Hy Hin]]]]]].
    { intros e He. apply (uniform_to_split k f inp t e Hv Hsel); [apply Htw|exact He]. }
    apply Hxy. apply (dirs_share T' x y e); auto; rewrite Heq; apply in_map_iff.
    + destruct (Hin x (or_introl eq_refl)) as [i [w [_ [_ Hp]]]]. eexists. split; [|exact Hp]. reflexivity.
    + destruct (Hin y (or_intror eq_refl)) as [i [w [_ [_ Hp]]]]. eexists. split; [|exact Hp]. reflexivity.
Qed.

(** ** The sqrt(3) filter *)
Section ROOT3.
Variable inp : mesh.
Variable Cn : dedge -> option N.
Variable u : bool.
Notation ptasks := (ptasks Cn u).
Notation items := (items Cn u).
Notation tasks := (tasks Cn).
Notation cell_tasks := (cell_tasks Cn).
Notation epinv := (epinv Cn).
Hypothesis Hv : sound inp.
Hypothesis Hmax : forall e c, Cn e = Some c -> c <> id_max.
Hypothesis Hdir : forall e c, Cn e = Some c -> In e (dirs (tris inp)).

(** The cell phase dereferences a null edge when one of its AddFaceTriangle calls is refused. *)
Lemma sqrt3_cell_bad id t P (st : state) : uniform (fst st) = u -> epinv P (epid (fst st)) ->
  In t (tris inp) -> cn_face Cn t -> (forall e, In e (tdirs t) -> ~ In e P) ->
  run_plan inp (ptasks P (cell_tasks (id, t))) st = Undef NullDeref ->
  sqrt3_cell inp id t st = Undef NullDeref.
Proof.
  intros Hu Hep Ht Hcn HP. pose proof (v_proper _ Hv t Ht) as Hp.
  destruct t as [[a b] c]. unfold Root3Run.cell_tasks. cbn [snd fst tdirs].
  assert (Hd : forall e, In e (tdirs (a, b, c)) -> In e (dirs (tris inp))).
  { intros e He. apply in_flat_map. eauto. }
  destruct (Cn (a, b)) as [g|] eqn:Eg.
  - assert (Hsome : forall e, In e (tdirs (a, b, c)) -> Cn e <> None).
    { intros e He En. rewrite (Hcn e (a, b) He ltac:(cbn; auto) En) in Eg. discriminate. }
    cbn [map Root3Run.ptasks]. rewrite app_nil_r. intros HR0.
    assert (HR : run_plan inp (items P id (a, b) ++ items ((a, b) :: P) id (b, c) ++ items ((b, c) :: (a, b) :: P) id (c, a)) st = Undef NullDeref) by exact HR0.
    destruct Hp as [Hab [Hbc Hca]].
    destruct (sqrt3_edge_ok inp Cn u Hv Hmax Hdir id (a, b, c) a b P st Hu Hep) as [EP1 [Hep1 E1]].
    { apply Hd. cbn. auto. } { apply HP. cbn. auto. } { apply Hsome. cbn. auto. }
    unfold sqrt3_cell. rewrite E1. rewrite run_plan_app in HR.
    destruct (run_plan inp (items P id (a, b)) st) as [s1| | |] eqn:R1; cbn [rbind] in HR |- *; try congruence.
    apply run_plan_keeps in R1. destruct R1 as [R1 [R1u _]].
    destruct (sqrt3_edge_ok inp Cn u Hv Hmax Hdir id (a, b, c) b c ((a, b) :: P) (with_ep EP1 s1)) as [EP2 [Hep2 E2]].
    { unfold with_ep. cbn. congruence. } { exact Hep1. } { apply Hd. cbn. auto. }
    { cbn [In]. intros [E|E]; [congruence|]. apply (HP (b, c)); cbn; auto. } { apply Hsome. cbn. auto. }
    rewrite E2, run_plan_ep. rewrite run_plan_app in HR.
    destruct (run_plan inp (items ((a, b) :: P) id (b, c)) s1) as [s2| | |] eqn:R2; cbn [rbind] in HR |- *; try congruence.
    apply run_plan_keeps in R2. destruct R2 as [R2 [R2u _]]. rewrite with_ep_twice.
    destruct (sqrt3_edge_ok inp Cn u Hv Hmax Hdir id (a, b, c) c a ((b, c) :: (a, b) :: P) (with_ep EP2 s2)) as [EP3 [Hep3 E3]].
    { unfold with_ep. cbn. congruence. } { exact Hep2. } { apply Hd. cbn. auto. }
    { cbn [In]. intros [E|[E|E]]; [congruence|congruence|]. apply (HP (c, a)); cbn; auto. } { apply Hsome. cbn. auto. }
    rewrite E3, run_plan_ep, HR. cbn [rbind]. reflexivity.
  - cbn [Root3Run.ptasks run_plan it_parent it_track it_tri fst snd]. intros HR. exfalso.
    unfold it_parent, it_track, it_tri in HR. cbn [fst snd] in HR. unfold emit in HR. destruct st as [f out].
    destruct (add_face out [a; b; c]) as [o e]. cbn [rbind] in HR. discriminate.
Qed.

Lemma sqrt3_loop_bad (F : list (N * tri)) : forall cs P (st : state) fuel,
  cs = map (fun it => (fst it, poly (snd it))) F ->
  (length F < fuel)%nat -> uniform (fst st) = u -> epinv P (epid (fst st)) ->
  (forall it, In it F -> In (snd it) (tris inp) /\ cn_face Cn (snd it)) ->
  NoDup (dirs (map snd F)) -> (forall e, In e (dirs (map snd F)) -> ~ In e P) ->
  run_plan inp (ptasks P (tasks F)) st = Undef NullDeref ->
  sqrt3_loop fuel inp cs st = Undef NullDeref.
Proof.
  induction F as [|[id t] F IH]; intros cs P st fuel -> Hfuel Hu Hep HF Hnd HP HR.
  - cbn in HR. discriminate.
  - destruct fuel as [|fuel]; [inversion Hfuel|]. cbn [map fst snd sqrt3_loop].
    unfold Root3Run.tasks in HR. cbn [flat_map] in HR. rewrite ptasks_app, run_plan_app in HR.
    destruct (HF (id, t) (or_introl eq_refl)) as [Ht Hcn]. cbn [snd] in Ht, Hcn.
    unfold dirs in Hnd, HP. cbn [map snd flat_map] in Hnd, HP. pose proof (NoDup_app_r _ _ Hnd) as Hnd'.
    assert (Hstep : forall X, match poly t with None => Undef NullDeref | Some c => match as_triangle c with None => X | Some tri => rbind (sqrt3_cell inp id tri st) (fun st' => sqrt3_loop fuel inp (map (fun it => (fst it, poly (snd it))) F) st') end end = rbind (sqrt3_cell inp id t st) (fun st' => sqrt3_loop fuel inp (map (fun it => (fst it, poly (snd it))) F) st')).
    { intros X. destruct t as [[x y] z]. reflexivity. }
    rewrite Hstep.
    destruct (run_plan inp (ptasks P (cell_tasks (id, t))) st) as [s1| |x|] eqn:R1; cbn [rbind] in HR; try discriminate.
    + destruct (sqrt3_cell_ok inp Cn u Hv Hmax Hdir id t P st s1 Hu Hep Ht Hcn) as [EP1 [Hep1 E1]].
      { intros e He. apply HP. apply in_or_app. auto. } { exact R1. }
      rewrite E1. cbn [rbind].
      apply (IH _ (done P (cell_tasks (id, t))) (with_ep EP1 s1) fuel eq_refl).
      * cbn [length] in Hfuel. lia.
      * apply run_plan_keeps in R1. destruct R1 as [_ [R1 _]]. unfold with_ep. cbn. congruence.
      * exact Hep1.
      * intros it Hit. apply HF. right. exact Hit.
      * exact Hnd'.
      * intros e He. rewrite (done_In Cn). intros [Hin|Hin].
        -- apply (HP e); [apply in_or_app; auto|exact Hin].
        -- apply tedges_cell in Hin. cbn [snd] in Hin. exact (NoDup_app_disj _ _ e Hnd Hin He).
      * rewrite run_plan_ep. fold (tasks F) in HR. rewrite HR. reflexivity.
    + injection HR as ->. rewrite (sqrt3_cell_bad id t P st Hu Hep Ht Hcn); [reflexivity| |exact R1].
      intros e He. apply HP. apply in_or_app. auto.
Qed.

(** *** Counting the AddFaceTriangle calls when every triangle is subdivided *)
Definition pending (P R : list dedge) : nat := length (filter (fun e => mem_dedge (sym e) P) R).

Lemma pending_cons P R e : NoDup R -> ~ In e P -> ((if mem_dedge (sym e) R then 1 else 0) + pending P R)%nat = pending (e :: P) R.
Proof.
  clear Hv Hmax Hdir.
  intros Hnd He. unfold pending. induction R as [|x R IH]; [reflexivity|].
  inversion Hnd as [|? ? Hx Hnd']; subst. specialize (IH Hnd'). cbn [filter mem_dedge existsb].
  unfold mem_dedge in IH |- *. cbn [existsb] in IH |- *.
  destruct (eqb_dedge (sym e) x) eqn:Ex.
  - apply eqb_dedge_eq in Ex. subst x. rewrite sym_sym. rewrite eqb_dedge_refl. cbn [orb].
    assert (existsb (eqb_dedge e) P = false) as ->.
    { destruct (existsb (eqb_dedge e) P) eqn:E; [|reflexivity]. exfalso. apply He. apply mem_dedge_In. exact E. }
    assert (existsb (eqb_dedge (sym e)) R = false) as E.
    { destruct (existsb (eqb_dedge (sym e)) R) eqn:E; [|reflexivity]. exfalso. apply Hx. apply mem_dedge_In. exact E. }
    rewrite E in IH. cbn [length]. cbn in IH. rewrite <- IH. reflexivity.
  - assert (eqb_dedge (sym x) e = false) as ->.
    { destruct (eqb_dedge (sym x) e) eqn:E; [|reflexivity]. apply eqb_dedge_eq in E. subst e. rewrite sym_sym, eqb_dedge_refl in Ex. discriminate. }
    cbn [orb]. destruct (existsb (eqb_dedge (sym x)) P); cbn [length]; rewrite <- IH; [|reflexivity].
    destruct (existsb (eqb_dedge (sym e)) R); reflexivity.
Qed.

Definition edge_task (k : task) : Prop := match k with inl _ => False | inr _ => True end.
Lemma ptasks_length ts : forall P, Forall edge_task ts -> NoDup (tedges ts) ->
  (forall e, In e (tedges ts) -> ~ In e P /\ Cn e <> None /\ sym e <> e /\
     (Cn (sym e) <> None <-> In (sym e) P \/ In (sym e) (tedges ts))) ->
  (length (ptasks P ts) + pending P (tedges ts))%nat = length (tedges ts).
Proof.
  clear Hv Hmax Hdir.
  induction ts as [|[[id t]|[id e]] ts IH]; intros P Hall Hnd H; [reflexivity|inversion Hall as [|? ? Hb _]; destruct Hb|].
  inversion Hall as [|? ? _ Hall']; subst. cbn [tedges flat_map app] in Hnd, H |- *. fold (tedges ts) in *.
  inversion Hnd as [|? ? Hx Hnd']; subst.
  destruct (H e (or_introl eq_refl)) as [HeP [Hc [Hirr Hs]]].
  cbn [Root3Run.ptasks]. rewrite app_length.
  assert (IH' : (length (ptasks (e :: P) ts) + pending (e :: P) (tedges ts))%nat = length (tedges ts)).
  { apply IH; [exact Hall'|exact Hnd'|]. intros e' He'. destruct (H e' (or_intror He')) as [H1 [H2 [H3 H4]]].
    split; [intros [E|E]; [subst; contradiction|contradiction]|]. split; [exact H2|]. split; [exact H3|].
    rewrite H4. cbn [In]. tauto. }
  pose proof (pending_cons P (tedges ts) e Hnd' HeP) as Hpc.
  unfold Root3Run.items. destruct (Cn e) as [g|]; [|congruence].
  assert (Hpe : pending P (e :: tedges ts) = ((if mem_dedge (sym e) P then 1 else 0) + pending P (tedges ts))%nat).
  { unfold pending. cbn [filter]. destruct (mem_dedge (sym e) P); reflexivity. }
  rewrite Hpe. cbn [length].
  destruct (mem_dedge (sym e) P) eqn:EP; destruct (mem_dedge (sym e) (tedges ts)) eqn:ER; destruct (Cn (sym e)) as [h|];
    cbn [length]; try lia; exfalso.
  - apply mem_dedge_In in EP. apply mem_dedge_In in ER. destruct (H (sym e) (or_intror ER)) as [H1 _]. contradiction.
  - apply mem_dedge_In in EP. exact (proj2 Hs (or_introl EP) eq_refl).
  - apply mem_dedge_In in ER. exact (proj2 Hs (or_intror (or_intror ER)) eq_refl).
  - assert (Hn : Some h <> None) by discriminate. apply Hs in Hn. destruct Hn as [Hn|[Hn|Hn]]; try congruence;
      apply mem_dedge_In in Hn; congruence.
Qed.

Lemma ptasks_untracked ts : u = true -> forall P x, In x (ptasks P ts) -> it_track x = false.
Proof.
  clear Hv Hmax Hdir.
  intros Hu. induction ts as [|[[j t]|[j e]] ts IH]; intros P x H; [destruct H| |].
  - destruct H as [<-|H]; [reflexivity|]. exact (IH P x H).
  - cbn [Root3Run.ptasks] in H. apply in_app_or in H. destruct H as [H|H]; [|exact (IH _ x H)].
    unfold Root3Run.items in H. destruct (Cn e); [|destruct H]. destruct (Cn (sym e)); [destruct (mem_dedge (sym e) P); [destruct H|]|];
      cbn [In] in H; rewrite Hu in H; intuition; subst x; reflexivity.
Qed.

(** The two triangles of an edge between two subdivided faces are asked for. *)
Lemma ptasks_pair ts : forall P id id' e g h, In (inr (id, e)) ts -> In (inr (id', sym e)) ts -> ~ In e P -> ~ In (sym e) P ->
  sym e <> e -> Cn e = Some g -> Cn (sym e) = Some h -> exists i, In (i, negb u, (g, h, snd e)) (ptasks P ts).
Proof.
  clear Hv Hmax Hdir.
  induction ts as [|[[j t]|[j x]] ts IH]; intros P id id' e g h He He' HP HP' Hirr Hg Hh; [destruct He| |].
  - destruct He as [He|He]; [discriminate|]. destruct He' as [He'|He']; [discriminate|].
    destruct (IH P id id' e g h He He' HP HP' Hirr Hg Hh) as [i Hi]. exists i. right. exact Hi.
  - cbn [Root3Run.ptasks].
    assert (Hn : forall y, ~ In y P -> mem_dedge y P = false).
    { intros y Hy. destruct (mem_dedge y P) eqn:E; [|reflexivity]. apply mem_dedge_In in E. contradiction. }
    destruct (eqb_dedge x e) eqn:E1; [|destruct (eqb_dedge x (sym e)) eqn:E2].
    + apply eqb_dedge_eq in E1. subst x. exists j. apply in_or_app. left. unfold Root3Run.items.
      rewrite Hg, Hh, (Hn _ HP'). left. reflexivity.
    + apply eqb_dedge_eq in E2. subst x. exists j. apply in_or_app. left. unfold Root3Run.items.
      rewrite sym_sym, Hg, Hh, (Hn _ HP). right. left. destruct e. reflexivity.
    + assert (Hne : x <> e) by (intros ->; rewrite eqb_dedge_refl in E1; discriminate).
      assert (Hne' : x <> sym e) by (intros ->; rewrite eqb_dedge_refl in E2; discriminate).
      destruct He as [He|He]; [congruence|]. destruct He' as [He'|He']; [congruence|].
      destruct (IH (x :: P) id id' e g h He He') as [i Hi]; try (cbn [In]; tauto); auto; try (intros [E|E]; congruence || contradiction).
      exists i. apply in_or_app. right. exact Hi.
Qed.
End ROOT3.

Definition ctr inp (f : fstate) (e : dedge) : option N := eget e (ep3 (osize (pts inp)) (visited inp (csel f))).
Definition calls3 inp (f : fstate) : list item :=
  ptasks (ctr inp f) (is_nil (csel f)) [] (tasks (ctr inp f) (faces inp)).

Lemma ctr_dirs inp f e : sound inp -> NoDup (csel f) -> ctr inp f e <> None <-> In e (dirs (visited inp (csel f))).
Proof.
  intros Hv Hs. unfold ctr. rewrite ep3_None by (apply visited_dirs; assumption).
  destruct (mem_dedge e (dirs (visited inp (csel f)))) eqn:E.
  - apply mem_dedge_In in E. tauto.
  - assert (~ In e (dirs (visited inp (csel f)))) by (intros H; apply mem_dedge_In in H; congruence). tauto.
Qed.

Lemma update_calls3 inp f fuel : sound inp -> dense inp -> ready3 f inp -> (length (tris inp) < fuel)%nat ->
  (forall f2 out, run_plan inp (calls3 inp f) (start3 inp f, snd (st3 inp (set_uniform f (is_nil (csel f))) (visited inp (csel f)))) = Ok (f2, out) ->
     exists f', update (CellF CSqrt3) fuel f inp = Ok (f', out)) /\
  (run_plan inp (calls3 inp f) (start3 inp f, snd (st3 inp (set_uniform f (is_nil (csel f))) (visited inp (csel f)))) = Undef NullDeref ->
     update (CellF CSqrt3) fuel f inp = Undef NullDeref).
Proof.
  intros Hv Hd [He [Hs Hfit]] Hfuel.
  set (V := osize (pts inp)). set (L := visited inp (csel f)). set (u := is_nil (csel f)).
  pose proof (visited_dirs inp (csel f) Hv Hs) as HndL. fold L in HndL.
  assert (Hmax : forall e c, ctr inp f e = Some c -> c <> id_max).
  { intros e c Hc. unfold ctr in Hc. apply ep3_get in Hc; [|exact HndL]. destruct Hc as [i [t [Hi [_ ->]]]].
    assert (i < length L)%nat by (apply nth_error_Some; fold L in Hi; congruence).
    pose proof (visited_le inp (csel f) Hv Hs) as Hle. pose proof (tris_len inp Hv) as Hl. fold L in Hle.
    unfold nV in Hfit. unfold osize. change id_max with (2 ^ 64 - 1). lia. }
  assert (Hin : forall e c, ctr inp f e = Some c -> exists t, In t L /\ In e (tdirs t)).
  { intros e c Hc. unfold ctr in Hc. apply ep3_get in Hc; [|exact HndL]. destruct Hc as [i [t [Hi [Ht _]]]].
    exists t. split; [eapply nth_error_In; exact Hi|exact Ht]. }
  assert (Hdir : forall e c, ctr inp f e = Some c -> In e (dirs (tris inp))).
  { intros e c Hc. destruct (Hin e c Hc) as [t [Ht Hte]]. apply in_flat_map. exists t. split; [|exact Hte].
    apply (visited_incl inp (csel f)). exact Ht. }
  assert (Hface : forall it, In it (faces inp) -> In (snd it) (tris inp) /\ cn_face (ctr inp f) (snd it)).
  { intros it Hit. assert (Ht : In (snd it) (tris inp)) by (apply in_map; exact Hit). split; [exact Ht|].
    intros e e' H1 H2 Hn. destruct (ctr inp f e') as [c|] eqn:Ec; [|reflexivity]. exfalso.
    destruct (Hin e' c Ec) as [t [HtL Hte]].
    assert (t = snd it).
    { apply (dirs_share (tris inp) t (snd it) e' (v_dirs _ Hv)); auto. apply (visited_incl inp (csel f)). exact HtL. }
    subst t. assert (ctr inp f e <> None); [|congruence]. apply ctr_dirs; auto. apply in_flat_map. eauto. }
  assert (Hep : epinv (ctr inp f) [] (epid (start3 inp f))).
  { intros e. unfold start3, st3. cbn [fst epid set_epid set_cells_to_be_subdivided]. split; [auto|].
    intros c Hc'. unfold ctr in Hc'. split; [congruence|]. intros _. exact Hc'. }
  assert (Hu : uniform (start3 inp f) = u) by reflexivity.
  assert (Hfuel' : (length (faces inp) < fuel)%nat) by (unfold tris in Hfuel; rewrite map_length in Hfuel; exact Hfuel).
  assert (HUp : update (CellF CSqrt3) fuel f inp =
     sqrt3_loop fuel inp (map (fun it => (fst it, poly (snd it))) (faces inp)) (start3 inp f, snd (st3 inp (set_uniform f u) L))).
  { unfold update. cbn [generate_output_points generate_cells_of]. rewrite (points3 inp f Hv Hd He Hs). cbn [rbind].
    unfold sqrt3_generate_output_cells. rewrite (valid_cells _ Hv). reflexivity. }
  rewrite HUp. split.
  - intros f2 out Hrun.
    destruct (sqrt3_loop_ok inp (ctr inp f) u Hv Hmax Hdir (faces inp) _ []
                (start3 inp f, snd (st3 inp (set_uniform f u) L)) (f2, out) fuel eq_refl) as [EP' El]; auto.
    { apply (v_dirs _ Hv). }
    eexists. rewrite El. reflexivity.
  - intros Hrun. apply (sqrt3_loop_bad inp (ctr inp f) u Hv Hmax Hdir (faces inp) _ [] _ fuel eq_refl); auto.
    apply (v_dirs _ Hv).
Qed.

(** The two twins being subdivided, two different triangles with a common directed edge are asked for. *)
Lemma clash3 inp f t u : sound inp -> NoDup (csel f) -> twins inp t u -> selected inp (csel f) t -> selected inp (csel f) u ->
  exists x y e, x <> y /\ In e (tdirs x) /\ In e (tdirs y) /\
    forall z, z = x \/ z = y -> exists i, In (i, negb (is_nil (csel f)), z) (calls3 inp f).
Proof.
  intros Hv Hs [Ht [Hu [Hne Hsv]]] St Su.
  pose proof (twin_dirs inp t u Hv Ht Hu Hne Hsv) as Htw.
  apply visited_selected in St. apply visited_selected in Su.
  pose proof (visited_dirs inp (csel f) Hv Hs) as HndL.
  apply In_nth_error in St. destruct St as [it Hit]. apply In_nth_error in Su. destruct Su as [iu Hiu].
  set (V := osize (pts inp)). set (g := V + N.of_nat it). set (h := V + N.of_nat iu).
  assert (Hg : forall e, In e (tdirs t) -> ctr inp f e = Some g).
  { intros e He. unfold ctr. apply ep3_get; [exact HndL|]. exists it, t. auto. }
  assert (Hh : forall e, In e (tdirs u) -> ctr inp f e = Some h).
  { intros e He. unfold ctr. apply ep3_get; [exact HndL|]. exists iu, u. auto. }
  assert (Htask : forall w e, In w (tris inp) -> In e (tdirs w) -> (forall e', In e' (tdirs w) -> ctr inp f e' <> None) ->
            exists i, In (inr (i, e)) (tasks (ctr inp f) (faces inp))).
  { intros w e Hw He Hc. unfold tris in Hw. apply in_map_iff in Hw. destruct Hw as [[i w'] [Ew Hw]]. cbn in Ew. subst w'.
    exists i. apply in_flat_map. exists (i, w). split; [exact Hw|]. destruct w as [[a b] c]. unfold cell_tasks. cbn [snd fst tdirs].
    pose proof (Hc (a, b) ltac:(cbn; auto)) as Hc'. destruct (ctr inp f (a, b)); [|congruence].
    apply in_map_iff. exists e. split; [reflexivity|exact He]. }
  assert (Hpair : forall e, In e (tdirs t) -> exists i, In (i, negb (is_nil (csel f)), (g, h, snd e)) (calls3 inp f)).
  { intros e He. destruct (Htask t e Ht He) as [i Hi]; [intros e' He'; rewrite (Hg e' He'); discriminate|].
    destruct (Htask u (sym e) Hu (Htw e He)) as [j Hj]; [intros e' He'; rewrite (Hh e' He'); discriminate|].
    apply (ptasks_pair (ctr inp f) (is_nil (csel f)) _ [] i j e g h Hi Hj); auto.
    intros E. apply (dirs_irr inp (fst e) Hv). apply in_flat_map. exists t. split; [exact Ht|].
    destruct e as [a b]. cbn in E. injection E as E _. subst. exact He. }
  pose proof (v_proper _ Hv t Ht) as Hp. destruct t as [[a b] c]. destruct Hp as [P1 [P2 P3]].
  exists (g, h, b), (g, h, c), (g, h). split; [congruence|]. split; [cbn; auto|]. split; [cbn; auto|].
  intros z [Hz|Hz]; subst z.
  - apply (Hpair (a, b)). cbn. auto.
  - apply (Hpair (b, c)). cbn. auto.
Qed.

Lemma C43_twins_sqrt3_adaptive_sec f inp t u : sound inp -> dense inp -> ready3 f inp -> csel f <> [] ->
  twins inp t u -> selected inp (csel f) t -> selected inp (csel f) u ->
  exists n, forall fuel, (n <= fuel)%nat -> update (CellF CSqrt3) fuel f inp = Undef NullDeref.
Proof.
  intros Hv Hd Hr Hsel Htw St Su. exists (S (length (tris inp))). intros fuel Hfuel.
  apply (update_calls3 inp f fuel Hv Hd Hr ltac:(lia)).
  match goal with |- run_plan inp ?E ?st = _ => destruct (run_plan_outcome inp E st) as [[st' E1]|E1]; [|exact E1] end.
  exfalso.
  assert (Hw : is_nil (csel f) = false).
  { destruct (is_nil (csel f)) eqn:En; [|reflexivity]. apply is_nil_true in En. contradiction. }
  destruct (run_plan_cells inp _ [] _ _ E1) as [T' [_ [Hnd [_ [_ Htr]]]]]; [reflexivity|constructor|]. cbn [app] in Hnd.
  destruct (clash3 inp f t u Hv (proj1 (proj2 Hr)) Htw St Su) as [x [y [e [Hxy [Hx [Hy Hin]]]]]].
  apply Hxy. apply (dirs_share T' x y e); auto.
  - destruct (Hin x (or_introl eq_refl)) as [i Hp]. apply Htr in Hp; [exact Hp|]. rewrite Hw. reflexivity.
  - destruct (Hin y (or_intror eq_refl)) as [i Hp]. apply Htr in Hp; [exact Hp|]. rewrite Hw. reflexivity.
Qed.

Lemma tasks_all inp f : sound inp -> csel f = [] ->
  Forall edge_task (tasks (ctr inp f) (faces inp)) /\ tedges (tasks (ctr inp f) (faces inp)) = dirs (tris inp).
Proof.
  intros Hv Hs. assert (Hc : forall e, In e (dirs (tris inp)) -> ctr inp f e <> None).
  { intros e He. apply ctr_dirs; [exact Hv|rewrite Hs; constructor|]. rewrite Hs. exact He. }
  unfold tris in Hc. unfold tris. induction (faces inp) as [|[i t] F IH]; [split; [constructor|reflexivity]|].
  destruct IH as [I1 I2].
  { intros e He. apply Hc. cbn [map dirs]. unfold dirs. cbn [flat_map]. apply in_or_app. right. exact He. }
  assert (Hct : cell_tasks (ctr inp f) (i, t) = map (fun e => inr (i, e)) (tdirs t)).
  { destruct t as [[a b] c]. unfold cell_tasks. cbn [snd fst tdirs]. destruct (ctr inp f (a, b)) eqn:E; [reflexivity|].
    exfalso. apply (Hc (a, b)); [|exact E]. left. reflexivity. }
  unfold tasks. cbn [flat_map]. rewrite Hct. fold (tasks (ctr inp f) F). split.
  - apply Forall_app. split; [|exact I1]. destruct t as [[a b] c]. cbn. repeat constructor.
  - rewrite tedges_app, I2. destruct t as [[a b] c]. reflexivity.
Qed.

Lemma dirs_length (T : list tri) : length (dirs T) = (3 * length T)%nat.
Proof.
  induction T as [|[[a b] c] T IH]; [reflexivity|]. unfold dirs. cbn [flat_map tdirs]. rewrite app_length. fold (dirs T).
  rewrite IH. cbn [length]. lia.
Qed.

Lemma C43_twins_sqrt3_sec f inp t u : sound inp -> dense inp -> ready3 f inp -> csel f = [] -> twins inp t u ->
  exists n f' out, (forall fuel, (n <= fuel)%nat -> update (CellF CSqrt3) fuel f inp = Ok (f', out)) /\
    (nF out < 3 * nF inp)%Z.
Proof.
  intros Hv Hd Hr Hsel Htw.
  assert (Hs : NoDup (csel f)) by (rewrite Hsel; constructor).
  destruct (tasks_all inp f Hv Hsel) as [HT1 HT2].
  destruct (run_plan_untracked inp (calls3 inp f))
    with (st := (start3 inp f, snd (st3 inp (set_uniform f (is_nil (csel f))) (visited inp (csel f))))) as [[f2 out] E1].
  { intros x Hx. unfold calls3 in Hx. rewrite Hsel in Hx. cbn [is_nil] in Hx.
    exact (ptasks_untracked (ctr inp f) true _ eq_refl [] x Hx). }
  destruct (proj1 (update_calls3 inp f (S (length (tris inp))) Hv Hd Hr ltac:(lia)) f2 out E1) as [f' E0].
  exists (S (length (tris inp))), f', out. split.
  - intros fuel Hf. transitivity (update (CellF CSqrt3) (S (length (tris inp))) f inp); [|exact E0].
    replace fuel with (S (length (tris inp)) + (fuel - S (length (tris inp))))%nat by lia. apply update_mono. congruence.
  - destruct (run_plan_cells inp (calls3 inp f) [] _ _ E1) as [T' [Hc [Hnd [Hle [Heq _]]]]]; [reflexivity|constructor|].
    cbn [app snd] in Hc, Hnd. rewrite (nF_idx _ _ Hc), (nF_faces _ Hv).
    assert (HE : length (calls3 inp f) = (3 * length (faces inp))%nat).
    { unfold calls3. pose proof (ptasks_length (ctr inp f) (is_nil (csel f)) (tasks (ctr inp f) (faces inp)) [] HT1) as HL.
      rewrite HT2 in HL. rewrite dirs_length in HL.
      replace (length (faces inp)) with (length (tris inp)) by (unfold tris; apply map_length).
      unfold pending in HL. rewrite <- HL; [|apply (v_dirs _ Hv)|].
      - assert (filter (fun e => mem_dedge (sym e) []) (dirs (tris inp)) = []) as ->; [|cbn [length]; lia].
        clear. induction (dirs (tris inp)) as [|e l IH]; [reflexivity|exact IH].
      - intros e He. split; [intros []|]. split; [apply ctr_dirs; auto; rewrite Hsel; exact He|]. split.
        + intros E. destruct e as [a b]. injection E as -> _. exact (dirs_irr inp a Hv He).
        + rewrite (ctr_dirs inp f (sym e) Hv Hs), Hsel. cbn [In]. unfold visited. cbn [is_nil]. tauto. }
    destruct (Nat.eq_dec (length T') (length (calls3 inp f))) as [Hl|Hl]; [|lia]. exfalso. specialize (Heq Hl).
    destruct (clash3 inp f t u Hv Hs Htw) as [x [y [e [Hxy [Hx [Hy Hin]]]]]].
    { left. split; [exact Hsel|apply Htw]. } { left. split; [exact Hsel|apply Htw]. }
    apply Hxy. apply (dirs_share T' x y e); auto; rewrite Heq; apply in_map_iff.
    + destruct (Hin x (or_introl eq_refl)) as [i Hp]. eexists. split; [|exact Hp]. reflexivity.
    + destruct (Hin y (or_intror eq_refl)) as [i Hp]. eexists. split; [|exact Hp]. reflexivity.
Qed.
End TWINS.

(** ** Property C43 *)
Lemma C43_twins_uniform_pf : forall (O : Ops) (D : Type) k f (inp : mesh O D) t u,
  sound inp -> dense inp -> ready k f inp ->
  (match k with CellF _ => csel f = [] | EdgeF _ => esel f = [] end) -> twins inp t u ->
  exists n f' out, (forall fuel, (n <= fuel)%nat -> update k fuel f inp = Ok (f', out)) /\
    (nF out < 4 * nF inp)%Z.
Proof. intros O D. apply C43_twins_uniform_sec. Qed.
Lemma C43_twins_adaptive_pf : forall (O : Ops) (D : Type) k f (inp : mesh O D) t u,
  sound inp -> dense inp -> ready k f inp ->
  (match k with CellF _ => csel f <> [] | EdgeF _ => esel f <> [] end) -> twins inp t u ->
  (forall e, In e (tdirs t) -> to_split k f inp (fst e) (snd e)) ->
  exists n, forall fuel, (n <= fuel)%nat -> update k fuel f inp = Undef NullDeref.
Proof. intros O D. apply C43_twins_adaptive_sec. Qed.
Lemma C43_twins_sqrt3_pf : forall (O : Ops) (D : Type) f (inp : mesh O D) t u,
  sound inp -> dense inp -> ready3 f inp -> csel f = [] -> twins inp t u ->
  exists n f' out, (forall fuel, (n <= fuel)%nat -> update (CellF CSqrt3) fuel f inp = Ok (f', out)) /\
    (nF out < 3 * nF inp)%Z.
Proof. intros O D. apply C43_twins_sqrt3_sec. Qed.
Lemma C43_twins_sqrt3_adaptive_pf : forall (O : Ops) (D : Type) f (inp : mesh O D) t u,
  sound inp -> dense inp -> ready3 f inp -> csel f <> [] ->
  twins inp t u -> selected inp (csel f) t -> selected inp (csel f) u ->
  exists n, forall fuel, (n <= fuel)%nat -> update (CellF CSqrt3) fuel f inp = Undef NullDeref.
Proof. intros O D. apply C43_twins_sqrt3_adaptive_sec. Qed.
