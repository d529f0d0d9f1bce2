(** * Reach: what holds for every mesh the filters build, whatever the input.

    [update_reach]: a predicate on meshes that holds for the empty mesh and is kept by SetPoint,
    AddFaceTriangle and SetCellData holds for the output of every completed Update(). *)
From Coq Require Import Sorted.
From Verif Require Import Base Mesh Filters Drivers Spec SpecSub Lists AddFace SplitTri Split Points Valid PtsAny.

Ltac okinv H := injection H as H; first [subst|rewrite <- H in *].
Ltac rb H := match type of H with
  | rbind ?x _ = Ok _ => let s := fresh "s" in let E := fresh "E" in
      destruct x as [s| | |] eqn:E; cbn [rbind] in H; try discriminate H
  end.

Section REACH.
Context {O : Ops} {D : Type}.
Notation mesh := (mesh O D).
Notation state := (@state O D).
Implicit Types m inp out : mesh.
Variable I : mesh -> Prop.
Hypothesis I_point : forall m id p, I m -> I (set_point m id p).
Hypothesis I_face : forall m a b c, I m -> I (fst (add_face m [a; b; c])).
Hypothesis I_data : forall m id v, I m -> I (set_cell_data m id v).

Lemma reach_emit inp id track t st st' : I (snd st) -> emit inp id track t st = Ok st' -> I (snd st').
Proof using I_face I_data.
  destruct t as [[a b] c], st as [f out]. cbn [snd]. unfold emit. intros HI H.
  pose proof (I_face out a b c HI) as H1. destruct (add_face out [a; b; c]) as [o1 e]. cbn [fst] in H1.
  assert (H2 : I (pass_cell_data inp id e o1)).
  { unfold pass_cell_data. destruct e; [|exact H1]. destruct (cdata inp) as [dd|]; [|exact H1].
    destruct (oget id dd); [apply I_data|]; exact H1. }
  destruct track; [destruct e as [e|]; [|discriminate]|]; injection H as <-; exact H2.
Qed.
Lemma reach_emit_all inp id track l : forall st st', I (snd st) -> emit_all inp id track l st = Ok st' -> I (snd st').
Proof using I_face I_data.
  induction l as [|t l IH]; intros st st' HI H; cbn [emit_all] in H; [injection H as <-; exact HI|].
  rb H. eapply IH; [|exact H]. eapply reach_emit; eauto.
Qed.
Lemma reach_cells_loop inp : forall fuel cs st st', I (snd st) -> cells_loop fuel inp cs st = Ok st' -> I (snd st').
Proof using I_face I_data.
  induction fuel as [|fuel IH]; intros cs st st' HI H; [discriminate|]. cbn [cells_loop] in H.
  destruct cs as [|[id c] cs]; [injection H as <-; exact HI|].
  destruct (obind c as_triangle) as [t|]; [|eapply IH; eauto].
  rb H. destruct t as [[a b] d]. unfold split_cell in E. eapply IH; [|exact H]. eapply reach_emit_all; eauto.
Qed.
Lemma reach_sqrt3_edge inp id t ab st st' b : I (snd st) -> sqrt3_edge inp id t ab st = Ok (st', b) -> I (snd st').
Proof using I_face I_data.
  intros HI H. unfold sqrt3_edge in H.
  assert (Hm : forall tr u (s st' : state) (b b' : bool), I (snd s) -> rbind (emit inp id tr u s) (fun st1 => Ok (st1, b')) = Ok (st', b) ->
            I (snd st')).
  { intros tr u s s' c c' Hs E. rb E. injection E as <- <-. eapply reach_emit; eauto. }
  destruct (find_edge inp (fst ab) (snd ab)) as [e|]; [|eapply Hm; eauto].
  destruct (eget_opt (Some e) (epid (fst st))) as [c|]; [|eapply Hm; eauto].
  destruct (N.eqb c id_max); [injection H as <- <-; exact HI|].
  destruct (is_at_border inp e); [eapply Hm; eauto|].
  destruct (eget (sym e) (epid (fst st))) as [d|]; [|eapply Hm; eauto].
  rb H. rb H. injection H as <- <-. cbn [snd]. eapply reach_emit; [|eassumption]. eapply reach_emit; eauto.
Qed.
Lemma reach_sqrt3_loop inp : forall fuel cs st st', I (snd st) -> sqrt3_loop fuel inp cs st = Ok st' -> I (snd st').
Proof using I_face I_data.
  assert (Hc : forall id t st st', I (snd st) -> sqrt3_cell inp id t st = Ok st' -> I (snd st')).
  { intros id [[a b] c] st st' HI H. unfold sqrt3_cell in H.
    rb H. destruct s as [s1 b1]. apply reach_sqrt3_edge in E; [|exact HI]. destruct b1; [injection H as <-; auto|].
    rb H. destruct s as [s2 b2]. apply reach_sqrt3_edge in E0; [|exact E]. destruct b2; [injection H as <-; auto|].
    rb H. destruct s as [s3 b3]. apply reach_sqrt3_edge in E1; [|exact E0]. injection H as <-. auto. }
  induction fuel as [|fuel IH]; intros cs st st' HI H; [discriminate|]. cbn [sqrt3_loop] in H.
  destruct cs as [|[id [c|]] cs]; [injection H as <-; exact HI| |discriminate].
  destruct (as_triangle c) as [t|]; [|eapply IH; eauto].
  rb H. eapply IH; [|exact H]. eapply Hc; eauto.
Qed.
Lemma reach_cells k fuel inp st st' : I (snd st) -> generate_cells_of k fuel inp st = Ok st' -> I (snd st').
Proof using I_face I_data.
  intros HI H. destruct k as [[]|]; cbn [generate_cells_of] in H;
    unfold generate_output_cells, sqrt3_generate_output_cells in H; destruct (cells inp) as [cs|]; try discriminate;
    first [apply reach_cells_loop in H | apply reach_sqrt3_loop in H]; exact H || exact HI.
Qed.

Lemma reach_copy inp out : I out -> I (copy_points inp out).
Proof using I_point.
  unfold copy_points. revert out. induction (pts inp) as [|[i p] l IH]; intros out HI; cbn [fold_left]; [exact HI|].
  apply IH. apply I_point. exact HI.
Qed.
Lemma reach_loop_copy inp sm : forall l out out', I out -> loop_copy_points inp sm l out = Ok out' -> I out'.
Proof using I_point.
  induction l as [|[i p] l IH]; intros out out' HI H; cbn [loop_copy_points] in H; [injection H as <-; exact HI|].
  destruct (sm i); [rb H|]; eapply IH; try exact H; apply I_point; exact HI.
Qed.
Lemma reach_loop_edge_copy inp es : forall l out out', I out -> loop_edge_copy inp es l out = Ok out' -> I out'.
Proof using I_point.
  induction l as [|[i p] l IH]; intros out out' HI H; cbn [loop_edge_copy] in H; [injection H as <-; exact HI|].
  destruct (ring inp i) as [|q0 r]; [discriminate|]. destruct (copy_flag es i q0 r).
  - eapply IH; [|exact H]. apply I_point. exact HI.
  - rb H. eapply IH; [|exact H]. unfold average_origin_of_edge in E. rb E. rb E. injection E as <-. apply I_point. exact HI.
Qed.
Lemma reach_edge_step inp newpt ab np st np' st' : I (snd st) -> edge_step inp newpt ab (np, st) = Ok (np', st') -> I (snd st').
Proof using I_point.
  intros HI H. unfold edge_step in H. destruct (eget_opt _ _); [injection H as _ <-; exact HI|].
  destruct (find_edge inp (fst ab) (snd ab)) as [e|]; [|discriminate]. rb H. injection H as _ <-.
  destruct st as [f out]. cbn in *. apply I_point. exact HI.
Qed.
Lemma reach_three inp newpt a b c st st' : I (snd st) -> three_edge_steps inp newpt a b c st = Ok st' -> I (snd st').
Proof using I_point.
  intros HI H. unfold three_edge_steps in H. rb H. destruct s as [n1 s1]. apply reach_edge_step in E; [|exact HI].
  rb H. destruct s as [n2 s2]. apply reach_edge_step in E0; [|exact E].
  rb H. destruct s as [n3 s3]. apply reach_edge_step in E1; [|exact E0]. injection H as <-. exact E1.
Qed.
Lemma reach_add_cell s inp c st st' : I (snd st) -> add_new_cell_points s inp c st = Ok st' -> I (snd st').
Proof using I_point.
  intros HI H. destruct s; cbn [add_new_cell_points] in H;
    unfold linear_add_new_cell_points, loop_add_new_cell_points, butterfly_add_new_cell_points, sqrt3_add_new_cell_points in H;
    destruct (as_triangle c) as [[[x y] z]|]; try discriminate; try (eapply reach_three; eassumption).
  rb H. rb H. rb H. injection H as <-. cbn. apply I_point. exact HI.
Qed.
Lemma reach_uniform_loop s inp : forall cs st st', I (snd st) ->
  uniform_cells_loop (add_new_cell_points s inp) cs st = Ok st' -> I (snd st').
Proof using I_point.
  induction cs as [|[i [c|]] cs IH]; intros st st' HI H; cbn [uniform_cells_loop] in H; [injection H as <-; exact HI| |discriminate].
  rb H. eapply IH; [|exact H]. eapply reach_add_cell; eauto.
Qed.
Lemma reach_selected_loop s inp cs : forall sel st st', I (snd st) ->
  selected_cells_loop (add_new_cell_points s inp) cs sel st = Ok st' -> I (snd st').
Proof using I_point.
  induction sel as [|i sel IH]; intros st st' HI H; cbn [selected_cells_loop] in H; [injection H as <-; exact HI|].
  destruct (oget i cs) as [[c|]|]; [|eapply IH; eauto|discriminate].
  rb H. eapply IH; [|exact H]. eapply reach_add_cell; eauto.
Qed.
Lemma reach_edges_loop s inp : forall l st st', I (snd st) -> edges_loop s inp l st = Ok st' -> I (snd st').
Proof using I_point.
  induction l as [|[e|] l IH]; intros st st' HI H; cbn [edges_loop] in H; [injection H as <-; exact HI| |eapply IH; eauto].
  rb H. eapply IH; [|exact H]. unfold add_new_edge_points in E. destruct (find_edge inp (fst e) (snd e)); [|discriminate].
  rb E. injection E as <-. destruct st as [f out]. cbn in *. apply I_point. exact HI.
Qed.
Lemma reach_points k inp f out st' : I out -> generate_output_points k inp (f, out) = Ok st' -> I (snd st').
Proof using I_point.
  intros HI H. destruct k as [s|s]; cbn [generate_output_points] in H.
  - unfold generate_output_points_c in H. rb H.
    assert (Hs : I (snd s0)).
    { destruct s; cbn [copy_input_points_c] in E; try (injection E as <-; cbn; apply reach_copy; exact HI).
      unfold loop_copy_input_points in E. destruct (uniform f); rb E; [injection E as <-; eapply reach_loop_copy; eauto|].
      rb E. injection E as <-. eapply reach_loop_copy; eauto. }
    destruct (cells inp) as [cs|]; [|discriminate]. match type of H with (if ?c then _ else _) = _ => destruct c end;
      [eapply reach_uniform_loop; [|exact H]|eapply reach_selected_loop; [|exact H]]; exact Hs.
  - unfold generate_output_points_e in H. rb H.
    assert (Hs : I (snd s0)).
    { destruct s; cbn [copy_input_points_e] in E; try (injection E as <-; cbn; apply reach_copy; exact HI).
      unfold loop_edge_copy_input_points in E. rb E. injection E as <-. eapply reach_loop_edge_copy; eauto. }
    match type of H with (if ?c then _ else _) = _ => destruct c end.
    + destruct (ecells inp) as [es|]; [|discriminate]. eapply reach_edges_loop; [|exact H]. exact Hs.
    + eapply reach_edges_loop; [|exact H]. exact Hs.
Qed.
Lemma update_reach k fuel f inp f' out : I empty_mesh -> update k fuel f inp = Ok (f', out) -> I out.
Proof.
  intros H0 H. unfold update in H. rb H. apply reach_points in E; [|exact H0].
  apply reach_cells in H; [|exact E]. exact H.
Qed.
End REACH.

(** ** Two invariants *)
Section INV.
Context {O : Ops} {D : Type}.
Notation mesh := (mesh O D).
Implicit Types m inp out : mesh.

(** The cells are triangles numbered 0, 1, ...; no oriented edge has two of them; corners differ and exist. *)
Definition listed m : Prop :=
  exists T, cells_list m = idx (map poly T) /\ (T <> [] -> cells m = Some (cells_list m)) /\
    NoDup (dirs T) /\ forall t, In t T -> proper t /\ forall x, In x (tverts t) -> oget x (pts m) <> None.

Lemma add_edge_cells m a b m' : add_edge m a b = Some m' -> cells m' = cells m.
Proof.
  unfold add_edge. destruct (ins_ring _ (ring m a) b); [|discriminate]. destruct (ins_ring _ (ring m b) a); [|discriminate].
  intros H. inv H. reflexivity.
Qed.
Lemma add_missing_cells l : forall m, cells (fst (add_missing_edges m l)) = cells m.
Proof.
  induction l as [|[a b] l IH]; intros m; cbn [add_missing_edges]; [reflexivity|].
  destruct (find_edge m a b); [apply IH|]. destruct (add_edge m a b) as [m'|] eqn:E; [|reflexivity].
  rewrite IH. eapply add_edge_cells; eauto.
Qed.
Lemma link_corners_cells l : forall m m', link_corners m l = Some m' -> cells m' = cells m.
Proof.
  induction l as [|[[a b] c] l IH]; intros m m'; cbn [link_corners]; [intros H; inv H; reflexivity|].
  destruct (link_ring _ (ring m b) c a) as [r|]; [|discriminate]. intros H. apply IH in H. exact H.
Qed.

Lemma listed_same m m' : listed m -> cells m' = cells m -> (forall x, oget x (pts m) <> None -> oget x (pts m') <> None) -> listed m'.
Proof.
  intros [T [H1 [H2 [H3 H4]]]] Hc Hp. exists T. unfold cells_list in *. rewrite Hc. split; [exact H1|]. split; [exact H2|]. split; [exact H3|].
  intros t Ht. destruct (H4 t Ht) as [Q1 Q2]. split; [exact Q1|]. intros x Hx. apply Hp. apply Q2. exact Hx.
Qed.
Lemma listed_face m a b c : listed m -> listed (fst (add_face m [a; b; c])).
Proof.
  intros HL. unfold add_face. destruct (negb (nodupb [a; b; c])) eqn:En; [exact HL|].
  destruct (negb (forallb (fun p => omem p (pts m)) [a; b; c])) eqn:Ep; [exact HL|].
  destruct (existsb (left_set m) (poly_dirs [a; b; c])) eqn:El; [exact HL|].
  pose proof (add_missing_pts (poly_dirs [a; b; c]) m) as Hp1. pose proof (add_missing_cells (poly_dirs [a; b; c]) m) as Hc1.
  destruct (add_missing_edges m (poly_dirs [a; b; c])) as [m1 [|]]; cbn [fst] in *.
  2:{ eapply listed_same; [exact HL|exact Hc1|]. rewrite Hp1. auto. }
  destruct (link_corners m1 (poly_corners [a; b; c])) as [m2|] eqn:E; cbn [fst].
  2:{ eapply listed_same; [exact HL|exact Hc1|]. rewrite Hp1. auto. }
  pose proof (link_corners_cells _ _ _ E) as Hc2. pose proof (link_corners_pts _ _ _ E) as Hp2.
  destruct HL as [T [H1 [H2 [H3 H4]]]].
  assert (Hcl : cells_list m2 = idx (map poly T)) by (unfold cells_list in *; rewrite Hc2, Hc1; exact H1).
  apply negb_false_iff in En, Ep. apply nodupb_NoDup in En. rewrite forallb_forall in Ep.
  exists (T ++ [(a, b, c)]). unfold push_cell. split; [|split; [|split]].
  - unfold cells_list at 1. cbn. rewrite Hcl, map_app. apply oset_idx.
  - intros _. cbn. reflexivity.
  - rewrite dirs_app, dirs_one. apply NoDup_app_intro; [exact H3| |].
    + inversion En as [|? ? Ea Eb]; subst. inversion Eb as [|? ? Ec Ed]; subst. cbn in Ea, Ec.
      repeat constructor; cbn; intuition congruence.
    + intros e He Hn. assert (left_set m e = true) by (apply (left_set_dirs _ _ _ H1); exact He).
      assert (existsb (left_set m) (poly_dirs [a; b; c]) = true); [|congruence].
      apply existsb_exists. exists e. split; [exact Hn|assumption].
  - assert (Hpp : pts (set_cells m2 (Some (oset (onext_key (cells_list m2)) (Some (Poly [a; b; c])) (cells_list m2)))) = pts m)
      by (cbn; congruence).
    intros t Ht. rewrite Hpp. apply in_app_or in Ht. destruct Ht as [Ht|[<-|[]]]; [apply H4; exact Ht|]. split.
    + inversion En as [|? ? Ea Eb]; subst. inversion Eb as [|? ? Ec Ed]; subst. cbn in Ea, Ec. cbn. intuition congruence.
    + intros x Hx. specialize (Ep x Hx). unfold omem in Ep. destruct (oget x (pts m)); congruence.
Qed.
Lemma listed_point m id p : listed m -> listed (set_point m id p).
Proof.
  intros HL. eapply listed_same; [exact HL|reflexivity|]. intros x Hx. cbn. rewrite oget_oset. destruct (N.eqb id x); congruence.
Qed.
Lemma listed_empty : listed (@empty_mesh O D).
Proof. exists []. cbn. split; [reflexivity|]. split; [congruence|]. split; [constructor|intros t []]. Qed.
Lemma update_listed k fuel f inp f' out : update k fuel f inp = Ok (f', out) -> listed out.
Proof.
  apply update_reach; [exact listed_point|exact listed_face| |exact listed_empty].
  intros m id v HL. eapply listed_same; [exact HL|reflexivity|auto].
Qed.
End INV.

Lemma flat_cell_poly (T : list tri) : forall k,
  flat_map (fun ic : N * option cell => map (pair (fst ic)) (cell_tri (snd ic))) (idx_from k (map poly T)) = idx_from k T.
Proof.
  induction T as [|[[a b] c] T IH]; intros k; [reflexivity|]. cbn [map]. rewrite !idx_from_cons. cbn. rewrite IH. reflexivity.
Qed.
Lemma listed_faces {O D} (m : mesh O D) : listed m -> exists T, faces m = idx T /\ tris m = T /\ NoDup (dirs T) /\
  forall t, In t T -> proper t /\ forall x, In x (tverts t) -> oget x (pts m) <> None.
Proof.
  intros [T [H1 [H2 [H3 H4]]]]. exists T.
  assert (HF : faces m = idx T).
  { unfold faces. unfold cells_list in *. destruct (cells m) as [cs|].
    - rewrite H1. apply flat_cell_poly.
    - destruct T as [|t T]; [reflexivity|]. discriminate H2. discriminate. }
  split; [exact HF|]. split; [unfold tris; rewrite HF; apply idx_from_snd|]. auto.
Qed.

Lemma C04_any_pf : forall (O : Ops) (D : Type) k f (inp : mesh O D) fuel f' out, update k fuel f inp = Ok (f', out) ->
  forall cs id c, cells out = Some cs -> In (id, c) cs ->
  exists x y z, c = Some (Poly [x; y; z]) /\ x <> y /\ y <> z /\ z <> x /\
    oget x (pts out) <> None /\ oget y (pts out) <> None /\ oget z (pts out) <> None.
Proof.
  intros O D k f inp fuel f' out H cs id c Hcs Hin. apply update_listed in H. destruct H as [T [H1 [_ [_ H4]]]].
  unfold cells_list in H1. rewrite Hcs in H1. subst cs. apply idx_In in Hin. rewrite nth_error_map in Hin.
  destruct (nth_error T (N.to_nat id)) as [[[x y] z]|] eqn:E; [|discriminate]. cbn in Hin. injection Hin as <-.
  destruct (H4 (x, y, z)) as [[P1 [P2 P3]] P4]; [eapply nth_error_In; eauto|]. exists x, y, z.
  repeat split; auto; apply P4; cbn; auto.
Qed.

Lemma idx_fst {A} (l : list A) : forall k, map fst (idx_from k l) = map (fun i => k + N.of_nat i) (seq 0 (length l)).
Proof.
  induction l as [|x l IH]; intros k; [reflexivity|]. rewrite idx_from_cons. cbn [map fst length seq]. rewrite IH.
  f_equal; [lia|]. rewrite <- seq_shift, map_map. apply map_ext. intros i. lia.
Qed.
Lemma C83_any_pf : forall (O : Ops) (D : Type) k f (inp : mesh O D) fuel f' out, update k fuel f inp = Ok (f', out) ->
  map fst (faces out) = map N.of_nat (seq 0 (length (faces out))) /\ nF out = Z.of_nat (length (faces out)) /\
  NoDup (dirs (tris out)) /\
  forall a b t u, In t (tris out) -> In u (tris out) -> In (a, b) (tdirs t) -> In (a, b) (tdirs u) -> t = u.
Proof.
  intros O D k f inp fuel f' out H. apply update_listed in H. destruct (listed_faces _ H) as [T [HF [HT [HN _]]]].
  rewrite HF, HT. split; [|split; [|split]].
  - unfold idx. rewrite idx_fst, idx_from_length. apply map_ext. intros i. lia.
  - destruct H as [T' [H1 _]]. unfold nF, cells_list in *. rewrite H1.
    assert (length T' = length T); [|rewrite !idx_length, map_length; lia].
    assert (E : faces out = idx T').
    { unfold faces. destruct (cells out) as [cs|]; [rewrite H1; apply flat_cell_poly|]. destruct T'; [reflexivity|discriminate]. }
    rewrite HF in E. apply (f_equal (@length _)) in E. rewrite !idx_length in E. lia.
  - exact HN.
  - intros a b t u Ht Hu Ha Hb. apply In_nth_error in Ht, Hu. destruct Ht as [i Hi], Hu as [j Hj].
    assert (i = j) by (eapply NoDup_dirs_index; eauto). subst j. congruence.
Qed.
