(** * Struct: every run of a face-split filter is a subdivision in the sense of SpecSub. *)
From Coq Require Import Permutation Sorted.
From Verif Require Import Base Mesh Filters Spec SpecSub Lists AddFace SplitTri Split Points Valid Run Update.

(** ** One triangle *)
Lemma nsplit_olist mid a b c :
  nsplit mid (a, b, c) = length (olist (mid a b) ++ olist (mid b c) ++ olist (mid c a)).
Proof.
  unfold nsplit. cbn. destruct (mid a b), (mid b c), (mid c a); reflexivity.
Qed.

Lemma halves_part mid a b x y : In (x, y) (halves a b (mid a b)) <-> part_of mid a b x y.
Proof.
  unfold halves, part_of. destruct (mid a b); cbn; split; intros H.
  - in_cases H; inv H; auto.
  - destruct H as [[-> ->]|[-> ->]]; auto.
  - in_cases H; inv H; auto.
  - destruct H as [-> ->]. auto.
Qed.

Lemma split_used t0 t1 t2 e0 e1 e2 x : In x (six t0 t1 t2 e0 e1 e2) ->
  exists u, In u (split_triangle t0 t1 t2 e0 e1 e2) /\ In x (tverts u).
Proof.
  intros H.
  assert (Hd : exists y, In (x, y) (outer_edges t0 t1 t2 e0 e1 e2)).
  { unfold outer_edges, six in *. destruct e0, e1, e2; cbn in *; in_cases H; subst; eexists; repeat ((left; reflexivity) || right). }
  destruct Hd as [y Hd].
  assert (Hi : In (x, y) (dirs (split_triangle t0 t1 t2 e0 e1 e2))) by (apply split_dirs; auto).
  apply dirs_tri in Hi. destruct Hi as [u [Hu Hi]]. exists u. split; [exact Hu|].
  apply (tdirs_verts _ _ _ Hi).
Qed.

Lemma nsplit_0 mid a b c : nsplit mid (a, b, c) = 0%nat -> mid a b = None /\ mid b c = None /\ mid c a = None.
Proof. rewrite nsplit_olist. destruct (mid a b), (mid b c), (mid c a); cbn; intros H; try discriminate. auto. Qed.

(** No child edge joins the ends of a split edge. *)
Lemma split_cut t0 t1 t2 e0 e1 e2 : NoDup (six t0 t1 t2 e0 e1 e2) ->
  (e0 <> None -> ~ In (t0, t1) (dirs (split_triangle t0 t1 t2 e0 e1 e2)) /\ ~ In (t1, t0) (dirs (split_triangle t0 t1 t2 e0 e1 e2))) /\
  (e1 <> None -> ~ In (t1, t2) (dirs (split_triangle t0 t1 t2 e0 e1 e2)) /\ ~ In (t2, t1) (dirs (split_triangle t0 t1 t2 e0 e1 e2))) /\
  (e2 <> None -> ~ In (t2, t0) (dirs (split_triangle t0 t1 t2 e0 e1 e2)) /\ ~ In (t0, t2) (dirs (split_triangle t0 t1 t2 e0 e1 e2))).
Proof.
  intros Hnd. split_cases e0 e1 e2 Hnd; cbn; (split; [|split]); intros Hne; try congruence;
  (split; intros H; in_cases H; inversion H; congruence).
Qed.

Lemma split_refines T mid old t : splitting T mid old -> In t T -> refines mid t (split_tri mid t).
Proof.
  intros HS Ht. destruct t as [[a b] c].
  pose proof (six_nodup T mid old HS _ _ _ Ht) as Hnd.
  assert (Hsix : forall x, In x (six a b c (mid a b) (mid b c) (mid c a)) <->
    In x (tverts (a, b, c)) \/ exists p q, In (p, q) (tdirs (a, b, c)) /\ mid p q = Some x).
  { intros x. unfold six. cbn [tverts tdirs In]. rewrite !in_app_iff. split.
    - intros [<-|[<-|[<-|[H|[H|H]]]]]; auto; right.
      + exists a, b. destruct (mid a b); cbn in H; in_cases H; subst; auto.
      + exists b, c. destruct (mid b c); cbn in H; in_cases H; subst; auto.
      + exists c, a. destruct (mid c a); cbn in H; in_cases H; subst; auto.
    - intros [H|[p [q [H E]]]]; [in_cases H; subst; auto|].
      in_cases H; inv H; rewrite E; cbn; auto 10. }
  constructor; cbn [split_tri].
  - rewrite split_length, nsplit_olist. reflexivity.
  - intros u. apply split_proper. exact Hnd.
  - intros u x Hu Hx. apply Hsix. eapply split_verts; eauto.
  - intros x Hx. apply split_used. apply Hsix. exact Hx.
  - apply split_dirs_nodup. exact Hnd.
  - intros x y.
    pose proof (dirs_split_tri mid (a, b, c)) as Hd. cbn [split_tri] in Hd.
    rewrite (Hd (x, y)), (Hd (y, x)). rewrite !outer_t_In.
    split.
    + intros [[[p [q [H1 H2]]]|Hi] Hn].
      * exists p, q. split; [exact H1|]. apply halves_part. exact H2.
      * exfalso. apply Hn. right. eapply inner_t_sym. exact Hi.
    + intros [p [q [H1 H2]]]. apply halves_part in H2. split; [left; eauto|].
      intros [[p' [q' [H1' H2']]]|Hi].
      * (* the reversed half belongs to the reversed edge, which is not an edge of t *)
        destruct (tdirs_verts _ _ _ H1). destruct (tdirs_verts _ _ _ H1').
        assert (Hrev : In (x, y) (halves q' p' (mid q' p'))).
        { apply halves_part. apply halves_part in H2'. unfold part_of in *.
          rewrite (s_sym _ _ _ HS q' p'). destruct (mid p' q'); intuition. }
        assert (p = q' /\ q = p') as [-> ->].
        { apply (halves_inj T mid old HS p q q' p' (x, y)); auto; eapply (s_old _ _ _ HS); eauto. }
        pose proof (s_proper _ _ _ HS _ Ht) as Hp. cbn in Hp, H1, H1'.
        in_cases H1; in_cases H1'; inv H1; inv H1'; intuition congruence.
      * apply (outer_not_inner T mid old HS (a, b, c) (a, b, c) x y Ht Ht); [|apply inner_t_sym; exact Hi].
        apply outer_t_In. eauto.
  - intros p q Hpq Hm. destruct (split_cut _ _ _ _ _ _ Hnd) as [H0 [H1 H2]].
    cbn in Hpq. in_cases Hpq; inversion Hpq; subst; auto.
  - intros H0. apply nsplit_0 in H0. destruct H0 as [-> [-> ->]]. reflexivity.
  - intros p q r x y z E. inversion E; subst. intros -> -> ->. reflexivity.
Qed.

Section STRUCT.
Context {O : Ops} {D : Type}.
Notation mesh := (mesh O D).
Notation state := (@state O D).
Notation point := (list (K O)).
Implicit Types inp out : mesh.

(** ** Fuel *)
Lemma cells_loop_mono inp : forall fuel n cs st, cells_loop fuel inp cs st <> OutOfFuel ->
  cells_loop (fuel + n) inp cs st = cells_loop fuel inp cs st.
Proof.
  induction fuel as [|fuel IH]; intros n cs st H; [exfalso; apply H; reflexivity|].
  cbn [Nat.add cells_loop] in *. destruct cs as [|[id c] cs]; [reflexivity|].
  destruct (obind c as_triangle) as [t|]; [|apply IH; exact H].
  destruct (split_cell inp id t st); cbn [rbind] in *; try reflexivity. apply IH. exact H.
Qed.
Lemma sqrt3_loop_mono inp : forall fuel n cs st, sqrt3_loop fuel inp cs st <> OutOfFuel ->
  sqrt3_loop (fuel + n) inp cs st = sqrt3_loop fuel inp cs st.
Proof.
  induction fuel as [|fuel IH]; intros n cs st H; [exfalso; apply H; reflexivity|].
  cbn [Nat.add sqrt3_loop] in *. destruct cs as [|[id [c|]] cs]; try reflexivity.
  destruct (as_triangle c) as [t|]; [|apply IH; exact H].
  destruct (sqrt3_cell inp id t st); cbn [rbind] in *; try reflexivity. apply IH. exact H.
Qed.
Lemma generate_cells_mono k inp fuel n st : generate_cells_of k fuel inp st <> OutOfFuel ->
  generate_cells_of k (fuel + n) inp st = generate_cells_of k fuel inp st.
Proof.
  intros H. destruct k as [[]|[]]; cbn [generate_cells_of] in *;
  unfold generate_output_cells, sqrt3_generate_output_cells in *;
  destruct (cells inp); try reflexivity; (apply cells_loop_mono || apply sqrt3_loop_mono); exact H.
Qed.
Lemma update_mono k f inp fuel n : update k fuel f inp <> OutOfFuel ->
  update k (fuel + n) f inp = update k fuel f inp.
Proof.
  unfold update. destruct (generate_output_points k inp (f, empty_mesh)); cbn [rbind]; try reflexivity.
  apply generate_cells_mono.
Qed.

(** A result other than "out of fuel" does not depend on the fuel. *)
Lemma update_fuel k f inp n1 n2 : update k n1 f inp <> OutOfFuel -> update k n2 f inp <> OutOfFuel ->
  update k n1 f inp = update k n2 f inp.
Proof.
  intros H1 H2. rewrite <- (update_mono k f inp n1 n2 H1), <- (update_mono k f inp n2 n1 H2).
  f_equal. lia.
Qed.
Lemma update_completes k f inp n : update k n f inp <> OutOfFuel ->
  completes (fun fuel => update k fuel f inp) (update k n f inp).
Proof.
  intros H. split; [exact H|]. exists n. intros fuel Hf.
  replace fuel with (n + (fuel - n))%nat by lia. apply update_mono. exact H.
Qed.

(** ** All six face-split filters at once *)
Definition new_point (k : kind) (inp : mesh) : dedge -> res point :=
  match k with CellF s => cell_point s inp | EdgeF s => edge_point s inp end.
Definition inserted (k : kind) (f : fstate) (inp : mesh) : list dedge :=
  match k with CellF _ => cells_inserted inp (csel f) | EdgeF _ => somes (edge_list inp (esel f)) end.
Definition whole (k : kind) (f : fstate) : bool :=
  match k with CellF _ => is_nil (csel f) | EdgeF _ => is_nil (esel f) end.

Lemma is_nil_true {A} (l : list A) : is_nil l = true <-> l = [].
Proof. destruct l; split; cbn; congruence. Qed.

Lemma somes_In {A} (l : list (option A)) x : In x (somes l) <-> In (Some x) l.
Proof.
  unfold somes. rewrite in_flat_map. split.
  - intros [[y|] [H E]]; cbn in E; in_cases E; subst; auto.
  - intros H. exists (Some x). split; [exact H|]. cbn. auto.
Qed.

Lemma listed_once_udistinct (l : list (option dedge)) : listed_once l -> udistinct (somes l).
Proof.
  induction l as [|[e|] l IH] using rev_ind; intros H.
  - intros i j e f Hi. destruct i; discriminate.
  - assert (Hl : listed_once l).
    { intros i j a b Hi Hj. apply H; rewrite nth_error_app1; auto; apply nth_error_Some; congruence. }
    unfold somes. rewrite flat_map_app. cbn [flat_map olist app]. apply udistinct_snoc; [apply IH; exact Hl|].
    destruct (seen (flat_map olist l) e) eqn:E; [|reflexivity]. apply seen_spec in E.
    destruct E as [g [Hg Hu]]. apply somes_In in Hg. apply In_nth_error in Hg. destruct Hg as [i Hi].
    assert (Hlt : (i < length l)%nat) by (apply nth_error_Some; congruence).
    assert (length l = i); [|lia]. apply (H _ _ e g); [| |exact Hu].
    + rewrite nth_error_app2, Nat.sub_diag by lia. reflexivity.
    + rewrite nth_error_app1 by exact Hlt. exact Hi.
  - unfold somes. rewrite flat_map_app. cbn [flat_map olist app]. rewrite app_nil_r. apply IH.
    intros i j a b Hi Hj. apply H; rewrite nth_error_app1; auto; apply nth_error_Some; congruence.
Qed.

Lemma und_edge (t : tri) a b f : In f (tdirs t) -> undirected_eq (a, b) f -> edge_of t a b.
Proof.
  destruct f as [x y]. unfold undirected_eq, edge_of. cbn. intros H [E|E]; inv E; auto.
Qed.

Lemma visited_selected inp sel t : In t (visited inp sel) <-> selected inp sel t.
Proof.
  unfold visited, selected. destruct sel as [|i sel]; cbn [is_nil].
  - split; [auto|]. intros [[_ H]|[i [[] _]]]. exact H.
  - rewrite sel_tris_In. split; [auto|]. intros [[E _]|H]; [discriminate|exact H].
Qed.

Lemma inserted_spec k f inp : sound inp ->
  (match k with EdgeF _ => True | CellF _ => True end) ->
  forall a b, seen (inserted k f inp) (a, b) = true <-> to_split k f inp a b.
Proof.
  intros Hv _ a b. destruct k as [s|s]; cbn [inserted to_split].
  - unfold cells_inserted. rewrite ins_list_seen. split.
    + intros [e [He Hu]]. destruct e as [x y]. apply dirs_tri in He. destruct He as [t [Ht He]].
      exists t. split; [apply visited_selected; exact Ht|]. eapply und_edge; eauto.
    + intros [t [Ht He]]. apply visited_selected in Ht. destruct He as [He|He].
      * exists (a, b). split; [apply in_flat_map; eauto|left; reflexivity].
      * exists (b, a). split; [apply in_flat_map; eauto|right; reflexivity].
  - rewrite seen_spec. unfold edge_list. destruct (esel f) as [|o l] eqn:E; cbn [is_nil].
    + destruct (v_ecells _ Hv) as [es [Hes [_ [Ha [Hb _]]]]]. rewrite Hes. split.
      * intros [[x y] [He Hu]]. left. split; [reflexivity|]. apply somes_In in He.
        apply in_map_iff in He. destruct He as [[id o'] [Eo He]]. cbn in Eo. subst o'.
        destruct (Ha _ _ He) as [p [q [Epq Hj]]]. inv Epq.
        destruct Hu as [Hu|Hu]; inv Hu; [exact Hj|]. apply (v_ring_sym _ Hv). exact Hj.
      * intros [[_ Hj]|[[]|[]]]. destruct (Hb a b Hj) as [id [e [He Hu]]]. exists e. split.
        -- apply somes_In. apply in_map_iff. exists (id, Some e). auto.
        -- destruct e as [x y]. unfold undirected_eq in *. cbn in *. intuition congruence.
    + split.
      * intros [[x y] [He Hu]]. apply somes_In in He. right. destruct Hu as [Hu|Hu]; inv Hu; auto.
      * intros [[H _]|[H|H]]; [discriminate| |].
        -- exists (a, b). split; [apply somes_In; exact H|left; reflexivity].
        -- exists (b, a). split; [apply somes_In; exact H|right; reflexivity].
Qed.

(** What is known about the copied points. *)
Definition copy_spec (k : kind) (f : fstate) (inp : mesh) (P0 : omap point) : Prop :=
  (k <> CellF CLoop -> P0 = pts inp) /\
  (k = CellF CLoop -> copy_result CLoop f inp P0).

Lemma ready_copy s f inp : ready (CellF s) f inp -> copy_ready s f inp.
Proof.
  intros [_ [Hl Hk]] ->. split; [exact Hk|]. intros id Hid _. apply Hl; [left; reflexivity|exact Hid].
Qed.

Lemma edges_ready_of s f inp : sound inp -> ready (EdgeF s) f inp ->
  edges_ready s inp (edge_list inp (esel f)) /\ udistinct (somes (edge_list inp (esel f))).
Proof.
  intros Hv [_ [Hl [Hu He]]]. unfold edge_list. destruct (esel f) as [|o l] eqn:E.
  - split; [|apply ecells_udistinct; exact Hv]. cbn [is_nil].
    destruct (v_ecells _ Hv) as [es [Hes [_ [Ha _]]]]. rewrite Hes.
    intros a b Hin. apply in_map_iff in Hin. destruct Hin as [[id o'] [Eo Hin]]. cbn in Eo. subst o'.
    destruct (Ha _ _ Hin) as [p [q [Epq Hj]]]. inv Epq. split; [exact Hj|].
    intros Hs. apply (Hu eq_refl Hs). exact Hj.
  - cbn [is_nil]. destruct (He ltac:(discriminate)) as [H1 [H2 H3]]. split.
    + intros a b Hin. split; [apply H1; exact Hin|]. intros Hs. apply (H3 Hs). exact Hin.
    + apply listed_once_udistinct. exact H2.
Qed.

Lemma update_split k f inp fuel : valid inp -> dense inp -> ready k f inp -> (length (tris inp) < fuel)%nat ->
  exists P0 f' out, update k fuel f inp = Ok (f', out) /\
    split_run inp (whole k f) (inserted k f inp) (val_of (new_point k inp)) P0 (esel f) f' out /\
    copied inp P0 /\ copy_spec k f inp P0 /\ udistinct (inserted k f inp) /\
    (forall e, In e (inserted k f inp) ->
       new_point k inp e = Ok (val_of (new_point k inp) e) /\ length (val_of (new_point k inp) e) = kdim O).
Proof.
  intros Hv Hd Hr Hfuel. destruct k as [s|s]; cbn [whole inserted new_point].
  - assert (Hfs : face_split s) by (intros ->; destruct Hr as [H _]; apply H; reflexivity).
    pose proof Hr as [_ [_ Hkn]].
    destruct (update_cell s f inp fuel Hv Hd Hfs Hkn (ready_copy _ _ _ Hr) Hfuel)
      as [P0 [f' [out [E [Hrun [Hc [Hk Hres]]]]]]].
    exists P0, f', out. split; [exact E|]. split; [exact Hrun|]. split; [exact Hc|]. split; [|split].
    + split; [intros Hn; apply Hk; congruence|]. intros Hn. inv Hn. exact Hres.
    + apply ins_list_udistinct.
    + intros e He. apply cell_point_ok; auto. apply ins_list_In in He.
      destruct e as [a b]. apply dirs_tri in He. destruct He as [t [Ht He]].
      apply dirs_tri. exists t. split; [eapply visited_incl; eauto|exact He].
  - destruct (edges_ready_of s f inp Hv Hr) as [He Hu].
    destruct (update_edge s f inp fuel Hv Hd) as [f' [out [E Hrun]]]; auto.
    { intros ->. apply Hr. right. reflexivity. }
    exists (pts inp), f', out. split; [exact E|]. split; [exact Hrun|]. split; [apply copied_self; exact Hv|].
    split; [split; [reflexivity|discriminate]|]. split; [exact Hu|].
    intros e Hin. eapply edge_point_ok; eauto. apply somes_In. exact Hin.
Qed.

(** The same for a run that is known to have ended normally, whatever its fuel. *)
Lemma update_split_inv k f inp fuel f' out : valid inp -> dense inp -> ready k f inp ->
  update k fuel f inp = Ok (f', out) ->
  exists P0, split_run inp (whole k f) (inserted k f inp) (val_of (new_point k inp)) P0 (esel f) f' out /\
    copied inp P0 /\ copy_spec k f inp P0 /\ udistinct (inserted k f inp) /\
    (forall e, In e (inserted k f inp) ->
       new_point k inp e = Ok (val_of (new_point k inp) e) /\ length (val_of (new_point k inp) e) = kdim O).
Proof.
  intros Hv Hd Hr E.
  destruct (update_split k f inp (S (length (tris inp))) Hv Hd Hr ltac:(lia)) as [P0 [f1 [out1 [E1 H]]]].
  assert (Hsame : Ok (f', out) = Ok (f1, out1)).
  { rewrite <- E, <- E1. apply update_fuel; congruence. }
  inv Hsame. exists P0. exact H.
Qed.

Lemma split_run_subdivision k f inp P0 es f' out : valid inp -> dense inp ->
  udistinct (inserted k f inp) -> copied inp P0 ->
  split_run inp (whole k f) (inserted k f inp) (val_of (new_point k inp)) P0 es f' out ->
  subdivision inp out (to_split k f inp) (sp (osize (pts inp)) (inserted k f inp))
    (map (split_tri (sp (osize (pts inp)) (inserted k f inp))) (tris inp)).
Proof.
  intros Hv Hd HI Hc [Hb Hp _ _]. set (V := osize (pts inp)) in *. set (Is := inserted k f inp) in *.
  pose proof (valid_splitting inp V Is Hv Hd eq_refl) as HS.
  assert (HP0 : densemap V P0) by (apply copied_densemap; auto).
  assert (Hdm : densemap (V + N.of_nat (length (map (val_of (new_point k inp)) Is)))
                         (P0 ++ idx_from V (map (val_of (new_point k inp)) Is))).
  { apply sorted_app_idx. exact HP0. }
  rewrite map_length in Hdm.
  assert (Hold : forall id, oget id (pts inp) <> None <-> id < V) by (apply Hd).
  assert (Hnew : forall id, oget id (pts out) <> None <-> id < V + N.of_nat (length Is)).
  { intros id. rewrite Hp. apply densemap_get. exact Hdm. }
  constructor.
  - intros a b. apply sp_sym. exact HI.
  - intros a b. rewrite sp_not_None. apply inserted_spec; auto. destruct k; exact I.
  - intros a b c d m H1 H2. destruct (sp_inj _ _ _ _ _ _ _ HI H1 H2) as [[-> ->]|[-> ->]];
      [left|right]; reflexivity.
  - intros id Hid. apply Hnew. apply Hold in Hid. lia.
  - intros id. rewrite Hnew. split.
    + intros [a [b Hm]]. apply (sp_range _ _ _ _ _ HI) in Hm.
      split; [|lia]. destruct (oget id (pts inp)) eqn:E; [|reflexivity].
      assert (oget id (pts inp) <> None) by congruence. apply Hold in H. lia.
    + intros [Hn Hlt]. assert (V <= id).
      { destruct (N.lt_ge_cases id V) as [H|H]; [|exact H]. apply Hold in H. congruence. }
      destruct (sp_onto V Is id HI) as [a [b [_ Hm]]]; [lia|]. eauto.
  - rewrite (built_tris _ _ Hb). unfold split_tris. apply flat_map_concat_map.
  - assert (Hall : forall t, In t (tris inp) -> refines (sp V Is) t (split_tri (sp V Is) t)).
    { intros t Ht. eapply split_refines; eauto. }
    clear - Hall. induction (tris inp) as [|t T IH]; cbn [map]; constructor.
    + apply Hall. cbn. auto.
    + apply IH. intros u Hu. apply Hall. cbn. auto.
  - intros a b Hj. apply (i_ring _ _ _ _ Hb) in Hj. rewrite (built_tris _ _ Hb). exact Hj.
Qed.

End STRUCT.
