(** * Repeat: edge lists in which an edge occurs several times. *)
From Coq Require Import Sorted.
From Verif Require Import Base Mesh Filters Drivers Spec SpecSub SpecRenum Lists AddFace SplitTri Split Points Valid Run Update Struct Count Face
  Any PtsAny Renum RenumProps.
Open Scope N_scope.

Lemma somes_entries (l : list (option dedge)) : Z.of_nat (length (somes l)) = entries l.
Proof.
  unfold entries, somes. f_equal. induction l as [|[e|] l IH]; cbn; auto.
Qed.

(** The entry at position [i] among the non-null ones. *)
Lemma somes_split (l : list (option dedge)) : forall i e, nth_error (somes l) i = Some e ->
  exists l1 l2, l = l1 ++ Some e :: l2 /\ length (somes l1) = i.
Proof.
  induction l as [|[x|] l IH]; intros i e H.
  - destruct i; discriminate.
  - destruct i as [|i]; cbn in H.
    + inv H. exists [], l. auto.
    + destruct (IH i e H) as [l1 [l2 [-> E]]]. exists (Some x :: l1), l2. split; [reflexivity|]. cbn. f_equal. exact E.
  - destruct (IH i e H) as [l1 [l2 [-> E]]]. exists (None :: l1), l2. split; [reflexivity|]. exact E.
Qed.
Lemma somes_app {A} (l l' : list (option A)) : somes (l ++ l') = somes l ++ somes l'.
Proof. apply flat_map_app. Qed.

Lemma lists_edge_seen l a b : lists_edge l a b <-> seen (somes l) (a, b) = true.
Proof.
  rewrite seen_spec. unfold lists_edge. split.
  - intros [H|H]; [exists (a, b)|exists (b, a)]; (split; [apply somes_In; exact H|]); [left|right]; reflexivity.
  - intros [[x y] [H [E|E]]]; inv E; apply somes_In in H; auto.
Qed.

Section REPEAT.
Context {O : Ops} {D : Type}.
Notation mesh := (mesh O D).
Notation point := (list (K O)).
Implicit Types inp out : mesh.

Lemma repeated_run s f inp l fuel : valid inp -> dense inp -> l <> [] -> edges_listed inp l ->
  (s = ELoop -> no_isolated inp /\ face_edges_listed inp l) -> (length (tris inp) < fuel)%nat ->
  exists f' out, update (EdgeF s) fuel (set_edges_to_be_subdivided f l) inp = Ok (f', out) /\
    split_run inp false (somes l) (val_of (edge_point s inp)) (pts inp) l f' out /\
    (forall e, In e (somes l) -> edge_point s inp e = Ok (val_of (edge_point s inp) e) /\ length (val_of (edge_point s inp) e) = kdim O).
Proof.
  intros Hv Hd Hl He Hs Hfuel.
  assert (Her : edges_ready s inp l).
  { intros a b Hab. split; [apply He; exact Hab|]. intros E. apply (proj2 (Hs E)). exact Hab. }
  destruct (update_edge s (set_edges_to_be_subdivided f l) inp fuel Hv Hd) as [f' [out [E R]]].
  - intros E. apply (proj1 (Hs E)).
  - cbn [set_edges_to_be_subdivided esel]. unfold edge_list. destruct l; [congruence|]. exact Her.
  - exact Hfuel.
  - exists f', out. split; [exact E|]. cbn [set_edges_to_be_subdivided esel] in R. unfold edge_list in R.
    destruct l as [|o l]; [congruence|]. cbn [is_nil] in R. split; [exact R|].
    intros e Hin. eapply edge_point_ok; eauto. apply somes_In. exact Hin.
Qed.

Lemma repeated_inv s f inp l fuel f' out : valid inp -> dense inp -> l <> [] -> edges_listed inp l ->
  (s = ELoop -> no_isolated inp /\ face_edges_listed inp l) ->
  update (EdgeF s) fuel (set_edges_to_be_subdivided f l) inp = Ok (f', out) ->
  split_run inp false (somes l) (val_of (edge_point s inp)) (pts inp) l f' out /\
  (forall e, In e (somes l) -> edge_point s inp e = Ok (val_of (edge_point s inp) e) /\ length (val_of (edge_point s inp) e) = kdim O).
Proof.
  intros Hv Hd Hl He Hs E.
  destruct (repeated_run s f inp l (S (length (tris inp))) Hv Hd Hl He Hs ltac:(lia)) as [f1 [o1 [E1 H]]].
  assert (Hsame : Ok (f', out) = Ok (f1, o1)).
  { rewrite <- E, <- E1. apply update_fuel; congruence. }
  inv Hsame. exact H.
Qed.

(** The points of such a run. *)
Lemma repeated_pts inp (l : list (option dedge)) (val : dedge -> point) P : valid inp -> dense inp ->
  P = pts inp ++ idx_from (osize (pts inp)) (map val (somes l)) ->
  (forall id, oget id P <> None <-> (Z.of_N id < nV inp + entries l)%Z) /\
  (forall id p, oget id (pts inp) = Some p -> oget id P = Some p) /\
  (forall l1 e l2, l = l1 ++ Some e :: l2 -> oget (osize (pts inp) + N.of_nat (length (somes l1))) P = Some (val e)).
Proof.
  intros Hv Hd ->. pose proof (dense_map _ Hv Hd) as HP.
  assert (HV : Z.of_N (osize (pts inp)) = nV inp) by (unfold osize, nV; lia).
  assert (Hdm : densemap (osize (pts inp) + N.of_nat (length (map val (somes l)))) (pts inp ++ idx_from (osize (pts inp)) (map val (somes l)))).
  { apply sorted_app_idx. exact HP. }
  rewrite map_length in Hdm. split; [|split].
  - intros id. rewrite (densemap_get _ _ _ Hdm), <- somes_entries. lia.
  - intros id p H. rewrite oget_app, H. reflexivity.
  - intros l1 e l2 ->. rewrite densemap_app_new; [|exact HP|lia].
    replace (N.to_nat (osize (pts inp) + N.of_nat (length (somes l1)) - osize (pts inp))) with (length (somes l1)) by lia.
    rewrite somes_app, map_app. rewrite nth_error_app2 by (rewrite map_length; lia). rewrite map_length, Nat.sub_diag. reflexivity.
Qed.

Lemma repeated_mid l V a b m : sp V (somes l) a b = Some m ->
  exists l1 e l2, l = l1 ++ Some e :: l2 /\ undirected_eq (a, b) e /\ ~ lists_edge l2 a b /\ m = V + N.of_nat (length (somes l1)).
Proof.
  intros H. apply sp_last in H. destruct H as [Hm [e [He [Hu Hl]]]].
  destruct (somes_split l _ _ He) as [l1 [l2 [-> El]]]. exists l1, e, l2.
  split; [reflexivity|]. split; [exact Hu|]. split; [|lia].
  intros H. apply lists_edge_seen, seen_spec in H. destruct H as [g [Hg Hug]].
  apply In_nth_error in Hg. destruct Hg as [j Hj].
  apply (Hl (S (length (somes l1) + j)) g); [lia| |exact Hug].
  rewrite somes_app, nth_error_app2 by lia. replace (S (length (somes l1) + j) - length (somes l1))%nat with (S j) by lia.
  exact Hj.
Qed.
End REPEAT.

(** ** C40 *)
Lemma C40_repeated_pf : forall (O : Ops) (D : Type) s f (l : list (option dedge)) (inp : mesh O D),
  valid inp -> dense inp -> l <> [] -> edges_listed inp l ->
  (s = ELoop -> no_isolated inp /\ face_edges_listed inp l) ->
  exists f' out, (exists n, forall fuel, (n <= fuel)%nat -> update (EdgeF s) fuel (set_edges_to_be_subdivided f l) inp = Ok (f', out)) /\
    dense out /\ (tris inp <> [] -> valid out) /\ (nV out = nV inp + entries l)%Z /\
    (forall id p, oget id (pts inp) = Some p -> oget id (pts out) = Some p) /\
    exists mid Ls, tris out = concat Ls /\ Forall2 (refines mid) (tris inp) Ls /\
      (forall a b, mid a b = mid b a) /\
      (forall a b, mid a b <> None <-> lists_edge l a b) /\
      (** the last entry of an edge gives its point *)
      (forall a b m, mid a b = Some m -> exists (l1 : list (option dedge)) e l2, l = l1 ++ Some e :: l2 /\ undirected_eq (a, b) e /\
         ~ lists_edge l2 a b /\ Z.of_N m = (nV inp + entries l1)%Z) /\
      (** the other entries give points of no face *)
      (forall (l1 : list (option dedge)) a b l2 id, l = l1 ++ Some (a, b) :: l2 -> lists_edge l2 a b -> Z.of_N id = (nV inp + entries l1)%Z ->
         oget id (pts out) <> None /\ ring out id = [] /\ forall u, In u (tris out) -> ~ In id (tverts u)).
Proof.
  intros O D s f l inp Hv Hd Hl He Hs.
  destruct (repeated_run s f inp l (S (length (tris inp))) Hv Hd Hl He Hs ltac:(lia)) as [f' [out [E [R Hval]]]].
  exists f', out. split.
  { exists (S (length (tris inp))). intros fuel Hfuel.
    destruct (repeated_run s f inp l fuel Hv Hd Hl He Hs ltac:(lia)) as [f1 [o1 [E1 _]]].
    rewrite <- E. apply update_fuel; congruence. }
  pose proof R as [Hb Hp _ _]. set (V := osize (pts inp)) in *.
  destruct (repeated_pts inp l _ _ Hv Hd Hp) as [P1 [P2 P3]].
  assert (HV : Z.of_N V = nV inp) by (unfold V, osize, nV; lia).
  assert (Hnv : (nV out = nV inp + entries l)%Z).
  { unfold nV. rewrite Hp, app_length, idx_from_length, map_length, <- somes_entries. lia. }
  pose proof (valid_splitting inp V (somes l) Hv Hd eq_refl) as HS.
  split.
  { intros id. rewrite P1, <- Hnv. unfold nV, osize. lia. }
  split.
  { intros Hne. eapply split_run_valid; eauto; [apply copied_self; exact Hv|]. intros e Hin. apply Hval. exact Hin. }
  split; [exact Hnv|]. split; [exact P2|].
  exists (sp V (somes l)), (map (split_tri (sp V (somes l))) (tris inp)).
  assert (Ht : tris out = concat (map (split_tri (sp V (somes l))) (tris inp))).
  { rewrite (built_tris _ _ Hb). unfold split_tris. apply flat_map_concat_map. }
  assert (HR : Forall2 (refines (sp V (somes l))) (tris inp) (map (split_tri (sp V (somes l))) (tris inp))).
  { assert (Hall : forall t, In t (tris inp) -> refines (sp V (somes l)) t (split_tri (sp V (somes l)) t)).
    { intros t Hin. eapply split_refines; eauto. }
    clear - Hall. induction (tris inp) as [|t T IH]; cbn [map]; constructor.
    + apply Hall. cbn. auto.
    + apply IH. intros u Hu. apply Hall. cbn. auto. }
  split; [exact Ht|]. split; [exact HR|]. split; [intros a b; apply sp_sym_any|].
  split; [intros a b; rewrite sp_not_None; symmetry; apply lists_edge_seen|]. split.
  - intros a b m Hm. destruct (repeated_mid l V a b m Hm) as [l1 [e [l2 [-> [Hu [Hn ->]]]]]].
    exists l1, e, l2. split; [reflexivity|]. split; [exact Hu|]. split; [exact Hn|].
    rewrite <- somes_entries. lia.
  - intros l1 a b l2 id El Hl2 Hid.
    assert (Eid : id = V + N.of_nat (length (somes l1))) by (rewrite <- somes_entries in Hid; lia).
    assert (Hno : forall u, In u (tris out) -> ~ In id (tverts u)).
    { intros u Hu Hx. rewrite Ht in Hu. apply in_concat in Hu. destruct Hu as [L [HL Hu]].
      apply in_map_iff in HL. destruct HL as [t [<- Hin]].
      pose proof (split_refines _ _ _ t HS Hin) as Hr.
      destruct (rf_verts _ _ _ Hr u id Hu Hx) as [Hold|[x [y [Hxy Hm]]]].
      - apply (v_verts _ Hv t) in Hold; [|exact Hin]. apply Hd in Hold. fold V in Hold. lia.
      - destruct (repeated_mid l V x y id Hm) as [k1 [e [k2 [Ek [Hu' [Hn Em]]]]]].
        assert (Hlen : length (somes k1) = length (somes l1)) by lia.
        assert (Hsame : nth_error (somes l) (length (somes l1)) = Some e /\ nth_error (somes l) (length (somes l1)) = Some (a, b)).
        { split; [rewrite Ek, <- Hlen|rewrite El]; rewrite somes_app, nth_error_app2, Nat.sub_diag by lia; reflexivity. }
        destruct Hsame as [S1 S2]. rewrite S1 in S2. injection S2 as S2.
        assert (Hs2 : somes k2 = somes l2).
        { assert (Hz : skipn (S (length (somes l1))) (somes l) = somes l2 /\ skipn (S (length (somes l1))) (somes l) = somes k2).
          { split; [rewrite El|rewrite Ek, <- Hlen]; rewrite somes_app, skipn_app, skipn_all2 by lia;
            [replace (S (length (somes l1)) - length (somes l1))%nat with 1%nat by lia|
             replace (S (length (somes k1)) - length (somes k1))%nat with 1%nat by lia]; reflexivity. }
          destruct Hz as [Z1 Z2]. congruence. }
        apply Hn. apply lists_edge_seen. rewrite Hs2.
        apply lists_edge_seen in Hl2. apply seen_spec in Hl2. apply seen_spec.
        destruct Hl2 as [g [Hg Hug]]. exists g. split; [exact Hg|].
        destruct g as [p q]. rewrite S2 in Hu'. unfold undirected_eq in *. cbn in *. intuition congruence. }
    split; [|split; [|exact Hno]].
    + rewrite Eid. pose proof (P3 _ _ _ El) as HP. fold V in HP. rewrite HP. discriminate.
    + destruct (ring out id) as [|w r] eqn:Er; [reflexivity|]. exfalso.
      assert (Hj : joined out id w) by (unfold joined; rewrite Er; cbn; auto).
      apply (i_ring _ _ _ _ Hb) in Hj. rewrite <- (built_tris _ _ Hb) in Hj.
      destruct Hj as [Hj|Hj]; apply dirs_tri in Hj; destruct Hj as [u [Hu Hin]]; apply (Hno u Hu);
      destruct u as [[x y] z]; cbn in Hin |- *; in_cases Hin; inv Hin; auto.
Qed.

(** Two lists of the same edges. *)
Lemma ren_mid_any V I1 I2 a b x y : sp V I1 a b = Some x -> sp V I2 a b = Some y -> ren V I1 I2 x = y.
Proof.
  intros E1 E2. apply sp_last in E1. destruct E1 as [Hx [e [He [Hu _]]]].
  unfold ren. destruct (N.ltb_spec x V); [lia|]. rewrite He.
  assert (sp V I2 (fst e) (snd e) = sp V I2 a b) as ->.
  { destruct e as [c d]. destruct Hu as [Hu|Hu]; inv Hu; [reflexivity|]. apply sp_sym_any. }
  rewrite E2. reflexivity.
Qed.

Lemma tracked_map (g : item -> item) E : (forall x, it_track (g x) = it_track x) -> tracked (map g E) = tracked E.
Proof.
  intros H. induction E as [|x E IH] using rev_ind; [reflexivity|].
  rewrite map_app. cbn [map]. rewrite !tracked_snoc, IH, H, map_length. reflexivity.
Qed.
Lemma dat_map {O D} (inp : mesh O D) (g : item -> item) E : (forall x, it_parent (g x) = it_parent x) -> dat inp (map g E) = dat inp E.
Proof.
  intros H. induction E as [|x E IH] using rev_ind; [reflexivity|].
  rewrite map_app. cbn [map]. rewrite !dat_snoc, IH, H, map_length. reflexivity.
Qed.

Definition imap (r : N -> N) (x : item) : item := (fst x, tmap r (snd x)).

Lemma plan_map r S1 S2 u F :
  (forall a b, S2 a b = option_map r (S1 a b)) -> (forall id t x, In (id, t) F -> In x (tverts t) -> r x = x) ->
  plan S2 u F = map (imap r) (plan S1 u F).
Proof.
  intros HS Hr. induction F as [|[id [[a b] c]] F IH]; [reflexivity|].
  unfold plan in *. cbn [flat_map]. rewrite map_app, <- IH by (intros; eapply Hr; cbn; eauto). f_equal.
  unfold plan_cell. rewrite !HS.
  assert (Ha : r a = a) by (apply (Hr id (a, b, c)); cbn; auto).
  assert (Hb : r b = b) by (apply (Hr id (a, b, c)); cbn; auto).
  assert (Hc : r c = c) by (apply (Hr id (a, b, c)); cbn; auto).
  rewrite map_map. rewrite <- Ha at 1. rewrite <- Hb at 1. rewrite <- Hc at 1.
  rewrite split_triangle_map, map_map. apply map_ext. intros t. unfold imap. cbn [fst snd].
  destruct (S1 a b), (S1 b c), (S1 c a); reflexivity.
Qed.

Lemma C40_same_edges_pf : forall (O : Ops) (D : Type) s f (l1 l2 : list (option dedge)) (inp : mesh O D) fuel1 fuel2 f1 f2 out1 out2,
  valid inp -> dense inp -> l1 <> [] -> l2 <> [] -> edges_listed inp l1 ->
  (s = ELoop -> no_isolated inp /\ face_edges_listed inp l1) ->
  (forall a b, lists_edge l1 a b <-> lists_edge l2 a b) ->
  update (EdgeF s) fuel1 (set_edges_to_be_subdivided f l1) inp = Ok (f1, out1) ->
  update (EdgeF s) fuel2 (set_edges_to_be_subdivided f l2) inp = Ok (f2, out2) ->
  exists r r' : N -> N,
    (forall id, oget id (pts inp) <> None -> r id = id) /\
    (forall u x, In u (tris out1) -> In x (tverts u) -> r' (r x) = x /\ oget (r x) (pts out2) <> None) /\
    tris out2 = map (tmap r) (tris out1) /\ nF out1 = nF out2 /\ csel f1 = csel f2 /\
    (forall id, cell_datum out1 id = cell_datum out2 id) /\
    (s = ELinear /\ (forall x y, kadd O x y = kadd O y x) \/
     (forall a b, In (Some (a, b)) l1 <-> In (Some (a, b)) l2) /\ (forall a b, In (Some (a, b)) l1 -> ~ In (Some (b, a)) l1) ->
     forall u x, In u (tris out1) -> In x (tverts u) -> oget (r x) (pts out2) = oget x (pts out1)).
Proof.
  intros O D s f l1 l2 inp fuel1 fuel2 f1 f2 out1 out2 Hv Hd N1 N2 L1 HL Hll E1 E2.
  assert (Hin : forall a b, In (Some (a, b)) l2 -> In (Some (a, b)) l1 \/ In (Some (b, a)) l1).
  { intros a b H. apply Hll. left. exact H. }
  assert (L2 : edges_listed inp l2).
  { intros a b H. destruct (Hin a b H) as [H'|H']; apply L1 in H'; [exact H'|]. apply (v_ring_sym _ Hv). exact H'. }
  assert (HL2 : s = ELoop -> no_isolated inp /\ face_edges_listed inp l2).
  { intros E. destruct (HL E) as [A B]. split; [exact A|]. intros a b H. destruct (Hin a b H) as [H'|H']; apply B in H'; tauto. }
  destruct (repeated_inv s f inp l1 fuel1 f1 out1 Hv Hd N1 L1 HL E1) as [[B1 P1 C1 F1] V1].
  destruct (repeated_inv s f inp l2 fuel2 f2 out2 Hv Hd N2 L2 HL2 E2) as [[B2 P2 C2 F2] V2].
  set (V := osize (pts inp)) in *. set (I1 := somes l1) in *. set (I2 := somes l2) in *.
  set (r := ren V I1 I2). set (r' := ren V I2 I1).
  assert (Hdom : forall a b, sp V I1 a b <> None <-> sp V I2 a b <> None).
  { intros a b. unfold I1, I2. rewrite !sp_not_None, <- !lists_edge_seen. apply Hll. }
  assert (Hr : forall a b x, sp V I1 a b = Some x -> sp V I2 a b = Some (r x)).
  { intros a b x H. destruct (sp V I2 a b) as [y|] eqn:Ey.
    - f_equal. symmetry. eapply ren_mid_any; eauto.
    - exfalso. apply (proj1 (Hdom a b)); congruence. }
  assert (Hr' : forall a b x, sp V I2 a b = Some x -> sp V I1 a b = Some (r' x)).
  { intros a b x H. destruct (sp V I1 a b) as [y|] eqn:Ey.
    - f_equal. symmetry. eapply ren_mid_any; eauto.
    - exfalso. apply (proj2 (Hdom a b)); congruence. }
  assert (HS : forall a b, sp V I2 a b = option_map r (sp V I1 a b)).
  { intros a b. destruct (sp V I1 a b) as [x|] eqn:Ex; [apply Hr; exact Ex|].
    destruct (sp V I2 a b) as [y|] eqn:Ey; [|reflexivity]. apply Hr' in Ey. congruence. }
  assert (Hold : forall id, oget id (pts inp) <> None -> r id = id /\ r' id = id).
  { intros id H. apply Hd in H. split; apply ren_old; exact H. }
  assert (Hfv : forall id t x, In (id, t) (faces inp) -> In x (tverts t) -> r x = x).
  { intros id t x Ht Hx. apply Hold. apply (v_verts _ Hv t); [|exact Hx]. unfold tris. apply in_map_iff. exists (id, t). auto. }
  assert (HP : plan (sp V I2) false (faces inp) = map (imap r) (plan (sp V I1) false (faces inp))) by (apply plan_map; assumption).
  assert (T1 : tris out1 = map it_tri (plan (sp V I1) false (faces inp))).
  { rewrite (built_tris _ _ B1). symmetry. apply plan_tris. }
  assert (T2 : tris out2 = map it_tri (plan (sp V I2) false (faces inp))).
  { rewrite (built_tris _ _ B2). symmetry. apply plan_tris. }
  assert (HT : tris out2 = map (tmap r) (tris out1)).
  { rewrite T1, T2, HP, !map_map. reflexivity. }
  assert (HnF : forall (out : mesh O D) T, built out T -> nF out = Z.of_nat (length T)).
  { intros out T HB. unfold nF. pose proof (i_cells _ _ _ _ HB) as Hc. unfold cells_list in Hc.
    destruct (cells out) as [cs|] eqn:Ec.
    - rewrite Hc. unfold idx. rewrite idx_from_length, map_length. reflexivity.
    - destruct T as [|t T]; [reflexivity|]. rewrite (i_some _ _ _ _ HB) in Ec; discriminate. }
  (* corners of output faces *)
  assert (Hcorner : forall u x, In u (tris out1) -> In x (tverts u) ->
    oget x (pts inp) <> None \/ exists a b, sp V I1 a b = Some x).
  { intros u x Hu Hx. rewrite (built_tris _ _ B1) in Hu. unfold split_tris in Hu. apply in_flat_map in Hu.
    destruct Hu as [t [Ht Hu]]. pose proof (valid_splitting inp V I1 Hv Hd eq_refl) as HSp.
    pose proof (split_refines _ _ _ t HSp Ht) as HR.
    destruct (rf_verts _ _ _ HR u x Hu Hx) as [H|[a [b [_ H]]]]; [left; apply (v_verts _ Hv t); assumption|right; eauto]. }
  destruct (repeated_pts inp l1 _ _ Hv Hd P1) as [Q1 [Q2 Q3]]. destruct (repeated_pts inp l2 _ _ Hv Hd P2) as [R1 [R2 R3]].
  fold V in Q3, R3.
  exists r, r'. split; [intros id H; apply Hold; exact H|]. split; [|split; [exact HT|split; [|split; [|split]]]].
  - intros u x Hu Hx. destruct (Hcorner u x Hu Hx) as [H|[a [b H]]].
    + destruct (Hold x H) as [-> ->]. split; [reflexivity|]. destruct (oget x (pts inp)) as [p|] eqn:E; [|congruence].
      rewrite (R2 _ _ E). discriminate.
    + pose proof (Hr _ _ _ H) as H2. split; [apply Hr' in H2; congruence|].
      destruct (repeated_mid l2 V a b _ H2) as [k1 [e [k2 [El [_ [_ Em]]]]]]. rewrite Em, (R3 _ _ _ El). discriminate.
  - rewrite (HnF _ _ B1), (HnF _ _ B2), <- (built_tris _ _ B1), <- (built_tris _ _ B2), HT, map_length. reflexivity.
  - rewrite F1, F2. cbn [csel]. rewrite HP. symmetry. apply tracked_map. reflexivity.
  - intros id. unfold cell_datum. rewrite C1, C2, HP, dat_map by reflexivity. reflexivity.
  - intros Hc u x Hu Hx. destruct (Hcorner u x Hu Hx) as [H|[a [b H]]].
    + destruct (Hold x H) as [-> _]. destruct (oget x (pts inp)) as [p|] eqn:E; [|congruence].
      rewrite (Q2 _ _ E), (R2 _ _ E). reflexivity.
    + pose proof (Hr _ _ _ H) as H2.
      destruct (repeated_mid l1 V a b _ H) as [j1 [e1 [j2 [El1 [U1 [_ Em1]]]]]].
      destruct (repeated_mid l2 V a b _ H2) as [k1 [e2 [k2 [El2 [U2 [_ Em2]]]]]].
      rewrite Em2, (R3 _ _ _ El2), Em1, (Q3 _ _ _ El1). f_equal.
      assert (In1 : In (Some e1) l1) by (rewrite El1; apply in_or_app; cbn; auto).
      assert (In2 : In (Some e2) l2) by (rewrite El2; apply in_or_app; cbn; auto).
      assert (Hu12 : undirected_eq e2 e1).
      { destruct e1 as [p q], e2 as [p' q']. unfold undirected_eq in *. cbn in *. intuition congruence. }
      destruct Hc as [[-> Hcomm]|[Hsame Hone]].
      * destruct (V1 e1) as [W1 _]; [apply somes_In; exact In1|]. destruct (V2 e2) as [W2 _]; [apply somes_In; exact In2|].
        exact (linear_sym (EdgeF ELinear) (EdgeF ELinear) inp e2 e1 _ _ Hcomm eq_refl eq_refl Hu12 W2 W1).
      * assert (e2 = e1) as ->; [|reflexivity].
        destruct e1 as [p q], e2 as [p' q']. apply Hsame in In2. destruct Hu12 as [Hu12|Hu12]; [exact Hu12|].
        inv Hu12. exfalso. apply (Hone _ _ In1). exact In2.
Qed.
