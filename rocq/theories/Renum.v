(** * Renum: runs that split the same edges agree up to the numbering of the new points. *)
From Coq Require Import Permutation Sorted.
From Verif Require Import Base Mesh Filters Spec SpecSub SpecRenum Lists AddFace SplitTri Split Points Valid Run Update
  Struct Count Face.

Definition ren (V : N) (I1 I2 : list dedge) (x : N) : N :=
  if x <? V then x
  else match nth_error I1 (N.to_nat (x - V)) with
       | Some e => match sp V I2 (fst e) (snd e) with Some y => y | None => x end
       | None => x
       end.

Lemma ren_old V I1 I2 x : x < V -> ren V I1 I2 x = x.
Proof. intros H. unfold ren. apply N.ltb_lt in H. rewrite H. reflexivity. Qed.

Lemma sp_und V I a b e : udistinct I -> undirected_eq (a, b) e -> sp V I (fst e) (snd e) = sp V I a b.
Proof.
  intros H. destruct e as [x y]. cbn [fst snd]. intros [E|E]; inv E; [reflexivity|]. apply sp_sym. exact H.
Qed.

Lemma ren_mid V I1 I2 a b x y : udistinct I1 -> udistinct I2 ->
  sp V I1 a b = Some x -> sp V I2 a b = Some y -> ren V I1 I2 x = y.
Proof.
  intros H1 H2 E1 E2. apply (sp_Some _ _ _ _ _ H1) in E1. destruct E1 as [Hx [e [He Hu]]].
  unfold ren. destruct (N.ltb_spec x V); [lia|]. rewrite He, (sp_und V I2 a b e H2 Hu), E2. reflexivity.
Qed.

(** ** Splitting one triangle *)
Lemma split_triangle_map r a b c e0 e1 e2 :
  split_triangle (r a) (r b) (r c) (option_map r e0) (option_map r e1) (option_map r e2) =
  map (tmap r) (split_triangle a b c e0 e1 e2).
Proof. destruct e0, e1, e2; reflexivity. Qed.

Lemma kind_eq_dec (k l : kind) : {k = l} + {k <> l}.
Proof. decide equality; decide equality. Qed.

Section RENUM.
Context {O : Ops} {D : Type}.
Notation mesh := (mesh O D).
Notation state := (@state O D).
Notation point := (list (K O)).
Implicit Types inp out : mesh.

Lemma inserted_udistinct k f inp : valid inp -> ready k f inp -> udistinct (inserted k f inp).
Proof.
  intros Hv Hr. destruct k as [s|s]; cbn [inserted].
  - apply ins_list_udistinct.
  - apply (edges_ready_of s f inp Hv Hr).
Qed.

Lemma face_edges_out k f inp f' out mid Ls : face_result k f inp f' out mid Ls ->
  forall a b, In (a, b) (dirs (tris out)) -> joined out a b /\ joined out b a.
Proof.
  intros FR a b H. destruct (tris inp) as [|t0 T] eqn:ET.
  - exfalso. rewrite (sd_tris _ _ _ _ _ (fr_sub _ _ _ _ _ _ _ FR)), (fr_Ls _ _ _ _ _ _ _ FR), ET in H. exact H.
  - destruct (fr_valid _ _ _ _ _ _ _ FR) as [Hv _]; [congruence|].
    pose proof (v_face_edges _ Hv _ _ H). split; [assumption|]. apply (v_ring_sym _ Hv). assumption.
Qed.

Section TWO_RUNS.
Variables (k1 k2 : kind) (g1 g2 f1 f2 : fstate) (inp out1 out2 : mesh).
Variables (mid1 mid2 : N -> N -> option N) (Ls1 Ls2 : list (list tri)).
Hypothesis (Hv : valid inp) (Hd : dense inp) (R1 : ready k1 g1 inp) (R2 : ready k2 g2 inp).
Hypothesis (F1 : face_result k1 g1 inp f1 out1 mid1 Ls1) (F2 : face_result k2 g2 inp f2 out2 mid2 Ls2).
Hypothesis (Hdom : forall a b, to_split k1 g1 inp a b <-> to_split k2 g2 inp a b).

Let V := osize (pts inp).
Let I1 := inserted k1 g1 inp.
Let I2 := inserted k2 g2 inp.
Let r := ren V I1 I2.
Let r' := ren V I2 I1.

Lemma dom_eq a b : mid1 a b <> None <-> mid2 a b <> None.
Proof.
  rewrite (sd_dom _ _ _ _ _ (fr_sub _ _ _ _ _ _ _ F1)), (sd_dom _ _ _ _ _ (fr_sub _ _ _ _ _ _ _ F2)). apply Hdom.
Qed.
Lemma r_mid a b x : mid1 a b = Some x -> mid2 a b = Some (r x).
Proof.
  intros E. pose proof (proj1 (dom_eq a b)) as H. destruct (mid2 a b) as [y|] eqn:E2; [|exfalso; apply H; congruence].
  f_equal. symmetry. rewrite (fr_mid _ _ _ _ _ _ _ F1) in E. rewrite (fr_mid _ _ _ _ _ _ _ F2) in E2.
  eapply ren_mid; eauto; apply inserted_udistinct; auto.
Qed.
Lemma r'_mid a b x : mid2 a b = Some x -> mid1 a b = Some (r' x).
Proof.
  intros E. pose proof (proj2 (dom_eq a b)) as H. destruct (mid1 a b) as [y|] eqn:E2; [|exfalso; apply H; congruence].
  f_equal. symmetry. rewrite (fr_mid _ _ _ _ _ _ _ F2) in E. rewrite (fr_mid _ _ _ _ _ _ _ F1) in E2.
  eapply ren_mid; eauto; apply inserted_udistinct; auto.
Qed.
Lemma r_old id : oget id (pts inp) <> None -> r id = id.
Proof. intros H. apply ren_old. apply Hd. exact H. Qed.
Lemma r'_old id : oget id (pts inp) <> None -> r' id = id.
Proof. intros H. apply ren_old. apply Hd. exact H. Qed.
Lemma mid_map a b : mid2 a b = option_map r (mid1 a b).
Proof.
  destruct (mid1 a b) as [x|] eqn:E; cbn [option_map]; [apply r_mid; exact E|].
  destruct (mid2 a b) as [y|] eqn:E2; [|reflexivity]. apply r'_mid in E2. congruence.
Qed.
Lemma pt_cases m k g f out mid Ls id : face_result k g inp f out mid Ls -> m = out ->
  oget id (pts m) <> None -> oget id (pts inp) <> None \/ exists a b, mid a b = Some id.
Proof.
  intros F -> H. destruct (oget id (pts inp)) eqn:E; [left; congruence|].
  right. apply (sd_new _ _ _ _ _ (fr_sub _ _ _ _ _ _ _ F)). auto.
Qed.

Lemma split_map t : In t (tris inp) -> split_tri mid2 t = map (tmap r) (split_tri mid1 t).
Proof.
  intros Ht. destruct t as [[a b] c]. cbn [split_tri]. rewrite <- split_triangle_map, <- !mid_map.
  rewrite !r_old; [reflexivity|..]; apply (v_verts _ Hv _ _ Ht); cbn; auto.
Qed.
Lemma tris_map : tris out2 = map (tmap r) (tris out1).
Proof.
  rewrite (sd_tris _ _ _ _ _ (fr_sub _ _ _ _ _ _ _ F1)), (sd_tris _ _ _ _ _ (fr_sub _ _ _ _ _ _ _ F2)).
  rewrite (fr_Ls _ _ _ _ _ _ _ F1), (fr_Ls _ _ _ _ _ _ _ F2), concat_map, map_map. f_equal.
  apply map_ext_in. apply split_map.
Qed.
Lemma faces_map id u : In (id, u) (faces out2) <-> exists t, In (id, t) (faces out1) /\ u = tmap r t.
Proof.
  rewrite (fr_ids _ _ _ _ _ _ _ F2), tris_map, nth_error_map. split.
  - destruct (nth_error (tris out1) (N.to_nat id)) as [t|] eqn:E; [|discriminate]. cbn. intros H. inv H.
    exists t. split; [|reflexivity]. apply (fr_ids _ _ _ _ _ _ _ F1). exact E.
  - intros [t [Ht ->]]. apply (fr_ids _ _ _ _ _ _ _ F1) in Ht. rewrite Ht. reflexivity.
Qed.
Lemma dirs_map a b : In (a, b) (dirs (tris out2)) <-> exists x y, In (x, y) (dirs (tris out1)) /\ a = r x /\ b = r y.
Proof.
  rewrite tris_map. split.
  - intros H. apply dirs_tri in H. destruct H as [t [Ht Hin]]. apply in_map_iff in Ht. destruct Ht as [u [<- Hu]].
    destruct u as [[x y] z]. cbn in Hin. in_cases Hin; inv Hin; [exists x, y|exists y, z|exists z, x];
    (split; [apply dirs_tri; exists (x, y, z); split; [exact Hu|cbn; auto]|split; reflexivity]).
  - intros [x [y [H [-> ->]]]]. apply dirs_tri in H. destruct H as [[[p q] s] [Ht Hin]].
    apply dirs_tri. exists (tmap r (p, q, s)). split; [apply in_map; exact Ht|].
    cbn in Hin |- *. in_cases Hin; inv Hin; auto.
Qed.
Lemma joined_map a b : joined out2 a b <-> exists x y, joined out1 x y /\ a = r x /\ b = r y.
Proof.
  split.
  - intros H. apply (sd_nowire _ _ _ _ _ (fr_sub _ _ _ _ _ _ _ F2)) in H.
    destruct H as [H|H]; apply dirs_map in H; destruct H as [x [y [H [-> ->]]]].
    + exists x, y. split; [|auto]. apply (face_edges_out _ _ _ _ _ _ _ F1 _ _ H).
    + exists y, x. split; [|auto]. apply (face_edges_out _ _ _ _ _ _ _ F1 _ _ H).
  - intros [x [y [H [-> ->]]]]. apply (sd_nowire _ _ _ _ _ (fr_sub _ _ _ _ _ _ _ F1)) in H.
    destruct H as [H|H].
    + assert (H' : In (r x, r y) (dirs (tris out2))) by (apply dirs_map; eauto).
      apply (face_edges_out _ _ _ _ _ _ _ F2 _ _ H').
    + assert (H' : In (r y, r x) (dirs (tris out2))) by (apply dirs_map; eauto).
      apply (face_edges_out _ _ _ _ _ _ _ F2 _ _ H').
Qed.
Lemma child_map pid t u : child_of inp Ls1 pid t u -> child_of inp Ls2 pid t (tmap r u).
Proof.
  unfold child_of. rewrite (fr_Ls _ _ _ _ _ _ _ F1), (fr_Ls _ _ _ _ _ _ _ F2). unfold tris at 1 2. rewrite !map_map.
  intros [L [HL Hu]]. apply combine_map_In in HL. destruct HL as [Hin ->].
  eexists. split; [apply combine_map_In; split; [exact Hin|reflexivity]|].
  rewrite split_map; [apply in_map; exact Hu|]. unfold tris. apply in_map_iff. exists (pid, t). auto.
Qed.
Lemma child_ex u : In u (tris out1) -> exists pid t, child_of inp Ls1 pid t u.
Proof.
  rewrite (sd_tris _ _ _ _ _ (fr_sub _ _ _ _ _ _ _ F1)), (fr_Ls _ _ _ _ _ _ _ F1). intros H.
  apply in_concat in H. destruct H as [L [HL Hu]]. apply in_map_iff in HL. destruct HL as [t [<- Ht]].
  unfold tris in Ht. apply in_map_iff in Ht. destruct Ht as [[pid t'] [<- Hin]]. exists pid, t'.
  unfold child_of. unfold tris. rewrite map_map. eexists. split; [apply combine_map_In; split; [exact Hin|reflexivity]|exact Hu].
Qed.
Lemma data_map id : cell_datum out1 id = cell_datum out2 id.
Proof.
  assert (H : forall u, In (id, u) (faces out1) -> cell_datum out1 id = cell_datum out2 id).
  { intros u Hu. destruct (child_ex u) as [pid [t Hc]].
    { unfold tris. apply in_map_iff. exists (id, u). auto. }
    rewrite (fr_data _ _ _ _ _ _ _ F1 _ _ _ _ Hu Hc). symmetry.
    apply (fr_data _ _ _ _ _ _ _ F2 id pid t (tmap r u)); [|apply child_map; exact Hc].
    apply faces_map. eauto. }
  destruct (cell_datum out1 id) as [x|] eqn:E1.
  - destruct (fr_data_only _ _ _ _ _ _ _ F1 id) as [u Hu]; [congruence|]. apply (H u Hu).
  - destruct (cell_datum out2 id) as [y|] eqn:E2; [|reflexivity].
    destruct (fr_data_only _ _ _ _ _ _ _ F2 id) as [u Hu]; [congruence|].
    apply faces_map in Hu. destruct Hu as [t [Ht _]]. apply (H t Ht).
Qed.

Lemma two_runs : renumbered inp r r' out1 out2.
Proof.
  constructor.
  - apply r_old.
  - intros id H. destruct (pt_cases _ _ _ _ _ _ _ _ F1 eq_refl H) as [Ho|[a [b Hm]]].
    + rewrite !r_old, r'_old by assumption. split; [|reflexivity]. apply (sd_old _ _ _ _ _ (fr_sub _ _ _ _ _ _ _ F2)). exact Ho.
    + pose proof (r_mid _ _ _ Hm) as Hm2. split.
      * apply (sd_new _ _ _ _ _ (fr_sub _ _ _ _ _ _ _ F2)). eauto.
      * apply r'_mid in Hm2. congruence.
  - intros id H. destruct (pt_cases _ _ _ _ _ _ _ _ F2 eq_refl H) as [Ho|[a [b Hm]]].
    + rewrite !r'_old, r_old by assumption. split; [|reflexivity]. apply (sd_old _ _ _ _ _ (fr_sub _ _ _ _ _ _ _ F1)). exact Ho.
    + pose proof (r'_mid _ _ _ Hm) as Hm2. split.
      * apply (sd_new _ _ _ _ _ (fr_sub _ _ _ _ _ _ _ F1)). eauto.
      * apply r_mid in Hm2. congruence.
  - apply tris_map.
  - apply faces_map.
  - apply joined_map.
  - apply data_map.
Qed.

(** The selection left for the next level is the same list. *)
Lemma sorted_ext : forall l1 l2 : list N, StronglySorted N.lt l1 -> StronglySorted N.lt l2 ->
  (forall x, In x l1 <-> In x l2) -> l1 = l2.
Proof.
  induction l1 as [|x l1 IH]; intros l2 H1 H2 H.
  - destruct l2 as [|y l2]; [reflexivity|]. exfalso. apply (H y). cbn. auto.
  - destruct l2 as [|y l2]; [exfalso; apply (H x); cbn; auto|].
    inv H1. inv H2. rewrite Forall_forall in *.
    assert (x = y).
    { destruct (proj1 (H x) (or_introl eq_refl)) as [E|E]; [auto|].
      destruct (proj2 (H y) (or_introl eq_refl)) as [E'|E']; [auto|].
      match goal with Ha : forall z, In z l1 -> _, Hb : forall z, In z l2 -> _ |- _ =>
        specialize (Ha _ E'); specialize (Hb _ E) end. lia. }
    subst y. f_equal. apply IH; auto. intros z. split; intros Hz.
    + destruct (proj1 (H z) (or_intror Hz)) as [E|E]; [|exact E]. subst z.
      match goal with Ha : forall z, In z l1 -> _ |- _ => specialize (Ha _ Hz) end. lia.
    + destruct (proj2 (H z) (or_intror Hz)) as [E|E]; [|exact E]. subst z.
      match goal with Hb : forall z, In z l2 -> _ |- _ => specialize (Hb _ Hz) end. lia.
Qed.
Lemma nsplit_eq t : nsplit mid1 t = nsplit mid2 t.
Proof.
  unfold nsplit. f_equal. apply filter_ext. intros [a b]. cbn [fst snd]. rewrite mid_map.
  destruct (mid1 a b); reflexivity.
Qed.
Lemma child_det pid t u : child_of inp Ls2 pid t u -> exists w, child_of inp Ls1 pid t w /\ u = tmap r w.
Proof.
  unfold child_of. rewrite (fr_Ls _ _ _ _ _ _ _ F1), (fr_Ls _ _ _ _ _ _ _ F2). unfold tris at 1 2. rewrite !map_map.
  intros [L [HL Hu]]. apply combine_map_In in HL. destruct HL as [Hin ->].
  rewrite split_map in Hu.
  - apply in_map_iff in Hu. destruct Hu as [w [<- Hw]]. exists w. split; [|reflexivity].
    eexists. split; [apply combine_map_In; split; [exact Hin|reflexivity]|exact Hw].
  - unfold tris. apply in_map_iff. exists (pid, t). auto.
Qed.
Lemma tmap_inj t u : In t (tris out1) -> In u (tris out1) -> tmap r t = tmap r u -> t = u.
Proof.
  intros Ht Hu E. pose proof two_runs as [_ Hp _ _ _ _ _].
  assert (Hx : forall t x, In t (tris out1) -> In x (tverts t) -> r' (r x) = x).
  { intros w x Hw Hxw. apply Hp. destruct (tris inp) as [|t0 T] eqn:ET.
    - exfalso. rewrite (sd_tris _ _ _ _ _ (fr_sub _ _ _ _ _ _ _ F1)), (fr_Ls _ _ _ _ _ _ _ F1), ET in Hw. exact Hw.
    - destruct (fr_valid _ _ _ _ _ _ _ F1) as [Hvo _]; [congruence|]. eapply (v_verts _ Hvo); eauto. }
  destruct t as [[a b] c], u as [[x y] z]. cbn in E. injection E as E1 E2 E3.
  f_equal; [f_equal|].
  - rewrite <- (Hx _ a Ht), <- (Hx _ x Hu) by (cbn; auto). congruence.
  - rewrite <- (Hx _ b Ht), <- (Hx _ y Hu) by (cbn; auto). congruence.
  - rewrite <- (Hx _ c Ht), <- (Hx _ z Hu) by (cbn; auto). congruence.
Qed.
Lemma csel_eq : whole k1 g1 = whole k2 g2 -> csel f1 = csel f2.
Proof.
  intros Hw. apply sorted_ext; [apply (fr_sorted _ _ _ _ _ _ _ F1)|apply (fr_sorted _ _ _ _ _ _ _ F2)|].
  intros id. rewrite (fr_csel _ _ _ _ _ _ _ F1), (fr_csel _ _ _ _ _ _ _ F2), Hw.
  split; intros [H [pid [t [u [H1 [H2 H3]]]]]]; (split; [exact H|]); exists pid, t.
  - exists (tmap r u). split; [apply faces_map; eauto|]. split; [apply child_map; exact H2|]. rewrite <- nsplit_eq. exact H3.
  - apply faces_map in H1. destruct H1 as [w [Hw1 ->]]. exists w. split; [exact Hw1|].
    destruct (child_det _ _ _ H2) as [w' [Hc E]].
    assert (w = w'); [|subst; rewrite nsplit_eq; auto].
    apply tmap_inj; [|..|exact E].
    + unfold tris. apply in_map_iff. exists (id, w). auto.
    + rewrite (sd_tris _ _ _ _ _ (fr_sub _ _ _ _ _ _ _ F1)). apply in_concat.
      destruct Hc as [L [HL Hin]]. exists L. split; [|exact Hin]. eapply in_combine_r. exact HL.
Qed.

(** Coordinates. *)
Hypothesis Hpoint : forall e1 e2 p1 p2, In e1 I1 -> In e2 I2 -> undirected_eq e1 e2 ->
  new_point k1 inp e1 = Ok p1 -> new_point k2 inp e2 = Ok p2 -> p1 = p2.

Lemma two_runs_new : same_new_coordinates inp r out1 out2.
Proof.
  intros id p Hi Hp. destruct (pt_cases out1 _ _ _ _ _ _ id F1 eq_refl) as [Ho|[a [b Hm]]]; [congruence..|].
  destruct (fr_new _ _ _ _ _ _ _ F1 _ _ _ Hm) as [e1 [p1 [U1 [J1 [N1 P1]]]]].
  destruct (fr_new _ _ _ _ _ _ _ F2 _ _ _ (r_mid _ _ _ Hm)) as [e2 [p2 [U2 [J2 [N2 P2]]]]].
  rewrite P2. f_equal. rewrite Hp in P1. inv P1. symmetry. eapply Hpoint; eauto.
  destruct e1, e2. unfold undirected_eq in *. cbn in *. intuition congruence.
Qed.

Hypothesis Hsmooth : k1 = CellF CLoop \/ k2 = CellF CLoop ->
  k1 = k2 /\ forall id, smooths g1 id = smooths g2 id.
Lemma two_runs_points : same_coordinates r out1 out2.
Proof.
  intros id p Hp. destruct (oget id (pts inp)) as [q|] eqn:Eq; [|apply two_runs_new; auto].
  rewrite r_old by congruence.
  destruct (kind_eq_dec k1 (CellF CLoop)) as [E1|E1].
  - destruct (Hsmooth (or_introl E1)) as [E2 Hs].
    pose proof (fr_old_loop _ _ _ _ _ _ _ F1 id q Eq E1) as G1.
    pose proof (fr_old_loop _ _ _ _ _ _ _ F2 id q Eq (eq_trans (eq_sym E2) E1)) as G2.
    rewrite <- Hs in G2. destruct (smooths g1 id); [|congruence].
    rewrite Hp in G1. rewrite G1 in G2. destruct (oget id (pts out2)); congruence.
  - destruct (kind_eq_dec k2 (CellF CLoop)) as [E2|E2].
    + destruct (Hsmooth (or_intror E2)) as [E3 _]. congruence.
    + pose proof (fr_old _ _ _ _ _ _ _ F1 id q Eq E1). pose proof (fr_old _ _ _ _ _ _ _ F2 id q Eq E2). congruence.
Qed.
End TWO_RUNS.
End RENUM.
