(** * Count: borders, numbers of points, edges and faces of a subdivision.

    Everything here follows from the specification of SpecSub (the record
    [subdivision]) and the validity of both meshes. *)
From Coq Require Import Permutation Sorted.
From Verif Require Import Base Mesh Filters Spec SpecSub Lists AddFace SplitTri Split Points Valid Update Struct.

(** ** Counting undirected edges *)
Definition bordb (Dl : list dedge) (d : dedge) : bool := negb (mem_dedge (sym d) Dl).
Lemma bordb_true Dl d : bordb Dl d = true <-> ~ In (sym d) Dl.
Proof.
  unfold bordb. rewrite negb_true_iff. rewrite <- (mem_dedge_In (sym d) Dl).
  destruct (mem_dedge (sym d) Dl); split; congruence.
Qed.

Lemma NoDup_map_injective {A B} (f : A -> B) l :
  (forall x y, f x = f y -> x = y) -> NoDup l -> NoDup (map f l).
Proof. intros H. apply FinFun.Injective_map_NoDup. exact H. Qed.

Lemma udistinct_NoDup L : udistinct L -> NoDup L.
Proof.
  intros H. apply NoDup_nth_error. intros i j Hi E.
  destruct (nth_error L i) as [e|] eqn:Ei; [|apply nth_error_None in Ei; lia].
  apply (H i j e e); auto. left. reflexivity.
Qed.

Lemma und_count (L Dl : list dedge) :
  NoDup Dl -> (forall a, ~ In (a, a) Dl) -> udistinct L ->
  (forall e, In e L -> In e Dl \/ In (sym e) Dl) ->
  (forall d, In d Dl -> exists e, In e L /\ undirected_eq e d) ->
  (2 * length L = length Dl + length (filter (bordb Dl) Dl))%nat.
Proof.
  intros HD Hirr HL Hin Hcov.
  assert (Hsym : forall d, In d (filter (bordb Dl) Dl) <-> In d Dl /\ ~ In (sym d) Dl).
  { intros d. rewrite filter_In, bordb_true. tauto. }
  assert (P : Permutation (L ++ map sym L) (Dl ++ map sym (filter (bordb Dl) Dl))).
  { apply NoDup_Permutation.
    - apply NoDup_app_intro.
      + apply udistinct_NoDup. exact HL.
      + apply NoDup_map_injective; [apply sym_inj|]. apply udistinct_NoDup. exact HL.
      + intros e He He'. apply in_map_iff in He'. destruct He' as [g [Eg Hg]].
        apply In_nth_error in He, Hg. destruct He as [i Hi], Hg as [j Hj].
        assert (i = j). { apply (HL i j e g Hi Hj). right. rewrite <- Eg. reflexivity. }
        subst j. rewrite Hi in Hj. inv Hj. destruct g as [a b]. unfold sym in H0. cbn in H0.
        assert (a = b) by congruence. subst b.
        destruct (Hin (a, a)) as [H|H]; [eapply nth_error_In; eauto|apply (Hirr a H)..].
    - apply NoDup_app_intro.
      + exact HD.
      + apply NoDup_map_injective; [apply sym_inj|]. apply NoDup_filter. exact HD.
      + intros e He He'. apply in_map_iff in He'. destruct He' as [g [Eg Hg]].
        apply Hsym in Hg. destruct Hg as [_ Hg]. apply Hg. rewrite Eg. exact He.
    - intros e. rewrite !in_app_iff. split.
      + assert (Hone : forall e, In e L -> In e Dl \/ In e (map sym (filter (bordb Dl) Dl))).
        { clear e. intros e He. destruct (in_dec dedge_dec e Dl) as [H|H]; [auto|]. right.
          destruct (Hin e He) as [H'|H']; [contradiction|]. apply in_map_iff. exists (sym e).
          rewrite sym_sym. split; [reflexivity|]. apply Hsym. rewrite sym_sym. auto. }
        intros [He|He]; [apply Hone; exact He|]. apply in_map_iff in He. destruct He as [g [<- Hg]].
        destruct (in_dec dedge_dec (sym g) Dl) as [H|H]; [auto|]. right.
        destruct (Hin g Hg) as [H'|H']; [|contradiction]. apply in_map_iff. exists g.
        split; [reflexivity|]. apply Hsym. auto.
      + assert (Hone : forall d, In d Dl -> In d L \/ In d (map sym L)).
        { intros d Hd. destruct (Hcov d Hd) as [g [Hg [->|Hu]]]; [auto|]. right. apply in_map_iff.
          exists g. split; [|exact Hg]. rewrite Hu. destruct d; reflexivity. }
        intros [He|He]; [apply Hone; exact He|]. apply in_map_iff in He. destruct He as [g [<- Hg]].
        apply Hsym in Hg. destruct Hg as [Hg _]. destruct (Hone g Hg) as [H|H].
        * right. apply in_map. exact H.
        * left. apply in_map_iff in H. destruct H as [h [<- Hh]]. rewrite sym_sym. exact Hh. }
  apply Permutation_length in P. rewrite !app_length, !map_length in P. lia.
Qed.

Lemma dirs_length T : length (dirs T) = (3 * length T)%nat.
Proof.
  induction T as [|[[a b] c] T IH]; [reflexivity|].
  change (dirs ((a, b, c) :: T)) with (tdirs (a, b, c) ++ dirs T). rewrite app_length, IH. cbn. lia.
Qed.

Lemma flat_map_length_sum {A B} (f : A -> list B) l :
  length (flat_map f l) = list_sum (map (fun x => length (f x)) l).
Proof. induction l as [|x l IH]; [reflexivity|]. cbn. rewrite app_length, IH. reflexivity. Qed.

Section COUNT.
Context {O : Ops} {D : Type}.
Notation mesh := (mesh O D).
Implicit Types inp out m : mesh.

Lemma dirs_irr m a : sound m -> ~ In (a, a) (dirs (tris m)).
Proof. intros Hv H. apply (v_ring_irr _ Hv a). apply (v_face_edges _ Hv). exact H. Qed.

(** The edge container of a valid mesh, as a list of distinct edges. *)
Lemma ecells_list m : valid m ->
  exists L, nE m = Z.of_nat (length L) /\ udistinct L /\
    (forall a b, In (a, b) L -> joined m a b) /\
    (forall a b, joined m a b -> exists e, In e L /\ undirected_eq e (a, b)).
Proof.
  intros Hv. pose proof (ecells_udistinct m Hv) as HU.
  exists (somes (edge_list m [])). unfold edge_list in *. cbn [is_nil] in *. unfold nE.
  destruct (v_ecells _ Hv) as [es [Hes [_ [Ha [Hb _]]]]]. rewrite Hes in *.
  split; [|split; [exact HU|split]].
  - f_equal. clear HU Hb Hes. induction es as [|[i o] es IH]; [reflexivity|].
    destruct (Ha i o) as [a [b [-> _]]]; [cbn; auto|]. unfold somes in *. cbn. f_equal. apply IH.
    intros j o' H. apply (Ha j). cbn. auto.
  - intros a b H. apply somes_In in H. apply in_map_iff in H. destruct H as [[i o] [E H]]. cbn in E. subst o.
    destruct (Ha _ _ H) as [x [y [E Hj]]]. inv E. exact Hj.
  - intros a b Hj. destruct (Hb a b Hj) as [i [e [He Hu]]]. exists e. split; [|exact Hu].
    apply somes_In. apply in_map_iff. exists (i, Some e). auto.
Qed.

Lemma nB_bordb m : nB m = Z.of_nat (length (filter (bordb (dirs (tris m))) (dirs (tris m)))).
Proof. reflexivity. Qed.

Lemma nF_tris m : valid m -> nF m = Z.of_nat (length (tris m)).
Proof.
  intros Hv. unfold nF. rewrite (valid_cells _ Hv). unfold tris. rewrite !map_length. reflexivity.
Qed.

(** 2E = 3F + B on a valid mesh without wire edges. *)
Lemma edge_count m : valid m -> no_wire m -> (2 * nE m = 3 * nF m + nB m)%Z.
Proof.
  intros Hv Hw. destruct (ecells_list m Hv) as [L [-> [HU [Ha Hb]]]].
  rewrite nB_bordb, (nF_tris _ Hv).
  pose proof (und_count L (dirs (tris m)) (v_dirs _ Hv)) as H.
  rewrite dirs_length in H.
  enough (2 * length L = 3 * length (tris m) +
          length (filter (bordb (dirs (tris m))) (dirs (tris m))))%nat by lia.
  apply H.
  - intros a. apply dirs_irr. exact Hv.
  - exact HU.
  - intros [a b] He. apply Hw. apply Ha. exact He.
  - intros [a b] Hd. apply Hb. apply (v_face_edges _ Hv). exact Hd.
Qed.

(** ** Borders *)
Section SUB.
Variables inp out : mesh.
Variable S : N -> N -> Prop.
Variable mid : N -> N -> option N.
Variable Ls : list (list tri).
Hypothesis Hvi : valid inp.
Hypothesis Hvo : valid out.
Hypothesis Hsd : subdivision inp out S mid Ls.

Lemma mid_fresh a b (m : N) : mid a b = Some m -> oget m (pts inp) = None.
Proof. intros H. apply (sd_new _ _ _ _ _ Hsd m). eauto. Qed.
Lemma vert_old t x : In t (tris inp) -> In x (tverts t) -> oget x (pts inp) <> None.
Proof. apply (v_verts _ Hvi). Qed.
Lemma dir_old a b : In (a, b) (dirs (tris inp)) -> oget a (pts inp) <> None /\ oget b (pts inp) <> None.
Proof.
  intros H. apply dirs_tri in H. destruct H as [t [Ht H]]. destruct (tdirs_verts _ _ _ H).
  split; eapply vert_old; eauto.
Qed.

Lemma part_rev a b x y : part_of mid a b x y <-> part_of mid b a y x.
Proof. unfold part_of. rewrite (sd_sym _ _ _ _ _ Hsd b a). destruct (mid a b); intuition. Qed.

Lemma part_inj a b c d x y :
  In (a, b) (dirs (tris inp)) \/ In (b, a) (dirs (tris inp)) ->
  In (c, d) (dirs (tris inp)) \/ In (d, c) (dirs (tris inp)) ->
  part_of mid a b x y -> part_of mid c d x y -> a = c /\ b = d.
Proof.
  intros Hab Hcd H1 H2.
  assert (Oab : oget a (pts inp) <> None /\ oget b (pts inp) <> None)
    by (destruct Hab as [H|H]; apply dir_old in H; tauto).
  assert (Ocd : oget c (pts inp) <> None /\ oget d (pts inp) <> None)
    by (destruct Hcd as [H|H]; apply dir_old in H; tauto).
  destruct Oab as [Oa Ob], Ocd as [Oc Od].
  unfold part_of in *. destruct (mid a b) as [m|] eqn:E, (mid c d) as [m'|] eqn:E'.
  - assert (Hm : oget m (pts inp) = None) by (eapply mid_fresh; eauto).
    assert (Hm' : oget m' (pts inp) = None) by (eapply mid_fresh; eauto).
    destruct H1 as [[-> ->]|[-> ->]], H2 as [[H1 H2]|[H1 H2]]; subst; try congruence;
    destruct (sd_inj _ _ _ _ _ Hsd _ _ _ _ _ E E') as [Hu|Hu]; inv Hu; auto; congruence.
  - assert (Hm : oget m (pts inp) = None) by (eapply mid_fresh; eauto).
    destruct H2 as [-> ->]. destruct H1 as [[-> ->]|[-> ->]]; congruence.
  - assert (Hm' : oget m' (pts inp) = None) by (eapply mid_fresh; eauto).
    destruct H1 as [-> ->]. destruct H2 as [[-> ->]|[-> ->]]; congruence.
  - destruct H1 as [-> ->], H2 as [-> ->]. auto.
Qed.

Lemma Forall2_nth {A B} (R : A -> B -> Prop) l l' : Forall2 R l l' ->
  forall i x, nth_error l i = Some x -> exists y, nth_error l' i = Some y /\ R x y.
Proof.
  induction 1 as [|a b l l' HR HF IH]; intros [|i] x Hx; cbn in *; try discriminate.
  - inv Hx. eauto.
  - eauto.
Qed.
Lemma Forall2_nth_r {A B} (R : A -> B -> Prop) l l' : Forall2 R l l' ->
  forall i y, nth_error l' i = Some y -> exists x, nth_error l i = Some x /\ R x y.
Proof.
  induction 1 as [|a b l l' HR HF IH]; intros [|i] x Hx; cbn in *; try discriminate.
  - inv Hx. eauto.
  - eauto.
Qed.

(** The children of each triangle, by index. *)
Lemma children_spec :
  (forall d, In d (dirs (tris out)) <-> exists i L, nth_error Ls i = Some L /\ In d (dirs L)) /\
  (forall i j L L' d, nth_error Ls i = Some L -> nth_error Ls j = Some L' -> In d (dirs L) -> In d (dirs L') -> i = j).
Proof.
  pose proof (sd_tris _ _ _ _ _ Hsd) as Ht.
  assert (Hd : dirs (tris out) = flat_map dirs Ls).
  { rewrite Ht. clear. induction Ls as [|L Ms IH]; [reflexivity|]. cbn. rewrite dirs_app, IH. reflexivity. }
  split.
  - intros d. rewrite Hd, in_flat_map. split.
    + intros [L [HL H]]. apply In_nth_error in HL. destruct HL as [i HL]. eauto.
    + intros [i [L [HL H]]]. exists L. split; [eapply nth_error_In; eauto|exact H].
  - pose proof (v_dirs _ Hvo) as Hnd. rewrite Hd in Hnd. clear - Hnd.
    revert Hnd. induction Ls as [|M Ms IH]; intros Hnd i j L L' d Hi Hj H H'.
    + destruct i; discriminate.
    + cbn in Hnd. destruct i as [|i], j as [|j]; cbn in Hi, Hj.
      * reflexivity.
      * inv Hi. exfalso. apply (NoDup_app_disj _ _ d Hnd H). apply in_flat_map. exists L'.
        split; [eapply nth_error_In; eauto|exact H'].
      * inv Hj. exfalso. apply (NoDup_app_disj _ _ d Hnd H'). apply in_flat_map. exists L.
        split; [eapply nth_error_In; eauto|exact H].
      * f_equal. apply NoDup_app_r in Hnd. eapply IH; eauto.
Qed.

Lemma part_in a b x y : In (a, b) (dirs (tris inp)) -> part_of mid a b x y -> In (x, y) (dirs (tris out)).
Proof.
  intros Hab Hp. pose proof (sd_refines _ _ _ _ _ Hsd) as HF. destruct children_spec as [Hd _]. apply dirs_tri in Hab. destruct Hab as [t [Ht Hab]].
  apply In_nth_error in Ht. destruct Ht as [i Hi]. destruct (Forall2_nth _ _ _ HF i t Hi) as [L [HL HR]].
  apply Hd. exists i, L. split; [exact HL|]. apply (proj2 (rf_border _ _ _ HR x y)). eauto.
Qed.

Lemma border_sub x y : border_dir out x y <-> exists a b, border_dir inp a b /\ part_of mid a b x y.
Proof.
  pose proof (sd_refines _ _ _ _ _ Hsd) as HF. destruct children_spec as [Hd Hu]. split.
  - intros [Hin Hn]. apply Hd in Hin. destruct Hin as [i [L [HL Hxy]]].
    destruct (Forall2_nth_r _ _ _ HF i L HL) as [t [Ht HR]].
    assert (Hn' : ~ In (y, x) (dirs L)) by (intros H; apply Hn; apply Hd; eauto).
    destruct (proj1 (rf_border _ _ _ HR x y) (conj Hxy Hn')) as [a [b [Hab Hp]]].
    exists a, b. split; [|exact Hp]. split.
    + apply dirs_tri. exists t. split; [eapply nth_error_In; eauto|exact Hab].
    + intros Hba. apply Hn. apply (part_in b a); [exact Hba|]. apply part_rev. rewrite <- part_rev.
      apply part_rev. exact Hp.
  - intros [a [b [[Hab Hn] Hp]]]. split; [eapply part_in; eauto|]. intros Hyx.
    pose proof Hab as Hab'. apply dirs_tri in Hab. destruct Hab as [t [Ht Hab]].
    apply In_nth_error in Ht. destruct Ht as [i Hi]. destruct (Forall2_nth _ _ _ HF i t Hi) as [L [HL HR]].
    destruct (proj2 (rf_border _ _ _ HR x y)) as [Hxy Hno]; [eauto|].
    apply Hd in Hyx. destruct Hyx as [j [M [HM Hyx]]].
    destruct (in_dec dedge_dec (x, y) (dirs M)) as [Hxy'|Hxy'].
    + assert (i = j) by (eapply Hu; [exact HL|exact HM|exact Hxy|exact Hxy']). subst j.
      rewrite HL in HM. inv HM. contradiction.
    + destruct (Forall2_nth_r _ _ _ HF j M HM) as [u [Hj HR']].
      destruct (proj1 (rf_border _ _ _ HR' y x) (conj Hyx Hxy')) as [c [d [Hcd Hp']]].
      apply part_rev in Hp'.
      assert (Hcd' : In (c, d) (dirs (tris inp))).
      { apply dirs_tri. exists u. split; [eapply nth_error_In; eauto|exact Hcd]. }
      destruct (part_inj a b d c x y) as [-> ->]; auto.
Qed.

(** ** Numbers *)
Definition splitb (d : dedge) : bool := is_some (mid (fst d) (snd d)).
Definition parts (d : dedge) : list dedge :=
  match mid (fst d) (snd d) with None => [d] | Some m => [(fst d, m); (m, snd d)] end.
Lemma parts_In a b x y : In (x, y) (parts (a, b)) <-> part_of mid a b x y.
Proof. apply halves_part. Qed.

Lemma parts_length d : length (parts d) = (1 + if splitb d then 1 else 0)%nat.
Proof. unfold parts, splitb. destruct (mid (fst d) (snd d)); reflexivity. Qed.

Lemma border_count :
  nB out = (nB inp + Z.of_nat (length (filter splitb (filter (bordb (dirs (tris inp))) (dirs (tris inp))))))%Z.
Proof.
  rewrite !nB_bordb. set (B := filter (bordb (dirs (tris inp))) (dirs (tris inp))).
  assert (HB : forall a b, In (a, b) B <-> border_dir inp a b).
  { intros a b. unfold B. rewrite filter_In, bordb_true. reflexivity. }
  assert (P : Permutation (filter (bordb (dirs (tris out))) (dirs (tris out))) (flat_map parts B)).
  { apply NoDup_Permutation.
    - apply NoDup_filter. apply (v_dirs _ Hvo).
    - apply NoDup_flat_map.
      + apply NoDup_filter. apply (v_dirs _ Hvi).
      + intros [a b] Hd. unfold parts. cbn [fst snd]. destruct (mid a b) as [m|] eqn:E; [|repeat constructor; auto].
        apply HB in Hd. destruct Hd as [Hd _]. apply dir_old in Hd. apply mid_fresh in E.
        constructor; [|repeat constructor; auto]. intros [H|[]]. inv H. destruct Hd. congruence.
      + intros [a b] [c d] [x y] Ha Hc H1 H2. apply parts_In in H1, H2. apply HB in Ha, Hc.
        destruct Ha as [Ha _], Hc as [Hc _]. destruct (part_inj a b c d x y); auto. congruence.
    - intros [x y]. rewrite filter_In, bordb_true. change (sym (x, y)) with (y, x).
      change (In (x, y) (dirs (tris out)) /\ ~ In (y, x) (dirs (tris out))) with (border_dir out x y).
      rewrite border_sub, in_flat_map. split.
      + intros [a [b [H1 H2]]]. exists (a, b). split; [apply HB; exact H1|apply parts_In; exact H2].
      + intros [[a b] [H1 H2]]. exists a, b. split; [apply HB; exact H1|apply parts_In; exact H2]. }
  apply Permutation_length in P. rewrite P. clear P HB.
  rewrite flat_map_length_sum. induction B as [|d B IH]; [reflexivity|].
  cbn [map list_sum filter fold_right]. cbn [list_sum] in IH. unfold list_sum in *. cbn [fold_right].
  rewrite parts_length. cbn [length].
  destruct (splitb d); cbn [length]; lia.
Qed.

Lemma face_count :
  (nF out = nF inp + Z.of_nat (length (filter splitb (dirs (tris inp)))))%Z.
Proof.
  rewrite !nF_tris by assumption. pose proof (sd_refines _ _ _ _ _ Hsd) as HF. rewrite (sd_tris _ _ _ _ _ Hsd).
  clear - HF. induction HF as [|t L T Ms HR HF IH]; [reflexivity|].
  cbn [concat]. rewrite app_length. change (dirs (t :: T)) with (tdirs t ++ dirs T).
  rewrite filter_app, app_length. rewrite (rf_count _ _ _ HR). cbn [length].
  change (nsplit mid t) with (length (filter splitb (tdirs t))). unfold dedge, tri in *. lia.
Qed.

Hypothesis Hdi : dense inp.
Hypothesis Hdo : dense out.

(** New points: as many as there are undirected split edges. *)
Lemma new_points : exists L, length L = (length (pts out) - length (pts inp))%nat /\
  (length (pts inp) <= length (pts out))%nat /\ udistinct L /\
  (forall a b, In (a, b) L -> S a b) /\ (forall a b, S a b -> exists e, In e L /\ undirected_eq e (a, b)).
Proof.
  assert (Hle : (length (pts inp) <= length (pts out))%nat).
  { destruct (Nat.le_gt_cases (length (pts inp)) (length (pts out))) as [H|H]; [exact H|].
    pose proof (sd_old _ _ _ _ _ Hsd (osize (pts inp) - 1)) as H1.
    pose proof (Hdi (osize (pts inp) - 1)) as H2. pose proof (Hdo (osize (pts inp) - 1)) as H3.
    unfold osize in *. assert (N.of_nat (length (pts inp)) - 1 < N.of_nat (length (pts inp))) by lia.
    apply H2 in H0. apply H1 in H0. apply H3 in H0. lia. }
  set (n := (length (pts out) - length (pts inp))%nat) in *.
  assert (Hex : forall k, (k <= n)%nat -> exists L, length L = k /\
     forall i e, nth_error L i = Some e -> mid (fst e) (snd e) = Some (osize (pts inp) + N.of_nat i)).
  { induction k as [|k IH]; intros Hk; [exists []; split; [reflexivity|]; intros [|i] e H; discriminate|].
    destruct IH as [L [HL Hm]]; [lia|].
    assert (Hid : exists a b, mid a b = Some (osize (pts inp) + N.of_nat k)).
    { apply (sd_new _ _ _ _ _ Hsd). split.
      - destruct (oget _ (pts inp)) eqn:E; [|reflexivity].
        assert (H : oget (osize (pts inp) + N.of_nat k) (pts inp) <> None) by congruence.
        apply Hdi in H. lia.
      - apply Hdo. unfold osize. unfold n in Hk. lia. }
    destruct Hid as [a [b Hab]]. exists (L ++ [(a, b)]). split; [rewrite app_length; cbn; lia|].
    intros i e Hi. destruct (Nat.lt_ge_cases i (length L)).
    - rewrite nth_error_app1 in Hi by assumption. auto.
    - rewrite nth_error_app2 in Hi by assumption. destruct (i - length L)%nat as [|q] eqn:E; cbn in Hi.
      + inv Hi. cbn. rewrite Hab. f_equal. lia.
      + destruct q; discriminate. }
  destruct (Hex n (le_n _)) as [L [HL Hm]]. exists L. split; [exact HL|]. split; [exact Hle|]. split; [|split].
  - intros i j e f Hi Hj Hu. apply Hm in Hi, Hj.
    assert (mid (fst e) (snd e) = mid (fst f) (snd f)).
    { destruct Hu as [->| ->]; [reflexivity|]. cbn. apply (sd_sym _ _ _ _ _ Hsd). }
    rewrite Hi, Hj in H. inv H. lia.
  - intros a b Hin. apply In_nth_error in Hin. destruct Hin as [i Hi]. apply Hm in Hi. cbn in Hi.
    apply (sd_dom _ _ _ _ _ Hsd). congruence.
  - intros a b HS. apply (sd_dom _ _ _ _ _ Hsd) in HS. destruct (mid a b) as [m|] eqn:E; [|congruence].
    assert (Hmn : oget m (pts inp) = None /\ oget m (pts out) <> None).
    { apply (sd_new _ _ _ _ _ Hsd). eauto. }
    destruct Hmn as [H1 H2]. apply Hdo in H2.
    assert (H3 : osize (pts inp) <= m).
    { destruct (N.lt_ge_cases m (osize (pts inp))) as [H|H]; [|exact H]. apply Hdi in H. congruence. }
    destruct (nth_error L (N.to_nat (m - osize (pts inp)))) as [e|] eqn:Ee.
    + exists e. split; [eapply nth_error_In; eauto|]. apply Hm in Ee. destruct e as [x y]. cbn in Ee.
      eapply (sd_inj _ _ _ _ _ Hsd); [exact Ee|]. rewrite E. f_equal. lia.
    + apply nth_error_None in Ee. unfold osize in *. lia.
Qed.

Hypothesis Hface : forall a b, S a b -> In (a, b) (dirs (tris inp)) \/ In (b, a) (dirs (tris inp)).

Lemma point_count :
  (2 * (nV out - nV inp) = Z.of_nat (length (filter splitb (dirs (tris inp)))) +
     Z.of_nat (length (filter splitb (filter (bordb (dirs (tris inp))) (dirs (tris inp))))))%Z.
Proof.
  destruct new_points as [L [HL [Hle [HU [Ha Hb]]]]].
  set (Dl := filter splitb (dirs (tris inp))).
  assert (HD : forall a b, In (a, b) Dl <-> In (a, b) (dirs (tris inp)) /\ S a b).
  { intros a b. unfold Dl. rewrite filter_In. unfold splitb. cbn [fst snd].
    pose proof (sd_dom _ _ _ _ _ Hsd a b) as H. destruct (mid a b); cbn.
    - split; [intros [H1 _]|intros [H1 _]]; split; auto. apply H. discriminate.
    - split; [intros [_ H1]; discriminate|]. intros [_ H1]. apply H in H1. congruence. }
  assert (Ssym : forall a b, S a b -> S b a).
  { intros a b H. apply (sd_dom _ _ _ _ _ Hsd). rewrite (sd_sym _ _ _ _ _ Hsd). apply (sd_dom _ _ _ _ _ Hsd). exact H. }
  pose proof (und_count L Dl) as H.
  assert (Hf : length (filter (bordb Dl) Dl) =
               length (filter splitb (filter (bordb (dirs (tris inp))) (dirs (tris inp))))).
  { f_equal. unfold Dl at 2. clear - HD Ssym Hsd.
    assert (He : forall d, In d (dirs (tris inp)) -> splitb d = true -> bordb Dl d = bordb (dirs (tris inp)) d).
    { intros [a b] Hd Hs. unfold bordb. f_equal. change (sym (a, b)) with (b, a).
      destruct (mem_dedge (b, a) Dl) eqn:E1, (mem_dedge (b, a) (dirs (tris inp))) eqn:E2; try reflexivity.
      - apply mem_dedge_In in E1. apply HD in E1. destruct E1 as [E1 _]. apply mem_dedge_In in E1. congruence.
      - apply mem_dedge_In in E2. assert (In (b, a) Dl).
        { apply HD. split; [exact E2|]. apply Ssym. apply (sd_dom _ _ _ _ _ Hsd).
          unfold splitb in Hs. cbn in Hs. destruct (mid a b); [discriminate|discriminate]. }
        apply mem_dedge_In in H. congruence. }
    revert He. induction (dirs (tris inp)) as [|d l IH] at 1 3 5; intros He; [reflexivity|].
    cbn [filter]. destruct (splitb d) eqn:Es.
    - cbn [filter]. rewrite (He d) by (cbn; auto). destruct (bordb (dirs (tris inp)) d); cbn [filter].
      + rewrite Es. f_equal. apply IH. intros x Hx. apply He. cbn. auto.
      + apply IH. intros x Hx. apply He. cbn. auto.
    - destruct (bordb (dirs (tris inp)) d); cbn [filter]; [rewrite Es|]; apply IH; intros x Hx; apply He; cbn; auto. }
  rewrite <- Hf. unfold nV. fold Dl.
  assert (2 * length L = length Dl + length (filter (bordb Dl) Dl))%nat; [|lia].
  apply H.
  - apply NoDup_filter. apply (v_dirs _ Hvi).
  - intros a Haa. apply HD in Haa. destruct Haa as [Haa _]. apply (dirs_irr _ _ Hvi Haa).
  - exact HU.
  - intros [a b] He. apply Ha in He. destruct (Hface a b He) as [Hin|Hin]; [left|right]; apply HD; auto.
  - intros [a b] Hd. apply HD in Hd. destruct Hd as [_ Hs]. apply Hb. exact Hs.
Qed.

Lemma euler_sub : no_wire inp -> euler out = euler inp.
Proof.
  intros Hw. pose proof point_count. pose proof face_count. pose proof border_count.
  pose proof (edge_count inp Hvi Hw). pose proof (edge_count out Hvo (sd_nowire _ _ _ _ _ Hsd)).
  unfold euler. lia.
Qed.
End SUB.
End COUNT.
