(** * Points: the point phase of the face-split filters.

    Which points are inserted, in which order, under which ids. *)
From Coq Require Import Permutation.
From Verif Require Import Base Mesh Filters Spec Lists AddFace SplitTri Split.

(** ** The list of inserted edges *)
Definition seen (I : list dedge) (e : dedge) : bool := mem_dedge e I || mem_dedge (sym e) I.
Definition ins_step (I : list dedge) (e : dedge) : list dedge := if seen I e then I else I ++ [e].
Definition ins_list (L : list dedge) : list dedge := fold_left ins_step L [].

Definition udistinct (I : list dedge) : Prop :=
  forall i j e f, nth_error I i = Some e -> nth_error I j = Some f -> undirected_eq e f -> i = j.

(** m_EdgesPointIdentifier after inserting [I], first id [V]. *)
Definition ep (V : N) (I : list dedge) : list (dedge * N) :=
  flat_map (fun ne => [(sym (snd ne), fst ne); (snd ne, fst ne)]) (rev (idx_from V I)).
Definition sp (V : N) (I : list dedge) (a b : N) : option N := eget (a, b) (ep V I).

Lemma ep_snoc V I e : ep V (I ++ [e]) = (sym e, V + N.of_nat (length I)) :: (e, V + N.of_nat (length I)) :: ep V I.
Proof.
  unfold ep. rewrite idx_from_app, idx_from_cons, rev_app_distr. reflexivity.
Qed.

Lemma seen_spec I e : seen I e = true <-> exists f, In f I /\ undirected_eq e f.
Proof.
  unfold seen. rewrite orb_true_iff, !mem_dedge_In. split.
  - intros [H|H]; [exists e|exists (sym e)]; split; auto; [left|right]; destruct e; reflexivity.
  - intros [f [Hf [->| ->]]]; [auto|]. right. destruct f. exact Hf.
Qed.

Lemma eget_ep_None V I e : eget e (ep V I) = None <-> seen I e = false.
Proof.
  induction I as [|f I IH] using rev_ind.
  - cbn. tauto.
  - rewrite ep_snoc. cbn [eget]. unfold seen, mem_dedge. rewrite !existsb_app. cbn [existsb].
    rewrite !orb_false_r.
    destruct (eqb_dedge (sym f) e) eqn:E1.
    + apply eqb_dedge_eq in E1. subst e. split; [discriminate|]. rewrite sym_sym, eqb_dedge_refl.
      rewrite !orb_true_r. discriminate.
    + destruct (eqb_dedge f e) eqn:E2.
      * apply eqb_dedge_eq in E2. subst e. split; [discriminate|]. rewrite eqb_dedge_refl.
        rewrite !orb_true_r. discriminate.
      * rewrite IH. unfold seen, mem_dedge.
        assert (eqb_dedge e f = false) as ->.
        { apply eqb_dedge_neq in E2. apply eqb_dedge_neq. congruence. }
        assert (eqb_dedge (sym e) f = false) as ->.
        { apply eqb_dedge_neq in E1. apply eqb_dedge_neq. intros <-. apply E1. apply sym_sym. }
        rewrite !orb_false_r. reflexivity.
Qed.

Lemma udistinct_snoc I e : udistinct I -> seen I e = false -> udistinct (I ++ [e]).
Proof.
  intros HI Hs i j f g Hi Hj Hu.
  assert (Hno : forall h, In h I -> undirected_eq e h -> False).
  { intros h Hh H. assert (seen I e = true) by (apply seen_spec; eauto). congruence. }
  assert (Hcases : forall k h, nth_error (I ++ [e]) k = Some h ->
            (nth_error I k = Some h) \/ (k = length I /\ h = e)).
  { intros k h Hk. destruct (Nat.lt_ge_cases k (length I)).
    - rewrite nth_error_app1 in Hk by assumption. auto.
    - rewrite nth_error_app2 in Hk by assumption. right.
      destruct (k - length I)%nat as [|q] eqn:E; cbn in Hk.
      + inv Hk. split; [lia|reflexivity].
      + destruct q; discriminate. }
  destruct (Hcases _ _ Hi) as [Hi'|[-> ->]], (Hcases _ _ Hj) as [Hj'|[-> ->]].
  - eapply HI; eauto.
  - exfalso. apply (Hno f); [eapply nth_error_In; eauto|].
    destruct Hu as [->|Hu]; [left; reflexivity|right]. rewrite Hu. destruct e; reflexivity.
  - exfalso. apply (Hno g); [eapply nth_error_In; eauto|exact Hu].
  - reflexivity.
Qed.
Lemma udistinct_app_l I J : udistinct (I ++ J) -> udistinct I.
Proof.
  intros H i j e f Hi Hj. apply (H i j).
  - rewrite nth_error_app1; [exact Hi|]. apply nth_error_Some. congruence.
  - rewrite nth_error_app1; [exact Hj|]. apply nth_error_Some. congruence.
Qed.
Lemma udistinct_seen I e : udistinct (I ++ [e]) -> seen I e = false.
Proof.
  intros H. destruct (seen I e) eqn:E; [|reflexivity]. apply seen_spec in E. destruct E as [f [Hf Hu]].
  apply In_nth_error in Hf. destruct Hf as [i Hi].
  assert (Hl : (i < length I)%nat) by (apply nth_error_Some; congruence).
  assert (i = length I); [|lia].
  apply (H i (length I) f e).
  - rewrite nth_error_app1 by exact Hl. exact Hi.
  - rewrite nth_error_app2 by lia. rewrite Nat.sub_diag. reflexivity.
  - destruct Hu as [->|Hu]; [left; reflexivity|right]. rewrite Hu. destruct f; reflexivity.
Qed.

Lemma ins_step_udistinct I e : udistinct I -> udistinct (ins_step I e).
Proof. intros H. unfold ins_step. destruct (seen I e) eqn:E; [exact H|]. apply udistinct_snoc; auto. Qed.
Lemma ins_fold_udistinct L I : udistinct I -> udistinct (fold_left ins_step L I).
Proof. revert I. induction L as [|e L IH]; intros I H; cbn; [exact H|]. apply IH. apply ins_step_udistinct. exact H. Qed.
Lemma ins_list_udistinct L : udistinct (ins_list L).
Proof. apply ins_fold_udistinct. intros i j e f H. destruct i; discriminate. Qed.

Lemma ins_fold_In L : forall I e, In e (fold_left ins_step L I) -> In e I \/ In e L.
Proof.
  induction L as [|f L IH]; intros I e H; cbn in H; [auto|].
  destruct (IH _ _ H) as [H'|H']; [|cbn; auto]. unfold ins_step in H'.
  destruct (seen I f); [auto|]. apply in_app_or in H'. cbn in H' |- *. tauto.
Qed.
Lemma ins_list_In L e : In e (ins_list L) -> In e L.
Proof. intros H. apply ins_fold_In in H. destruct H as [[]|H]. exact H. Qed.

Lemma ins_step_seen I f e : seen (ins_step I f) e = true <-> seen I e = true \/ undirected_eq e f.
Proof.
  unfold ins_step. destruct (seen I f) eqn:E.
  - split; [auto|]. intros [H|H]; [exact H|]. apply seen_spec in E. destruct E as [g [Hg Hu]].
    apply seen_spec. exists g. split; [exact Hg|].
    destruct e as [a b], f as [c d], g as [x y]. unfold undirected_eq in *. cbn in *. intuition congruence.
  - rewrite !seen_spec. split.
    + intros [g [Hg Hu]]. apply in_app_or in Hg. destruct Hg as [Hg|[<-|[]]]; eauto.
    + intros [[g [Hg Hu]]|Hu]; [exists g|exists f]; (split; [apply in_or_app; cbn; auto|exact Hu]).
Qed.
Lemma ins_fold_seen L : forall I e,
  seen (fold_left ins_step L I) e = true <-> seen I e = true \/ exists f, In f L /\ undirected_eq e f.
Proof.
  induction L as [|f L IH]; intros I e; cbn [fold_left].
  - split; [auto|]. intros [H|[f [[] _]]]. exact H.
  - rewrite IH, ins_step_seen. split.
    + intros [[H|H]|[g [Hg H]]]; [auto|right; exists f; cbn; auto|right; exists g; cbn; auto].
    + intros [H|[g [[->|Hg] H]]]; [auto|auto|right; exists g; auto].
Qed.
Lemma ins_list_seen L e : seen (ins_list L) e = true <-> exists f, In f L /\ undirected_eq e f.
Proof.
  unfold ins_list. rewrite ins_fold_seen. split; [intros [H|H]; [discriminate|exact H]|auto].
Qed.

(** A list without repeated edges is inserted as it is. *)
Lemma ins_list_id L : udistinct L -> ins_list L = L.
Proof.
  induction L as [|e L IH] using rev_ind; intros H; [reflexivity|].
  unfold ins_list in *. rewrite fold_left_app. rewrite IH by (eapply udistinct_app_l; eauto).
  cbn. unfold ins_step. rewrite (udistinct_seen _ _ H). reflexivity.
Qed.

(** The split map. *)
Lemma sp_Some V I a b m :
  udistinct I ->
  sp V I a b = Some m <-> V <= m /\ exists e, nth_error I (N.to_nat (m - V)) = Some e /\ undirected_eq (a, b) e.
Proof.
  unfold sp. induction I as [|f I IH] using rev_ind; intros Hd.
  - cbn. split; [discriminate|]. intros [_ [e [H _]]]. destruct (N.to_nat (m - V)); discriminate.
  - pose proof (udistinct_seen _ _ Hd) as Hs. specialize (IH (udistinct_app_l _ _ Hd)).
    rewrite ep_snoc. cbn [eget].
    assert (Hlast : forall e, nth_error (I ++ [f]) (length I) = Some e -> e = f).
    { intros e He. rewrite nth_error_app2, Nat.sub_diag in He by lia. cbn in He. congruence. }
    assert (Hhit : undirected_eq (a, b) f ->
       (Some (V + N.of_nat (length I)) = Some m <->
        V <= m /\ exists e, nth_error (I ++ [f]) (N.to_nat (m - V)) = Some e /\ undirected_eq (a, b) e)).
    { intros Hu. split.
      - intros E. inv E. split; [lia|]. exists f. split; [|exact Hu].
        replace (N.to_nat (V + N.of_nat (length I) - V)) with (length I) by lia.
        rewrite nth_error_app2, Nat.sub_diag by lia. reflexivity.
      - intros [Hm [e [He Hue]]]. f_equal.
        assert (N.to_nat (m - V) = length I); [|lia].
        apply (Hd _ (length I) e f He).
        + rewrite nth_error_app2, Nat.sub_diag by lia. reflexivity.
        + destruct e as [p q], f as [c d]. unfold undirected_eq in *. cbn in *. intuition congruence. }
    destruct (eqb_dedge (sym f) (a, b)) eqn:E1.
    + apply Hhit. apply eqb_dedge_eq in E1. right. rewrite <- E1. reflexivity.
    + destruct (eqb_dedge f (a, b)) eqn:E2.
      * apply Hhit. apply eqb_dedge_eq in E2. left. congruence.
      * rewrite IH.
        assert (Hno : ~ undirected_eq (a, b) f).
        { apply eqb_dedge_neq in E1. apply eqb_dedge_neq in E2. intros [E|E]; [congruence|].
          apply E1. rewrite E. reflexivity. }
        split; intros [Hm [e [He Hu]]]; (split; [exact Hm|]); exists e; (split; [|exact Hu]).
        -- rewrite nth_error_app1; [exact He|]. apply nth_error_Some. congruence.
        -- destruct (Nat.lt_ge_cases (N.to_nat (m - V)) (length I)) as [Hlt|Hge].
           ++ rewrite nth_error_app1 in He by exact Hlt. exact He.
           ++ exfalso. apply Hno. rewrite nth_error_app2 in He by exact Hge.
              destruct (N.to_nat (m - V) - length I)%nat as [|q] eqn:E; cbn in He.
              ** inv He. exact Hu.
              ** destruct q; discriminate.
Qed.

Lemma sp_None V I a b : sp V I a b = None <-> seen I (a, b) = false.
Proof. apply eget_ep_None. Qed.
Lemma sp_not_None V I a b : sp V I a b <> None <-> seen I (a, b) = true.
Proof. rewrite sp_None. destruct (seen I (a, b)); split; congruence. Qed.

Lemma und_sym_l a b e : undirected_eq (a, b) e <-> undirected_eq (b, a) e.
Proof. destruct e as [c d]. unfold undirected_eq. cbn. intuition congruence. Qed.

Lemma sp_sym V I a b : udistinct I -> sp V I a b = sp V I b a.
Proof.
  intros Hd. destruct (sp V I a b) as [m|] eqn:E.
  - symmetry. apply (sp_Some V I b a m Hd). apply (sp_Some V I a b m Hd) in E.
    destruct E as [Hm [e [He Hu]]]. split; [exact Hm|]. exists e. split; [exact He|]. apply und_sym_l. exact Hu.
  - destruct (sp V I b a) as [m|] eqn:E'; [|reflexivity].
    apply (sp_Some V I b a m Hd) in E'. destruct E' as [Hm [e [He Hu]]].
    assert (sp V I a b = Some m); [|congruence].
    apply (sp_Some V I a b m Hd). split; [exact Hm|]. exists e. split; [exact He|]. apply und_sym_l. exact Hu.
Qed.
Lemma sp_inj V I a b c d m : udistinct I ->
  sp V I a b = Some m -> sp V I c d = Some m -> (a = c /\ b = d) \/ (a = d /\ b = c).
Proof.
  intros Hd H1 H2. apply (sp_Some _ _ _ _ _ Hd) in H1. apply (sp_Some _ _ _ _ _ Hd) in H2.
  destruct H1 as [_ [e [He Hu]]], H2 as [_ [f [Hf Hv]]]. rewrite He in Hf. inv Hf.
  destruct f as [x y]. unfold undirected_eq in *. cbn in *. intuition congruence.
Qed.
Lemma sp_range V I a b m : udistinct I -> sp V I a b = Some m -> V <= m < V + N.of_nat (length I).
Proof.
  intros Hd H. apply (sp_Some _ _ _ _ _ Hd) in H. destruct H as [Hm [e [He _]]].
  assert (N.to_nat (m - V) < length I)%nat by (apply nth_error_Some; congruence). lia.
Qed.

(** What holds for a list in which an edge may occur several times: the last entry counts. *)
Lemma sp_last V I a b m : sp V I a b = Some m ->
  V <= m /\ exists e, nth_error I (N.to_nat (m - V)) = Some e /\ undirected_eq (a, b) e /\
    forall j f, (N.to_nat (m - V) < j)%nat -> nth_error I j = Some f -> ~ undirected_eq (a, b) f.
Proof.
  unfold sp. induction I as [|f I IH] using rev_ind; [discriminate|].
  rewrite ep_snoc. cbn [eget].
  assert (Hhit : undirected_eq (a, b) f -> Some (V + N.of_nat (length I)) = Some m ->
    V <= m /\ exists e, nth_error (I ++ [f]) (N.to_nat (m - V)) = Some e /\ undirected_eq (a, b) e /\
      forall j g, (N.to_nat (m - V) < j)%nat -> nth_error (I ++ [f]) j = Some g -> ~ undirected_eq (a, b) g).
  { intros Hu E. inv E. replace (N.to_nat (V + N.of_nat (length I) - V)) with (length I) by lia.
    split; [lia|]. exists f. rewrite nth_error_app2, Nat.sub_diag by lia. split; [reflexivity|]. split; [exact Hu|].
    intros j g Hj Hg. exfalso. assert (j < length (I ++ [f]))%nat by (apply nth_error_Some; congruence).
    rewrite app_length in H. cbn in H. lia. }
  destruct (eqb_dedge (sym f) (a, b)) eqn:E1.
  - apply Hhit. apply eqb_dedge_eq in E1. right. rewrite <- E1. reflexivity.
  - destruct (eqb_dedge f (a, b)) eqn:E2.
    + apply Hhit. apply eqb_dedge_eq in E2. left. congruence.
    + intros H. destruct (IH H) as [Hm [e [He [Hu Hl]]]]. split; [exact Hm|]. exists e.
      assert (N.to_nat (m - V) < length I)%nat by (apply nth_error_Some; congruence).
      rewrite nth_error_app1 by assumption. split; [exact He|]. split; [exact Hu|].
      intros j g Hj Hg. destruct (Nat.lt_ge_cases j (length I)) as [Hlt|Hge].
      * rewrite nth_error_app1 in Hg by exact Hlt. apply (Hl j g); assumption.
      * rewrite nth_error_app2 in Hg by exact Hge. destruct (j - length I)%nat as [|q]; cbn in Hg; [|destruct q; discriminate].
        inv Hg. apply eqb_dedge_neq in E1. apply eqb_dedge_neq in E2. intros [E|E]; [congruence|].
        apply E1. rewrite E. reflexivity.
Qed.
Lemma sp_sym_any V I a b : sp V I a b = sp V I b a.
Proof.
  unfold sp. induction I as [|f I IH] using rev_ind; [reflexivity|]. rewrite ep_snoc. cbn [eget]. rewrite IH.
  destruct f as [c d]. unfold sym, eqb_dedge. cbn [fst snd].
  destruct (N.eqb_spec d a), (N.eqb_spec c b), (N.eqb_spec c a), (N.eqb_spec d b); cbn; reflexivity.
Qed.
Lemma sp_inj_any V I a b c d m : sp V I a b = Some m -> sp V I c d = Some m -> (a = c /\ b = d) \/ (a = d /\ b = c).
Proof.
  intros H1 H2. apply sp_last in H1. apply sp_last in H2.
  destruct H1 as [_ [e [He [Hu _]]]], H2 as [_ [f [Hf [Hv _]]]]. rewrite He in Hf. inv Hf.
  destruct f as [x y]. unfold undirected_eq in *. cbn in *. intuition congruence.
Qed.
Lemma sp_range_any V I a b m : sp V I a b = Some m -> V <= m < V + N.of_nat (length I).
Proof.
  intros H. apply sp_last in H. destruct H as [Hm [e [He _]]].
  assert (N.to_nat (m - V) < length I)%nat by (apply nth_error_Some; congruence). lia.
Qed.
Lemma sp_onto V I m : udistinct I -> V <= m < V + N.of_nat (length I) ->
  exists a b, In (a, b) I /\ sp V I a b = Some m.
Proof.
  intros Hd Hm. destruct (nth_error I (N.to_nat (m - V))) as [[a b]|] eqn:E.
  - exists a, b. split; [eapply nth_error_In; eauto|]. apply (sp_Some _ _ _ _ _ Hd).
    split; [lia|]. exists (a, b). split; [exact E|left; reflexivity].
  - apply nth_error_None in E. lia.
Qed.

(** ** Points containers *)
Definition densemap {A} (V : N) (l : omap A) : Prop :=
  sorted_keys l /\ osize l = V /\ forall k, In k (okeys l) <-> k < V.

Lemma sorted_app_idx {A} V (l : omap A) (vs : list A) :
  densemap V l -> densemap (V + N.of_nat (length vs)) (l ++ idx_from V vs).
Proof.
  induction vs as [|v vs IH] using rev_ind; intros Hd.
  - cbn. rewrite app_nil_r. replace (V + 0) with V by lia. exact Hd.
  - specialize (IH Hd). destruct IH as [Hs [Hz Hk]].
    rewrite idx_from_app, app_assoc, idx_from_cons, app_length. cbn [length].
    change (idx_from (V + N.of_nat (length vs) + 1) []) with (@nil (N * A)).
    rewrite <- (oset_append (V + N.of_nat (length vs)) v (l ++ idx_from V vs)).
    2:{ intros j Hj. apply Hk. exact Hj. }
    split; [apply oset_sorted; exact Hs|]. split.
    + unfold osize in *. rewrite oset_length_new; [lia|]. intros H. apply Hk in H. lia.
    + intros k. rewrite okeys_oset, Hk. lia.
Qed.

Lemma densemap_get {A} V (l : omap A) k : densemap V l -> oget k l <> None <-> k < V.
Proof. intros [_ [_ H]]. rewrite oget_Some_key. apply H. Qed.

Lemma densemap_app_old {A} V (l : omap A) vs k :
  densemap V l -> k < V -> oget k (l ++ idx_from V vs) = oget k l.
Proof.
  intros Hd Hk. rewrite oget_app. apply (densemap_get _ _ _ Hd) in Hk.
  destruct (oget k l); [reflexivity|congruence].
Qed.
Lemma densemap_app_new {A} V (l : omap A) vs k :
  densemap V l -> V <= k -> oget k (l ++ idx_from V vs) = nth_error vs (N.to_nat (k - V)).
Proof.
  intros Hd Hk. rewrite oget_app.
  destruct (oget k l) eqn:E.
  - exfalso. assert (oget k l <> None) by congruence. apply (densemap_get _ _ _ Hd) in H. lia.
  - clear E Hd l. revert V Hk. induction vs as [|v vs IH]; intros V Hk.
    + cbn. destruct (N.to_nat (k - V)); reflexivity.
    + rewrite idx_from_cons. cbn [oget]. destruct (N.eqb_spec V k).
      * subst. rewrite N.sub_diag. reflexivity.
      * rewrite IH by lia. replace (N.to_nat (k - V)) with (S (N.to_nat (k - (V + 1)))) by lia. reflexivity.
Qed.

(** ** Running the point phase *)
Section RUN.
Context {O : Ops} {D : Type}.
Notation mesh := (mesh O D).
Notation point := (list (K O)).
Variable inp : mesh.
Variable f0 : fstate.
Variable out0 : mesh.
Variable V : N.
Variable P0 : omap point.
Variable val : dedge -> point.
Hypothesis HP0 : densemap V P0.

(** State after inserting [I]. *)
Definition st_of (I : list dedge) : @state O D :=
  (set_epid f0 (ep V I), set_pts out0 (P0 ++ idx_from V (map val I))).

Lemma st_num I : num_points (snd (st_of I)) = V + N.of_nat (length I).
Proof.
  unfold num_points, st_of. cbn [snd pts set_pts].
  destruct (sorted_app_idx V P0 (map val I) HP0) as [_ [H _]]. rewrite H, map_length. reflexivity.
Qed.

Lemma insert_st I e :
  insert_edge_point (st_of I) e (V + N.of_nat (length I)) (val e) = st_of (I ++ [e]).
Proof.
  unfold insert_edge_point, st_of. cbn [epid set_epid]. rewrite ep_snoc. f_equal.
  unfold set_point. cbn [pts set_pts]. unfold set_pts. cbn [pts rings cells ecells cdata].
  f_equal. rewrite map_app. cbn [map]. rewrite idx_from_app, app_assoc, map_length, idx_from_cons.
  change (idx_from (V + N.of_nat (length I) + 1) []) with (@nil (N * point)).
  apply oset_append. intros j Hj.
  destruct (sorted_app_idx V P0 (map val I) HP0) as [_ [_ H]]. apply H in Hj. rewrite map_length in Hj. exact Hj.
Qed.

Lemma edge_step_ok newpt a b I :
  In b (ring inp a) -> newpt (a, b) = Ok (val (a, b)) ->
  edge_step inp newpt (a, b) (V + N.of_nat (length I), st_of I) =
  Ok (V + N.of_nat (length (ins_step I (a, b))), st_of (ins_step I (a, b))).
Proof.
  intros Hj Hv. unfold edge_step, find_edge. cbn [fst snd].
  assert (memN b (ring inp a) = true) as -> by (apply memN_In; exact Hj).
  cbn [eget_opt]. unfold st_of at 1. cbn [fst epid set_epid]. unfold ins_step.
  destruct (eget (a, b) (ep V I)) as [n|] eqn:E.
  - destruct (seen I (a, b)) eqn:Es; [reflexivity|]. apply eget_ep_None with (V := V) in Es. congruence.
  - apply eget_ep_None in E. rewrite E. rewrite Hv. cbn [rbind]. rewrite insert_st, app_length. cbn [length].
    do 2 f_equal. lia.
Qed.

Lemma three_steps_ok newpt a b c I :
  In b (ring inp a) -> In c (ring inp b) -> In a (ring inp c) ->
  (forall d, In d (tdirs (a, b, c)) -> newpt d = Ok (val d)) ->
  three_edge_steps inp newpt a b c (st_of I) = Ok (st_of (fold_left ins_step (tdirs (a, b, c)) I)).
Proof.
  intros H1 H2 H3 Hv. unfold three_edge_steps. rewrite st_num.
  rewrite edge_step_ok by (auto; apply Hv; cbn; auto). cbn [rbind].
  rewrite edge_step_ok by (auto; apply Hv; cbn; auto). cbn [rbind].
  rewrite edge_step_ok by (auto; apply Hv; cbn; auto). reflexivity.
Qed.

Lemma uniform_loop_ok add (cs : omap (option cell)) (T : list tri) : forall I,
  map snd cs = map poly T ->
  (forall t I, In t T -> add (Poly (tverts t)) (st_of I) = Ok (st_of (fold_left ins_step (tdirs t) I))) ->
  uniform_cells_loop add cs (st_of I) = Ok (st_of (fold_left ins_step (dirs T) I)).
Proof.
  revert T. induction cs as [|[i c] cs IH]; intros [|t T] I Hc Hadd; try discriminate; [reflexivity|].
  cbn [map snd] in Hc. inv Hc. cbn [uniform_cells_loop]. unfold poly.
  rewrite Hadd by (cbn; auto). cbn [rbind]. rewrite (IH T).
  - change (dirs (t :: T)) with (tdirs t ++ dirs T). rewrite fold_left_app. reflexivity.
  - exact H1.
  - intros u J Hu. apply Hadd. cbn. auto.
Qed.

Lemma selected_loop_ok add (cs : omap (option cell)) (sel : list N) : forall (T : list tri) I,
  Forall2 (fun i t => oget i cs = Some (poly t)) sel T ->
  (forall t I, In t T -> add (Poly (tverts t)) (st_of I) = Ok (st_of (fold_left ins_step (tdirs t) I))) ->
  selected_cells_loop add cs sel (st_of I) = Ok (st_of (fold_left ins_step (dirs T) I)).
Proof.
  induction sel as [|i sel IH]; intros T I HF Hadd; inv HF; [reflexivity|].
  cbn [selected_cells_loop]. rewrite H1. unfold poly. rewrite Hadd by (cbn; auto). cbn [rbind].
  rewrite (IH l').
  - change (dirs (y :: l')) with (tdirs y ++ dirs l'). rewrite fold_left_app. reflexivity.
  - assumption.
  - intros u J Hu. apply Hadd. cbn. auto.
Qed.

(** The edge filters: null entries are skipped, every other entry is inserted. *)
Definition somes {A} (l : list (option A)) : list A := flat_map olist l.
Lemma edges_loop_ok s (l : list (option dedge)) : forall I,
  (forall e, In (Some e) l -> In (snd e) (ring inp (fst e)) /\ edge_point s inp e = Ok (val e)) ->
  edges_loop s inp l (st_of I) = Ok (st_of (I ++ somes l)).
Proof.
  induction l as [|[e|] l IH]; intros I He; cbn [edges_loop].
  - unfold somes. cbn. rewrite app_nil_r. reflexivity.
  - destruct (He e) as [Hj Hv]; [cbn; auto|]. unfold add_new_edge_points, find_edge.
    assert (memN (snd e) (ring inp (fst e)) = true) as -> by (apply memN_In; exact Hj).
    rewrite Hv. cbn [rbind]. rewrite st_num, insert_st. rewrite IH.
    + unfold somes. cbn [flat_map olist app]. rewrite <- app_assoc. reflexivity.
    + intros e' He'. apply He. cbn. auto.
  - rewrite IH; [reflexivity|]. intros e' He'. apply He. cbn. auto.
Qed.
End RUN.
