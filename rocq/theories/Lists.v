(** * Lists: lemmas on ordered maps, cyclic lists, and small list helpers. *)
From Coq Require Import Sorted Permutation.
From Verif Require Import Base Mesh Spec.

Ltac inv H := inversion H; subst; clear H.

(** ** memN / nodupb *)
Lemma memN_In x l : memN x l = true <-> In x l.
Proof.
  unfold memN. rewrite existsb_exists. split.
  - intros [y [Hy Heq]]. apply N.eqb_eq in Heq. subst. exact Hy.
  - intros H. exists x. rewrite N.eqb_refl. auto.
Qed.
Lemma memN_nIn x l : memN x l = false <-> ~ In x l.
Proof. rewrite <- memN_In. destruct (memN x l); split; congruence. Qed.

Lemma nodupb_NoDup l : nodupb l = true <-> NoDup l.
Proof.
  induction l as [|x t IH]; cbn [nodupb].
  - split; [constructor|auto].
  - rewrite andb_true_iff, negb_true_iff, memN_nIn, IH. split.
    + intros [H1 H2]. constructor; auto.
    + intros H. inv H. auto.
Qed.

Lemma eqb_dedge_eq e f : eqb_dedge e f = true <-> e = f.
Proof.
  destruct e as [a b], f as [c d]; unfold eqb_dedge; cbn [fst snd].
  rewrite andb_true_iff, !N.eqb_eq. split.
  - intros [H1 H2]. congruence.
  - intros H. inv H. auto.
Qed.
Lemma eqb_dedge_refl e : eqb_dedge e e = true.
Proof. apply eqb_dedge_eq. reflexivity. Qed.
Lemma eqb_dedge_neq e f : eqb_dedge e f = false <-> e <> f.
Proof. rewrite <- eqb_dedge_eq. destruct (eqb_dedge e f); split; congruence. Qed.
Lemma mem_dedge_In e l : mem_dedge e l = true <-> In e l.
Proof.
  unfold mem_dedge. rewrite existsb_exists. split.
  - intros [y [Hy Heq]]. apply eqb_dedge_eq in Heq. subst. exact Hy.
  - intros H. exists e. rewrite eqb_dedge_refl. auto.
Qed.
Lemma dedge_dec (e f : dedge) : {e = f} + {e <> f}.
Proof. destruct (eqb_dedge e f) eqn:H; [left; apply eqb_dedge_eq|right; apply eqb_dedge_neq]; exact H. Qed.
Lemma sym_sym e : sym (sym e) = e.
Proof. destruct e; reflexivity. Qed.
Lemma sym_inj e f : sym e = sym f -> e = f.
Proof. destruct e, f; unfold sym; cbn. congruence. Qed.

(** ** omap *)
Section OMAP.
Context {A : Type}.
Implicit Type m : omap A.

Lemma oget_oset_same k v m : oget k (oset k v m) = Some v.
Proof.
  induction m as [|[k' v'] t IH]; cbn [oset oget].
  - rewrite N.eqb_refl. reflexivity.
  - destruct (N.ltb_spec k k').
    + cbn [oget]. rewrite N.eqb_refl. reflexivity.
    + destruct (N.eqb_spec k k').
      * cbn [oget]. rewrite N.eqb_refl. reflexivity.
      * cbn [oget]. destruct (N.eqb_spec k' k); [congruence|]. exact IH.
Qed.
Lemma oget_oset_other k j v m : j <> k -> oget j (oset k v m) = oget j m.
Proof.
  intros Hjk. induction m as [|[k' v'] t IH]; cbn [oset oget].
  - destruct (N.eqb_spec k j); [congruence|reflexivity].
  - destruct (N.ltb_spec k k').
    + cbn [oget]. destruct (N.eqb_spec k j); [congruence|]. reflexivity.
    + destruct (N.eqb_spec k k').
      * subst. cbn [oget]. destruct (N.eqb_spec k' j); [congruence|reflexivity].
      * cbn [oget]. destruct (N.eqb_spec k' j); [reflexivity|exact IH].
Qed.
Lemma oget_oset k j v m : oget j (oset k v m) = if N.eqb k j then Some v else oget j m.
Proof.
  destruct (N.eqb_spec k j).
  - subst. apply oget_oset_same.
  - apply oget_oset_other. congruence.
Qed.

Lemma oget_In k v m : oget k m = Some v -> In (k, v) m.
Proof.
  induction m as [|[k' v'] t IH]; cbn [oget]; [discriminate|].
  destruct (N.eqb_spec k' k); intros H.
  - inv H. left. reflexivity.
  - right. auto.
Qed.
Lemma oget_None k m : oget k m = None <-> ~ In k (okeys m).
Proof.
  induction m as [|[k' v'] t IH]; cbn [oget okeys map fst In].
  - split; auto.
  - destruct (N.eqb_spec k' k).
    + split; [discriminate|]. intros H. exfalso. apply H. auto.
    + rewrite IH. unfold okeys. tauto.
Qed.
Lemma oget_Some_key k m : oget k m <> None <-> In k (okeys m).
Proof.
  rewrite oget_None. destruct (in_dec N.eq_dec k (okeys m)); tauto.
Qed.

Lemma sorted_tail k v m : sorted_keys ((k, v) :: m) -> sorted_keys m.
Proof. intros H. inv H. assumption. Qed.
Lemma sorted_head_lt k v m j w : sorted_keys ((k, v) :: m) -> In (j, w) m -> k < j.
Proof.
  intros H Hin. inv H. rewrite Forall_forall in H3. apply H3.
  change j with (fst (j, w)). apply in_map. exact Hin.
Qed.
Lemma sorted_oget k v m : sorted_keys m -> In (k, v) m -> oget k m = Some v.
Proof.
  induction m as [|[k' v'] t IH]; intros Hs Hin; [destruct Hin|].
  cbn [oget]. destruct Hin as [Heq|Hin].
  - inv Heq. rewrite N.eqb_refl. reflexivity.
  - pose proof (sorted_head_lt _ _ _ _ _ Hs Hin). destruct (N.eqb_spec k' k); [lia|].
    apply IH; [eapply sorted_tail; eauto|exact Hin].
Qed.
Lemma sorted_NoDup_keys m : sorted_keys m -> NoDup (okeys m).
Proof.
  induction m as [|[k v] t IH]; intros Hs; cbn; constructor.
  - intros Hin. apply in_map_iff in Hin. destruct Hin as [[j w] [E Hin]]. cbn in E. subst.
    pose proof (sorted_head_lt _ _ _ _ _ Hs Hin). lia.
  - apply IH. eapply sorted_tail; eauto.
Qed.

Lemma okeys_oset k v m j : In j (okeys (oset k v m)) <-> j = k \/ In j (okeys m).
Proof.
  rewrite <- !oget_Some_key, oget_oset. destruct (N.eqb_spec k j).
  - split; [auto|congruence].
  - split; [auto|]. intros [->|H]; [congruence|exact H].
Qed.

Lemma oset_sorted k v m : sorted_keys m -> sorted_keys (oset k v m).
Proof.
  induction m as [|[k' v'] t IH]; intros Hs; cbn [oset].
  - repeat constructor.
  - destruct (N.ltb_spec k k').
    + constructor; [exact Hs|]. cbn. constructor; [assumption|].
      inv Hs. eapply Forall_impl; [|eassumption]. cbn. intros; lia.
    + destruct (N.eqb_spec k k').
      * subst. inv Hs. constructor; assumption.
      * inv Hs. constructor; [apply IH; assumption|].
        rewrite Forall_forall in *. intros j Hj. apply okeys_oset in Hj.
        destruct Hj as [Hj|Hj]; [cbn; lia|auto].
Qed.

(** Appending at the end. *)
Lemma oset_append k v m : (forall j, In j (okeys m) -> j < k) -> oset k v m = m ++ [(k, v)].
Proof.
  induction m as [|[k' v'] t IH]; intros Hlt; cbn [oset app]; [reflexivity|].
  assert (k' < k) by (apply Hlt; cbn; auto).
  destruct (N.ltb_spec k k'); [lia|]. destruct (N.eqb_spec k k'); [lia|].
  rewrite IH; [reflexivity|]. intros j Hj. apply Hlt. cbn. auto.
Qed.
Lemma oset_length_new k v m : ~ In k (okeys m) -> length (oset k v m) = S (length m).
Proof.
  induction m as [|[k' v'] t IH]; intros Hn; cbn [oset length]; [reflexivity|].
  cbn in Hn. destruct (N.ltb_spec k k'); [reflexivity|]. destruct (N.eqb_spec k k'); [exfalso; apply Hn; auto|].
  cbn. rewrite IH; [reflexivity|]. tauto.
Qed.

Lemma oset_same_id k v m : sorted_keys m -> oget k m = Some v -> oset k v m = m.
Proof.
  induction m as [|[k' v'] t IH]; intros Hs Hg; cbn [oset oget] in *; [discriminate|].
  destruct (N.eqb_spec k' k).
  - inv Hg. rewrite N.ltb_irrefl, N.eqb_refl. reflexivity.
  - assert (k' < k) by (eapply sorted_head_lt; [exact Hs|apply oget_In; exact Hg]).
    destruct (N.ltb_spec k k'); [lia|]. destruct (N.eqb_spec k k'); [congruence|].
    rewrite IH; auto. eapply sorted_tail; eauto.
Qed.

Lemma okeys_app m m' : okeys (m ++ m') = okeys m ++ okeys m'.
Proof. unfold okeys. apply map_app. Qed.

Lemma oget_app k m m' : oget k (m ++ m') = match oget k m with Some v => Some v | None => oget k m' end.
Proof.
  induction m as [|[k' v'] t IH]; cbn [app oget]; [reflexivity|].
  destruct (N.eqb_spec k' k); [reflexivity|exact IH].
Qed.

Lemma onext_key_app k v m : onext_key (m ++ [(k, v)]) = k + 1.
Proof. unfold onext_key. rewrite rev_app_distr. reflexivity. Qed.

Lemma osize_app k v m : osize (m ++ [(k, v)]) = osize m + 1.
Proof. unfold osize. rewrite app_length. cbn [length]. lia. Qed.

(** Two sorted maps with the same lookups are equal. *)
Lemma sorted_ext m m' : sorted_keys m -> sorted_keys m' -> (forall k, oget k m = oget k m') -> m = m'.
Proof.
  revert m'. induction m as [|[k v] t IH]; intros [|[k' v'] t'] Hs Hs' Heq.
  - reflexivity.
  - specialize (Heq k'). cbn [oget] in Heq. rewrite N.eqb_refl in Heq. discriminate.
  - specialize (Heq k). cbn [oget] in Heq. rewrite N.eqb_refl in Heq. discriminate.
  - assert (k = k').
    { pose proof (Heq k) as H1. pose proof (Heq k') as H2. cbn [oget] in H1, H2.
      rewrite N.eqb_refl in H1, H2. destruct (N.eqb_spec k' k) as [|Hn]; [auto|].
      destruct (N.eqb_spec k k'); [auto|].
      symmetry in H1. apply oget_In in H1. apply oget_In in H2.
      pose proof (sorted_head_lt _ _ _ _ _ Hs' H1). pose proof (sorted_head_lt _ _ _ _ _ Hs H2). lia. }
    subst k'. assert (v = v').
    { specialize (Heq k). cbn [oget] in Heq. rewrite N.eqb_refl in Heq. congruence. }
    subst v'. f_equal. apply IH.
    + eapply sorted_tail; eauto.
    + eapply sorted_tail; eauto.
    + intros j. specialize (Heq j). cbn [oget] in Heq. destruct (N.eqb_spec k j); [|exact Heq].
      subst. assert (oget j t = None) as ->.
      { destruct (oget j t) eqn:E; [|reflexivity]. apply oget_In in E.
        pose proof (sorted_head_lt _ _ _ _ _ Hs E). lia. }
      destruct (oget j t') eqn:E; [|reflexivity]. apply oget_In in E.
      pose proof (sorted_head_lt _ _ _ _ _ Hs' E). lia.
Qed.
End OMAP.

Lemma oget_map {A B} (f : A -> B) k (m : omap A) :
  oget k (map (fun kv => (fst kv, f (snd kv))) m) = option_map f (oget k m).
Proof.
  induction m as [|[k' v] t IH]; cbn [map oget fst snd option_map]; [reflexivity|].
  destruct (N.eqb_spec k' k); [reflexivity|exact IH].
Qed.

(** ** Cyclic order *)
Section CYC.
Context {A : Type}.
Implicit Types (r u v : list A) (x y : A).

Definition adj r x y : Prop := exists u v, r = u ++ x :: y :: v.

Lemma adj_app_l r s x y : adj r x y -> adj (r ++ s) x y.
Proof. intros [u [v ->]]. exists u, (v ++ s). rewrite <- app_assoc. reflexivity. Qed.
Lemma adj_app_r r s x y : adj s x y -> adj (r ++ s) x y.
Proof. intros [u [v ->]]. exists (r ++ u), v. rewrite <- app_assoc. reflexivity. Qed.
Lemma adj_cons z r x y : adj r x y -> adj (z :: r) x y.
Proof. intros [u [v ->]]. exists (z :: u), v. reflexivity. Qed.
Lemma adj_cyc r x y : adj r x y -> cyc r x y.
Proof. intros H. left. exact H. Qed.

(** Adjacent elements of a concatenation. *)
Lemma adj_app_inv r s x y :
  adj (r ++ s) x y ->
  adj r x y \/ adj s x y \/ ((exists u, r = u ++ [x]) /\ (exists v, s = y :: v)).
Proof.
  intros [u [v H]]. revert u H. induction r as [|z r IH]; intros u H.
  - right. left. exists u, v. exact H.
  - destruct u as [|w u]; cbn in H.
    + inv H. destruct r as [|z' r]; cbn in H2.
      * right. right. split; [exists []; reflexivity|]. exists v. exact H2.
      * inv H2. left. exists [], r. reflexivity.
    + inv H. destruct (IH _ H2) as [H|[H|[[u' H] H']]].
      * left. apply adj_cons. exact H.
      * right. left. exact H.
      * right. right. split; [|exact H']. exists (w :: u'). subst. reflexivity.
Qed.

Lemma cyc_rot r s x y : cyc (r ++ s) x y -> cyc (s ++ r) x y.
Proof.
  intros [H|[[u Hu] [v Hv]]].
  - destruct (adj_app_inv _ _ _ _ H) as [H'|[H'|[[u Hu] [v Hv]]]].
    + left. apply adj_app_r. exact H'.
    + left. apply adj_app_l. exact H'.
    + subst. right. split.
      * exists (y :: v ++ u). cbn. rewrite <- app_assoc. reflexivity.
      * exists (v ++ u ++ [x]). reflexivity.
  - destruct s as [|z s].
    { rewrite app_nil_r in *. right. split; [exists u|exists v]; assumption. }
    destruct r as [|w r].
    { cbn in *. rewrite app_nil_r. right. split; [exists u|exists v]; assumption. }
    left. cbn in Hv. inv Hv.
    destruct (exists_last (l := z :: s)) as [s' [l Hs]]; [discriminate|]. rewrite Hs in *.
    assert (l = x).
    { rewrite app_assoc in Hu. apply app_inj_tail in Hu. tauto. }
    subst l. exists s', r. rewrite <- app_assoc. reflexivity.
Qed.

(** Not at the last element: linear adjacency. *)
Lemma cyc_adj r z x y : cyc (r ++ [z]) x y -> x <> z -> adj (r ++ [z]) x y.
Proof.
  intros [H|[[u Hu] _]] Hne; [exact H|].
  apply app_inj_tail in Hu. destruct Hu. congruence.
Qed.

Lemma cyc_In_l r x y : cyc r x y -> In x r.
Proof.
  intros [[u [v ->]]|[[u ->] _]]; apply in_or_app; right; cbn; auto.
Qed.
Lemma cyc_In_r r x y : cyc r x y -> In y r.
Proof.
  intros [[u [v ->]]|[_ [v ->]]]; [apply in_or_app; right|]; cbn; auto.
Qed.

(** Inserting after an element keeps all other successor pairs. *)
Lemma cyc_insert u z v w x y : cyc (u ++ z :: v) x y -> x <> z -> cyc (u ++ z :: w :: v) x y.
Proof.
  intros H Hne.
  change (u ++ z :: v) with (u ++ [z] ++ v) in H. rewrite app_assoc in H. apply cyc_rot in H.
  rewrite app_assoc in H. apply cyc_adj in H; [|exact Hne].
  change (u ++ z :: w :: v) with (u ++ [z] ++ w :: v). rewrite app_assoc. apply cyc_rot.
  left. cbn. apply adj_cons. rewrite app_assoc. exact H.
Qed.

(** Uniqueness of the successor in duplicate-free lists. *)
Lemma nodup_split_unique x u v u' v' :
  NoDup (u ++ x :: v) -> u ++ x :: v = u' ++ x :: v' -> u = u' /\ v = v'.
Proof.
  revert u'. induction u as [|a u IH]; intros [|b u'] Hnd Heq; cbn in *.
  - inv Heq. auto.
  - inv Heq. exfalso. inv Hnd. apply H1. apply in_or_app. right. cbn. auto.
  - inv Heq. exfalso. inv Hnd. apply H1. apply in_or_app. right. cbn. auto.
  - inv Heq. inv Hnd. destruct (IH u' H3 H1). subst. auto.
Qed.

Lemma cyc_fun r x y y' : NoDup r -> cyc r x y -> cyc r x y' -> y = y'.
Proof.
  intros Hnd [[u [v H]]|[[u H] [v Hv]]] [[u' [v' H']]|[[u' H'] [v' Hv']]].
  - rewrite H in Hnd, H'. destruct (nodup_split_unique _ _ _ _ _ Hnd H') as [_ E]. inv E. reflexivity.
  - rewrite H in Hnd, H'. change (u' ++ [x]) with (u' ++ x :: []) in H'.
    destruct (nodup_split_unique _ _ _ _ _ Hnd H') as [_ E]. discriminate.
  - rewrite H in Hnd, H'. change (u ++ [x]) with (u ++ x :: []) in *.
    destruct (nodup_split_unique _ _ _ _ _ Hnd H') as [_ E]. discriminate.
  - rewrite Hv in Hv'. inv Hv'. reflexivity.
Qed.

Lemma cyc_total r x : In x r -> exists y, cyc r x y.
Proof.
  intros H. apply in_split in H. destruct H as [u [v ->]].
  destruct v as [|y v].
  - destruct u as [|z u].
    + exists x. right. split; exists []; reflexivity.
    + exists z. right. split; [exists (z :: u); reflexivity|]. exists (u ++ [x]). reflexivity.
  - exists y. left. exists u, v. reflexivity.
Qed.

(** A set that meets the list and is closed under the cyclic successor contains the list. *)
Lemma cyc_closed_all r (P : A -> Prop) :
  (forall x y, P x -> cyc r x y -> P y) -> (exists x, In x r /\ P x) -> forall y, In y r -> P y.
Proof.
  intros Hcl [x [Hin Hx]].
  apply in_split in Hin. destruct Hin as [u [v ->]].
  assert (Hr : forall s t, (forall a b, P a -> cyc (s ++ t) a b -> P b) ->
               forall a b, P a -> cyc (t ++ s) a b -> P b).
  { intros s t H a b Ha Hc. apply (H a b Ha). apply cyc_rot. exact Hc. }
  assert (Hcl' := Hr u (x :: v) Hcl). clear Hcl. cbn in Hcl'.
  assert (Hall : forall l1 l2, x :: v ++ u = l1 ++ l2 -> forall y, In y l1 -> P y).
  { intros l1. induction l1 as [|z l1 IH] using rev_ind; intros l2 Heq y Hy; [destruct Hy|].
    rewrite <- app_assoc in Heq. apply in_app_or in Hy. destruct Hy as [Hy|[<-|[]]].
    - eapply IH; [exact Heq|exact Hy].
    - destruct (exists_last (l := x :: l1)) as [l1' [w Hw]]; [discriminate|].
      destruct l1 as [|x' l1].
      + cbn in Heq. inv Heq. exact Hx.
      + cbn in Heq. inv Heq. assert (Hne : x' :: l1 <> []) by discriminate.
        destruct (exists_last Hne) as [l3 [q Hq]]. apply (Hcl' q z).
        * eapply (IH (z :: l2)); [rewrite H1; reflexivity|]. rewrite Hq. apply in_or_app; right; cbn; auto.
        * left. rewrite H1. change (x' :: l1 ++ z :: l2) with ((x' :: l1) ++ z :: l2). rewrite Hq.
          exists l3, l2. rewrite <- app_assoc. reflexivity. }
  intros y Hy. apply (Hall (x :: v ++ u) []).
  - rewrite app_nil_r. reflexivity.
  - apply in_app_or in Hy. cbn in *. rewrite in_app_iff. tauto.
Qed.
End CYC.

(** ** The successor function of the model *)
Lemma next_after_spec h r x y :
  next_after h r x = Some y ->
  (exists u v, r = u ++ x :: y :: v) \/ (exists u, r = u ++ [x]) /\ y = h.
Proof.
  induction r as [|z t IH]; cbn [next_after]; [discriminate|].
  destruct (N.eqb_spec z x).
  - intros H. subst. destruct t as [|w t]; cbn in H; inv H.
    + right. split; [exists []; reflexivity|reflexivity].
    + left. exists [], t. reflexivity.
  - intros H. destruct (IH H) as [[u [v ->]]|[[u ->] ->]].
    + left. exists (z :: u), v. reflexivity.
    + right. split; [exists (z :: u); reflexivity|reflexivity].
Qed.
Lemma succ_in_cyc r x y : succ_in r x = Some y -> cyc r x y.
Proof.
  destruct r as [|h t]; [discriminate|]. intros H. apply next_after_spec in H.
  destruct H as [H|[H ->]]; [left; exact H|]. right. split; [exact H|exists t; reflexivity].
Qed.
Lemma next_after_In h r x : In x r -> exists y, next_after h r x = Some y.
Proof.
  induction r as [|z t IH]; intros H; [destruct H|]. cbn [next_after].
  destruct (N.eqb_spec z x); [eauto|]. apply IH. destruct H; [congruence|assumption].
Qed.
Lemma next_after_None h r x : ~ In x r -> next_after h r x = None.
Proof.
  induction r as [|z t IH]; intros H; [reflexivity|]. cbn [next_after].
  destruct (N.eqb_spec z x).
  - exfalso. apply H. cbn. auto.
  - apply IH. intros H'. apply H. cbn. auto.
Qed.
Lemma cyc_succ_in r x y : NoDup r -> cyc r x y -> succ_in r x = Some y.
Proof.
  intros Hnd Hc. destruct r as [|h t].
  - destruct Hc as [[u [v H]]|[_ [v H]]]; [destruct u; discriminate|discriminate].
  - destruct (next_after_In h (h :: t) x (cyc_In_l _ _ _ Hc)) as [y' Hy'].
    unfold succ_in. rewrite Hy'. f_equal. eapply cyc_fun; [exact Hnd| |exact Hc].
    apply succ_in_cyc. exact Hy'.
Qed.
Lemma succ_in_None r x : ~ In x r -> succ_in r x = None.
Proof. intros H. destruct r; [reflexivity|]. apply next_after_None. exact H. Qed.

Lemma cyc_rev {A} (r : list A) x y : cyc r x y <-> cyc (rev r) y x.
Proof.
  assert (H : forall (s : list A) a b, cyc s a b -> cyc (rev s) b a).
  { intros s a b [[u [v ->]]|[[u H] [v Hv]]].
    - left. exists (rev v), (rev u). rewrite rev_app_distr. cbn. rewrite <- !app_assoc. reflexivity.
    - right. split.
      + exists (rev v). rewrite Hv. reflexivity.
      + exists (rev u). rewrite H, rev_app_distr. reflexivity. }
  split; [apply H|]. intros Hc. apply H in Hc. rewrite rev_involutive in Hc. exact Hc.
Qed.
Lemma pred_in_cyc r x y : pred_in r x = Some y -> cyc r y x.
Proof. intros H. apply succ_in_cyc in H. apply cyc_rev. exact H. Qed.
Lemma cyc_pred_in r x y : NoDup r -> cyc r y x -> pred_in r x = Some y.
Proof. intros Hnd H. apply cyc_succ_in; [apply NoDup_rev; exact Hnd|]. apply (proj1 (cyc_rev r y x)). exact H. Qed.
Lemma pred_in_In r x : In x r -> exists y, pred_in r x = Some y.
Proof.
  intros H. unfold pred_in. apply in_rev in H. destruct (rev r) as [|h t]; [destruct H|].
  apply next_after_In. exact H.
Qed.
Lemma succ_in_In r x : In x r -> exists y, succ_in r x = Some y.
Proof. intros H. destruct r as [|h t]; [destruct H|]. apply next_after_In. exact H. Qed.
