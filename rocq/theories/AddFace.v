(** * AddFace: adding a list of triangles to a mesh never fails, provided the
    triangles are proper, use every oriented edge once and the corners around
    every point form an umbrella. *)
From Coq Require Import Sorted Permutation.
From Verif Require Import Base Mesh Spec Lists.

(** ** Combinatorics of triangle lists *)
Definition nbr (T : list tri) (b x : N) : Prop := In (b, x) (dirs T) \/ In (x, b) (dirs T).

(** Umbrella condition at [b]: a non-empty set of neighbours closed under
    "previous vertex of the corner whose next vertex is x" contains all neighbours. *)
Definition umbrella (T : list tri) (b : N) : Prop :=
  forall S : list N,
    S <> [] ->
    (forall x, In x S -> nbr T b x) ->
    (forall x, In x S -> exists p, In p S /\ In (p, b, x) (corners T)) ->
    forall y, nbr T b y -> In y S.

Record good (P : N -> Prop) (T : list tri) : Prop := {
  g_proper : forall t, In t T -> proper t;
  g_verts : forall t x, In t T -> In x (tverts t) -> P x;
  g_dirs : NoDup (dirs T);
  g_umb : forall b, umbrella T b
}.

Lemma dirs_app T U : dirs (T ++ U) = dirs T ++ dirs U.
Proof. unfold dirs. apply flat_map_app. Qed.
Lemma corners_app T U : corners (T ++ U) = corners T ++ corners U.
Proof. unfold corners. apply flat_map_app. Qed.
Lemma dirs_one t : dirs [t] = tdirs t.
Proof. unfold dirs. cbn. apply app_nil_r. Qed.
Lemma corners_one t : corners [t] = tcorners t.
Proof. unfold corners. cbn. apply app_nil_r. Qed.

Lemma dirs_corners T : dirs T = map (fun c => (snd (fst c), snd c)) (corners T).
Proof.
  induction T as [|[[a b] c] T IH]; [reflexivity|].
  cbn. f_equal. f_equal. f_equal. exact IH.
Qed.

Lemma corner_dir T p b n : In (p, b, n) (corners T) -> In (b, n) (dirs T).
Proof. intros H. rewrite dirs_corners. apply (in_map (fun c => (snd (fst c), snd c))) in H. exact H. Qed.
Lemma corner_dir_in T p b n : In (p, b, n) (corners T) -> In (p, b) (dirs T).
Proof.
  unfold corners, dirs. rewrite !in_flat_map. intros [t [Ht H]]. exists t. split; [exact Ht|].
  destruct t as [[x y] z]. cbn in *. intuition congruence.
Qed.
Lemma dir_corner T b n : In (b, n) (dirs T) -> exists p, In (p, b, n) (corners T).
Proof.
  rewrite dirs_corners. intros H. apply in_map_iff in H. destruct H as [[[p b'] n'] [E H]].
  cbn in E. inv E. eauto.
Qed.
Lemma dir_corner_in T p b : In (p, b) (dirs T) -> exists n, In (p, b, n) (corners T).
Proof.
  unfold corners, dirs. rewrite in_flat_map. intros [t [Ht H]].
  destruct t as [[x y] z]. cbn in H.
  destruct H as [H|[H|[H|[]]]]; inv H.
  - exists z. apply in_flat_map. eexists. split; [exact Ht|cbn; auto].
  - exists x. apply in_flat_map. eexists. split; [exact Ht|cbn; auto].
  - exists y. apply in_flat_map. eexists. split; [exact Ht|cbn; auto].
Qed.

Lemma NoDup_map_inj {A B} (f : A -> B) l x y :
  NoDup (map f l) -> In x l -> In y l -> f x = f y -> x = y.
Proof.
  induction l as [|a l IH]; intros Hnd Hx Hy E; [destruct Hx|].
  cbn in Hnd. inv Hnd. destruct Hx as [->|Hx], Hy as [->|Hy]; [reflexivity| | |apply IH; auto].
  - exfalso. apply H1. rewrite E. apply in_map. exact Hy.
  - exfalso. apply H1. rewrite <- E. apply in_map. exact Hx.
Qed.

Lemma corner_fun T p p' b n :
  NoDup (dirs T) -> In (p, b, n) (corners T) -> In (p', b, n) (corners T) -> p = p'.
Proof.
  intros Hnd H H'. rewrite dirs_corners in Hnd.
  assert (E := NoDup_map_inj _ _ _ _ Hnd H H' eq_refl). congruence.
Qed.

Lemma nbr_sym T a b : nbr T a b -> nbr T b a.
Proof. unfold nbr. tauto. Qed.
Lemma nbr_app T U a b : nbr (T ++ U) a b <-> nbr T a b \/ nbr U a b.
Proof. unfold nbr. rewrite dirs_app, !in_app_iff. tauto. Qed.

Lemma umbrella_prefix T U b : umbrella (T ++ U) b -> umbrella T b.
Proof.
  intros H S Hne Hsub Hcl y Hy. apply (H S Hne).
  - intros x Hx. apply nbr_app. auto.
  - intros x Hx. destruct (Hcl x Hx) as [p [Hp Hc]]. exists p. split; [exact Hp|].
    rewrite corners_app. apply in_or_app. auto.
  - apply nbr_app. auto.
Qed.

Lemma NoDup_app_l {A} (l l' : list A) : NoDup (l ++ l') -> NoDup l.
Proof. induction l as [|a l IH]; cbn; intros H; [constructor|]. inv H. constructor; [|auto].
  intros Hin. apply H2. apply in_or_app. auto. Qed.
Lemma NoDup_app_r {A} (l l' : list A) : NoDup (l ++ l') -> NoDup l'.
Proof. induction l as [|a l IH]; cbn; intros H; [exact H|]. inv H. auto. Qed.
Lemma NoDup_app_disj {A} (l l' : list A) x : NoDup (l ++ l') -> In x l -> In x l' -> False.
Proof.
  induction l as [|a l IH]; cbn; intros H Hx Hx'; [exact Hx|]. inv H. destruct Hx as [->|Hx].
  - apply H2. apply in_or_app. auto.
  - auto.
Qed.
Lemma NoDup_app_intro {A} (l l' : list A) :
  NoDup l -> NoDup l' -> (forall x, In x l -> In x l' -> False) -> NoDup (l ++ l').
Proof.
  induction l as [|a l IH]; cbn; intros H H' Hd; [exact H'|]. inv H. constructor.
  - intros Hin. apply in_app_or in Hin. destruct Hin; [auto|]. eapply Hd; [left; reflexivity|eassumption].
  - apply IH; auto. intros x Hx Hx'. eapply Hd; [right; exact Hx|exact Hx'].
Qed.

Lemma good_prefix P T U : good P (T ++ U) -> good P T.
Proof.
  intros [H1 H2 H3 H4]. constructor.
  - intros t Ht. apply H1. apply in_or_app. auto.
  - intros t x Ht. apply H2. apply in_or_app. auto.
  - rewrite dirs_app in H3. eapply NoDup_app_l; eauto.
  - intros b. eapply umbrella_prefix. apply H4.
Qed.

(** ** Consecutive numbering *)
Definition idx_from {A} (k : N) (l : list A) : list (N * A) :=
  combine (map (fun n => k + N.of_nat n) (seq 0 (length l))) l.
Definition idx {A} (l : list A) : list (N * A) := idx_from 0 l.

Lemma idx_from_cons {A} k (x : A) l : idx_from k (x :: l) = (k, x) :: idx_from (k + 1) l.
Proof.
  unfold idx_from. cbn [length seq map combine]. f_equal; [f_equal; lia|].
  f_equal. rewrite <- seq_shift, map_map. apply map_ext. intros n. lia.
Qed.
Lemma idx_from_app {A} k (l l' : list A) :
  idx_from k (l ++ l') = idx_from k l ++ idx_from (k + N.of_nat (length l)) l'.
Proof.
  revert k. induction l as [|x l IH]; intros k.
  - cbn [app length]. replace (k + N.of_nat 0) with k by lia. reflexivity.
  - cbn [app]. rewrite !idx_from_cons, IH. cbn [app]. f_equal. f_equal. f_equal. cbn [length]. lia.
Qed.
Lemma idx_snoc {A} (l : list A) x : idx (l ++ [x]) = idx l ++ [(N.of_nat (length l), x)].
Proof. unfold idx. rewrite idx_from_app, idx_from_cons. cbn [app]. do 2 f_equal. Qed.
Lemma okeys_idx_from {A} k (l : list A) j :
  In j (okeys (idx_from k l)) <-> k <= j < k + N.of_nat (length l).
Proof.
  revert k. induction l as [|x l IH]; intros k.
  - cbn. lia.
  - rewrite idx_from_cons. cbn [okeys map fst In]. unfold okeys in IH. rewrite IH. cbn [length]. lia.
Qed.
Lemma idx_from_sorted {A} k (l : list A) : sorted_keys (idx_from k l).
Proof.
  revert k. induction l as [|x l IH]; intros k.
  - constructor.
  - rewrite idx_from_cons. constructor; [apply IH|]. apply Forall_forall. intros j Hj.
    apply okeys_idx_from in Hj. cbn. lia.
Qed.
Lemma idx_from_length {A} k (l : list A) : length (idx_from k l) = length l.
Proof. unfold idx_from. rewrite combine_length, map_length, seq_length. lia. Qed.
Lemma idx_length {A} (l : list A) : length (idx l) = length l.
Proof. apply idx_from_length. Qed.
Lemma idx_from_snd {A} k (l : list A) : map snd (idx_from k l) = l.
Proof.
  revert k. induction l as [|x l IH]; intros k; [reflexivity|].
  rewrite idx_from_cons. cbn. f_equal. apply IH.
Qed.
Lemma idx_from_In {A} k (l : list A) i x :
  In (i, x) (idx_from k l) <-> k <= i /\ nth_error l (N.to_nat (i - k)) = Some x.
Proof.
  revert k. induction l as [|y l IH]; intros k.
  - cbn. split; [tauto|]. intros [_ H]. destruct (N.to_nat (i - k)); discriminate.
  - rewrite idx_from_cons. cbn [In]. rewrite IH. split.
    + intros [E|[H1 H2]].
      * inv E. rewrite N.sub_diag. split; [lia|reflexivity].
      * split; [lia|]. replace (N.to_nat (i - k)) with (S (N.to_nat (i - (k + 1)))) by lia. exact H2.
    + intros [H1 H2]. destruct (N.eq_dec i k) as [->|Hne].
      * rewrite N.sub_diag in H2. cbn in H2. inv H2. auto.
      * right. split; [lia|]. replace (N.to_nat (i - k)) with (S (N.to_nat (i - (k + 1)))) in H2 by lia.
        exact H2.
Qed.
Lemma idx_In {A} (l : list A) i x : In (i, x) (idx l) <-> nth_error l (N.to_nat i) = Some x.
Proof. unfold idx. rewrite idx_from_In, N.sub_0_r. intuition lia. Qed.
Lemma onext_key_idx {A} (l : list A) : onext_key (idx l) = N.of_nat (length l).
Proof.
  induction l as [|x l _] using rev_ind; [reflexivity|].
  rewrite idx_snoc, onext_key_app, app_length. cbn [length]. lia.
Qed.
Lemma oset_idx {A} (l : list A) x : oset (onext_key (idx l)) x (idx l) = idx (l ++ [x]).
Proof.
  rewrite onext_key_idx, idx_snoc. apply oset_append. intros j Hj.
  apply okeys_idx_from in Hj. lia.
Qed.

(** ** Ring surgery *)
Lemma split_at_Some x r l1 l2 : split_at x r = Some (l1, l2) -> r = l1 ++ x :: l2 /\ ~ In x l1.
Proof.
  revert l1 l2. induction r as [|y t IH]; cbn [split_at]; intros l1 l2 H; [discriminate|].
  destruct (N.eqb_spec y x).
  - inv H. auto.
  - destruct (split_at x t) as [[u v]|]; [|discriminate]. inv H.
    destruct (IH u l2 eq_refl) as [-> Hn]. split; [reflexivity|]. cbn. tauto.
Qed.
Lemma split_at_None x r : split_at x r = None -> ~ In x r.
Proof.
  induction r as [|y t IH]; cbn [split_at]; intros H; [auto|].
  destruct (N.eqb_spec y x); [discriminate|].
  destruct (split_at x t) as [[u v]|]; [discriminate|]. cbn. intuition.
Qed.

(** Every ring with an unset element: the fan from the front ends at the first unset one. *)
Lemma take_fan_spec isset r f g :
  take_fan isset r = (f, g) ->
  r = f ++ g /\
  ((exists f' k, f = f' ++ [k] /\ isset k = false /\ forall x, In x f' -> isset x = true) \/
   (g = [] /\ forall x, In x f -> isset x = true)).
Proof.
  revert f g. induction r as [|y t IH]; cbn [take_fan]; intros f g H.
  - inv H. split; [reflexivity|]. right. split; [reflexivity|]. intros x [].
  - destruct (isset y) eqn:Hy.
    + destruct (take_fan isset t) as [f1 g1]. inv H. destruct (IH _ _ eq_refl) as [-> Hor].
      split; [reflexivity|]. destruct Hor as [[f' [k [-> [Hk Hall]]]]|[-> Hall]].
      * left. exists (y :: f'), k. repeat split; auto. intros x [->|Hx]; auto.
      * right. split; [reflexivity|]. intros x [->|Hx]; auto.
    + inv H. split; [reflexivity|]. left. exists [], y. split; [reflexivity|]. split; [exact Hy|]. intros x [].
Qed.

(** The link step.  [nx x p]: the corner (p, b, x) already exists. *)
Lemma link_ring_ok isset (nx : N -> N -> Prop) r c a :
  NoDup r -> In a r -> In c r -> a <> c ->
  (forall x, isset x = true -> exists p, nx x p) ->
  (forall x p, nx x p -> isset x = true /\ cyc r x p) ->
  isset c = false ->
  (forall x, ~ nx x a) ->
  (* a closed fan through the new corner is everything *)
  (forall S, In c S -> (forall x, In x S -> In x r) ->
     (forall x, In x S -> x = c /\ In a S \/ exists p, In p S /\ nx x p) -> forall y, In y r -> In y S) ->
  exists r', link_ring isset r c a = Some r' /\ Permutation r r' /\
             cyc r' c a /\ (forall x p, nx x p -> cyc r' x p).
Proof.
  intros Hnd Ha Hc Hac Hset Hnx Hcun Hna Hclose.
  unfold link_ring. destruct (split_at a r) as [[l1 l2]|] eqn:Hsp.
  2:{ exfalso. apply split_at_None in Hsp. contradiction. }
  apply split_at_Some in Hsp. destruct Hsp as [Hr _].
  destruct (take_fan isset (a :: l2 ++ l1)) as [fan rest] eqn:Hfan.
  apply take_fan_spec in Hfan. destruct Hfan as [Hrot Hor].
  assert (Hperm : Permutation r (fan ++ rest)).
  { rewrite <- Hrot, Hr. change (a :: l2 ++ l1) with ((a :: l2) ++ l1). apply Permutation_app_comm. }
  assert (Hnd' : NoDup (fan ++ rest)) by (eapply Permutation_NoDup; eauto).
  assert (Hcyc : forall x p, nx x p -> cyc (fan ++ rest) x p).
  { intros x p H. apply Hnx in H. destruct H as [_ H]. rewrite Hr in H. apply cyc_rot in H.
    rewrite <- Hrot. exact H. }
  assert (HinR : forall x, In x (fan ++ rest) <-> In x r).
  { intros x. split; apply Permutation_in; [symmetry|]; exact Hperm. }
  destruct Hor as [[f' [k [Hf [Hk Hall]]]]|[-> Hall]].
  2:{ exfalso. rewrite app_nil_r in *. assert (In c fan) by (apply HinR; exact Hc).
      rewrite (Hall c H) in Hcun. discriminate. }
  (* fan = a :: ..., ends in k unset *)
  assert (Hfa : exists fr, fan = a :: fr).
  { destruct fan as [|z fr]; [destruct f'; discriminate|]. cbn in Hrot. inv Hrot. eauto. }
  destruct Hfa as [fr Hfa].
  destruct (split_at c rest) as [[pre post]|] eqn:Hsp.
  - apply split_at_Some in Hsp. destruct Hsp as [Hrest _].
    exists (pre ++ c :: fan ++ post). split; [reflexivity|]. split; [|split].
    + rewrite Hperm, Hrest. change (c :: fan ++ post) with ((c :: fan) ++ post).
      change (c :: post) with ([c] ++ post). change (c :: fan) with ([c] ++ fan).
      rewrite !app_assoc. apply Permutation_app_tail.
      rewrite <- !app_assoc. rewrite Permutation_app_comm, <- app_assoc. reflexivity.
    + left. exists pre, (fr ++ post). rewrite Hfa. reflexivity.
    + intros x p Hx. pose proof (Hcyc x p Hx) as Hxc.
      assert (Hxk : x <> k). { intros ->. destruct (Hnx _ _ Hx) as [Hs _]. congruence. }
      assert (Hxc' : x <> c). { intros ->. destruct (Hnx _ _ Hx) as [Hs _]. congruence. }
      assert (Hadj : adj (fan ++ rest) x p).
      { destruct Hxc as [H|[[u Hu] [v Hv]]]; [exact H|]. exfalso.
        rewrite Hfa in Hv. cbn in Hv. inv Hv. apply (Hna x). exact Hx. }
      left. apply adj_app_inv in Hadj. destruct Hadj as [Hadj|[Hadj|[[u Hu] _]]].
      * apply adj_app_r. apply adj_cons. apply adj_app_l. exact Hadj.
      * rewrite Hrest in Hadj. change (pre ++ c :: post) with (pre ++ [c] ++ post) in Hadj.
        rewrite app_assoc in Hadj. apply adj_app_inv in Hadj. destruct Hadj as [Hadj|[Hadj|[[u Hu] _]]].
        -- change (pre ++ c :: fan ++ post) with (pre ++ [c] ++ fan ++ post). rewrite app_assoc.
           apply adj_app_l. exact Hadj.
        -- apply adj_app_r. apply adj_cons. apply adj_app_r. exact Hadj.
        -- apply app_inj_tail in Hu. destruct Hu. congruence.
      * rewrite Hf in Hu. apply app_inj_tail in Hu. destruct Hu. congruence.
  - apply split_at_None in Hsp.
    assert (Hcf : In c fan).
    { apply HinR in Hc. apply in_app_or in Hc. destruct Hc; [assumption|contradiction]. }
    assert (k = c).
    { rewrite Hf in Hcf. apply in_app_or in Hcf. destruct Hcf as [Hcf|[Hcf|[]]]; [|exact Hcf].
      rewrite (Hall _ Hcf) in Hcun. discriminate. }
    subst k.
    assert (Hrest : rest = []).
    { assert (Hcov : forall y, In y r -> In y fan).
      { apply Hclose.
        - exact Hcf.
        - intros x Hx. apply HinR. apply in_or_app. auto.
        - intros x Hx. rewrite Hf in Hx. apply in_app_or in Hx. destruct Hx as [Hx|[<-|[]]].
          + right. destruct (Hset x (Hall x Hx)) as [p Hp]. exists p. split; [|exact Hp].
            pose proof (Hcyc x p Hp) as Hxp.
            apply in_split in Hx. destruct Hx as [u [v Hu]].
            assert (Hnxt : exists q, cyc (fan ++ rest) x q /\ In q fan).
            { destruct v as [|q v].
              - exists c. split; [|exact Hcf]. left. exists u, rest. rewrite Hf, Hu, <- !app_assoc. reflexivity.
              - exists q. split.
                + left. exists u, (v ++ [c] ++ rest). rewrite Hf, Hu, <- !app_assoc. reflexivity.
                + rewrite Hf, Hu. rewrite !in_app_iff. cbn. auto. }
            destruct Hnxt as [q [Hq Hqin]].
            rewrite (cyc_fun _ _ _ _ Hnd' Hxp Hq). exact Hqin.
          + left. split; [reflexivity|]. rewrite Hfa. left. reflexivity. }
      destruct rest as [|z rest]; [reflexivity|]. exfalso.
      apply (NoDup_app_disj _ _ z Hnd'); [|cbn; auto]. apply Hcov. apply HinR. apply in_or_app. cbn. auto. }
    subst rest. rewrite app_nil_r in *. exists fan. split; [reflexivity|]. split; [exact Hperm|]. split.
    + right. split; [exists f'; exact Hf|exists fr; exact Hfa].
    + exact Hcyc.
Qed.

Lemma ins_after_ok isset r x :
  (exists y, In y r /\ isset y = false) ->
  exists u y v, r = u ++ y :: v /\ isset y = false /\ ins_after isset r x = Some (u ++ y :: x :: v).
Proof.
  induction r as [|z t IH]; intros [y [Hy Hs]]; [destruct Hy|]. cbn [ins_after].
  destruct (isset z) eqn:Hz.
  - destruct Hy as [->|Hy]; [congruence|].
    destruct IH as [u [w [v [-> [Hw E]]]]]; [eauto|].
    exists (z :: u), w, v. rewrite E. auto.
  - exists [], z, t. auto.
Qed.

Lemma ins_ring_ok isset (nx : N -> N -> Prop) r x :
  NoDup r -> ~ In x r ->
  (r = [] \/ exists y, In y r /\ isset y = false) ->
  (forall y p, nx y p -> isset y = true /\ cyc r y p) ->
  exists r', ins_ring isset r x = Some r' /\ NoDup r' /\ (forall y, In y r' <-> y = x \/ In y r) /\
             (forall y p, nx y p -> cyc r' y p).
Proof.
  intros Hnd Hx Hroom Hnx. destruct r as [|z t].
  - exists [x]. cbn. repeat split.
    + constructor; [intros []|constructor].
    + intros [->|[]]; auto.
    + intros [->|[]]; auto.
    + intros y p H. apply Hnx in H. destruct H as [_ H]. apply cyc_In_l in H. destruct H.
  - destruct Hroom as [H|Hroom]; [discriminate|].
    destruct (ins_after_ok isset (z :: t) x Hroom) as [u [y [v [Hr [Hy E]]]]].
    exists (u ++ y :: x :: v). split; [exact E|]. rewrite Hr in *. split; [|split].
    + change (y :: x :: v) with ([y] ++ x :: v). rewrite app_assoc.
      eapply Permutation_NoDup; [apply Permutation_middle|].
      constructor; rewrite <- app_assoc; cbn; assumption.
    + intros w. rewrite !in_app_iff. cbn. rewrite in_app_iff in *. intuition congruence.
    + intros w p H. destruct (Hnx w p H) as [Hs Hc]. apply cyc_insert; [exact Hc|].
      intros ->. congruence.
Qed.

(** ** The invariant of a mesh under construction *)
Section BUILD.
Context {O : Ops} {D : Type}.
Notation mesh := (mesh O D).
Implicit Types (m : mesh) (T : list tri).

Definition poly (t : tri) : option cell := Some (Poly (tverts t)).

Record binv m T (R : N -> N -> Prop) (C : list (N * N * N)) : Prop := {
  i_cells : cells_list m = idx (map poly T);
  i_some : T <> [] -> cells m = Some (cells_list m);
  i_rsorted : sorted_keys (rings m);
  i_nodup : forall b, NoDup (ring m b);
  i_ring : forall b x, In x (ring m b) <-> R b x;
  i_cor : forall p b n, In (p, b, n) C -> cyc (ring m b) n p;
  i_ecells : exists L, ecells m = Some (idx (map Some L)) /\ NoDup L /\
     (forall e, In e L -> R (fst e) (snd e)) /\
     (forall a b, R a b -> exists e, In e L /\ undirected_eq e (a, b)) /\
     (forall e f, In e L -> In f L -> undirected_eq e f -> e = f)
}.
Definition built m T : Prop := binv m T (nbr T) (corners T).

Lemma binv_ext m T R R' C C' :
  binv m T R C -> (forall a b, R a b <-> R' a b) -> (forall c, In c C' -> In c C) -> binv m T R' C'.
Proof.
  intros [H1 H2 H3 H4 H5 H6 [L [HL [Hnd [Ha [Hb Hc]]]]]] HR HC. constructor; auto.
  - intros b x. rewrite H5. apply HR.
  - exists L. split; [exact HL|]. split; [exact Hnd|]. split; [|split].
    + intros e He. apply HR. auto.
    + intros a b Hab. apply Hb. apply HR. exact Hab.
    + exact Hc.
Qed.

Lemma built_empty P : built (set_pts empty_mesh P) [].
Proof.
  constructor; cbn.
  - reflexivity.
  - congruence.
  - constructor.
  - intros b. constructor.
  - intros b x. unfold nbr. cbn. tauto.
  - intros p b n [].
  - exists []. repeat split; auto.
    + constructor.
    + intros e [].
    + intros a b H. destruct H as [[]|[]].
    + intros e f [].
Qed.

(** ** left faces *)
Lemma cell_has_dir_poly e t : cell_has_dir e (poly t) = true <-> In e (tdirs t).
Proof. destruct t as [[a b] c]. unfold poly, cell_has_dir. cbn [tverts]. apply mem_dedge_In. Qed.

Lemma left_in_idx k e T i :
  left_in e (idx_from k (map poly T)) = Some i ->
  k <= i /\ exists t, nth_error T (N.to_nat (i - k)) = Some t /\ In e (tdirs t).
Proof.
  revert k. induction T as [|t T IH]; intros k; [discriminate|].
  cbn [map]. rewrite idx_from_cons. cbn [left_in].
  destruct (cell_has_dir e (poly t)) eqn:H.
  - intros E. inv E. rewrite N.sub_diag. split; [lia|]. exists t. split; [reflexivity|].
    apply cell_has_dir_poly. exact H.
  - intros E. destruct (IH _ E) as [Hk [u [Hu He]]]. split; [lia|]. exists u.
    replace (N.to_nat (i - k)) with (S (N.to_nat (i - (k + 1)))) by lia. auto.
Qed.
Lemma left_in_idx_None k e T :
  left_in e (idx_from k (map poly T)) = None -> ~ In e (dirs T).
Proof.
  revert k. induction T as [|t T IH]; intros k; [auto|].
  cbn [map]. rewrite idx_from_cons. cbn [left_in].
  destruct (cell_has_dir e (poly t)) eqn:H; [discriminate|].
  intros E. change (dirs (t :: T)) with (tdirs t ++ dirs T). rewrite in_app_iff. intros [Hin|Hin].
  - apply cell_has_dir_poly in Hin. congruence.
  - eapply IH; eauto.
Qed.

Lemma left_set_dirs m T e : cells_list m = idx (map poly T) -> left_set m e = true <-> In e (dirs T).
Proof.
  intros Hc. unfold left_set, left. rewrite Hc. unfold idx.
  destruct (left_in e (idx_from 0 (map poly T))) as [i|] eqn:E.
  - apply left_in_idx in E. destruct E as [_ [t [Ht He]]]. split; [|auto]. intros _.
    apply in_flat_map. exists t. split; [eapply nth_error_In; eauto|exact He].
  - apply left_in_idx_None in E. split; [discriminate|contradiction].
Qed.
Lemma left_set_false m T e : cells_list m = idx (map poly T) -> left_set m e = false <-> ~ In e (dirs T).
Proof.
  intros Hc. rewrite <- (left_set_dirs m T e Hc). destruct (left_set m e); split; congruence.
Qed.

(** The last triangle is the left face of its edges. *)
Lemma NoDup_dirs_index T i j t u e :
  NoDup (dirs T) -> nth_error T i = Some t -> nth_error T j = Some u ->
  In e (tdirs t) -> In e (tdirs u) -> i = j.
Proof.
  revert i j. induction T as [|v T IH]; intros i j Hnd Hi Hj Ht Hu.
  - destruct i; discriminate.
  - change (dirs (v :: T)) with (tdirs v ++ dirs T) in Hnd.
    destruct i as [|i], j as [|j]; cbn in Hi, Hj.
    + reflexivity.
    + exfalso. inv Hi. apply (NoDup_app_disj _ _ e Hnd Ht). apply in_flat_map.
      exists u. split; [eapply nth_error_In; eauto|exact Hu].
    + exfalso. inv Hj. apply (NoDup_app_disj _ _ e Hnd Hu). apply in_flat_map.
      exists t. split; [eapply nth_error_In; eauto|exact Ht].
    + f_equal. eapply IH; eauto. eapply NoDup_app_r; eauto.
Qed.

Lemma get_left_nth m T i t e :
  cells_list m = idx (map poly T) -> NoDup (dirs T) -> nth_error T i = Some t -> In e (tdirs t) ->
  get_left m e = N.of_nat i.
Proof.
  intros Hc Hnd Ht He. unfold get_left, left. rewrite Hc. unfold idx.
  destruct (left_in e (idx_from 0 (map poly T))) as [j|] eqn:E.
  - apply left_in_idx in E. destruct E as [_ [u [Hu Hue]]]. rewrite N.sub_0_r in Hu.
    assert (i = N.to_nat j) by (eapply NoDup_dirs_index; eauto). lia.
  - exfalso. apply left_in_idx_None in E. apply E. apply in_flat_map. exists t.
    split; [eapply nth_error_In; eauto|exact He].
Qed.

(** ** Steps *)
Lemma ring_set_ring m b r x : ring (set_ring m b r) x = if N.eqb b x then r else ring m x.
Proof.
  unfold ring, set_ring. cbn. rewrite oget_oset. destruct (N.eqb b x); reflexivity.
Qed.

(** The ring of [a] has room for a further neighbour. *)
Definition room m T (a : N) : Prop :=
  ring m a = [] \/ exists y, In y (ring m a) /\ ~ In (a, y) (dirs T).

Lemma add_edge_ok m T R a b :
  binv m T R (corners T) -> NoDup (dirs T) -> (forall x y, R x y -> R y x) ->
  a <> b -> ~ R a b -> room m T a -> room m T b ->
  exists m', add_edge m a b = Some m' /\ pts m' = pts m /\ cdata m' = cdata m /\ cells m' = cells m /\
    binv m' T (fun x y => R x y \/ (x = a /\ y = b) \/ (x = b /\ y = a)) (corners T) /\
    (forall x, x <> a -> x <> b -> ring m' x = ring m x).
Proof.
  intros Hb HndT HRs Hne HnR Hra Hrb.
  pose proof (i_cells _ _ _ _ Hb) as Hcl.
  assert (Hbasic : forall v w, room m T v -> ~ In w (ring m v) ->
    exists r', ins_ring (fun x => left_set m (v, x)) (ring m v) w = Some r' /\ NoDup r' /\
      (forall y, In y r' <-> y = w \/ In y (ring m v)) /\
      (forall y p, In (p, v, y) (corners T) -> cyc r' y p)).
  { intros v w Hroom Hw. apply (ins_ring_ok _ (fun y p => In (p, v, y) (corners T))).
    - apply (i_nodup _ _ _ _ Hb).
    - exact Hw.
    - destruct Hroom as [H|[y [Hy Hny]]]; [auto|]. right. exists y. split; [exact Hy|].
      apply (left_set_false _ _ _ Hcl). exact Hny.
    - intros y p Hp. split.
      + apply (left_set_dirs _ _ _ Hcl). eapply corner_dir; eauto.
      + apply (i_cor _ _ _ _ Hb). exact Hp. }
  destruct (Hbasic a b Hra) as [ra [Ea [Hnda [Hina Hca]]]].
  { rewrite (i_ring _ _ _ _ Hb). exact HnR. }
  destruct (Hbasic b a Hrb) as [rb [Eb [Hndb [Hinb Hcb]]]].
  { rewrite (i_ring _ _ _ _ Hb). intros H. apply HnR. apply HRs. exact H. }
  unfold add_edge. rewrite Ea, Eb. eexists. split; [reflexivity|].
  assert (Hring : forall x, ring (push_ecell (set_ring (set_ring m a ra) b rb) (a, b)) x =
                            if N.eqb b x then rb else if N.eqb a x then ra else ring m x).
  { intros x. change (ring (push_ecell (set_ring (set_ring m a ra) b rb) (a, b)) x)
      with (ring (set_ring (set_ring m a ra) b rb) x).
    rewrite !ring_set_ring. reflexivity. }
  split; [reflexivity|]. split; [reflexivity|]. split; [reflexivity|]. split.
  2:{ intros x Hxa Hxb. rewrite Hring. destruct (N.eqb_spec b x); [congruence|].
      destruct (N.eqb_spec a x); [congruence|reflexivity]. }
  destruct Hb as [H1 H2 H3 H4 H5 H6 [L [HL [HndL [HLa [HLb HLc]]]]]].
  constructor.
  - exact H1.
  - exact H2.
  - cbn. apply oset_sorted. apply oset_sorted. exact H3.
  - intros x. rewrite Hring. destruct (N.eqb b x); [exact Hndb|]. destruct (N.eqb a x); [exact Hnda|apply H4].
  - intros x y. rewrite Hring. destruct (N.eqb_spec b x).
    + subst x. rewrite Hinb, H5. intuition congruence.
    + destruct (N.eqb_spec a x).
      * subst x. rewrite Hina, H5. intuition congruence.
      * rewrite H5. intuition congruence.
  - intros p x n Hc. rewrite Hring. destruct (N.eqb_spec b x).
    + subst x. apply Hcb. exact Hc.
    + destruct (N.eqb_spec a x); [subst x; apply Hca; exact Hc|]. apply H6. exact Hc.
  - exists (L ++ [(a, b)]). split; [|split; [|split; [|split]]].
    + unfold push_ecell. cbn. rewrite HL. rewrite map_app. cbn [map]. rewrite oset_idx. reflexivity.
    + apply NoDup_app_intro; [exact HndL| |].
      * constructor; [intros []|constructor].
      * intros e He [<-|[]]. apply HnR. apply (HLa _ He).
    + intros e He. apply in_app_or in He. destruct He as [He|[<-|[]]]; [left; apply HLa; exact He|].
      right. left. auto.
    + intros x y [HR|[[-> ->]|[-> ->]]].
      * destruct (HLb x y HR) as [e [He Hu]]. exists e. split; [apply in_or_app; auto|exact Hu].
      * exists (a, b). split; [apply in_or_app; cbn; auto|left; reflexivity].
      * exists (a, b). split; [apply in_or_app; cbn; auto|right; reflexivity].
    + assert (Habs : forall f, In f L -> undirected_eq (a, b) f -> False).
      { intros f Hf [E|E].
        - subst f. apply HnR. apply (HLa _ Hf).
        - destruct f as [u v]. cbn in E. inv E. apply HnR. apply HRs. apply (HLa _ Hf). }
      intros e f He Hf Hu. apply in_app_or in He. apply in_app_or in Hf.
      destruct He as [He|[<-|[]]], Hf as [Hf|[<-|[]]]; [apply HLc; auto| | |reflexivity].
      * exfalso. apply (Habs e He). destruct Hu as [->|Hu]; [left; reflexivity|].
        right. rewrite Hu. reflexivity.
      * exfalso. apply (Habs f Hf). exact Hu.
Qed.

(** A ring without room would be a closed umbrella that misses the new neighbour. *)
Lemma room_of_umbrella m T U R a b :
  binv m T R (corners T) ->
  (forall x, R a x -> nbr (T ++ U) a x) ->
  umbrella (T ++ U) a -> nbr (T ++ U) a b -> ~ R a b -> room m T a.
Proof.
  intros Hb HR Hum Hab HnR. unfold room. destruct (ring m a) as [|z r] eqn:Hr; [auto|]. right.
  destruct (existsb (fun y => negb (mem_dedge (a, y) (dirs T))) (z :: r)) eqn:E.
  - apply existsb_exists in E. destruct E as [y [Hy Hn]]. exists y. split; [exact Hy|].
    apply negb_true_iff in Hn. intros Hin. apply mem_dedge_In in Hin. congruence.
  - exfalso. apply HnR. apply (i_ring _ _ _ _ Hb). rewrite Hr.
    assert (Hset : forall y, In y (z :: r) -> In (a, y) (dirs T)).
    { intros y Hy. destruct (mem_dedge (a, y) (dirs T)) eqn:Em; [apply mem_dedge_In; exact Em|].
      assert (existsb (fun y => negb (mem_dedge (a, y) (dirs T))) (z :: r) = true); [|congruence].
      apply existsb_exists. exists y. split; [exact Hy|]. rewrite Em. reflexivity. }
    apply (Hum (z :: r)).
    + discriminate.
    + intros x Hx. apply HR. apply (i_ring _ _ _ _ Hb). rewrite Hr. exact Hx.
    + intros x Hx. destruct (dir_corner _ _ _ (Hset x Hx)) as [p Hp]. exists p. split.
      * pose proof (i_cor _ _ _ _ Hb _ _ _ Hp) as Hc. apply cyc_In_r in Hc. rewrite Hr in Hc. exact Hc.
      * rewrite corners_app. apply in_or_app. auto.
    + exact Hab.
Qed.

Lemma R_dec m T R C a b : binv m T R C -> R a b \/ ~ R a b.
Proof.
  intros Hb. rewrite <- (i_ring _ _ _ _ Hb). destruct (in_dec N.eq_dec b (ring m a)); auto.
Qed.

(** Adding the missing edges of a list of oriented edges. *)
Lemma add_missing_ok U T l : forall m R,
  binv m T R (corners T) -> NoDup (dirs T) ->
  (forall x y, R x y -> R y x) -> (forall x y, R x y -> nbr (T ++ U) x y) ->
  (forall b, umbrella (T ++ U) b) ->
  (forall a b, In (a, b) l -> a <> b /\ nbr (T ++ U) a b) ->
  exists m', add_missing_edges m l = (m', true) /\ pts m' = pts m /\ cdata m' = cdata m /\ cells m' = cells m /\
    binv m' T (fun x y => R x y \/ In (x, y) l \/ In (y, x) l) (corners T).
Proof.
  induction l as [|[a b] l IH]; intros m R Hb Hnd HRs HRn Hum Hl.
  - exists m. cbn [add_missing_edges]. do 4 (split; [reflexivity|]). eapply binv_ext; [exact Hb| |auto]. cbn. tauto.
  - destruct (Hl a b) as [Hne Hnb]; [cbn; auto|]. cbn [add_missing_edges]. unfold find_edge.
    destruct (R_dec _ _ _ _ a b Hb) as [HR|HR].
    + assert (memN b (ring m a) = true) as ->.
      { apply memN_In. apply (i_ring _ _ _ _ Hb). exact HR. }
      destruct (IH m R Hb Hnd HRs HRn Hum) as [m' [E [Hp [Hd [Hc Hb']]]]].
      { intros x y Hxy. apply Hl. cbn. auto. }
      exists m'. split; [exact E|]. do 3 (split; [assumption|]). eapply binv_ext; [exact Hb'| |auto].
      intros x y. cbn. split; [tauto|]. intros [H|[[H|H]|[H|H]]]; auto.
      * inv H. auto.
      * inv H. auto.
    + assert (memN b (ring m a) = false) as ->.
      { apply memN_nIn. rewrite (i_ring _ _ _ _ Hb). exact HR. }
      destruct (add_edge_ok m T R a b Hb Hnd HRs Hne HR) as [m1 [E1 [Hp1 [Hd1 [Hc1 [Hb1 _]]]]]].
      { eapply room_of_umbrella; eauto. }
      { apply (room_of_umbrella m T U R b a Hb); auto. apply nbr_sym. exact Hnb. }
      rewrite E1.
      destruct (IH m1 _ Hb1 Hnd) as [m' [E [Hp [Hd [Hc Hb']]]]].
      * intros x y [H|[[-> ->]|[-> ->]]]; [left; auto|right; right; auto|right; left; auto].
      * intros x y [H|[[-> ->]|[-> ->]]]; [auto|exact Hnb|apply nbr_sym; exact Hnb].
      * exact Hum.
      * intros x y Hxy. apply Hl. cbn. auto.
      * exists m'. split; [exact E|]. split; [congruence|]. split; [congruence|]. split; [congruence|].
        eapply binv_ext; [exact Hb'| |auto].
        intros x y. cbn. split.
        -- intros [[H|[[-> ->]|[-> ->]]]|[H|H]]; auto.
        -- intros [H|[[H|H]|[H|H]]]; auto.
           ++ inv H. auto.
           ++ inv H. auto.
Qed.

(** Linking one corner. *)
Lemma link_ok m T R C a b c :
  binv m T R C ->
  (forall p n, In (p, b, n) C <-> In (p, b, n) (corners T)) ->
  R b a -> R b c -> a <> c ->
  ~ In (b, c) (dirs T) -> ~ In (a, b) (dirs T) ->
  (forall S, S <> [] -> (forall x, In x S -> R b x) ->
     (forall x, In x S -> exists p, In p S /\ (In (p, b, x) (corners T) \/ (p = a /\ x = c))) ->
     forall y, R b y -> In y S) ->
  exists r, link_ring (fun x => left_set m (b, x)) (ring m b) c a = Some r /\
    binv (set_ring m b r) T R (C ++ [(a, b, c)]).
Proof.
  intros Hb HC Ha Hc Hne Hbc Hab Hclose.
  pose proof (i_cells _ _ _ _ Hb) as Hcl.
  destruct (link_ring_ok (fun x => left_set m (b, x)) (fun x p => In (p, b, x) (corners T)) (ring m b) c a)
    as [r [E [Hperm [Hca Hcor]]]].
  - apply (i_nodup _ _ _ _ Hb).
  - apply (i_ring _ _ _ _ Hb). exact Ha.
  - apply (i_ring _ _ _ _ Hb). exact Hc.
  - exact Hne.
  - intros x Hx. apply (left_set_dirs _ _ _ Hcl) in Hx. apply dir_corner. exact Hx.
  - intros x p Hp. split.
    + apply (left_set_dirs _ _ _ Hcl). eapply corner_dir; eauto.
    + apply (i_cor _ _ _ _ Hb). apply HC. exact Hp.
  - apply (left_set_false _ _ _ Hcl). exact Hbc.
  - intros x Hx. apply Hab. eapply corner_dir_in; eauto.
  - intros S HcS Hsub Hcl' y Hy. apply Hclose.
    + intros ->. destruct HcS.
    + intros x Hx. apply (i_ring _ _ _ _ Hb). auto.
    + intros x Hx. destruct (Hcl' x Hx) as [[-> HaS]|[p [Hp Hpc]]].
      * exists a. auto.
      * exists p. auto.
    + apply (i_ring _ _ _ _ Hb). exact Hy.
  - exists r. split; [exact E|].
    destruct Hb as [H1 H2 H3 H4 H5 H6 H7]. constructor; auto.
    + cbn. apply oset_sorted. exact H3.
    + intros x. rewrite ring_set_ring. destruct (N.eqb_spec b x); [|apply H4].
      eapply Permutation_NoDup; [exact Hperm|apply H4].
    + intros x y. rewrite ring_set_ring. destruct (N.eqb_spec b x); [|apply H5]. subst x.
      rewrite <- H5. split; apply Permutation_in; [symmetry|]; exact Hperm.
    + intros p x n Hin. rewrite ring_set_ring. apply in_app_or in Hin.
      destruct (N.eqb_spec b x).
      * subst x. destruct Hin as [Hin|[Hin|[]]].
        -- apply Hcor. apply HC. exact Hin.
        -- inv Hin. exact Hca.
      * destruct Hin as [Hin|[Hin|[]]]; [apply H6; exact Hin|]. inv Hin. congruence.
Qed.

Lemma set_ring_fields m b r :
  pts (set_ring m b r) = pts m /\ cdata (set_ring m b r) = cdata m /\ cells (set_ring m b r) = cells m.
Proof. repeat split. Qed.

Lemma push_cell_ok m T R C t :
  binv m T R C -> binv (push_cell m (Poly (tverts t))) (T ++ [t]) R C.
Proof.
  intros [H1 H2 H3 H4 H5 H6 H7].
  assert (Hcl : cells_list (push_cell m (Poly (tverts t))) = idx (map poly (T ++ [t]))).
  { unfold push_cell, cells_list at 1. cbn. rewrite H1, map_app. apply oset_idx. }
  constructor; auto.
Qed.

(** One triangle. *)
Lemma add_face_ok m T t U (P : N -> Prop) :
  built m T -> good P (T ++ t :: U) ->
  (forall x, In x (tverts t) -> oget x (pts m) <> None) ->
  exists m', add_face m (tverts t) = (m', hd_error (tdirs t)) /\
    pts m' = pts m /\ cdata m' = cdata m /\ built m' (T ++ [t]).
Proof.
  intros Hb Hg Hpts. destruct t as [[a b] c]. cbn [tverts tdirs hd_error].
  assert (Hg1 : good P (T ++ [(a, b, c)])).
  { apply (good_prefix P _ U). rewrite <- app_assoc. exact Hg. }
  clear Hg. destruct Hg1 as [Hprop _ Hnd Hum].
  assert (Hp : proper (a, b, c)) by (apply Hprop; apply in_or_app; cbn; auto).
  destruct Hp as [Hab [Hbc Hca]].
  rewrite dirs_app, dirs_one in Hnd.
  assert (HndT : NoDup (dirs T)) by (eapply NoDup_app_l; eauto).
  assert (Hnew : forall e, In e (tdirs (a, b, c)) -> ~ In e (dirs T)).
  { intros e He HT. eapply NoDup_app_disj; eauto. }
  pose proof (i_cells _ _ _ _ Hb) as Hcl.
  unfold add_face.
  assert (nodupb [a; b; c] = true) as ->.
  { apply nodupb_NoDup. repeat constructor; cbn; intuition congruence. }
  assert (forallb (fun p => omem p (pts m)) [a; b; c] = true) as ->.
  { apply forallb_forall. intros x Hx. unfold omem. specialize (Hpts x Hx).
    destruct (oget x (pts m)); congruence. }
  cbn [negb].
  assert (existsb (left_set m) (poly_dirs [a; b; c]) = false) as ->.
  { destruct (existsb (left_set m) (poly_dirs [a; b; c])) eqn:E; [|reflexivity].
    apply existsb_exists in E. destruct E as [e [He Hl]]. exfalso.
    apply (left_set_dirs _ _ _ Hcl) in Hl. eapply Hnew; [|exact Hl]. exact He. }
  change (poly_dirs [a; b; c]) with [(a, b); (b, c); (c, a)].
  assert (HnT : forall x y, In (x, y) [(a, b); (b, c); (c, a)] -> nbr (T ++ [(a, b, c)]) x y).
  { intros x y Hxy. apply nbr_app. right. left. rewrite dirs_one. exact Hxy. }
  destruct (add_missing_ok [(a, b, c)] T [(a, b); (b, c); (c, a)] m (nbr T) Hb HndT)
    as [m1 [E1 [Hp1 [Hd1 [Hc1 Hb1]]]]].
  { apply nbr_sym. }
  { intros x y H. apply nbr_app. auto. }
  { exact Hum. }
  { intros x y Hxy. split; [|apply HnT; exact Hxy].
    cbn in Hxy. destruct Hxy as [H|[H|[H|[]]]]; inv H; auto. }
  rewrite E1.
  set (R := nbr (T ++ [(a, b, c)])).
  assert (HbR : binv m1 T R (corners T)).
  { eapply binv_ext; [exact Hb1| |auto]. intros x y. unfold R. rewrite nbr_app.
    assert (E : nbr [(a, b, c)] x y <-> In (x, y) [(a, b); (b, c); (c, a)] \/ In (y, x) [(a, b); (b, c); (c, a)])
      by (unfold nbr; rewrite dirs_one; reflexivity).
    rewrite E. tauto. }
  clear Hb1.
  assert (Hclose : forall v p n, In (p, v, n) (tcorners (a, b, c)) ->
     forall S, S <> [] -> (forall x, In x S -> R v x) ->
     (forall x, In x S -> exists q, In q S /\ (In (q, v, x) (corners T) \/ (q = p /\ x = n))) ->
     forall y, R v y -> In y S).
  { intros v p n Hin S HS Hsub HclS. apply (Hum v S HS Hsub).
    intros x Hx. destruct (HclS x Hx) as [q [Hq [H|[-> ->]]]]; exists q + exists p; (split; [assumption|]);
      rewrite corners_app, corners_one; apply in_or_app; auto. }
  change (poly_corners [a; b; c]) with [(a, b, c); (b, c, a); (c, a, b)].
  assert (HRin : forall x y, In (x, y) [(a, b); (b, c); (c, a)] -> R x y /\ R y x).
  { intros x y H. split; [apply HnT; exact H|apply nbr_sym; apply HnT; exact H]. }
  destruct (HRin a b) as [Rab Rba]; [cbn; auto|].
  destruct (HRin b c) as [Rbc Rcb]; [cbn; auto|].
  destruct (HRin c a) as [Rca Rac]; [cbn; auto|].
  assert (Nab : ~ In (a, b) (dirs T)) by (apply Hnew; cbn; auto).
  assert (Nbc : ~ In (b, c) (dirs T)) by (apply Hnew; cbn; auto).
  assert (Nca : ~ In (c, a) (dirs T)) by (apply Hnew; cbn; auto).
  cbn [link_corners].
  (* corner at b *)
  destruct (link_ok m1 T R (corners T) a b c HbR) as [r1 [L1 B1]]; auto.
  { intros p n. tauto. }
  { apply (Hclose b a c). cbn; auto. }
  rewrite L1.
  (* corner at c *)
  destruct (link_ok (set_ring m1 b r1) T R (corners T ++ [(a, b, c)]) b c a B1) as [r2 [L2 B2]]; auto.
  { intros p n. rewrite in_app_iff. cbn. intuition congruence. }
  { apply (Hclose c b a). cbn; auto. }
  rewrite L2.
  (* corner at a *)
  destruct (link_ok (set_ring (set_ring m1 b r1) c r2) T R ((corners T ++ [(a, b, c)]) ++ [(b, c, a)]) c a b B2)
    as [r3 [L3 B3]]; auto.
  { intros p n. rewrite !in_app_iff. cbn. intuition congruence. }
  { apply (Hclose a c b). cbn; auto. }
  rewrite L3.
  eexists. split; [reflexivity|]. split; [cbn; exact Hp1|]. split; [cbn; exact Hd1|].
  apply (push_cell_ok _ _ _ _ (a, b, c)) in B3.
  eapply binv_ext; [exact B3| |].
  - intros x y. unfold R. tauto.
  - intros q. rewrite corners_app, corners_one, !in_app_iff. cbn. tauto.
Qed.

(** A list of triangles. *)
Definition add_tris (m : mesh) (U : list tri) : mesh :=
  fold_left (fun m t => fst (add_face m (tverts t))) U m.

Lemma add_tris_ok U : forall m T (P : N -> Prop),
  built m T -> good P (T ++ U) -> (forall x, P x -> oget x (pts m) <> None) ->
  built (add_tris m U) (T ++ U) /\ pts (add_tris m U) = pts m /\ cdata (add_tris m U) = cdata m.
Proof.
  induction U as [|t U IH]; intros m T P Hb Hg HP.
  - cbn. rewrite app_nil_r. auto.
  - destruct (add_face_ok m T t U P Hb Hg) as [m1 [E [Hp [Hd Hb1]]]].
    { intros x Hx. apply HP. apply (g_verts _ _ Hg t); [apply in_or_app; cbn; auto|exact Hx]. }
    cbn. rewrite E. cbn.
    destruct (IH m1 (T ++ [t]) P Hb1) as [H1 [H2 H3]].
    + rewrite <- app_assoc. exact Hg.
    + intros x Hx. rewrite Hp. auto.
    + unfold add_tris in *. rewrite <- app_assoc in H1. split; [exact H1|]. split; congruence.
Qed.
End BUILD.
