(** * Split: combinatorics of the face split.

    The triangles of the output are [split_triangle] applied to every input
    triangle with the points inserted on its edges.  Proper, orientable and
    umbrella-shaped inputs give outputs with the same properties. *)
From Coq Require Import Permutation.
From Verif Require Import Base Mesh Filters Spec Lists AddFace SplitTri.

(** ** All triangles *)
Section SPLIT.
Variable T : list tri.
Variable Sp : N -> N -> option N.     (* the point inserted on edge {a, b} *)
Variable old : N -> Prop.             (* the ids of the input points *)

Definition split_tri (t : tri) : list tri :=
  let '(a, b, c) := t in split_triangle a b c (Sp a b) (Sp b c) (Sp c a).
Definition split_tris : list tri := flat_map split_tri T.

Record splitting : Prop := {
  s_sym : forall a b, Sp a b = Sp b a;
  s_inj : forall a b c d m, Sp a b = Some m -> Sp c d = Some m -> (a = c /\ b = d) \/ (a = d /\ b = c);
  s_fresh : forall a b m, Sp a b = Some m -> ~ old m;
  s_old : forall t x, In t T -> In x (tverts t) -> old x;
  s_proper : forall t, In t T -> proper t;
  s_dirs : NoDup (dirs T);
  s_notwin : forall t u, In t T -> In u T -> same_verts t u -> t = u;
  s_umb : forall b, umbrella T b
}.

Hypothesis HS : splitting.

(** The point on the way from b to x. *)
Definition toward (b x : N) : N := odef (Sp b x) x.

Lemma six_nodup a b c : In (a, b, c) T -> NoDup (six a b c (Sp a b) (Sp b c) (Sp c a)).
Proof.
  intros Hin. destruct (s_proper HS _ Hin) as [Hab [Hbc Hca]].
  assert (Ho : forall x, In x [a; b; c] -> old x) by (intros x Hx; apply (s_old HS _ _ Hin Hx)).
  assert (Ha : old a) by (apply Ho; cbn; auto). assert (Hb : old b) by (apply Ho; cbn; auto).
  assert (Hc : old c) by (apply Ho; cbn; auto).
  assert (Hf : forall x y m, Sp x y = Some m -> m <> a /\ m <> b /\ m <> c).
  { intros x y m Hm. pose proof (s_fresh HS _ _ _ Hm) as H. repeat split; intros ->; contradiction. }
  unfold six.
  destruct (Sp a b) as [x0|] eqn:E0, (Sp b c) as [x1|] eqn:E1, (Sp c a) as [x2|] eqn:E2; cbn [olist app];
  repeat match goal with
  | E : Sp _ _ = Some _ |- _ => let H := fresh in pose proof (Hf _ _ _ E) as H; destruct H as [? [? ?]]; revert E
  end; intros;
  repeat match goal with
  | E : Sp ?a ?b = Some ?x, F : Sp ?c ?d = Some ?y |- _ =>
      lazymatch goal with
      | H : x <> y |- _ => fail
      | H : y <> x |- _ => fail
      | _ => assert (x <> y) by
        (intros ->; destruct (s_inj HS _ _ _ _ _ E F) as [[? ?]|[? ?]]; congruence)
      end
  end;
  repeat (apply NoDup_cons; [cbn [In]; intuition congruence|]); apply NoDup_nil.
Qed.

Lemma split_tris_In u : In u split_tris <-> exists t, In t T /\ In u (split_tri t).
Proof. unfold split_tris. apply in_flat_map. Qed.

Lemma dirs_split_In d : In d (dirs split_tris) <-> exists t, In t T /\ In d (dirs (split_tri t)).
Proof.
  unfold dirs. rewrite in_flat_map. split.
  - intros [u [Hu Hd]]. apply split_tris_In in Hu. destruct Hu as [t [Ht Hu]]. exists t. split; [exact Ht|].
    apply in_flat_map. eauto.
  - intros [t [Ht Hd]]. apply in_flat_map in Hd. destruct Hd as [u [Hu Hd]]. exists u. split; [|exact Hd].
    apply split_tris_In. eauto.
Qed.
Lemma corners_split_In d : In d (corners split_tris) <-> exists t, In t T /\ In d (corners (split_tri t)).
Proof.
  unfold corners. rewrite in_flat_map. split.
  - intros [u [Hu Hd]]. apply split_tris_In in Hu. destruct Hu as [t [Ht Hu]]. exists t. split; [exact Ht|].
    apply in_flat_map. eauto.
  - intros [t [Ht Hd]]. apply in_flat_map in Hd. destruct Hd as [u [Hu Hd]]. exists u. split; [|exact Hd].
    apply split_tris_In. eauto.
Qed.

(** Support of an output point: itself, or the ends of its edge. *)
Definition supp (v x : N) : Prop := v = x \/ exists y, Sp x y = Some v.

Definition outer_t (t : tri) : list (N * N) :=
  let '(a, b, c) := t in outer_edges a b c (Sp a b) (Sp b c) (Sp c a).
Definition inner_t (t : tri) : list (N * N) :=
  let '(a, b, c) := t in inner_edges a b c (Sp a b) (Sp b c) (Sp c a).

Lemma dirs_split_tri t d : In d (dirs (split_tri t)) <-> In d (outer_t t) \/ In d (inner_t t).
Proof. destruct t as [[a b] c]. apply split_dirs. Qed.

Lemma outer_t_In t d : In d (outer_t t) <-> exists a b, In (a, b) (tdirs t) /\ In d (halves a b (Sp a b)).
Proof.
  destruct t as [[a b] c]. unfold outer_t, outer_edges. rewrite !in_app_iff. cbn [tdirs In]. split.
  - intros [H|[H|H]]; [exists a, b|exists b, c|exists c, a]; auto.
  - intros [x [y [[E|[E|[E|[]]]] H]]]; inv E; auto.
Qed.

Lemma inner_t_sym t x y : In (x, y) (inner_t t) -> In (y, x) (inner_t t).
Proof. destruct t as [[a b] c]. apply inner_sym. Qed.

(** The vertices supporting the ends of an inner edge are those of the triangle. *)
Lemma supp_old v x : old v -> supp v x -> v = x.
Proof. intros Ho [H|[y H]]; [exact H|]. exfalso. exact (s_fresh HS _ _ _ H Ho). Qed.
Lemma supp_mid v a b x : Sp a b = Some v -> supp v x -> old x -> x = a \/ x = b.
Proof.
  intros Hv [->|[y H]] Ho; [exfalso; exact (s_fresh HS _ _ _ Hv Ho)|].
  destruct (s_inj HS _ _ _ _ _ Hv H) as [[-> _]|[_ ->]]; auto.
Qed.
Lemma supp_mid_l v a b : Sp a b = Some v -> supp v a.
Proof. intros H. right. exists b. exact H. Qed.
Lemma supp_mid_r v a b : Sp a b = Some v -> supp v b.
Proof. intros H. right. exists a. rewrite (s_sym HS). exact H. Qed.

Lemma inner_supp t x y : In t T -> In (x, y) (inner_t t) ->
  forall v, old v -> (supp x v \/ supp y v <-> In v (tverts t)).
Proof.
  destruct t as [[a b] c]. intros Ht Hin v Hv.
  assert (Ho : forall x, In x [a; b; c] -> old x) by (intros z Hz; apply (s_old HS _ _ Ht Hz)).
  assert (Ha : old a) by (apply Ho; cbn; auto). assert (Hb : old b) by (apply Ho; cbn; auto).
  assert (Hc : old c) by (apply Ho; cbn; auto). clear Ho.
  cbn [tverts In].
  assert (K0 : forall m p q, Sp p q = Some m -> (supp m v <-> v = p \/ v = q)).
  { intros m p q Hm. split.
    - intros Hsup. apply (supp_mid _ _ _ _ Hm Hsup Hv).
    - intros [->| ->]; [eapply supp_mid_l|eapply supp_mid_r]; eauto. }
  assert (K1 : forall m, old m -> (supp m v <-> v = m)).
  { intros m Hm. split; [intros Hs; symmetry; apply supp_old; auto|intros ->; left; reflexivity]. }
  cbn in Hin.
  destruct (Sp a b) as [x0|] eqn:E0, (Sp b c) as [x1|] eqn:E1, (Sp c a) as [x2|] eqn:E2; cbn in Hin; in_cases Hin;
  inversion Hin; subst;
  repeat match goal with
  | E : Sp ?p ?q = Some ?m |- context[supp ?m v] => rewrite (K0 m p q E)
  | H : old ?m |- context[supp ?m v] => rewrite (K1 m H)
  end; intuition congruence.
Qed.

Lemma halves_supp a b x y v : old a -> old b -> old v -> In (x, y) (halves a b (Sp a b)) ->
  (supp x v \/ supp y v <-> v = a \/ v = b).
Proof.
  intros Ha Hb Hv Hin.
  assert (K0 : forall m p q, Sp p q = Some m -> (supp m v <-> v = p \/ v = q)).
  { intros m p q Hm. split.
    - intros Hsup. apply (supp_mid _ _ _ _ Hm Hsup Hv).
    - intros [->| ->]; [eapply supp_mid_l|eapply supp_mid_r]; eauto. }
  assert (K1 : forall m, old m -> (supp m v <-> v = m)).
  { intros m Hm. split; [intros Hs; symmetry; apply supp_old; auto|intros ->; left; reflexivity]. }
  destruct (Sp a b) as [m|] eqn:E; cbn in Hin; in_cases Hin; inversion Hin; subst;
  repeat match goal with
  | E : Sp ?p ?q = Some ?m |- context[supp ?m v] => rewrite (K0 m p q E)
  | H : old ?m |- context[supp ?m v] => rewrite (K1 m H)
  end; intuition congruence.
Qed.

Lemma tdirs_verts t a b : In (a, b) (tdirs t) -> In a (tverts t) /\ In b (tverts t).
Proof. destruct t as [[x y] z]. cbn. intros H. in_cases H; inv H; auto. Qed.

(** A half determines its edge. *)
Lemma halves_inj a b c d e : old a -> old b -> old c -> old d ->
  In e (halves a b (Sp a b)) -> In e (halves c d (Sp c d)) -> a = c /\ b = d.
Proof.
  intros Ha Hb Hc Hd H1 H2.
  destruct (Sp a b) as [m|] eqn:E, (Sp c d) as [m'|] eqn:E'; cbn in H1, H2; in_cases H1; in_cases H2; subst e;
  inversion H2; subst; auto;
  try (exfalso; eapply (s_fresh HS); eassumption);
  destruct (s_inj HS _ _ _ _ _ E E') as [[? ?]|[? ?]]; auto; subst; auto.
Qed.

(** An outer edge of a triangle is not an inner edge of any. *)
Lemma outer_not_inner t u x y : In t T -> In u T -> In (x, y) (outer_t t) -> In (x, y) (inner_t u) -> False.
Proof.
  intros Ht Hu Ho Hi. apply outer_t_In in Ho. destruct Ho as [a [b [Hab Hh]]].
  destruct (tdirs_verts _ _ _ Hab) as [Va Vb].
  pose proof (s_old HS _ _ Ht Va) as Oa. pose proof (s_old HS _ _ Ht Vb) as Ob.
  pose proof (s_proper HS _ Hu) as Hp.
  destruct u as [[p q] r]. destruct Hp as [Hpq [Hqr Hrp]].
  assert (Hv : forall v, In v [p; q; r] -> v = a \/ v = b).
  { intros v Hv. assert (Ov : old v) by (apply (s_old HS _ _ Hu Hv)).
    apply (halves_supp a b x y v Oa Ob Ov Hh). apply (inner_supp _ _ _ Hu Hi v Ov). exact Hv. }
  destruct (Hv p), (Hv q), (Hv r); cbn; auto; congruence.
Qed.

Lemma inner_unique t u x y : In t T -> In u T -> In (x, y) (inner_t t) -> In (x, y) (inner_t u) -> t = u.
Proof.
  intros Ht Hu H1 H2. apply (s_notwin HS); auto. intros v. split; intros Hv.
  - assert (Ov : old v) by (apply (s_old HS _ _ Ht Hv)).
    apply (inner_supp _ _ _ Hu H2 v Ov). apply (inner_supp _ _ _ Ht H1 v Ov). exact Hv.
  - assert (Ov : old v) by (apply (s_old HS _ _ Hu Hv)).
    apply (inner_supp _ _ _ Ht H1 v Ov). apply (inner_supp _ _ _ Hu H2 v Ov). exact Hv.
Qed.

(** Two triangles sharing an oriented edge are equal. *)
Lemma tdirs_unique t u e : In t T -> In u T -> In e (tdirs t) -> In e (tdirs u) -> t = u.
Proof.
  intros Ht Hu H1 H2. apply In_nth_error in Ht. apply In_nth_error in Hu.
  destruct Ht as [i Ht], Hu as [j Hu].
  assert (i = j) by (eapply NoDup_dirs_index; eauto; apply (s_dirs HS)). congruence.
Qed.

Lemma child_dirs_unique t u d :
  In t T -> In u T -> In d (dirs (split_tri t)) -> In d (dirs (split_tri u)) -> t = u.
Proof.
  intros Ht Hu H1 H2. destruct d as [x y]. apply dirs_split_tri in H1, H2.
  destruct H1 as [H1|H1], H2 as [H2|H2].
  - apply outer_t_In in H1, H2. destruct H1 as [a [b [H1 E1]]], H2 as [c [d [H2 E2]]].
    destruct (tdirs_verts _ _ _ H1). destruct (tdirs_verts _ _ _ H2).
    assert (a = c /\ b = d) as [-> ->].
    { apply (halves_inj a b c d (x, y)); try assumption;
      (apply (s_old HS t) + apply (s_old HS u)); assumption. }
    eapply tdirs_unique; eauto.
  - exfalso. eapply outer_not_inner; [exact Ht|exact Hu| |]; eauto.
  - exfalso. eapply outer_not_inner; [exact Hu|exact Ht| |]; eauto.
  - eapply inner_unique; eauto.
Qed.

Lemma NoDup_flat_map {A B} (f : A -> list B) l :
  NoDup l -> (forall x, In x l -> NoDup (f x)) ->
  (forall x y b, In x l -> In y l -> In b (f x) -> In b (f y) -> x = y) -> NoDup (flat_map f l).
Proof.
  induction l as [|a l IH]; intros Hnd Hb Hd; cbn; [constructor|].
  inv Hnd. apply NoDup_app_intro.
  - apply Hb. cbn. auto.
  - apply IH; auto.
    + intros x Hx. apply Hb. cbn. auto.
    + intros x y b Hx Hy. apply Hd; cbn; auto.
  - intros x Hx Hx'. apply in_flat_map in Hx'. destruct Hx' as [y [Hy Hxy]].
    assert (a = y) by (apply (Hd a y x); cbn; auto). subst. contradiction.
Qed.

Lemma dirs_flat_map {A} (f : A -> list tri) l : dirs (flat_map f l) = flat_map (fun x => dirs (f x)) l.
Proof.
  induction l as [|x l IH]; [reflexivity|]. cbn [flat_map]. rewrite dirs_app, IH. reflexivity.
Qed.

Lemma NoDup_dirs_NoDup (U : list tri) : NoDup (dirs U) -> NoDup U.
Proof.
  induction U as [|t U IH]; intros H; [constructor|].
  change (dirs (t :: U)) with (tdirs t ++ dirs U) in H. constructor.
  - intros Hin. destruct t as [[a b] c]. apply (NoDup_app_disj _ _ (a, b) H); [cbn; auto|].
    apply in_flat_map. exists (a, b, c). cbn. auto.
  - apply IH. eapply NoDup_app_r; eauto.
Qed.

Lemma split_dirs_NoDup : NoDup (dirs split_tris).
Proof.
  unfold split_tris. rewrite dirs_flat_map. apply NoDup_flat_map.
  - apply NoDup_dirs_NoDup. apply (s_dirs HS).
  - intros [[a b] c] Ht. apply split_dirs_nodup. apply six_nodup. exact Ht.
  - intros t u d Ht Hu H1 H2. eapply child_dirs_unique; eauto.
Qed.

Lemma split_tris_proper u : In u split_tris -> proper u.
Proof.
  intros Hu. apply split_tris_In in Hu. destruct Hu as [[[a b] c] [Ht Hu]].
  eapply split_proper; [|exact Hu]. apply six_nodup. exact Ht.
Qed.

Lemma split_tris_verts u x : In u split_tris -> In x (tverts u) -> old x \/ exists a b, Sp a b = Some x.
Proof.
  intros Hu Hx. apply split_tris_In in Hu. destruct Hu as [[[a b] c] [Ht Hu]].
  pose proof (split_verts _ _ _ _ _ _ _ _ Hu Hx) as H. unfold six in H. cbn [In] in H.
  rewrite !in_app_iff in H.
  assert (Ho : forall x, In x [a; b; c] -> old x) by (intros z Hz; apply (s_old HS _ _ Ht Hz)).
  destruct H as [<-|[<-|[<-|[H|[H|H]]]]]; try (left; apply Ho; cbn; auto; fail); right.
  - destruct (Sp a b) eqn:E; cbn in H; in_cases H; subst; eauto.
  - destruct (Sp b c) eqn:E; cbn in H; in_cases H; subst; eauto.
  - destruct (Sp c a) eqn:E; cbn in H; in_cases H; subst; eauto.
Qed.

Lemma split_tris_notwin u w : In u split_tris -> In w split_tris -> same_verts u w -> u = w.
Proof.
  intros Hu Hw Hs. apply split_tris_In in Hu, Hw.
  destruct Hu as [t [Ht Hu]], Hw as [s [Hs' Hw]].
  assert (Hkey : forall u w t s, In t T -> In s T -> In u (split_tri t) -> In w (split_tri s) -> same_verts u w ->
                 (exists x y, In (x, y) (tdirs u) /\ In (x, y) (inner_t t)) -> t = s).
  { clear - HS. intros u w t s Ht Hs' Hu Hw Hs [x [y [Hd Hi]]].
    destruct (tdirs_verts _ _ _ Hd) as [Vx Vy]. apply Hs in Vx. apply Hs in Vy.
    assert (Hne : x <> y).
    { assert (Hp : proper u) by (apply split_tris_proper; apply split_tris_In; eauto).
      destruct u as [[p q] r]. cbn in Hd, Hp. in_cases Hd; inv Hd; intuition congruence. }
    assert (Hdw : In (x, y) (tdirs w) \/ In (y, x) (tdirs w)).
    { destruct w as [[p q] r]. cbn in Vx, Vy |- *. in_cases Vx; in_cases Vy; subst; try congruence;
      (left; in_solve) || (right; in_solve). }
    destruct Hdw as [Hdw|Hdw].
    - apply (child_dirs_unique t s (x, y) Ht Hs'); apply in_flat_map; eexists; split; eassumption.
    - apply (child_dirs_unique t s (y, x) Ht Hs').
      + apply dirs_split_tri. right. apply inner_t_sym. exact Hi.
      + apply in_flat_map. eauto. }
  assert (t = s \/ (u = t /\ w = s)) as [E|[-> ->]].
  { destruct t as [[a b] c], s as [[p q] r].
    pose proof (split_inner _ _ _ _ _ _ _ Hu) as Iu. pose proof (split_inner _ _ _ _ _ _ _ Hw) as Iw.
    destruct Iu as [[_ [_ [_ ->]]]|Iu].
    - destruct Iw as [[_ [_ [_ ->]]]|Iw]; [auto|]. left. symmetry.
      apply (Hkey w (a, b, c)); auto. intros v. symmetry. apply Hs.
    - left. apply (Hkey u w); auto. }
  - subst s. destruct t as [[a b] c]. eapply split_notwin; eauto. apply six_nodup. exact Ht.
  - apply (s_notwin HS); auto.
Qed.

(** ** Umbrellas of the output *)

Lemma path_old t p0 b n0 : In t T -> In (p0, b, n0) (tcorners t) ->
  exists inner, local_path (split_tri t) b (toward b n0 :: inner ++ [toward b p0]) /\
                forall x, In x inner -> Sp p0 n0 = Some x.
Proof.
  destruct t as [[a b'] c]. intros Ht Hc. pose proof (six_nodup _ _ _ Ht) as Hnd.
  unfold toward. cbn in Hc. in_cases Hc; inversion Hc; subst; cbn [split_tri].
  - exists (inn_a (Sp b n0) (Sp n0 p0) (Sp p0 b)). split.
    + rewrite (s_sym HS b p0). apply split_path_a. exact Hnd.
    + rewrite (s_sym HS p0 n0). intros x Hx. destruct (Sp b n0), (Sp n0 p0), (Sp p0 b); cbn in Hx; in_cases Hx; congruence.
  - exists (inn_b (Sp p0 b) (Sp b n0) (Sp n0 p0)). split.
    + rewrite (s_sym HS b p0). apply split_path_b. exact Hnd.
    + rewrite (s_sym HS p0 n0). intros x Hx. destruct (Sp b n0), (Sp n0 p0), (Sp p0 b); cbn in Hx; in_cases Hx; congruence.
  - exists (inn_c (Sp n0 p0) (Sp p0 b) (Sp b n0)). split.
    + rewrite (s_sym HS b p0). apply split_path_c. exact Hnd.
    + rewrite (s_sym HS p0 n0). intros x Hx. destruct (Sp b n0), (Sp n0 p0), (Sp p0 b); cbn in Hx; in_cases Hx; congruence.
Qed.

Lemma path_mid t a b m : In t T -> In (a, b) (tdirs t) -> Sp a b = Some m ->
  exists inner, local_path (split_tri t) m (b :: inner ++ [a]).
Proof.
  destruct t as [[p q] r]. intros Ht Hd Hm. pose proof (six_nodup _ _ _ Ht) as Hnd.
  cbn in Hd. in_cases Hd; inversion Hd; subst; cbn [split_tri]; rewrite Hm in *.
  - eexists. apply split_path_0. exact Hnd.
  - eexists. apply split_path_1. exact Hnd.
  - eexists. apply split_path_2. exact Hnd.
Qed.

Lemma corner_unique p p' b n :
  In (p, b, n) (corners split_tris) -> In (p', b, n) (corners split_tris) -> p = p'.
Proof. apply corner_fun. apply split_dirs_NoDup. Qed.

(** In a set closed under corners, paths are followed. *)
Lemma follow (S : list N) t v w :
  (forall x, In x S -> exists p, In p S /\ In (p, v, x) (corners split_tris)) ->
  In t T -> local_path (split_tri t) v w ->
  forall x y, In (x, y) (pairs w) -> In x S -> In y S.
Proof.
  intros Hcl Ht [_ Hlp] x y Hxy Hx. apply Hlp in Hxy.
  destruct (Hcl x Hx) as [p [Hp Hc]].
  assert (p = y); [|congruence]. eapply corner_unique; [exact Hc|]. apply corners_split_In. eauto.
Qed.

Lemma nbr_corner (U : list tri) v x :
  nbr U v x -> exists p n, In (p, v, n) (corners U) /\ (x = p \/ x = n).
Proof.
  intros [H|H].
  - apply dir_corner in H. destruct H as [p H]. exists p, x. auto.
  - apply dir_corner_in in H. destruct H as [n H]. exists x, n. auto.
Qed.

Lemma corner_at t p v n :
  In t T -> In (p, v, n) (corners (split_tri t)) ->
  (exists p0 n0, In (p0, v, n0) (tcorners t)) \/ (exists a b, In (a, b) (tdirs t) /\ Sp a b = Some v).
Proof.
  destruct t as [[a b] c]. intros Ht H. apply split_corner_verts in H. unfold six in H. cbn [In] in H.
  rewrite !in_app_iff in H. destruct H as [<-|[<-|[<-|[H|[H|H]]]]].
  - left. exists c, b. cbn. auto.
  - left. exists a, c. cbn. auto.
  - left. exists b, a. cbn. auto.
  - right. exists a, b. split; [cbn; auto|]. destruct (Sp a b); cbn in H; in_cases H; congruence.
  - right. exists b, c. split; [cbn; auto|]. destruct (Sp b c); cbn in H; in_cases H; congruence.
  - right. exists c, a. split; [cbn; auto|]. destruct (Sp c a); cbn in H; in_cases H; congruence.
Qed.

Lemma tcorners_verts t p b n : In (p, b, n) (tcorners t) -> In p (tverts t) /\ In b (tverts t) /\ In n (tverts t).
Proof. destruct t as [[x y] z]. cbn. intros H. in_cases H; inv H; auto 10. Qed.
Lemma tcorners_ne t p b n : proper t -> In (p, b, n) (tcorners t) -> p <> b /\ b <> n /\ n <> p.
Proof. destruct t as [[x y] z]. cbn. intros Hp H. in_cases H; inv H; intuition congruence. Qed.

Lemma toward_inj b x y : old b -> old x -> old y -> toward b x = toward b y -> x = y.
Proof.
  unfold toward. intros Hb Hx Hy. destruct (Sp b x) as [m|] eqn:E, (Sp b y) as [m'|] eqn:E'; cbn; intros H; subst.
  - destruct (s_inj HS _ _ _ _ _ E E') as [[_ H]|[H H']]; [exact H|congruence].
  - exfalso. exact (s_fresh HS _ _ _ E Hy).
  - exfalso. exact (s_fresh HS _ _ _ E' Hx).
  - reflexivity.
Qed.

Lemma toward_not_opposite b y p n x :
  old y -> b <> p -> b <> n -> Sp p n = Some x -> toward b y <> x.
Proof.
  unfold toward. intros Hy Hp Hn Hx. destruct (Sp b y) as [m|] eqn:E; cbn; intros ->.
  - destruct (s_inj HS _ _ _ _ _ E Hx) as [[? ?]|[? ?]]; congruence.
  - exact (s_fresh HS _ _ _ Hx Hy).
Qed.

Lemma corners_In_t t p b n : In t T -> In (p, b, n) (tcorners t) -> In (p, b, n) (corners T).
Proof. intros. apply in_flat_map. eauto. Qed.

Definition isin (l : list N) (x : N) : bool := memN x l.

Lemma split_umbrella_old b : old b -> umbrella split_tris b.
Proof.
  intros Hb S Hne Hsub Hcl y Hy.
  (* corners at b come from corners of T at b *)
  assert (Hat : forall t p n, In t T -> In (p, b, n) (corners (split_tri t)) ->
                exists p0 n0, In (p0, b, n0) (tcorners t)).
  { intros t p n Ht H. destruct (corner_at _ _ _ _ Ht H) as [H'|[a [c [_ H']]]]; [exact H'|].
    exfalso. exact (s_fresh HS _ _ _ H' Hb). }
  (* S0 *)
  set (nb := flat_map (fun c => if N.eqb (snd (fst c)) b then [fst (fst c); snd c] else []) (corners T)).
  set (S0 := filter (fun c => isin S (toward b c)) nb).
  assert (Hnb : forall x, nbr T b x <-> In x nb).
  { intros x. split.
    - intros H. apply nbr_corner in H. destruct H as [p [n [Hc Hx]]]. apply in_flat_map.
      exists (p, b, n). split; [exact Hc|]. cbn. rewrite N.eqb_refl. destruct Hx; subst; cbn; auto.
    - intros H. apply in_flat_map in H. destruct H as [[[p b'] n] [Hc Hx]]. cbn in Hx.
      destruct (N.eqb_spec b' b); [|destruct Hx]. subst b'. in_cases Hx; subst.
      + right. eapply corner_dir_in; eauto.
      + left. eapply corner_dir; eauto. }
  assert (HS0 : forall x, In x S0 <-> nbr T b x /\ In (toward b x) S).
  { intros x. unfold S0. rewrite filter_In, Hnb. unfold isin. rewrite memN_In. tauto. }
  (* any element of S leads to S0 *)
  assert (Hstart : forall x, In x S -> exists p, In p S0).
  { intros x Hx. destruct (Hcl x Hx) as [q [Hq Hc]]. apply corners_split_In in Hc.
    destruct Hc as [t [Ht Hc]]. destruct (Hat _ _ _ Ht Hc) as [p0 [n0 Hc0]].
    destruct (path_old _ _ _ _ Ht Hc0) as [inner [Hlp _]].
    exists p0. apply HS0. split.
    - right. eapply corner_dir_in. eapply corners_In_t; eauto.
    - apply (pairs_to_end S (toward b n0 :: inner) (toward b p0) x).
      + exact (follow S t b _ Hcl Ht Hlp).
      + destruct Hlp as [_ Hlp]. apply Hlp in Hc. apply pairs_In_l in Hc. exact Hc.
      + exact Hx. }
  assert (Hall : forall z, nbr T b z -> In z S0).
  { apply (s_umb HS b S0).
    - destruct S as [|x S']; [congruence|]. destruct (Hstart x) as [p Hp]; [cbn; auto|].
      intros E. rewrite E in Hp. destruct Hp.
    - intros x Hx. apply HS0 in Hx. tauto.
    - intros x Hx. apply HS0 in Hx. destruct Hx as [Hnx Hx].
      destruct (Hcl _ Hx) as [q [Hq Hc]]. apply corners_split_In in Hc.
      destruct Hc as [t [Ht Hc]]. destruct (Hat _ _ _ Ht Hc) as [p0 [n0 Hc0]].
      destruct (path_old _ _ _ _ Ht Hc0) as [inner [Hlp Hin]].
      destruct (tcorners_verts _ _ _ _ Hc0) as [Vp [Vb Vn]].
      destruct (tcorners_ne _ _ _ _ (s_proper HS _ Ht) Hc0) as [N1 [N2 N3]].
      assert (Ox : old x).
      { apply Hnb in Hnx. apply in_flat_map in Hnx. destruct Hnx as [[[p' b'] n'] [Hc' Hx']]. cbn in Hx'.
        destruct (N.eqb_spec b' b); [|destruct Hx']. subst. apply in_flat_map in Hc'. destruct Hc' as [u [Hu Hc']].
        destruct (tcorners_verts _ _ _ _ Hc') as [V1 [V2 V3]].
        in_cases Hx'; subst; apply (s_old HS u); assumption. }
      pose proof (s_old HS _ _ Ht Vn) as On. pose proof (s_old HS _ _ Ht Vp) as Op.
      pose proof (follow S t b _ Hcl Ht Hlp) as Hf.
      destruct Hlp as [Hnd Hlp]. apply Hlp in Hc.
      destruct (pairs_inner _ _ _ _ _ Hnd Hc) as [E|E].
      + apply toward_inj in E; auto. subst n0. exists p0. split.
        * apply HS0. split; [right; eapply corner_dir_in; eapply corners_In_t; eauto|].
          apply (pairs_to_end S (toward b x :: inner) (toward b p0) (toward b x) Hf); [cbn; auto|exact Hx].
        * eapply corners_In_t; eauto.
      + exfalso. apply Hin in E. eapply toward_not_opposite; [exact Ox| | |exact E|reflexivity]; congruence. }
  (* cover all neighbours *)
  apply nbr_corner in Hy. destruct Hy as [p [n [Hc Hy]]]. apply corners_split_In in Hc.
  destruct Hc as [t [Ht Hc]]. destruct (Hat _ _ _ Ht Hc) as [p0 [n0 Hc0]].
  destruct (path_old _ _ _ _ Ht Hc0) as [inner [Hlp Hin]].
  apply (pairs_from_start S (toward b n0) (inner ++ [toward b p0])).
  - exact (follow S t b _ Hcl Ht Hlp).
  - apply (proj2 (proj1 (HS0 n0) (Hall n0 (or_introl (corner_dir _ _ _ _ (corners_In_t _ _ _ _ Ht Hc0)))))).
  - destruct Hlp as [_ Hlp]. apply Hlp in Hc. destruct Hy as [->| ->].
    + apply pairs_In_r in Hc. exact Hc.
    + apply pairs_In_l in Hc. exact Hc.
Qed.

Lemma split_umbrella_mid a b m : Sp a b = Some m -> umbrella split_tris m.
Proof.
  intros Hm S Hne Hsub Hcl y Hy.
  assert (Hat : forall t p n, In t T -> In (p, m, n) (corners (split_tri t)) ->
                exists c d, In (c, d) (tdirs t) /\ ((c = a /\ d = b) \/ (c = b /\ d = a))).
  { intros t p n Ht H. destruct (corner_at _ _ _ _ Ht H) as [[p0 [n0 H']]|[c [d [H1 H2]]]].
    - exfalso. destruct (tcorners_verts _ _ _ _ H') as [_ [V _]].
      exact (s_fresh HS _ _ _ Hm (s_old HS _ _ Ht V)).
    - exists c, d. split; [exact H1|]. destruct (s_inj HS _ _ _ _ _ H2 Hm) as [[? ?]|[? ?]]; auto. }
  assert (Hpath : forall t c d, In t T -> In (c, d) (tdirs t) -> ((c = a /\ d = b) \/ (c = b /\ d = a)) ->
                  exists inner, local_path (split_tri t) m (d :: inner ++ [c])).
  { intros t c d Ht Hd [[-> ->]|[-> ->]]; apply path_mid; auto. rewrite (s_sym HS). exact Hm. }
  (* in S an end has an outgoing path, which it starts *)
  assert (Hgo : forall c d, ((c = a /\ d = b) \/ (c = b /\ d = a)) -> In c S ->
                exists t, In t T /\ In (d, c) (tdirs t)).
  { intros c d Hcd Hc. destruct (Hcl c Hc) as [p [Hp Hcor]]. apply corners_split_In in Hcor.
    destruct Hcor as [t [Ht Hcor]]. destruct (Hat _ _ _ Ht Hcor) as [c' [d' [Hd' Hcd']]].
    destruct (Hpath t c' d' Ht Hd' Hcd') as [inner [Hnd Hlp]]. apply Hlp in Hcor.
    pose proof (pairs_last (d' :: inner) c' _ _ Hnd Hcor) as Hnl.
    exists t. split; [exact Ht|].
    destruct Hcd as [[-> ->]|[-> ->]], Hcd' as [[-> ->]|[-> ->]]; congruence || exact Hd'. }
  assert (Hend : exists c d, ((c = a /\ d = b) \/ (c = b /\ d = a)) /\ In c S).
  { destruct S as [|x S']; [congruence|]. destruct (Hcl x) as [p [Hp Hcor]]; [cbn; auto|].
    apply corners_split_In in Hcor. destruct Hcor as [t [Ht Hcor]].
    destruct (Hat _ _ _ Ht Hcor) as [c [d [Hd Hcd]]]. exists c, d. split; [exact Hcd|].
    destruct (Hpath t c d Ht Hd Hcd) as [inner Hlp].
    apply (pairs_to_end _ (d :: inner) c x (follow _ t m _ Hcl Ht Hlp)); [|cbn; auto].
    destruct Hlp as [_ Hlp]. apply Hlp in Hcor. apply pairs_In_l in Hcor. exact Hcor. }
  assert (Hboth : In a S /\ In b S).
  { assert (Hstep : forall c d, ((c = a /\ d = b) \/ (c = b /\ d = a)) -> In c S -> In d S).
    { intros c d Hcd Hc. destruct (Hgo c d Hcd Hc) as [t [Ht Hd]].
      destruct (Hpath t d c Ht Hd) as [inner Hlp]; [tauto|].
      apply (pairs_to_end _ (c :: inner) d c (follow _ t m _ Hcl Ht Hlp)); [cbn; auto|exact Hc]. }
    destruct Hend as [c [d [Hcd Hc]]]. pose proof (Hstep c d Hcd Hc) as Hd.
    destruct Hcd as [[-> ->]|[-> ->]]; auto. }
  apply nbr_corner in Hy. destruct Hy as [p [n [Hc Hy]]]. apply corners_split_In in Hc.
  destruct Hc as [t [Ht Hc]]. destruct (Hat _ _ _ Ht Hc) as [c [d [Hd Hcd]]].
  destruct (Hpath t c d Ht Hd Hcd) as [inner Hlp].
  apply (pairs_from_start S d (inner ++ [c])).
  - exact (follow S t m _ Hcl Ht Hlp).
  - destruct Hcd as [[-> ->]|[-> ->]]; tauto.
  - destruct Hlp as [_ Hlp]. apply Hlp in Hc. destruct Hy as [->| ->].
    + apply pairs_In_r in Hc. exact Hc.
    + apply pairs_In_l in Hc. exact Hc.
Qed.

Lemma split_umbrella v : umbrella split_tris v.
Proof.
  intros S Hne Hsub Hcl.
  assert (Hv : old v \/ exists a b, Sp a b = Some v).
  { destruct S as [|x S']; [congruence|]. destruct (Hcl x) as [p [_ Hc]]; [cbn; auto|].
    apply corners_split_In in Hc. destruct Hc as [t [Ht Hc]].
    destruct (corner_at _ _ _ _ Ht Hc) as [[p0 [n0 H]]|[a [b [_ H]]]]; [|eauto].
    left. destruct (tcorners_verts _ _ _ _ H) as [_ [V _]]. eapply (s_old HS); eauto. }
  destruct Hv as [Hv|[a [b Hv]]].
  - apply (split_umbrella_old v Hv S Hne Hsub Hcl).
  - apply (split_umbrella_mid a b v Hv S Hne Hsub Hcl).
Qed.

Lemma split_good (P : N -> Prop) :
  (forall x, old x -> P x) -> (forall a b m, Sp a b = Some m -> P m) -> good P split_tris.
Proof.
  intros H1 H2. constructor.
  - apply split_tris_proper.
  - intros t x Ht Hx. destruct (split_tris_verts _ _ Ht Hx) as [H|[a [b H]]]; eauto.
  - apply split_dirs_NoDup.
  - apply split_umbrella.
Qed.
End SPLIT.
