(** * SplitTri: combinatorics of the face split of one triangle.

    Facts about [split_triangle] alone, by cases on which edges are split. *)
From Coq Require Import Permutation.
From Verif Require Import Base Mesh Filters Spec Lists AddFace.

Definition olist {A} (o : option A) : list A := match o with Some x => [x] | None => [] end.
Definition odef {A} (o : option A) (d : A) : A := match o with Some x => x | None => d end.

(** Consecutive pairs of a list. *)
Fixpoint pairs {A} (l : list A) : list (A * A) :=
  match l with
  | x :: ((y :: _) as t) => (x, y) :: pairs t
  | _ => []
  end.

Lemma pairs_In_l {A} (l : list A) x y : In (x, y) (pairs l) -> In x l.
Proof.
  induction l as [|a [|b t] IH]; cbn [pairs In]; [tauto|tauto|].
  intros [H|H]; [inv H; auto|]. right. apply IH. exact H.
Qed.
Lemma pairs_In_r {A} (l : list A) x y : In (x, y) (pairs l) -> In y l.
Proof.
  induction l as [|a [|b t] IH]; cbn [pairs In]; [tauto|tauto|].
  intros [H|H]; [inv H; auto|]. right. apply IH. exact H.
Qed.
Lemma pairs_last {A} (l : list A) e x y : NoDup (l ++ [e]) -> In (x, y) (pairs (l ++ [e])) -> x <> e.
Proof.
  induction l as [|a t IH]; cbn [app]; intros Hnd H; [destruct H|].
  destruct (t ++ [e]) as [|b s] eqn:E; [destruct t; discriminate|].
  assert (Hin : In e (t ++ [e])) by (apply in_or_app; cbn; auto). rewrite E in Hin.
  cbn [pairs In] in H. destruct H as [H|H].
  - inv H. inv Hnd. intros ->. contradiction.
  - apply IH; [inv Hnd; assumption|exact H].
Qed.
Lemma pairs_inner {A} (s : A) l e x y :
  NoDup (s :: l ++ [e]) -> In (x, y) (pairs (s :: l ++ [e])) -> x = s \/ In x l.
Proof.
  intros Hnd H. change (s :: l ++ [e]) with ((s :: l) ++ [e]) in *.
  pose proof (pairs_last _ _ _ _ Hnd H) as Hne. apply pairs_In_l in H.
  apply in_app_or in H. cbn in H. intuition congruence.
Qed.

(** Moving along a list inside a set closed under "next". *)
Lemma pairs_to_end {A} (S : list A) l e x :
  (forall x y, In (x, y) (pairs (l ++ [e])) -> In x S -> In y S) ->
  In x (l ++ [e]) -> In x S -> In e S.
Proof.
  revert x. induction l as [|a t IH]; intros x Hcl Hx HS.
  - cbn in Hx. destruct Hx as [->|[]]. exact HS.
  - cbn [app] in *. destruct (t ++ [e]) as [|b s] eqn:E; [destruct t; discriminate|].
    assert (Hcl' : forall x y, In (x, y) (pairs (b :: s)) -> In x S -> In y S).
    { intros u v H. apply Hcl. cbn [pairs]. right. exact H. }
    destruct Hx as [->|Hx].
    + apply (IH b Hcl'); [cbn; auto|]. apply (Hcl x b); [cbn; auto|exact HS].
    + apply (IH x Hcl' Hx HS).
Qed.
Lemma pairs_from_start {A} (S : list A) s l :
  (forall x y, In (x, y) (pairs (s :: l)) -> In x S -> In y S) ->
  In s S -> forall x, In x (s :: l) -> In x S.
Proof.
  revert s. induction l as [|b t IH]; intros s Hcl HS x Hx.
  - destruct Hx as [->|[]]. exact HS.
  - destruct Hx as [->|Hx]; [exact HS|]. apply (IH b); [| |exact Hx].
    + intros u v H. apply Hcl. cbn [pairs]. right. exact H.
    + apply (Hcl s b); [cbn; auto|exact HS].
Qed.

(** ** One triangle *)

(** The corners of the triangles [L] at [v] are the consecutive pairs of [w]. *)
Definition local_path (L : list tri) (v : N) (w : list N) : Prop :=
  NoDup w /\ forall p n, In (p, v, n) (corners L) <-> In (n, p) (pairs w).

(** Inner edges of a split triangle, in both orientations. *)
Definition both (e : N * N) : list (N * N) := [e; (snd e, fst e)].
Definition inner_edges (t0 t1 t2 : N) (e0 e1 e2 : option N) : list (N * N) :=
  match e0, e1, e2 with
  | None, None, None => []
  | Some e, None, None => both (e, t2)
  | None, Some e, None => both (e, t0)
  | None, None, Some e => both (e, t1)
  | Some x, Some y, None => both (t2, x) ++ both (x, y)
  | Some x, None, Some y => both (t2, x) ++ both (x, y)
  | None, Some x, Some y => both (t0, x) ++ both (x, y)
  | Some x, Some y, Some z => both (x, y) ++ both (y, z) ++ both (z, x)
  end.
(** The halves of an edge. *)
Definition halves (a b : N) (o : option N) : list (N * N) :=
  match o with None => [(a, b)] | Some m => [(a, m); (m, b)] end.
Definition outer_edges (t0 t1 t2 : N) (e0 e1 e2 : option N) : list (N * N) :=
  halves t0 t1 e0 ++ halves t1 t2 e1 ++ halves t2 t0 e2.

Definition six (t0 t1 t2 : N) (e0 e1 e2 : option N) : list N :=
  t0 :: t1 :: t2 :: olist e0 ++ olist e1 ++ olist e2.

Ltac flat_neq H :=
  lazymatch type of H with
  | ~ (_ \/ _) => let H1 := fresh "Hn" in let H2 := fresh "Hn" in
      apply Decidable.not_or in H; destruct H as [H1 H2]; flat_neq H1; flat_neq H2
  | ~ False => clear H
  | _ => idtac
  end.
Ltac open_nodup H :=
  cbn [six olist app] in H;
  repeat match type of H with
  | NoDup (_ :: _) => let H1 := fresh "Hn" in let H2 := fresh "Hr" in
      apply NoDup_cons_iff in H; destruct H as [H1 H]; cbn [In] in H1; flat_neq H1
  end; clear H.
Ltac split_cases e0 e1 e2 Hnd :=
  destruct e0 as [x0|], e1 as [x1|], e2 as [x2|]; unfold six in Hnd; open_nodup Hnd.
Ltac in_solve := cbn [In]; first [left; congruence | right; in_solve].
Ltac in_cases H :=
  cbn [In] in H;
  repeat match type of H with
  | _ \/ _ => destruct H as [H|H]
  | False => destruct H
  end.

Lemma split_dirs_nodup t0 t1 t2 e0 e1 e2 :
  NoDup (six t0 t1 t2 e0 e1 e2) -> NoDup (dirs (split_triangle t0 t1 t2 e0 e1 e2)).
Proof.
  intros Hnd. split_cases e0 e1 e2 Hnd; cbn;
  repeat (apply NoDup_cons; [let H := fresh in intros H; in_cases H; inversion H; congruence|]);
  apply NoDup_nil.
Qed.

Lemma split_dirs t0 t1 t2 e0 e1 e2 d :
  In d (dirs (split_triangle t0 t1 t2 e0 e1 e2)) <->
  In d (outer_edges t0 t1 t2 e0 e1 e2) \/ In d (inner_edges t0 t1 t2 e0 e1 e2).
Proof.
  rewrite <- in_app_iff. destruct e0, e1, e2; cbn; split; intros H; in_cases H; subst d; in_solve.
Qed.

Lemma inner_sym t0 t1 t2 e0 e1 e2 x y :
  In (x, y) (inner_edges t0 t1 t2 e0 e1 e2) -> In (y, x) (inner_edges t0 t1 t2 e0 e1 e2).
Proof. destruct e0, e1, e2; cbn; intros H; in_cases H; inversion H; subst; in_solve. Qed.

Lemma split_proper t0 t1 t2 e0 e1 e2 t :
  NoDup (six t0 t1 t2 e0 e1 e2) -> In t (split_triangle t0 t1 t2 e0 e1 e2) -> proper t.
Proof.
  intros Hnd. split_cases e0 e1 e2 Hnd; cbn; intros H; in_cases H; subst t; cbn; repeat split; congruence.
Qed.

Lemma split_verts t0 t1 t2 e0 e1 e2 t x :
  In t (split_triangle t0 t1 t2 e0 e1 e2) -> In x (tverts t) -> In x (six t0 t1 t2 e0 e1 e2).
Proof.
  destruct e0, e1, e2; cbn; intros H; in_cases H; subst t; cbn; intros H; in_cases H; subst x; in_solve.
Qed.

Lemma split_length t0 t1 t2 e0 e1 e2 :
  length (split_triangle t0 t1 t2 e0 e1 e2) = S (length (olist e0 ++ olist e1 ++ olist e2)).
Proof. destruct e0, e1, e2; reflexivity. Qed.

(** No two children on the same three points. *)
Lemma split_notwin t0 t1 t2 e0 e1 e2 t u :
  NoDup (six t0 t1 t2 e0 e1 e2) ->
  In t (split_triangle t0 t1 t2 e0 e1 e2) -> In u (split_triangle t0 t1 t2 e0 e1 e2) ->
  same_verts t u -> t = u.
Proof.
  intros Hnd Ht Hu Hs. destruct t as [[a b] c].
  pose proof (proj1 (Hs a)) as Ha. pose proof (proj1 (Hs b)) as Hb. pose proof (proj1 (Hs c)) as Hc.
  clear Hs. cbn [tverts In] in Ha, Hb, Hc.
  specialize (Ha (or_introl eq_refl)). specialize (Hb (or_intror (or_introl eq_refl))).
  specialize (Hc (or_intror (or_intror (or_introl eq_refl)))).
  split_cases e0 e1 e2 Hnd; cbn in Ht, Hu; in_cases Ht; in_cases Hu; inversion Ht; subst u; clear Ht; subst a b c;
  first [reflexivity | exfalso; cbn [tverts In] in Ha; in_cases Ha; congruence
        | exfalso; cbn [tverts In] in Hb; in_cases Hb; congruence
        | exfalso; cbn [tverts In] in Hc; in_cases Hc; congruence ].
Qed.

(** Either nothing was split or each child has an inner edge. *)
Lemma split_inner t0 t1 t2 e0 e1 e2 t :
  In t (split_triangle t0 t1 t2 e0 e1 e2) ->
  (e0 = None /\ e1 = None /\ e2 = None /\ t = (t0, t1, t2)) \/
  exists x y, In (x, y) (tdirs t) /\ In (x, y) (inner_edges t0 t1 t2 e0 e1 e2).
Proof.
  destruct e0 as [x0|], e1 as [x1|], e2 as [x2|]; cbn; intros H; in_cases H; subst t;
  try (left; repeat split; reflexivity); right;
  repeat match goal with |- exists _, _ => eexists end; cbn; (split; [left; reflexivity|in_solve]) ||
    (split; [right; left; reflexivity|in_solve]) || (split; [right; right; left; reflexivity|in_solve]).
Qed.

Definition inn_a (e0 e1 e2 : option N) : list N :=
  match e0, e1, e2 with None, Some y, _ => [y] | _, _, _ => [] end.
Definition inn_b (e0 e1 e2 : option N) : list N :=
  match e0, e1, e2 with None, None, Some z => [z] | _, _, _ => [] end.
Definition inn_c (e0 e1 e2 : option N) : list N :=
  match e0, e1, e2 with Some _, Some _, Some _ => [] | Some x, _, _ => [x] | _, _, _ => [] end.

Ltac path_tac :=
  split;
  [ cbn; repeat (apply NoDup_cons; [let H := fresh in intros H; in_cases H; congruence|]); apply NoDup_nil
  | intros p n; cbn; split; intros H; in_cases H; inversion H;
    first [congruence | subst p n; in_solve] ].

Lemma split_path_a t0 t1 t2 e0 e1 e2 : NoDup (six t0 t1 t2 e0 e1 e2) ->
  local_path (split_triangle t0 t1 t2 e0 e1 e2) t0 (odef e0 t1 :: inn_a e0 e1 e2 ++ [odef e2 t2]).
Proof. intros Hnd. split_cases e0 e1 e2 Hnd; path_tac. Qed.
Lemma split_path_b t0 t1 t2 e0 e1 e2 : NoDup (six t0 t1 t2 e0 e1 e2) ->
  local_path (split_triangle t0 t1 t2 e0 e1 e2) t1 (odef e1 t2 :: inn_b e0 e1 e2 ++ [odef e0 t0]).
Proof. intros Hnd. split_cases e0 e1 e2 Hnd; path_tac. Qed.
Lemma split_path_c t0 t1 t2 e0 e1 e2 : NoDup (six t0 t1 t2 e0 e1 e2) ->
  local_path (split_triangle t0 t1 t2 e0 e1 e2) t2 (odef e2 t0 :: inn_c e0 e1 e2 ++ [odef e1 t1]).
Proof. intros Hnd. split_cases e0 e1 e2 Hnd; path_tac. Qed.

Definition mid_0 (t2 : N) (e1 e2 : option N) : list N :=
  match e1, e2 with
  | None, None => [t2] | Some x1, None => [x1; t2] | None, Some x2 => [t2; x2] | Some x1, Some x2 => [x1; x2]
  end.
Definition mid_1 (t0 : N) (e0 e2 : option N) : list N :=
  match e0, e2 with
  | None, None => [t0] | Some x0, None => [x0] | None, Some x2 => [x2; t0] | Some x0, Some x2 => [x2; x0]
  end.
Definition mid_2 (t1 : N) (e0 e1 : option N) : list N :=
  match e0, e1 with
  | None, None => [t1] | Some x0, None => [x0] | None, Some x1 => [x1] | Some x0, Some x1 => [x0; x1]
  end.

Lemma split_path_0 t0 t1 t2 m e1 e2 : NoDup (six t0 t1 t2 (Some m) e1 e2) ->
  local_path (split_triangle t0 t1 t2 (Some m) e1 e2) m (t1 :: mid_0 t2 e1 e2 ++ [t0]).
Proof. intros Hnd. destruct e1 as [x1|], e2 as [x2|]; unfold six in Hnd; open_nodup Hnd; path_tac. Qed.
Lemma split_path_1 t0 t1 t2 m e0 e2 : NoDup (six t0 t1 t2 e0 (Some m) e2) ->
  local_path (split_triangle t0 t1 t2 e0 (Some m) e2) m (t2 :: mid_1 t0 e0 e2 ++ [t1]).
Proof. intros Hnd. destruct e0 as [x1|], e2 as [x2|]; unfold six in Hnd; open_nodup Hnd; path_tac. Qed.
Lemma split_path_2 t0 t1 t2 m e0 e1 : NoDup (six t0 t1 t2 e0 e1 (Some m)) ->
  local_path (split_triangle t0 t1 t2 e0 e1 (Some m)) m (t0 :: mid_2 t1 e0 e1 ++ [t2]).
Proof. intros Hnd. destruct e0 as [x1|], e1 as [x2|]; unfold six in Hnd; open_nodup Hnd; path_tac. Qed.

Lemma split_corner_verts t0 t1 t2 e0 e1 e2 p v n :
  In (p, v, n) (corners (split_triangle t0 t1 t2 e0 e1 e2)) -> In v (six t0 t1 t2 e0 e1 e2).
Proof.
  unfold corners. rewrite in_flat_map. intros [t [Ht H]]. eapply split_verts; [exact Ht|].
  destruct t as [[a b] c]. cbn in *. intuition congruence.
Qed.

