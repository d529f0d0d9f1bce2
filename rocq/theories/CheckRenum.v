(** * CheckRenum: decision procedures for the hypotheses of Properties5. *)
From Verif Require Import Base Mesh Filters Spec SpecSub SpecRenum Lists Check.

Definition closedb {O D} (m : mesh O D) : bool := forallb (fun e => mem_dedge (sym e) (dirs (tris m))) (dirs (tris m)).
Lemma closedb_ok {O D} (m : mesh O D) : closedb m = true -> closed m.
Proof.
  unfold closedb. rewrite forallb_forall. intros H a b Hin. specialize (H _ Hin). apply mem_dedge_In in H. exact H.
Qed.

Fixpoint listed_onceb (l : list (option dedge)) : bool :=
  match l with
  | [] => true
  | None :: t => listed_onceb t
  | Some e :: t => forallb (fun o => match o with Some f => negb (undb e f) | None => true end) t && listed_onceb t
  end.
Lemma listed_onceb_ok l : listed_onceb l = true -> listed_once l.
Proof.
  assert (Hu : forall e f, undirected_eq e f -> undirected_eq f e).
  { intros [a b] [c d]. unfold undirected_eq. cbn. intuition congruence. }
  induction l as [|[e|] l IH]; cbn [listed_onceb]; intros H i j x y Hi Hj E.
  - destruct i; discriminate.
  - apply andb_prop in H. destruct H as [H1 H2]. rewrite forallb_forall in H1.
    assert (Hno : forall z, In (Some z) l -> undirected_eq e z -> False).
    { intros z Hz Hez. specialize (H1 _ Hz). cbn in H1. apply undb_ok in Hez. rewrite Hez in H1. discriminate. }
    destruct i as [|i], j as [|j]; cbn in Hi, Hj; [reflexivity|..].
    + exfalso. inv Hi. apply nth_error_In in Hj. eapply Hno; eauto.
    + exfalso. inv Hj. apply nth_error_In in Hi. eapply Hno; eauto.
    + f_equal. eapply (IH H2); eauto.
  - destruct i as [|i], j as [|j]; cbn in Hi, Hj; try discriminate. f_equal. eapply (IH H); eauto.
Qed.
