(** * CheckRoot3: decision procedures for the hypotheses of Properties6. *)
From Verif Require Import Base Mesh Filters Spec SpecSub Lists Check SpecRoot3 Root3Main Valid.

Fixpoint nodupNb (l : list N) : bool := match l with [] => true | x :: t => negb (memN x t) && nodupNb t end.
Lemma nodupNb_ok l : nodupNb l = true -> NoDup l.
Proof.
  induction l as [|x l IH]; cbn; intros H; constructor; apply andb_prop in H; destruct H as [H1 H2]; [|auto].
  intros Hx. apply memN_In in Hx. rewrite Hx in H1. discriminate.
Qed.
Definition ready3b {O D} (f : fstate) (m : mesh O D) : bool :=
  existingb m (csel f) && nodupNb (csel f) && Z.ltb (nV m + nF m) (2 ^ 64).
Lemma ready3b_ok {O D} f (m : mesh O D) : ready3b f m = true -> ready3 f m.
Proof.
  unfold ready3b. intros H. apply andb_prop in H. destruct H as [H H3]. apply andb_prop in H. destruct H as [H1 H2].
  split; [apply existingb_ok; exact H1|]. split; [apply nodupNb_ok; exact H2|]. apply Z.ltb_lt. exact H3.
Qed.
Lemma run_exists3 {O D} f (m : mesh O D) : valid m -> dense m -> ready3 f m ->
  exists fuel f' out, update (CellF CSqrt3) fuel f m = Ok (f', out).
Proof.
  intros Hv Hd Hr. destruct (root3_completes f m Hv Hd Hr) as [f' [out [E _]]]. eexists _, f', out. apply E. apply Nat.lt_succ_diag_r.
Qed.

(** A chain of Update() calls, run once. *)
Definition ready_anyb {O D} (k : kind) (f : fstate) (m : mesh O D) : bool :=
  match k with CellF CSqrt3 => ready3b f m | _ => readyb k f m end.
Lemma ready_anyb_ok {O D} k f (m : mesh O D) : ready_anyb k f m = true -> ready_any k f m.
Proof. destruct k as [[]|]; cbn [ready_anyb ready_any]; first [apply ready3b_ok | apply readyb_ok]. Qed.
Fixpoint chainb {O D} (l : list (kind * fstate)) (m : mesh O D) (test : mesh O D -> bool) : bool :=
  match l with
  | [] => test m
  | (k, f) :: t => ready_anyb k f m && match update k 100 f m with Ok (_, o) => chainb t o test | _ => false end
  end.
Lemma chainb_ok {O D} l (inp : mesh O D) test : forall n m, chained_any inp n m -> chainb l m test = true ->
  exists out, chained_any inp (length l + n) out /\ test out = true.
Proof.
  induction l as [|[k f] l IH]; intros n m Hc H; cbn [chainb] in H; [exists m; auto|].
  apply andb_prop in H. destruct H as [H1 H2].
  destruct (update k 100 f m) as [[f' o]| | |] eqn:E; try discriminate.
  destruct (IH (S n) o) as [out [Ho Ht]].
  - eapply chained_any_S; [exact Hc|apply ready_anyb_ok; exact H1|exact E].
  - exact H2.
  - exists out. split; [|exact Ht]. cbn [length]. replace (S (length l) + n)%nat with (length l + S n)%nat by lia. exact Ho.
Qed.
