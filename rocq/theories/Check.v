(** * Check: boolean tests for the predicates of Spec.v and SpecSub.v, with soundness.

    Only used to show that concrete meshes satisfy the hypotheses of the theorems. *)
From Coq Require Import Sorted.
From Verif Require Import Base Mesh Filters Spec SpecSub Lists Count.

Fixpoint incb (l : list N) : bool :=
  match l with
  | [] => true
  | x :: t => forallb (N.ltb x) t && incb t
  end.
Lemma incb_sorted l : incb l = true -> StronglySorted N.lt l.
Proof.
  induction l as [|x t IH]; cbn; [constructor|]. intros H. apply andb_prop in H. destruct H as [H1 H2].
  constructor; [apply IH; exact H2|]. apply Forall_forall. intros y Hy.
  rewrite forallb_forall in H1. apply N.ltb_lt. apply H1. exact Hy.
Qed.

Definition eqb_tri (t u : tri) : bool :=
  let '(a, b, c) := t in let '(x, y, z) := u in N.eqb a x && N.eqb b y && N.eqb c z.
Lemma eqb_tri_eq t u : eqb_tri t u = true -> t = u.
Proof.
  destruct t as [[a b] c], u as [[x y] z]. cbn. rewrite !andb_true_iff, !N.eqb_eq. intros [[-> ->] ->]. reflexivity.
Qed.
Definition subv (t u : tri) : bool := forallb (fun x => memN x (tverts u)) (tverts t).
Definition properb (t : tri) : bool :=
  let '(a, b, c) := t in negb (N.eqb a b) && negb (N.eqb b c) && negb (N.eqb c a).
Lemma properb_ok t : properb t = true -> proper t.
Proof.
  destruct t as [[a b] c]. cbn. rewrite !andb_true_iff, !negb_true_iff, !N.eqb_neq. tauto.
Qed.
Fixpoint nodupd (l : list (N * N)) : bool :=
  match l with
  | [] => true
  | x :: t => negb (mem_dedge x t) && nodupd t
  end.
Lemma nodupd_ok l : nodupd l = true -> NoDup l.
Proof.
  induction l as [|x t IH]; cbn; [constructor|]. intros H. apply andb_prop in H. destruct H as [H1 H2].
  constructor; [|auto]. intros Hx. apply mem_dedge_In in Hx. rewrite Hx in H1. discriminate.
Qed.
Definition undb (e f : N * N) : bool := eqb_dedge e f || eqb_dedge e (snd f, fst f).
Lemma undb_ok e f : undb e f = true <-> undirected_eq e f.
Proof. unfold undb, undirected_eq. rewrite orb_true_iff, !eqb_dedge_eq. tauto. Qed.

Section CHECK.
Context {O : Ops} {D : Type}.
Notation mesh := (mesh O D).
Implicit Types m : mesh.

Definition is_tri (c : option cell) : bool :=
  match c with Some (Poly [_; _; _]) => true | _ => false end.
Definition joinedb m (a b : N) : bool := memN b (ring m a).
Definition ring_okb m (b : N) (r : list N) : bool :=
  nodupb r && negb (memN b r) && forallb (fun x => joinedb m x b && omem x (pts m)) r.
Definition opt_eqb (o : option N) (x : N) : bool := match o with Some y => N.eqb y x | None => false end.

Definition ecell_okb m (es : omap (option dedge)) : bool :=
  incb (okeys es) &&
  forallb (fun ko => match snd ko with Some (a, b) => joinedb m a b | None => false end) es &&
  forallb (fun br => forallb (fun x => existsb (fun ko => match snd ko with Some e => undb e (fst br, x) | None => false end) es)
                             (ring m (fst br))) (rings m) &&
  forallb (fun k1 => forallb (fun k2 => match snd k1, snd k2 with
                                        | Some e, Some f => implb (undb e f) (N.eqb (fst k1) (fst k2))
                                        | _, _ => true end) es) es.

Definition soundb m : bool :=
  incb (okeys (pts m)) &&
  forallb (fun kp => Nat.eqb (length (snd kp)) (kdim O)) (pts m) &&
  match cells m with
  | None => false
  | Some cs => forallb (fun kc => is_tri (snd kc)) cs && incb (okeys cs)
  end &&
  forallb properb (tris m) &&
  forallb (fun t => forallb (fun x => omem x (pts m)) (tverts t)) (tris m) &&
  nodupd (dirs (tris m)) &&
  forallb (fun br => ring_okb m (fst br) (snd br)) (rings m) &&
  forallb (fun e => joinedb m (fst e) (snd e)) (dirs (tris m)) &&
  forallb (fun '(p, b, n) => opt_eqb (succ_in (ring m b) n) p) (corners (tris m)) &&
  match ecells m with None => false | Some es => ecell_okb m es end.
Definition notwinb m : bool :=
  forallb (fun t => forallb (fun u => implb (subv t u && subv u t) (eqb_tri t u)) (tris m)) (tris m).
Definition validb m : bool := soundb m && notwinb m.

Lemma omem_true {A} k (l : omap A) : omem k l = true -> oget k l <> None.
Proof. unfold omem. destruct (oget k l); congruence. Qed.

Lemma ring_In m b : ring m b = [] \/ In (b, ring m b) (rings m).
Proof. unfold ring. destruct (oget b (rings m)) eqn:E; [right; apply oget_In; exact E|auto]. Qed.

Lemma soundb_ok m : soundb m = true -> sound m.
Proof.
  unfold soundb. rewrite !andb_true_iff.
  intros [[[[[[[[[H1 H2] H3] H4] H5] H6] H8] H9] H10] H11].
  rewrite forallb_forall in *.
  assert (Hring : forall b, ring_okb m b (ring m b) = true).
  { intros b. destruct (ring_In m b) as [-> | H]; [reflexivity|]. exact (H8 _ H). }
  assert (Hjoin : forall a b, joined m a b <-> joinedb m a b = true).
  { intros a b. unfold joinedb. rewrite memN_In. reflexivity. }
  destruct (cells m) as [cs|] eqn:Ec; [|discriminate]. apply andb_prop in H3. destruct H3 as [H3 H3'].
  destruct (ecells m) as [es|] eqn:Ee; [|discriminate]. unfold ecell_okb in H11.
  rewrite !andb_true_iff in H11. destruct H11 as [[[E1 E2] E3] E4].
  rewrite forallb_forall in E2, E3, E4, H3.
  constructor.
  - apply incb_sorted. exact H1.
  - intros id p Hp. apply oget_In in Hp. apply H2 in Hp. apply Nat.eqb_eq in Hp. exact Hp.
  - exists cs. split; [exact Ec|]. intros id c Hc. apply H3 in Hc. cbn in Hc.
    destruct c as [[l|l]|]; try discriminate. destruct l as [|x [|y [|z [|]]]]; try discriminate. eauto.
  - intros cs' Hcs. rewrite Ec in Hcs. injection Hcs as <-. apply incb_sorted. exact H3'.
  - intros t Ht. apply properb_ok. apply H4. exact Ht.
  - intros t x Ht Hx. apply H5 in Ht. rewrite forallb_forall in Ht. apply omem_true. apply Ht. exact Hx.
  - apply nodupd_ok. exact H6.
  - intros b. specialize (Hring b). unfold ring_okb in Hring. rewrite !andb_true_iff in Hring.
    apply nodupb_NoDup. tauto.
  - intros a. specialize (Hring a). unfold ring_okb in Hring. rewrite !andb_true_iff, negb_true_iff in Hring.
    destruct Hring as [[_ H] _]. apply memN_nIn. exact H.
  - intros a b Hj. specialize (Hring a). unfold ring_okb in Hring. rewrite !andb_true_iff in Hring.
    destruct Hring as [_ H]. rewrite forallb_forall in H. apply H in Hj. apply andb_prop in Hj. apply Hjoin. tauto.
  - intros a b Hj. specialize (Hring a). unfold ring_okb in Hring. rewrite !andb_true_iff in Hring.
    destruct Hring as [_ H]. rewrite forallb_forall in H. apply H in Hj. apply andb_prop in Hj. apply omem_true. tauto.
  - intros a b Hd. apply H9 in Hd. apply Hjoin. exact Hd.
  - intros p b n Hc. apply H10 in Hc. cbn in Hc. apply succ_in_cyc.
    destruct (succ_in (ring m b) n); [|discriminate]. apply N.eqb_eq in Hc. congruence.
  - exists es. split; [exact Ee|]. split; [apply incb_sorted; exact E1|]. split; [|split].
    + intros id o Ho. apply E2 in Ho. cbn in Ho. destruct o as [[a b]|]; [|discriminate].
      exists a, b. split; [reflexivity|]. apply Hjoin. exact Ho.
    + intros a b Hj. destruct (ring_In m a) as [Er|Hr].
      { unfold joined in Hj. rewrite Er in Hj. destruct Hj. }
      apply E3 in Hr. cbn in Hr. rewrite forallb_forall in Hr. apply Hr in Hj. apply existsb_exists in Hj.
      destruct Hj as [[id [e|]] [Hin H]]; [|discriminate]. exists id, e. split; [exact Hin|].
      apply undb_ok. exact H.
    + intros i1 i2 e1 e2 I1 I2 Hu. apply E4 in I1. rewrite forallb_forall in I1. apply I1 in I2. cbn in I2.
      apply undb_ok in Hu. rewrite Hu in I2. apply N.eqb_eq. exact I2.
Qed.
Lemma validb_ok m : validb m = true -> valid m.
Proof.
  unfold validb, notwinb. rewrite andb_true_iff, forallb_forall. intros [H1 H7]. split; [apply soundb_ok; exact H1|].
  intros t u Ht Hu Hs. apply H7 in Ht. rewrite forallb_forall in Ht. apply Ht in Hu. apply eqb_tri_eq.
  assert (Hb : subv t u && subv u t = true); [|rewrite Hb in Hu; exact Hu].
  apply andb_true_iff. unfold subv. rewrite !forallb_forall.
  split; intros x Hx; apply memN_In; apply Hs; exact Hx.
Qed.

Definition denseb m : bool :=
  forallb (fun kp => N.ltb (fst kp) (osize (pts m))) (pts m) &&
  forallb (fun n => omem (N.of_nat n) (pts m)) (seq 0 (length (pts m))).
Lemma denseb_ok m : denseb m = true -> dense m.
Proof.
  unfold denseb. rewrite andb_true_iff, !forallb_forall. intros [H1 H2] id. split.
  - intros H. destruct (oget id (pts m)) as [p|] eqn:E; [|congruence]. apply oget_In in E. apply H1 in E.
    apply N.ltb_lt in E. exact E.
  - unfold osize. intros H. specialize (H2 (N.to_nat id)). rewrite N2Nat.id in H2. apply omem_true. apply H2.
    apply in_seq. lia.
Qed.

Definition existingb m (sel : list N) : bool := forallb (fun i => memN i (map fst (faces m))) sel.
Lemma existingb_ok m sel : existingb m sel = true -> existing m sel.
Proof.
  unfold existingb. rewrite forallb_forall. intros H i Hi. apply H in Hi. apply memN_In in Hi.
  apply in_map_iff in Hi. destruct Hi as [[j t] [<- Hi]]. exists t. exact Hi.
Qed.

Definition no_isolatedb m : bool := forallb (fun kp => negb (is_nil (ring m (fst kp)))) (pts m).
Lemma no_isolatedb_ok m : no_isolatedb m = true -> no_isolated m.
Proof.
  unfold no_isolatedb. rewrite forallb_forall. intros H id Hid.
  destruct (oget id (pts m)) as [p|] eqn:E; [|congruence]. apply oget_In in E. apply H in E. cbn in E.
  destruct (ring m id); [discriminate|congruence].
Qed.

Definition face_edgeb m (a b : N) : bool := mem_dedge (a, b) (dirs (tris m)) || mem_dedge (b, a) (dirs (tris m)).
Definition no_wireb m : bool :=
  forallb (fun br => forallb (face_edgeb m (fst br)) (ring m (fst br))) (rings m).
Lemma face_edgeb_ok m a b : face_edgeb m a b = true -> In (a, b) (dirs (tris m)) \/ In (b, a) (dirs (tris m)).
Proof. unfold face_edgeb. rewrite orb_true_iff, !mem_dedge_In. tauto. Qed.
Lemma no_wireb_ok m : no_wireb m = true -> no_wire m.
Proof.
  unfold no_wireb. rewrite forallb_forall. intros H a b Hj. apply face_edgeb_ok.
  destruct (ring_In m a) as [Er|Hr]; [unfold joined in Hj; rewrite Er in Hj; destruct Hj|].
  apply H in Hr. rewrite forallb_forall in Hr. apply Hr. exact Hj.
Qed.

Definition is_cnil {A} (l : list A) : bool := match l with [] => true | _ => false end.

Definition readyb (k : kind) (f : fstate) m : bool :=
  match k with
  | CellF CSqrt3 => false
  | CellF CLoop => no_isolatedb m && existingb m (csel f)
  | CellF _ => existingb m (csel f)
  | EdgeF s =>
      let loop := match s with ELoop => true | _ => false end in
      implb loop (no_isolatedb m) &&
      (if is_cnil (esel f) then implb loop (no_wireb m)
       else forallb (fun o => match o with
                              | Some (a, b) => joinedb m a b && implb loop (face_edgeb m a b)
                              | None => true end) (esel f) &&
            forallb (fun i => forallb (fun j =>
              match nth_error (esel f) i, nth_error (esel f) j with
              | Some (Some e), Some (Some g) => implb (undb e g) (Nat.eqb i j)
              | _, _ => true
              end) (seq 0 (length (esel f)))) (seq 0 (length (esel f))))
  end.

Lemma readyb_ok k f m : readyb k f m = true -> ready k f m.
Proof.
  unfold readyb, ready, splits_faces, is_loop. destruct k as [s|s].
  - destruct s; intros H; try discriminate; (split; [congruence|]).
    + split; [intros [E|E]; discriminate E|]. apply existingb_ok; exact H.
    + apply andb_prop in H. destruct H as [H1 H2]. split; [intros _; apply no_isolatedb_ok; exact H1|].
      apply existingb_ok; exact H2.
    + split; [intros [E|E]; discriminate E|]. apply existingb_ok; exact H.
  - intros H. split; [congruence|]. apply andb_prop in H. destruct H as [H1 H2]. split.
    { intros [E|E]; [discriminate E|]. injection E as ->. apply no_isolatedb_ok. exact H1. }
    destruct (esel f) as [|o l] eqn:Ees; cbn [is_cnil] in H2.
    + split; [|congruence]. intros _ ->. apply no_wireb_ok. exact H2.
    + split; [discriminate|]. intros _. apply andb_prop in H2. destruct H2 as [H2 H3].
      rewrite forallb_forall in H2, H3. split; [|split].
      * intros a b Hab. apply H2 in Hab. apply andb_prop in Hab. apply memN_In. tauto.
      * intros i j e g Hi Hj Hu. assert (Hlen : forall n x, nth_error (o :: l) n = Some x -> In n (seq 0 (length (o :: l)))).
        { intros n x Hn. apply in_seq. split; [lia|]. cbn [Nat.add]. apply nth_error_Some. congruence. }
        specialize (H3 _ (Hlen _ _ Hi)). rewrite forallb_forall in H3. specialize (H3 _ (Hlen _ _ Hj)).
        rewrite Hi, Hj in H3. apply undb_ok in Hu. rewrite Hu in H3. apply Nat.eqb_eq. exact H3.
      * intros -> a b Hab. apply H2 in Hab. apply andb_prop in Hab. apply face_edgeb_ok. tauto.
Qed.

(** All preconditions of a run at once. *)
Definition goodb (k : kind) (f : fstate) m : bool :=
  validb m && denseb m && readyb k f m && negb (is_cnil (tris m)).
Lemma goodb_ok k f m : goodb k f m = true -> valid m /\ dense m /\ ready k f m /\ tris m <> [].
Proof.
  unfold goodb. rewrite !andb_true_iff, negb_true_iff. intros [[[H1 H2] H3] H4].
  split; [apply validb_ok; exact H1|]. split; [apply denseb_ok; exact H2|].
  split; [apply readyb_ok; exact H3|]. intros E. rewrite E in H4. discriminate.
Qed.

End CHECK.

(** Examples: a run whose preconditions hold, with its result. *)
Lemma run_ex {O : Ops} {D : Type} k fuel f (m : mesh O D) (P : fstate -> mesh O D -> Prop) :
  match update k fuel f m with Ok (f', out) => P f' out | _ => False end ->
  exists f' out, update k fuel f m = Ok (f', out) /\ P f' out.
Proof. destruct (update k fuel f m) as [[f' out]| | |]; try tauto. intros H. exists f', out. auto. Qed.

Ltac ex_good :=
  match goal with
  | |- valid ?m /\ dense ?m /\ ready ?k ?f ?m /\ tris ?m <> [] /\ _ =>
      let H := fresh in
      assert (H : valid m /\ dense m /\ ready k f m /\ tris m <> []) by (apply goodb_ok; vm_compute; reflexivity);
      destruct H as [? [? [? ?]]];
      split; [assumption|]; split; [assumption|]; split; [assumption|]; split; [assumption|]; clear
  end.
Ltac ex_run := ex_good; apply run_ex; vm_compute; repeat split; reflexivity.
