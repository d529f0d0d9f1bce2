(** * Num3Props: the order of the cells the sqrt(3) filter makes (C118). *)
From Coq Require Import Sorted.
From Verif Require Import Base Mesh Filters Drivers Spec SpecSub SpecRoot3 SpecNum SpecNum3 Lists AddFace SplitTri Split Points Valid Run Update Struct Face FaceProps Root3 Root3Run Root3Main Renum NumProps.

Section ORDER3.
Context {O : Ops} {D : Type}.
Variable inp : mesh O D.
Variable f : fstate.
Hypothesis Hv : valid inp.
Hypothesis Hd : dense inp.
Hypothesis Hs : NoDup (csel f).
Notation cen := (cenm inp f).
Notation Cn := (cenE (tris inp) cen).
Notation u := (is_nil (csel f)).

Let HC := cenm_centring inp f Hv Hd Hs.

Lemma face_at n it : nth_error (faces inp) n = Some it -> nth_error (tris inp) n = Some (snd it).
Proof. intros H. unfold tris. rewrite nth_error_map, H. reflexivity. Qed.

Lemma made3_ok n t g a b P id : nth_error (tris inp) n = Some t -> cen t = Some g -> In (a, b) (tdirs t) ->
  (forall j w, nth_error (tris inp) j = Some w -> In (b, a) (tdirs w) -> cen w <> None -> (In (b, a) P <-> (j < n)%nat)) ->
  made3 inp cen n g (a, b) (map it_tri (items Cn u P id (a, b))).
Proof.
  intros Hn Hg He HP. assert (Ht : In t (tris inp)) by (eapply nth_error_In; eauto).
  assert (Eg : Cn (a, b) = Some g) by (rewrite (cenE_face _ _ _ HC t (a, b) Ht He); exact Hg).
  unfold items. rewrite Eg. change (sym (a, b)) with (b, a). cbn [fst snd]. unfold made3.
  destruct (Cn (b, a)) as [h|] eqn:Eh.
  - right. destruct (cenE_Some _ _ _ _ Eh) as [w [Hw [Hba Hh]]]. destruct (In_nth_error _ _ Hw) as [j Hj].
    exists j, w, h. split; [exact Hj|]. split; [exact Hba|]. split; [exact Hh|].
    assert (Hjn : j <> n).
    { intros ->. assert (w = t) by congruence. subst w. clear - He Hba HC Ht. pose proof (c_proper _ _ _ HC t Ht) as Hp.
      destruct t as [[x y] z]. cbn in *. unfold proper in Hp. cbn in Hp.
      intuition (repeat match goal with H : (_, _) = (_, _) |- _ => inversion H; clear H; subst end; try congruence). }
    specialize (HP j w Hj Hba). destruct (mem_dedge (b, a) P) eqn:Em.
    + right. split; [|reflexivity]. apply HP; [congruence|]. apply mem_dedge_In. exact Em.
    + left. split; [|reflexivity]. assert (~ (j < n)%nat); [|lia]. intros L. apply HP in L; [|congruence]. apply mem_dedge_In in L. congruence.
  - left. split; [|reflexivity]. intros h [w [Hw [Hba Hh]]]. rewrite (cenE_face _ _ _ HC w (b, a) Hw Hba) in Eh. congruence.
Qed.

Lemma order3 F : forall pre P, faces inp = pre ++ F ->
  (forall e, In e P <-> exists it, In it pre /\ cen (snd it) <> None /\ In e (tdirs (snd it))) ->
  exists Ls, map it_tri (ptasks Cn u P (tasks Cn F)) = concat Ls /\ length Ls = length F /\
    forall n it L, nth_error F n = Some it -> nth_error Ls n = Some L -> children3 inp cen (length pre + n) (snd it) L.
Proof.
  induction F as [|it F IH]; intros pre P HF HP.
  { exists []. split; [reflexivity|]. split; [reflexivity|]. intros [|n] it L H; discriminate. }
  unfold tasks. cbn [flat_map]. fold (tasks Cn F). rewrite ptasks_app, map_app.
  assert (Hat : nth_error (faces inp) (length pre) = Some it) by (rewrite HF, nth_error_app2 by lia; rewrite Nat.sub_diag; reflexivity).
  pose proof (face_at _ _ Hat) as Hnt. assert (Ht : In (snd it) (tris inp)) by (eapply nth_error_In; eauto).
  destruct (IH (pre ++ [it]) (done P (cell_tasks Cn it))) as [Ls [E1 [E2 E3]]].
  { rewrite <- app_assoc. exact HF. }
  { intros e. rewrite (done_In Cn), HP. split.
    - intros [[it' [H1 H2]]|H].
      + exists it'. split; [apply in_or_app; left; exact H1|exact H2].
      + exists it. split; [apply in_or_app; right; left; reflexivity|]. split; [|apply (tedges_cell Cn it e H)].
        destruct it as [id [[a b] c]]. unfold cell_tasks in H. cbn [fst snd tdirs] in H.
        rewrite (cenE_face _ _ _ HC (a, b, c) (a, b) Ht) in H by (left; reflexivity). cbn [snd].
        destruct (cen (a, b, c)); [congruence|destruct H].
    - intros [it' [H1 [H2 H3]]]. apply in_app_or in H1. destruct H1 as [H1|[<-|[]]]; [left; eauto|right].
      destruct it as [id [[a b] c]]. unfold cell_tasks. cbn [fst snd] in *. cbn [tdirs].
      rewrite (cenE_face _ _ _ HC (a, b, c) (a, b) Ht) by (left; reflexivity). destruct (cen (a, b, c)); [|congruence]. exact H3. }
  exists (map it_tri (ptasks Cn u P (cell_tasks Cn it)) :: Ls). cbn [concat length]. rewrite E1. split; [reflexivity|]. split; [lia|].
  intros n it0 L Hn HL. destruct n as [|n].
  2: { cbn in Hn, HL. specialize (E3 n it0 L Hn HL). rewrite app_length in E3. cbn in E3. replace (length pre + S n)%nat with (length pre + 1 + n)%nat by lia. exact E3. }
  cbn in Hn, HL. injection Hn as <-. injection HL as <-. rewrite Nat.add_0_r. clear IH E1 E2 E3 Ls.
  destruct it as [id [[a b] c]]. cbn [snd] in *. unfold cell_tasks. cbn [fst snd tdirs].
  assert (He1 : In (a, b) (tdirs (a, b, c))) by (left; reflexivity).
  assert (He2 : In (b, c) (tdirs (a, b, c))) by (right; left; reflexivity).
  assert (He3 : In (c, a) (tdirs (a, b, c))) by (right; right; left; reflexivity).
  rewrite (cenE_face _ _ _ HC (a, b, c) (a, b) Ht He1). destruct (cen (a, b, c)) as [g|] eqn:Eg.
  2: { left. split; [exact Eg|]. reflexivity. }
  right. cbn [map ptasks]. rewrite app_nil_r, !map_app. do 4 eexists. split; [exact Eg|].
  assert (HPn : forall e j w, nth_error (tris inp) j = Some w -> In e (tdirs w) -> cen w <> None -> In e P <-> (j < length pre)%nat).
  { intros e j w Hj He Hc. rewrite HP. split.
    - intros [it' [H1 [H2 H3]]]. destruct (In_nth_error _ _ H1) as [i Hi].
      assert (Hi' : nth_error (faces inp) i = Some it') by (rewrite HF, nth_error_app1 by (apply nth_error_Some; congruence); exact Hi).
      assert (w = snd it') by (apply (c_unique _ _ _ HC w (snd it') e); [eapply nth_error_In; eauto|eapply nth_error_In; eapply face_at; eauto|exact He|exact H3]).
      subst w. assert (i = j).
      { assert (Hnd : NoDup (tris inp)).
        { pose proof (v_dirs _ Hv) as H. clear -H. induction (tris inp) as [|[[a b] c] l IH]; [constructor|]. cbn in H. constructor.
          - intros Hin. inversion H as [|? ? Hn _]; subst. apply Hn. cbn. right. right. apply in_flat_map. exists (a, b, c). split; [exact Hin|cbn; auto].
          - apply IH. inversion H as [|? ? _ H1]; subst. inversion H1 as [|? ? _ H2]; subst. inversion H2; subst. assumption. }
        apply (proj1 (NoDup_nth_error (tris inp)) Hnd); [apply nth_error_Some; rewrite (face_at _ _ Hi'); discriminate|]. rewrite (face_at _ _ Hi'), Hj. reflexivity. }
      subst i. apply nth_error_Some. congruence.
    - intros Hlt. unfold tris in Hj. rewrite nth_error_map in Hj. destruct (nth_error (faces inp) j) as [it'|] eqn:E; [|discriminate].
      cbn in Hj. injection Hj as <-. exists it'. split; [|split; assumption].
      rewrite HF, nth_error_app1 in E by exact Hlt. eapply nth_error_In; eauto. }
  assert (Hprop : a <> b /\ b <> c /\ c <> a).
  { pose proof (c_proper _ _ _ HC _ Ht) as Hp. unfold proper in Hp. cbn in Hp. intuition. }
  split; [|split; [|split; [|reflexivity]]].
  - apply (made3_ok _ (a, b, c)); auto. intros j w Hj Hw Hc. apply (HPn (b, a) j w Hj Hw Hc).
  - apply (made3_ok _ (a, b, c)); auto. intros j w Hj Hw Hc. rewrite <- (HPn (c, b) j w Hj Hw Hc). cbn [In]. split; [|tauto].
    intros [E|E]; [exfalso; inversion E; subst; tauto|exact E].
  - apply (made3_ok _ (a, b, c)); auto. intros j w Hj Hw Hc. rewrite <- (HPn (a, c) j w Hj Hw Hc). cbn [In]. split; [|tauto].
    intros [E|[E|E]]; [exfalso; inversion E; subst; tauto|exfalso; inversion E; subst; tauto|exact E].
Qed.
End ORDER3.

Lemma C118_pf : forall (O : Ops) (D : Type) (f : fstate) (inp : mesh O D) fuel f' out,
  valid inp -> dense inp -> ready3 f inp -> update (CellF CSqrt3) fuel f inp = Ok (f', out) ->
  exists cen Ls, root3_subdivision inp out (selected inp (csel f)) cen /\
    tris out = concat Ls /\ length Ls = length (tris inp) /\
    (forall n t L, nth_error (tris inp) n = Some t -> nth_error Ls n = Some L -> children3 inp cen n t L) /\
    (forall id w, In (id, w) (faces out) <-> nth_error (tris out) (N.to_nat id) = Some w).
Proof.
  intros O D f inp fuel f' out Hv Hd Hr E. pose proof (root3_run f inp fuel f' out Hv Hd Hr E) as RR.
  pose proof (update3_inv f inp fuel f' out Hv Hd Hr E) as Q. destruct Hr as [Hex [Hnd Hlt]].
  destruct (order3 inp f Hv Hd Hnd (faces inp) [] []) as [Ls [E1 [E2 E3]]]; [reflexivity| |].
  { intros e. split; [intros []|intros [it [[] _]]]. }
  exists (cenm inp f), Ls. split; [apply (rr_sub _ _ _ _ _ RR)|].
  split; [rewrite (built_tris _ _ (q_built _ _ _ _ Q)); exact E1|].
  split; [rewrite E2; unfold tris; rewrite map_length; reflexivity|].
  split; [|apply (rr_ids _ _ _ _ _ RR)].
  intros n t L Hn HL. unfold tris in Hn. rewrite nth_error_map in Hn. destruct (nth_error (faces inp) n) as [it|] eqn:Ei; [|discriminate].
  cbn in Hn. injection Hn as <-. apply (E3 n it L Ei HL).
Qed.
