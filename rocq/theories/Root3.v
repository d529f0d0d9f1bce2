(** * Root3: combinatorics of the sqrt(3) split with flipped edges.

    Every triangle of a chosen set gets a centre; the edges between two chosen
    triangles are flipped to join the two centres.  Proper, orientable and
    umbrella-shaped inputs give outputs with the same properties. *)
From Coq Require Import Permutation.
From Verif Require Import Base Mesh Spec Lists AddFace SplitTri Split Valid.

Lemma tdirs_corner t a b : In (a, b) (tdirs t) <-> exists c, In (a, b, c) (tcorners t).
Proof.
  destruct t as [[x y] z]. cbn. split.
  - intros H. in_cases H; inv H; eexists; eauto.
  - intros [c H]. in_cases H; inv H; auto.
Qed.
Lemma tdirs_corner_next t a b : In (a, b) (tdirs t) <-> exists c, In (c, a, b) (tcorners t).
Proof.
  destruct t as [[x y] z]. cbn. split.
  - intros H. in_cases H; inv H; eexists; eauto.
  - intros [c H]. in_cases H; inv H; auto.
Qed.
Lemma tcorners_rot t a b c : In (a, b, c) (tcorners t) -> In (b, c, a) (tcorners t).
Proof. destruct t as [[x y] z]. cbn. intros H. in_cases H; inv H; auto. Qed.
Lemma tcorners_verts3 t a b c : In (a, b, c) (tcorners t) -> forall x, In x (tverts t) <-> In x [a; b; c].
Proof. destruct t as [[u v] w]. cbn. intros H x. in_cases H; inv H; tauto. Qed.

Lemma NoDup_map_in {A B} (f : A -> B) l :
  (forall x y, In x l -> In y l -> f x = f y -> x = y) -> NoDup l -> NoDup (map f l).
Proof.
  induction l as [|a l IH]; intros Hf Hnd; cbn; [constructor|]. inv Hnd. constructor.
  - intros H. apply in_map_iff in H. destruct H as [y [E Hy]].
    assert (y = a) by (apply Hf; cbn; auto). subst. contradiction.
  - apply IH; auto. intros x y Hx Hy. apply Hf; cbn; auto.
Qed.

Section ROOT3.
Variable T : list tri.
Variable Cen : tri -> option N.       (* the centre of a triangle, if it gets one *)
Variable old : N -> Prop.             (* the ids of the input points *)

Record centring : Prop := {
  c_inj : forall t u g, In t T -> In u T -> Cen t = Some g -> Cen u = Some g -> t = u;
  c_fresh : forall t g, In t T -> Cen t = Some g -> ~ old g;
  c_old : forall t x, In t T -> In x (tverts t) -> old x;
  c_proper : forall t, In t T -> proper t;
  c_dirs : NoDup (dirs T);
  c_notwin : forall t u, In t T -> In u T -> same_verts t u -> t = u;
  c_umb : forall b, umbrella T b
}.

(** The centre of the face with the oriented edge (a, b). *)
Definition has_dir (e : N * N) (t : tri) : bool := mem_dedge e (tdirs t).
Definition cenE (e : N * N) : option N :=
  match find (has_dir e) T with Some t => Cen t | None => None end.

(** The new triangle at the oriented edge (a, b) of a triangle with centre g. *)
Definition etri (g a b : N) : tri :=
  match cenE (b, a) with Some h => (g, h, b) | None => (a, b, g) end.
Definition tri3 (t : tri) : list tri :=
  match Cen t with
  | None => [t]
  | Some g => map (fun e => etri g (fst e) (snd e)) (tdirs t)
  end.
Definition root3 : list tri := flat_map tri3 T.

Hypothesis HC : centring.

Lemma c_unique t u e : In t T -> In u T -> In e (tdirs t) -> In e (tdirs u) -> t = u.
Proof.
  intros Ht Hu H1 H2. apply In_nth_error in Ht. apply In_nth_error in Hu.
  destruct Ht as [i Ht], Hu as [j Hu].
  assert (i = j) by (eapply NoDup_dirs_index; eauto; apply (c_dirs HC)). congruence.
Qed.

Lemma cenE_face t e : In t T -> In e (tdirs t) -> cenE e = Cen t.
Proof.
  intros Ht He. unfold cenE. destruct (find (has_dir e) T) as [u|] eqn:E.
  - apply find_some in E. destruct E as [Hu E]. apply mem_dedge_In in E. f_equal. eapply c_unique; eauto.
  - exfalso. pose proof (find_none _ _ E t Ht) as H. unfold has_dir in H.
    assert (mem_dedge e (tdirs t) = true) by (apply mem_dedge_In; exact He). congruence.
Qed.
Lemma cenE_Some e g : cenE e = Some g -> exists t, In t T /\ In e (tdirs t) /\ Cen t = Some g.
Proof.
  unfold cenE. destruct (find (has_dir e) T) as [u|] eqn:E; [|discriminate].
  intros H. apply find_some in E. destruct E as [Hu E]. apply mem_dedge_In in E. eauto.
Qed.
Lemma cenE_None e : cenE e = None <-> forall t, In t T -> In e (tdirs t) -> Cen t = None.
Proof.
  split.
  - intros H t Ht He. rewrite <- (cenE_face t e Ht He). exact H.
  - intros H. destruct (cenE e) as [g|] eqn:E; [|reflexivity]. apply cenE_Some in E.
    destruct E as [t [Ht [He E]]]. rewrite (H t Ht He) in E. discriminate.
Qed.
Lemma cenE_fresh e g : cenE e = Some g -> ~ old g.
Proof. intros H. apply cenE_Some in H. destruct H as [t [Ht [_ H]]]. eapply (c_fresh HC); eauto. Qed.
Lemma dir_old a b : In (a, b) (dirs T) -> old a /\ old b /\ a <> b.
Proof.
  intros H. apply dirs_tri in H. destruct H as [t [Ht H]]. destruct (tdirs_verts _ _ _ H) as [Va Vb].
  split; [|split]; [eapply (c_old HC); eauto..|].
  pose proof (c_proper HC t Ht) as Hp. destruct t as [[x y] z]. cbn in *. in_cases H; inv H; intuition congruence.
Qed.

(** Two triangles that share one edge share no other. *)
Lemma one_shared t u a b c d : In t T -> In u T -> In (a, b) (tdirs t) -> In (c, d) (tdirs t) ->
  In (b, a) (tdirs u) -> In (d, c) (tdirs u) -> (a, b) = (c, d).
Proof.
  intros Ht Hu H1 H2 H3 H4.
  destruct (dedge_dec (a, b) (c, d)) as [E|Hne]; [exact E|exfalso].
  pose proof (c_proper HC t Ht) as Hp. pose proof (c_proper HC u Hu) as Hq.
  assert (Htu : t = u).
  { apply (c_notwin HC); try assumption. intros x.
    destruct t as [[t0 t1] t2], u as [[u0 u1] u2]. cbn in *.
    in_cases H1; inv H1; in_cases H2; inv H2; try congruence;
    in_cases H3; inv H3; in_cases H4; inv H4; intuition congruence. }
  subst u. destruct t as [[t0 t1] t2]. cbn in *.
  in_cases H1; inv H1; in_cases H3; inv H3; intuition congruence.
Qed.

Lemma root3_In w : In w root3 <->
  (In w T /\ Cen w = None) \/
  exists t g a b, In t T /\ Cen t = Some g /\ In (a, b) (tdirs t) /\ w = etri g a b.
Proof.
  unfold root3. rewrite in_flat_map. split.
  - intros [t [Ht H]]. unfold tri3 in H. destruct (Cen t) as [g|] eqn:E.
    + apply in_map_iff in H. destruct H as [[a b] [<- H]]. right. exists t, g, a, b. auto.
    + destruct H as [<-|[]]. auto.
  - intros [[Hw E]|[t [g [a [b [Ht [E [H ->]]]]]]]].
    + exists w. split; [exact Hw|]. unfold tri3. rewrite E. cbn. auto.
    + exists t. split; [exact Ht|]. unfold tri3. rewrite E. apply in_map_iff. exists (a, b). auto.
Qed.

(** The oriented edges of one new triangle. *)
Lemma etri_dirs g a b x y : In (x, y) (tdirs (etri g a b)) <->
  (x = b /\ y = g) \/
  (cenE (b, a) = None /\ ((x = a /\ y = b) \/ (x = g /\ y = a))) \/
  exists h, cenE (b, a) = Some h /\ ((x = g /\ y = h) \/ (x = h /\ y = b)).
Proof.
  unfold etri. destruct (cenE (b, a)) as [h|] eqn:E; cbn [tdirs In]; split.
  - intros H. in_cases H; inv H; eauto 10.
  - intros [[-> ->]|[[H _]|[h' [H [[-> ->]|[-> ->]]]]]]; try discriminate; try (inv H); auto.
  - intros H. in_cases H; inv H; eauto 10.
  - intros [[-> ->]|[[H [[-> ->]|[-> ->]]]|[h' [H _]]]]; try discriminate; auto.
Qed.

(** An edge of a triangle is determined by its origin, or by its destination. *)
Lemma tdirs_org t a b b' : proper t -> In (a, b) (tdirs t) -> In (a, b') (tdirs t) -> b = b'.
Proof. destruct t as [[x y] z]. cbn. intros Hp H H'. in_cases H; inv H; in_cases H'; inv H'; intuition congruence. Qed.
Lemma tdirs_dst t a a' b : proper t -> In (a, b) (tdirs t) -> In (a', b) (tdirs t) -> a = a'.
Proof. destruct t as [[x y] z]. cbn. intros Hp H H'. in_cases H; inv H; in_cases H'; inv H'; intuition congruence. Qed.

(** [t] has centre [g] and the oriented edge (a, b). *)
Definition at_edge (t : tri) (g a b : N) : Prop := In t T /\ Cen t = Some g /\ In (a, b) (tdirs t).

Lemma at_edge_cenE t g a b : at_edge t g a b -> cenE (a, b) = Some g.
Proof. intros [Ht [Hg H]]. rewrite (cenE_face t _ Ht H). exact Hg. Qed.
Lemma at_edge_old t g a b : at_edge t g a b -> old a /\ old b /\ a <> b /\ ~ old g.
Proof.
  intros [Ht [Hg H]]. assert (Hd : In (a, b) (dirs T)) by (apply dirs_tri; eauto).
  destruct (dir_old _ _ Hd) as [? [? ?]]. repeat split; auto. eapply (c_fresh HC); eauto.
Qed.
Lemma at_edge_eq t g a b t' g' a' b' : at_edge t g a b -> at_edge t' g' a' b' -> (a, b) = (a', b') -> t = t' /\ g = g'.
Proof.
  intros [Ht [Hg H]] [Ht' [Hg' H']] E. inv E. assert (t = t') by (eapply c_unique; eauto). subst. split; congruence.
Qed.
Lemma cenE_at a b g : cenE (a, b) = Some g -> exists t, at_edge t g a b.
Proof. intros H. apply cenE_Some in H. destruct H as [t [H1 [H2 H3]]]. exists t. split; auto. Qed.

(** The oriented edges tell the new triangles apart. *)
Lemma etri_unique t g a b t' g' a' b' x y :
  at_edge t g a b -> at_edge t' g' a' b' ->
  In (x, y) (tdirs (etri g a b)) -> In (x, y) (tdirs (etri g' a' b')) -> (a, b) = (a', b').
Proof.
  intros A A' H H'.
  destruct (at_edge_old _ _ _ _ A) as [Oa [Ob [Nab Ng]]]. destruct (at_edge_old _ _ _ _ A') as [Oa' [Ob' [Nab' Ng']]].
  pose proof A as [Ht [Hg He]]. pose proof A' as [Ht' [Hg' He']].
  assert (Hsame : g = g' -> t = t') by (intros ->; eapply (c_inj HC); eauto).
  apply etri_dirs in H. apply etri_dirs in H'.
  destruct H as [[Ex Ey]|[[Hn [[Ex Ey]|[Ex Ey]]]|[h [Hh [[Ex Ey]|[Ex Ey]]]]]];
  destruct H' as [[Ex' Ey']|[[Hn' [[Ex' Ey']|[Ex' Ey']]]|[h' [Hh' [[Ex' Ey']|[Ex' Ey']]]]]];
  subst x; subst y;
  try (pose proof (cenE_fresh _ _ Hh)); try (pose proof (cenE_fresh _ _ Hh'));
  try (subst; contradiction); try congruence.
  - (* b g *) subst. rewrite (Hsame eq_refl) in He. f_equal. eapply tdirs_dst; eauto. apply (c_proper HC); auto.
  - (* g a / g' a' *) subst. rewrite (Hsame eq_refl) in He. f_equal. eapply tdirs_org; eauto. apply (c_proper HC); auto.
  - (* g a / h' b' *) subst. apply cenE_at in Hh'. destruct Hh' as [u [Hu [Hgu Heu]]].
    assert (t = u) by (eapply (c_inj HC); eauto). subst u.
    assert (b = a') by (eapply tdirs_org; eauto; apply (c_proper HC); auto). subst a'.
    rewrite (at_edge_cenE _ _ _ _ A') in Hn. discriminate.
  - (* g h / g' h' *) subst. rewrite (Hsame eq_refl) in He.
    apply cenE_at in Hh. apply cenE_at in Hh'. destruct Hh as [u [Hu [Hgu Heu]]], Hh' as [u' [Hu' [Hgu' Heu']]].
    assert (u = u') by (eapply (c_inj HC); eauto). subst u'.
    exact (one_shared t' u a b a' b' Ht' Hu He He' Heu Heu').
  - (* h b / g' a' *) subst. apply cenE_at in Hh. destruct Hh as [u [Hu [Hgu Heu]]].
    assert (t' = u) by (eapply (c_inj HC); eauto). subst u.
    assert (b' = a) by (eapply tdirs_org; eauto; apply (c_proper HC); auto). subst.
    rewrite (at_edge_cenE _ _ _ _ A) in Hn'. discriminate.
  - (* h b / h' b' *) subst. apply cenE_at in Hh. apply cenE_at in Hh'. destruct Hh as [u [Hu [Hgu Heu]]], Hh' as [u' [Hu' [Hgu' Heu']]].
    assert (u = u') by (eapply (c_inj HC); eauto). subst u'.
    f_equal. eapply tdirs_org; eauto. apply (c_proper HC); auto.
Qed.

Lemma etri_proper t g a b : at_edge t g a b -> proper (etri g a b).
Proof.
  intros A. destruct (at_edge_old _ _ _ _ A) as [Oa [Ob [Nab Ng]]]. unfold etri.
  destruct (cenE (b, a)) as [h|] eqn:E; cbn.
  - pose proof (cenE_fresh _ _ E) as Hh. repeat split; intros Hx; subst; try contradiction.
    apply cenE_at in E. destruct E as [u [Hu [Hgu Heu]]]. destruct A as [Ht [Hg He]].
    assert (t = u) by (eapply (c_inj HC); eauto). subst u.
    pose proof (c_proper HC t Ht) as Hp. destruct t as [[x y] z]. cbn in *.
    in_cases He; inv He; in_cases Heu; inv Heu; intuition congruence.
  - repeat split; intros Hx; subst; contradiction || congruence.
Qed.

(** An edge of a new triangle is not an oriented edge of a kept one. *)
Lemma etri_kept t g a b u x y : at_edge t g a b -> In u T -> Cen u = None ->
  In (x, y) (tdirs (etri g a b)) -> In (x, y) (tdirs u) -> False.
Proof.
  intros A Hu Hn H H'. destruct (at_edge_old _ _ _ _ A) as [Oa [Ob [Nab Ng]]].
  assert (Hd : In (x, y) (dirs T)) by (apply dirs_tri; eauto). destruct (dir_old _ _ Hd) as [Ox [Oy _]].
  apply etri_dirs in H.
  destruct H as [[Ex Ey]|[[Hb [[Ex Ey]|[Ex Ey]]]|[h [Hh [[Ex Ey]|[Ex Ey]]]]]]; subst;
    try contradiction; try (pose proof (cenE_fresh _ _ Hh); contradiction).
  destruct A as [Ht [Hg He]]. assert (t = u) by (eapply c_unique; eauto). congruence.
Qed.

Lemma dirs_nodup (U : list tri) : NoDup U -> (forall t, In t U -> proper t) ->
  (forall t u e, In t U -> In u U -> In e (tdirs t) -> In e (tdirs u) -> t = u) -> NoDup (dirs U).
Proof.
  intros H1 H2 H3. apply NoDup_flat_map; auto. intros t Ht. apply H2 in Ht. destruct t as [[a b] c]. cbn in *.
  repeat (apply NoDup_cons; [cbn [In]; intuition congruence|]). apply NoDup_nil.
Qed.

Lemma root3_unique w w' e : In w root3 -> In w' root3 -> In e (tdirs w) -> In e (tdirs w') -> w = w'.
Proof.
  rewrite !root3_In. destruct e as [x y].
  intros [[Hw E]|[t [g [a [b [Ht [E [H ->]]]]]]]] [[Hw' E']|[t' [g' [a' [b' [Ht' [E' [H' ->]]]]]]]] H1 H2.
  - eapply c_unique; eauto.
  - exfalso. eapply (etri_kept t' g' a' b' w); eauto. split; auto.
  - exfalso. eapply (etri_kept t g a b w'); eauto. split; auto.
  - assert (A : at_edge t g a b) by (split; auto). assert (A' : at_edge t' g' a' b') by (split; auto).
    pose proof (etri_unique _ _ _ _ _ _ _ _ _ _ A A' H1 H2) as Ee.
    destruct (at_edge_eq _ _ _ _ _ _ _ _ A A' Ee) as [-> ->]. inv Ee. reflexivity.
Qed.

Lemma root3_proper w : In w root3 -> proper w.
Proof.
  rewrite root3_In. intros [[Hw _]|[t [g [a [b [Ht [E [H ->]]]]]]]].
  - apply (c_proper HC). exact Hw.
  - apply (etri_proper t). split; auto.
Qed.

Lemma etri_has_own g a b : In (b, g) (tdirs (etri g a b)).
Proof. apply etri_dirs. auto. Qed.

Lemma root3_nodup : NoDup root3.
Proof.
  unfold root3. apply NoDup_flat_map.
  - apply NoDup_dirs_NoDup. apply (c_dirs HC).
  - intros t Ht. unfold tri3. destruct (Cen t) as [g|] eqn:E; [|repeat constructor; auto].
    assert (Hp := c_proper HC t Ht).
    apply NoDup_map_in; [|destruct t as [[a b] c]; cbn in *;
      repeat (apply NoDup_cons; [cbn [In]; intuition congruence|]); apply NoDup_nil].
    intros [a b] [a' b'] H H' Ee. cbn [fst snd] in Ee.
    apply (etri_unique t g a b t g a' b' b g); try (split; auto; fail).
    + apply etri_has_own.
    + rewrite <- Ee. apply etri_has_own.
  - intros t u w Ht Hu H1 H2. unfold tri3 in *.
    destruct (Cen t) as [g|] eqn:E, (Cen u) as [g'|] eqn:E'.
    + apply in_map_iff in H1, H2. destruct H1 as [[a b] [<- H1]], H2 as [[a' b'] [Ew H2]]. cbn [fst snd] in *.
      assert (A : at_edge t g a b) by (split; auto). assert (A' : at_edge u g' a' b') by (split; auto).
      apply (at_edge_eq _ _ _ _ _ _ _ _ A A').
      apply (etri_unique t g a b u g' a' b' b g A A'); [apply etri_has_own|rewrite Ew; apply etri_has_own].
    + apply in_map_iff in H1. destruct H1 as [[a b] [<- H1]]. cbn [fst snd] in *. destruct H2 as [->|[]].
      exfalso. eapply (etri_kept t g a b (etri g a b) b g); auto using etri_has_own. split; auto.
    + apply in_map_iff in H2. destruct H2 as [[a b] [<- H2]]. cbn [fst snd] in *. destruct H1 as [->|[]].
      exfalso. eapply (etri_kept u g' a b (etri g' a b) b g'); auto using etri_has_own. split; auto.
    + destruct H1 as [->|[]]. destruct H2 as [->|[]]. reflexivity.
Qed.

Lemma root3_dirs_nodup : NoDup (dirs root3).
Proof. apply dirs_nodup; [apply root3_nodup|apply root3_proper|apply root3_unique]. Qed.

Lemma root3_verts w x : In w root3 -> In x (tverts w) -> old x \/ exists t, In t T /\ Cen t = Some x.
Proof.
  rewrite root3_In. intros [[Hw _]|[t [g [a [b [Ht [E [H ->]]]]]]]] Hx.
  - left. eapply (c_old HC); eauto.
  - assert (A : at_edge t g a b) by (split; auto). destruct (at_edge_old _ _ _ _ A) as [Oa [Ob _]].
    unfold etri in Hx. destruct (cenE (b, a)) as [h|] eqn:Eh; cbn in Hx; in_cases Hx; subst; eauto.
    apply cenE_at in Eh. destruct Eh as [u [Hu [Hgu _]]]. eauto.
Qed.

Lemma verts_old_new t g a b : at_edge t g a b -> forall x, In x (tverts (etri g a b)) ->
  (old x -> x = b \/ (x = a /\ cenE (b, a) = None)) /\ (~ old x -> x = g \/ cenE (b, a) = Some x).
Proof.
  intros A x Hx. destruct (at_edge_old _ _ _ _ A) as [Oa [Ob [Nab Ng]]].
  unfold etri in Hx. destruct (cenE (b, a)) as [h|] eqn:E.
  - pose proof (cenE_fresh _ _ E). cbn in Hx. in_cases Hx; subst; split; intros; try contradiction; auto.
  - cbn in Hx. in_cases Hx; subst; split; intros; try contradiction; auto.
Qed.

Lemma root3_notwin w w' : In w root3 -> In w' root3 -> same_verts w w' -> w = w'.
Proof.
  rewrite !root3_In.
  intros [[Hw E]|[t [g [a [b [Ht [E [H ->]]]]]]]] [[Hw' E']|[t' [g' [a' [b' [Ht' [E' [H' ->]]]]]]]] Hs.
  - apply (c_notwin HC); auto.
  - exfalso. assert (A' : at_edge t' g' a' b') by (split; auto).
    apply (c_fresh HC t' g' Ht' E'). apply (c_old HC w); [exact Hw|]. apply Hs.
    unfold etri. destruct (cenE (b', a')); cbn; auto.
  - exfalso. apply (c_fresh HC t g Ht E). apply (c_old HC w'); [exact Hw'|]. apply Hs.
    unfold etri. destruct (cenE (b, a)); cbn; auto.
  - assert (A : at_edge t g a b) by (split; auto). assert (A' : at_edge t' g' a' b') by (split; auto).
    destruct (at_edge_old _ _ _ _ A) as [Oa [Ob [Nab Ng]]]. destruct (at_edge_old _ _ _ _ A') as [Oa' [Ob' [Nab' Ng']]].
    assert (Hgoal : (a, b) = (a', b') -> etri g a b = etri g' a' b').
    { intros Ee. destruct (at_edge_eq _ _ _ _ _ _ _ _ A A' Ee) as [-> ->]. inv Ee. reflexivity. }
    unfold etri in Hs, Hgoal |- *.
    destruct (cenE (b, a)) as [h|] eqn:Eh, (cenE (b', a')) as [h'|] eqn:Eh'; unfold same_verts in Hs; cbn [tverts In] in Hs.
    + pose proof (cenE_fresh _ _ Eh) as Nh. pose proof (cenE_fresh _ _ Eh') as Nh'.
      pose proof (proj1 (Hs b) ltac:(auto)) as Hb.
      assert (b = b') by (destruct Hb as [<-|[<-|[<-|[]]]]; contradiction || reflexivity). subst b'.
      pose proof (proj1 (Hs g) ltac:(auto)) as Hg. pose proof (proj1 (Hs h) ltac:(auto)) as Hh.
      pose proof (proj2 (Hs g') ltac:(auto)) as Hg'. pose proof (proj2 (Hs h') ltac:(auto)) as Hh'.
      apply cenE_at in Eh. apply cenE_at in Eh'. destruct Eh as [u Au]. destruct Eh' as [u' Au'].
      assert (Hgh : (g = g' /\ h = h') \/ (g = h' /\ h = g')).
      { assert (g <> b /\ h <> b /\ g' <> b /\ h' <> b) as [? [? [? ?]]] by (repeat split; intros ->; contradiction).
        assert (Hne : g <> h).
        { pose proof (etri_proper t g a b A) as Hp. unfold etri in Hp. rewrite (at_edge_cenE _ _ _ _ Au) in Hp. apply Hp. }
        assert (Hne' : g' <> h').
        { pose proof (etri_proper t' g' a' b A') as Hp. unfold etri in Hp. rewrite (at_edge_cenE _ _ _ _ Au') in Hp. apply Hp. }
        intuition congruence. }
      destruct Hgh as [[-> ->]|[-> ->]].
      * apply Hgoal. assert (t = t') by (eapply (c_inj HC); eauto). subst t'.
        destruct Au as [Hu [Hgu Heu]], Au' as [Hu' [Hgu' Heu']].
        assert (u = u') by (eapply (c_inj HC); eauto). subst u'.
        exact (one_shared t u a b a' b Ht Hu H H' Heu Heu').
      * exfalso. destruct Au as [Hu [Hgu Heu]], Au' as [Hu' [Hgu' Heu']].
        assert (t = u') by (eapply (c_inj HC); eauto). assert (u = t') by (eapply (c_inj HC); eauto). subst u' u.
        (* (a,b), (b,a') in t;  (b,a), (a',b) in t' *)
        assert (Ee := one_shared t t' a b b a' Ht Ht' H Heu' Heu H'). inv Ee. congruence.
    + exfalso. pose proof (cenE_fresh _ _ Eh) as Nh.
      pose proof (proj1 (Hs g) ltac:(auto)) as Hg. pose proof (proj1 (Hs h) ltac:(auto)) as Hh.
      assert (g = g') by (destruct Hg as [<-|[<-|[<-|[]]]]; contradiction || reflexivity).
      assert (h = g') by (destruct Hh as [<-|[<-|[<-|[]]]]; contradiction || reflexivity).
      pose proof (etri_proper t g a b A) as Hp. unfold etri in Hp. rewrite Eh in Hp. destruct Hp. congruence.
    + exfalso. pose proof (cenE_fresh _ _ Eh') as Nh.
      pose proof (proj2 (Hs g') ltac:(auto)) as Hg. pose proof (proj2 (Hs h') ltac:(auto)) as Hh.
      assert (g' = g) by (destruct Hg as [<-|[<-|[<-|[]]]]; contradiction || reflexivity).
      assert (h' = g) by (destruct Hh as [<-|[<-|[<-|[]]]]; contradiction || reflexivity).
      pose proof (etri_proper t' g' a' b' A') as Hp. unfold etri in Hp. rewrite Eh' in Hp. destruct Hp. congruence.
    + apply Hgoal. pose proof (proj1 (Hs g) ltac:(auto)) as Hg.
      assert (g = g') by (destruct Hg as [<-|[<-|[<-|[]]]]; contradiction || reflexivity). subst g'.
      assert (t = t') by (eapply (c_inj HC); eauto). subst t'.
      pose proof (proj1 (Hs a) ltac:(auto)) as Ha. pose proof (proj1 (Hs b) ltac:(auto)) as Hb.
      assert (Ha' : a = a' \/ a = b') by (destruct Ha as [<-|[<-|[<-|[]]]]; auto; contradiction).
      assert (Hb' : b = a' \/ b = b') by (destruct Hb as [<-|[<-|[<-|[]]]]; auto; contradiction).
      destruct Ha' as [-> | ->], Hb' as [-> | ->]; try congruence.
      pose proof (c_proper HC t Ht) as Hp. destruct t as [[x y] z]. cbn in *.
      in_cases H; inv H; in_cases H'; inv H'; intuition congruence.
Qed.

(** ** Umbrellas *)
Lemma corner_in w p b n : In w root3 -> In (p, b, n) (tcorners w) -> In (p, b, n) (corners root3).
Proof. intros. apply in_flat_map. eauto. Qed.

Lemma etri_in t g a b : at_edge t g a b -> In (etri g a b) root3.
Proof. intros [Ht [Hg H]]. apply root3_In. right. exists t, g, a, b. auto. Qed.

(** Corners around an old point [b] at the face [t] with corner (p, b, n) and centre [g]:
    coming from the edge (p, b), then from the edge (b, n). *)
Lemma corner_before t g p b n : In t T -> Cen t = Some g -> In (p, b, n) (tcorners t) ->
  In (odef (cenE (b, p)) p, b, g) (corners root3).
Proof.
  intros Ht Hg Hc. assert (H : In (p, b) (tdirs t)) by (apply tdirs_corner; eauto).
  assert (A : at_edge t g p b) by (split; auto).
  apply (corner_in _ _ _ _ (etri_in _ _ _ _ A)). unfold etri. destruct (cenE (b, p)) as [h|] eqn:E; cbn; auto.
Qed.
Lemma corner_after_kept t g p b n : In t T -> Cen t = Some g -> In (p, b, n) (tcorners t) ->
  cenE (n, b) = None -> In (g, b, n) (corners root3).
Proof.
  intros Ht Hg Hc E. assert (H : In (b, n) (tdirs t)) by (apply tdirs_corner_next; eauto).
  assert (A : at_edge t g b n) by (split; auto).
  apply (corner_in _ _ _ _ (etri_in _ _ _ _ A)). unfold etri. rewrite E. cbn. auto.
Qed.
Lemma corner_copy t p b n : In t T -> Cen t = None -> In (p, b, n) (tcorners t) -> In (p, b, n) (corners root3).
Proof. intros Ht E Hc. apply (corner_in t); [|exact Hc]. apply root3_In. auto. Qed.

(** Neighbours of an old point in the new mesh. *)
Lemma root3_nbr_old b y : old b -> nbr root3 b y ->
  (old y /\ nbr T b y /\ (cenE (b, y) = None \/ cenE (y, b) = None)) \/
  exists t p n, In t T /\ Cen t = Some y /\ In (p, b, n) (tcorners t).
Proof.
  intros Ob Hn.
  assert (Hw : exists w, In w root3 /\ (In (b, y) (tdirs w) \/ In (y, b) (tdirs w))).
  { destruct Hn as [H|H]; apply dirs_tri in H; destruct H as [w [Hw H]]; eauto. }
  destruct Hw as [w [Hw Hd]]. apply root3_In in Hw.
  destruct Hw as [[Hw E]|[t [g [a [c [Ht [E [H ->]]]]]]]].
  - left. assert (Hd' : In (b, y) (dirs T) \/ In (y, b) (dirs T)).
    { destruct Hd as [Hd|Hd]; [left|right]; apply dirs_tri; eauto. }
    split; [|split].
    + destruct Hd' as [H|H]; apply dir_old in H; tauto.
    + exact Hd'.
    + destruct Hd as [Hd|Hd]; [left|right]; rewrite (cenE_face w _ Hw Hd); exact E.
  - assert (A : at_edge t g a c) by (split; auto). destruct (at_edge_old _ _ _ _ A) as [Oa [Oc [Nac Ng]]].
    assert (Hv : exists p n, In (p, c, n) (tcorners t)).
    { apply tdirs_corner in H. destruct H as [n H]. eauto. }
    assert (Hv' : exists p n, In (p, a, n) (tcorners t)).
    { apply tdirs_corner_next in H. destruct H as [p H]. eauto. }
    destruct Hv as [p1 [n1 Hv]], Hv' as [p2 [n2 Hv']].
    assert (Hh : forall h, cenE (c, a) = Some h -> exists u p n, In u T /\ Cen u = Some h /\ In (p, c, n) (tcorners u)).
    { intros h Hh. apply cenE_at in Hh. destruct Hh as [u [Hu [Hgu Heu]]].
      apply tdirs_corner_next in Heu. destruct Heu as [p Heu]. exists u, p, a. auto. }
    destruct Hd as [Hd|Hd]; apply etri_dirs in Hd;
    destruct Hd as [[Ex Ey]|[[Hb [[Ex Ey]|[Ex Ey]]]|[h [Hb [[Ex Ey]|[Ex Ey]]]]]]; subst;
      try contradiction; try (pose proof (cenE_fresh _ _ Hb); contradiction); eauto 10.
    + left. split; [exact Oc|]. split; [|auto]. left. apply dirs_tri. eauto.
    + left. split; [exact Oa|]. split; [|auto]. right. apply dirs_tri. eauto.
Qed.

Lemma root3_dir_old x y : old x -> old y -> In (x, y) (dirs root3) ->
  In (x, y) (dirs T) /\ (cenE (x, y) = None \/ cenE (y, x) = None).
Proof.
  intros Ox Oy H. apply dirs_tri in H. destruct H as [w [Hw Hd]]. apply root3_In in Hw.
  destruct Hw as [[Hw E]|[t [g [a [b [Ht [E [H ->]]]]]]]].
  - split; [apply dirs_tri; eauto|]. left. rewrite (cenE_face w _ Hw Hd). exact E.
  - assert (A : at_edge t g a b) by (split; auto). destruct (at_edge_old _ _ _ _ A) as [Oa [Ob [Nab Ng]]].
    apply etri_dirs in Hd.
    destruct Hd as [[Ex Ey]|[[Hb [[Ex Ey]|[Ex Ey]]]|[h [Hb [[Ex Ey]|[Ex Ey]]]]]]; subst;
      try contradiction; try (pose proof (cenE_fresh _ _ Hb); contradiction).
    split; [apply dirs_tri; eauto|auto].
Qed.

Definition nbl (b : N) : list N :=
  flat_map (fun e => (if N.eqb (fst e) b then [snd e] else []) ++ (if N.eqb (snd e) b then [fst e] else [])) (dirs T).
Lemma nbl_In b n : In n (nbl b) <-> nbr T b n.
Proof.
  unfold nbl, nbr. rewrite in_flat_map. split.
  - intros [[x y] [H Hn]]. cbn [fst snd] in Hn. apply in_app_or in Hn.
    destruct Hn as [Hn|Hn].
    + destruct (N.eqb_spec x b); [|destruct Hn]. destruct Hn as [<-|[]]. subst. auto.
    + destruct (N.eqb_spec y b); [|destruct Hn]. destruct Hn as [<-|[]]. subst. auto.
  - intros [H|H]; eexists; (split; [exact H|]); cbn [fst snd]; apply in_or_app;
      [left|right]; rewrite N.eqb_refl; cbn; auto.
Qed.

(** What stands for the edge {b, n} around [b]: [n] itself, or the centre left of (b, n) if
    the edge is flipped. *)
Definition rep (b n : N) : N :=
  match cenE (n, b), cenE (b, n) with Some _, Some g => g | _, _ => n end.

Lemma root3_umbrella_old b : old b -> umbrella root3 b.
Proof.
  intros Ob S Hne Hsub Hcl y Hy.
  assert (Hpred : forall p x, In x S -> In (p, b, x) (corners root3) -> In p S).
  { intros p x Hx Hc. destruct (Hcl x Hx) as [q [Hq Hc']].
    rewrite (corner_fun _ _ _ _ _ root3_dirs_nodup Hc Hc'). exact Hq. }
  assert (Hcen : forall t g p n, In t T -> Cen t = Some g -> In (p, b, n) (tcorners t) -> In (rep b n) S -> In g S).
  { intros t g p n Ht Hg Hc Hr. assert (Hd : In (b, n) (tdirs t)) by (apply tdirs_corner_next; eauto).
    pose proof (cenE_face t _ Ht Hd) as E. rewrite Hg in E. unfold rep in Hr. rewrite E in Hr.
    destruct (cenE (n, b)) as [h|] eqn:En; [exact Hr|].
    apply (Hpred g n Hr). eapply corner_after_kept; eauto. }
  assert (Hprev : forall t g p n, In t T -> Cen t = Some g -> In (p, b, n) (tcorners t) -> In g S -> In (rep b p) S).
  { intros t g p n Ht Hg Hc Hin. pose proof (corner_before t g p b n Ht Hg Hc) as Hcb.
    apply (Hpred _ _ Hin) in Hcb. assert (Hd : In (p, b) (tdirs t)) by (apply tdirs_corner; eauto).
    pose proof (cenE_face t _ Ht Hd) as E. rewrite Hg in E. unfold rep. rewrite E.
    destruct (cenE (b, p)); exact Hcb. }
  assert (Hstep : forall t p n, In t T -> In (p, b, n) (tcorners t) -> In (rep b n) S -> In (rep b p) S).
  { intros t p n Ht Hc Hr. destruct (Cen t) as [g|] eqn:Hg; [eauto|].
    assert (Hd : In (b, n) (tdirs t)) by (apply tdirs_corner_next; eauto).
    assert (Hd' : In (p, b) (tdirs t)) by (apply tdirs_corner; eauto).
    pose proof (cenE_face t _ Ht Hd) as E. pose proof (cenE_face t _ Ht Hd') as E'. rewrite Hg in E, E'.
    unfold rep in Hr |- *. rewrite E in Hr. rewrite E'.
    assert (Hn : In n S) by (destruct (cenE (n, b)); exact Hr).
    apply (Hpred p n Hn). eapply corner_copy; eauto. }
  set (S' := filter (fun n => memN (rep b n) S) (nbl b)).
  assert (HS' : forall n, In n S' <-> nbr T b n /\ In (rep b n) S).
  { intros n. unfold S'. rewrite filter_In, nbl_In, memN_In. reflexivity. }
  assert (Hold : forall n, nbr T b n -> old n).
  { intros n [H|H]; apply dir_old in H; tauto. }
  assert (Hall : forall n, nbr T b n -> In n S').
  { apply (c_umb HC b S').
    - (* not empty *)
      destruct S as [|x S0] eqn:ES; [congruence|]. rewrite <- ES in *.
      assert (Hx : In x S) by (rewrite ES; cbn; auto).
      destruct (root3_nbr_old b x Ob (Hsub x Hx)) as [[Ox [Hn Hk]]|[t [p [n [Ht [Hg Hc]]]]]].
      + assert (In x S'); [|intros E; rewrite E in *; contradiction]. apply HS'. split; [exact Hn|].
        unfold rep. destruct Hk as [Hk|Hk]; rewrite Hk; [destruct (cenE (x, b))|]; exact Hx.
      + assert (In p S'); [|intros E; rewrite E in *; contradiction]. apply HS'. split; [|eapply Hprev; eauto].
        right. apply dirs_tri. exists t. split; [exact Ht|]. apply tdirs_corner. eauto.
    - intros n Hn. apply HS' in Hn. tauto.
    - intros n Hn. apply HS' in Hn. destruct Hn as [Hn Hr].
      assert (Hd : In (b, n) (dirs T)).
      { unfold rep in Hr. destruct (cenE (b, n)) as [g|] eqn:E.
        - apply cenE_Some in E. destruct E as [t [Ht [He _]]]. apply dirs_tri. eauto.
        - assert (Hn' : In n S) by (destruct (cenE (n, b)); exact Hr).
          destruct (Hcl n Hn') as [q [_ Hc]]. apply corner_dir in Hc. apply root3_dir_old in Hc; [tauto|exact Ob|auto]. }
      apply dirs_tri in Hd. destruct Hd as [t [Ht He]]. apply tdirs_corner_next in He. destruct He as [p Hc].
      exists p. split; [|apply in_flat_map; eauto]. apply HS'. split; [|eapply Hstep; eauto].
      right. apply dirs_tri. exists t. split; [exact Ht|]. apply tdirs_corner. eauto. }
  destruct (root3_nbr_old b y Ob Hy) as [[Oy [Hn Hk]]|[t [p [n [Ht [Hg Hc]]]]]].
  - apply Hall in Hn. apply HS' in Hn. destruct Hn as [_ Hr]. unfold rep in Hr.
    destruct Hk as [Hk|Hk]; rewrite Hk in Hr; [destruct (cenE (y, b))|]; exact Hr.
  - apply (Hcen t y p n Ht Hg Hc).
    assert (Hn : nbr T b n).
    { left. apply dirs_tri. exists t. split; [exact Ht|]. apply tdirs_corner_next. eauto. }
    apply Hall in Hn. apply HS' in Hn. tauto.
Qed.

(** Neighbours of a centre. *)
Lemma root3_nbr_new t g y : In t T -> Cen t = Some g -> nbr root3 g y ->
  In y (tverts t) \/ exists a b, In (a, b) (tdirs t) /\ cenE (b, a) = Some y.
Proof.
  intros Ht Hg Hn. assert (Ng : ~ old g) by (eapply (c_fresh HC); eauto).
  assert (Hw : exists w, In w root3 /\ (In (g, y) (tdirs w) \/ In (y, g) (tdirs w))).
  { destruct Hn as [H|H]; apply dirs_tri in H; destruct H as [w [Hw H]]; eauto. }
  destruct Hw as [w [Hw Hd]]. apply root3_In in Hw.
  destruct Hw as [[Hw E]|[t' [g' [a [b [Ht' [E [H ->]]]]]]]].
  - exfalso. assert (Hd' : In (g, y) (dirs T) \/ In (y, g) (dirs T)).
    { destruct Hd as [Hd|Hd]; [left|right]; apply dirs_tri; eauto. }
    destruct Hd' as [H|H]; apply dir_old in H; tauto.
  - assert (A : at_edge t' g' a b) by (split; auto). destruct (at_edge_old _ _ _ _ A) as [Oa [Ob [Nab Ng']]].
    assert (Hsame : g = g' -> t = t') by (intros ->; eapply (c_inj HC); eauto).
    assert (Hu : forall h, cenE (b, a) = Some h -> h = g -> In (b, a) (tdirs t)).
    { intros h Hh ->. apply cenE_at in Hh. destruct Hh as [u [Hu [Hgu Heu]]].
      assert (u = t) by (eapply (c_inj HC); eauto). subst. exact Heu. }
    destruct (tdirs_verts _ _ _ H) as [Va Vb].
    destruct Hd as [Hd|Hd]; apply etri_dirs in Hd;
    destruct Hd as [[Ex Ey]|[[Hb [[Ex Ey]|[Ex Ey]]]|[h [Hb [[Ex Ey]|[Ex Ey]]]]]]; subst; try contradiction.
    + left. rewrite Hsame by reflexivity. exact Va.
    + right. exists a, b. rewrite Hsame by reflexivity. auto.
    + left. pose proof (Hu h Hb eq_refl) as Hx. apply tdirs_verts in Hx. tauto.
    + left. rewrite Hsame by reflexivity. exact Vb.
    + right. exists b, a. split; [apply (Hu h Hb eq_refl)|]. apply (at_edge_cenE _ _ _ _ A).
Qed.

Lemma root3_umbrella_new t g : In t T -> Cen t = Some g -> umbrella root3 g.
Proof.
  intros Ht Hg S Hne Hsub Hcl y Hy.
  assert (Hpred : forall p x, In x S -> In (p, g, x) (corners root3) -> In p S).
  { intros p x Hx Hc. destruct (Hcl x Hx) as [q [Hq Hc']].
    rewrite (corner_fun _ _ _ _ _ root3_dirs_nodup Hc Hc'). exact Hq. }
  assert (Hh : forall a b h, In (a, b) (tdirs t) -> cenE (b, a) = Some h ->
            In (b, g, h) (corners root3) /\ In (h, g, a) (corners root3)).
  { intros a b h H Eh. assert (A : at_edge t g a b) by (split; auto). split.
    - apply (corner_in _ _ _ _ (etri_in _ _ _ _ A)). unfold etri. rewrite Eh. cbn. auto.
    - pose proof (cenE_at _ _ _ Eh) as [u Au]. apply (corner_in _ _ _ _ (etri_in _ _ _ _ Au)).
      unfold etri. rewrite (at_edge_cenE _ _ _ _ A). cbn. auto. }
  assert (Hn : forall a b, In (a, b) (tdirs t) -> cenE (b, a) = None -> In (b, g, a) (corners root3)).
  { intros a b H Eh. assert (A : at_edge t g a b) by (split; auto).
    apply (corner_in _ _ _ _ (etri_in _ _ _ _ A)). unfold etri. rewrite Eh. cbn. auto. }
  assert (Hturn : forall a b, In (a, b) (tdirs t) -> In a S -> In b S /\ forall h, cenE (b, a) = Some h -> In h S).
  { intros a b H Ha. destruct (cenE (b, a)) as [h|] eqn:Eh.
    - destruct (Hh a b h H Eh) as [C1 C2]. pose proof (Hpred _ _ Ha C2) as Hin.
      split; [eapply Hpred; eauto|]. intros h' Eq. inv Eq. exact Hin.
    - split; [apply (Hpred b a Ha); auto|discriminate]. }
  assert (Hex : exists x, In x (tverts t) /\ In x S).
  { destruct S as [|x S0] eqn:ES; [congruence|]. rewrite <- ES in *.
    assert (Hx : In x S) by (rewrite ES; cbn; auto).
    destruct (root3_nbr_new t g x Ht Hg (Hsub x Hx)) as [H|[a [b [H Eh]]]]; [eauto|].
    exists b. split; [apply tdirs_verts in H; tauto|]. destruct (Hh a b x H Eh) as [C1 _]. eapply Hpred; eauto. }
  assert (Hall : forall x, In x (tverts t) -> In x S).
  { destruct Hex as [x [Hx HxS]]. destruct t as [[a b] c]. cbn in Hx, Hturn |- *.
    assert (T1 := fun H => proj1 (Hturn a b ltac:(auto) H)).
    assert (T2 := fun H => proj1 (Hturn b c ltac:(auto) H)).
    assert (T3 := fun H => proj1 (Hturn c a ltac:(auto) H)).
    in_cases Hx; subst x; intros z Hz; in_cases Hz; subst z; auto. }
  destruct (root3_nbr_new t g y Ht Hg Hy) as [H|[a [b [H Eh]]]]; [auto|].
  apply (Hturn a b H); [|exact Eh]. apply Hall. apply tdirs_verts in H. tauto.
Qed.

Lemma root3_umbrella v : umbrella root3 v.
Proof.
  intros S Hne Hsub Hcl.
  assert (Hv : old v \/ exists t, In t T /\ Cen t = Some v).
  { destruct S as [|x S']; [congruence|]. destruct (Hcl x) as [p [_ Hc]]; [cbn; auto|].
    apply in_flat_map in Hc. destruct Hc as [w [Hw Hc]]. apply tcorners_verts in Hc.
    eapply root3_verts; [exact Hw|tauto]. }
  destruct Hv as [Hv|[t [Ht Hv]]].
  - apply (root3_umbrella_old v Hv S Hne Hsub Hcl).
  - apply (root3_umbrella_new t v Ht Hv S Hne Hsub Hcl).
Qed.

Lemma root3_good (P : N -> Prop) :
  (forall x, old x -> P x) -> (forall t g, In t T -> Cen t = Some g -> P g) -> good P root3.
Proof.
  intros H1 H2. constructor.
  - apply root3_proper.
  - intros t x Ht Hx. destruct (root3_verts _ _ Ht Hx) as [H|[u [Hu H]]]; eauto.
  - apply root3_dirs_nodup.
  - apply root3_umbrella.
Qed.

(** Every edge at a new point has a triangle on both sides; the border is the old one. *)
Lemma etri_dirs_in t g a b x y : at_edge t g a b -> In (x, y) (tdirs (etri g a b)) -> In (x, y) (dirs root3).
Proof. intros A H. apply dirs_tri. exists (etri g a b). split; [eapply etri_in; eauto|exact H]. Qed.

Lemma root3_rev x y : In (x, y) (dirs root3) -> ~ (old x /\ old y) -> In (y, x) (dirs root3).
Proof.
  intros H Ho. apply dirs_tri in H. destruct H as [w [Hw Hd]]. apply root3_In in Hw.
  destruct Hw as [[Hw E]|[t [g [a [b [Ht [E [H ->]]]]]]]].
  { exfalso. apply Ho. destruct (dir_old x y) as [? [? _]]; [apply dirs_tri; eauto|]. auto. }
  assert (A : at_edge t g a b) by (split; auto).
  destruct (at_edge_old _ _ _ _ A) as [Oa [Ob _]].
  apply etri_dirs in Hd. destruct Hd as [[-> ->]|[[Hn [[-> ->]|[-> ->]]]|[h [Hh [[-> ->]|[-> ->]]]]]].
  - (* (b, g): the next edge of t *)
    apply tdirs_corner in H. destruct H as [c Hc].
    assert (H : In (b, c) (tdirs t)) by (apply tdirs_corner_next; eauto).
    assert (A' : at_edge t g b c) by (split; auto).
    destruct (cenE (c, b)) as [h|] eqn:Eh.
    + destruct (cenE_at _ _ _ Eh) as [u Au]. apply (etri_dirs_in u h c b); [exact Au|].
      apply etri_dirs. right. right. exists g. split; [eapply at_edge_cenE; eauto|auto].
    + apply (etri_dirs_in t g b c); [exact A'|]. apply etri_dirs. right. left. auto.
  - exfalso. auto.
  - (* (g, a): the previous edge of t *)
    apply tdirs_corner_next in H. destruct H as [c Hc].
    assert (H : In (c, a) (tdirs t)) by (apply tdirs_corner; eauto).
    apply (etri_dirs_in t g c a); [split; auto|]. apply etri_dirs. auto.
  - (* (g, h) *)
    destruct (cenE_at _ _ _ Hh) as [u Au]. apply (etri_dirs_in u h b a); [exact Au|].
    apply etri_dirs. right. right. exists g. split; [eapply at_edge_cenE; eauto|auto].
  - (* (h, b): the previous edge of the neighbour *)
    destruct (cenE_at _ _ _ Hh) as [u [Hu [Eu Hd]]]. apply tdirs_corner_next in Hd. destruct Hd as [c Hc].
    assert (H' : In (c, b) (tdirs u)) by (apply tdirs_corner; eauto).
    apply (etri_dirs_in u h c b); [split; auto|]. apply etri_dirs. auto.
Qed.

Lemma root3_dir_kept x y : In (x, y) (dirs T) -> cenE (x, y) = None \/ cenE (y, x) = None -> In (x, y) (dirs root3).
Proof.
  intros H Hc. apply dirs_tri in H. destruct H as [t [Ht H]]. pose proof (cenE_face t _ Ht H) as E.
  destruct (Cen t) as [g|] eqn:Eg.
  - destruct Hc as [Hc|Hc]; [congruence|]. apply (etri_dirs_in t g x y); [split; auto|]. apply etri_dirs. right. left. auto.
  - apply dirs_tri. exists t. split; [apply root3_In; auto|exact H].
Qed.

Lemma root3_border x y :
  In (x, y) (dirs root3) /\ ~ In (y, x) (dirs root3) <-> In (x, y) (dirs T) /\ ~ In (y, x) (dirs T).
Proof.
  split; intros [H Hn].
  - assert (Hold : old x /\ old y).
    { assert (Hdec : forall z w, In (z, w) (dirs root3) -> (old z \/ ~ old z)).
      { intros z w Hz. apply dirs_tri in Hz. destruct Hz as [v [Hv Hz]]. destruct (tdirs_verts _ _ _ Hz) as [Vz _].
        destruct (root3_verts v z Hv Vz) as [Hz'|[t [Ht Hz']]]; [auto|]. right. eapply (c_fresh HC); eauto. }
      assert (Hdec' : old y \/ ~ old y).
      { apply dirs_tri in H. destruct H as [v [Hv Hz]]. destruct (tdirs_verts _ _ _ Hz) as [_ Vz].
        destruct (root3_verts v y Hv Vz) as [Hz'|[t [Ht Hz']]]; [auto|]. right. eapply (c_fresh HC); eauto. }
      destruct (Hdec x y H) as [Hx|Hx]; [destruct Hdec' as [Hy|Hy]; [auto|]|];
        exfalso; apply Hn; apply root3_rev; tauto. }
    destruct Hold as [Ox Oy]. destruct (root3_dir_old x y Ox Oy H) as [H1 H2]. split; [exact H1|].
    intros H3. apply Hn. apply root3_dir_kept; [exact H3|tauto].
  - assert (Hn' : cenE (y, x) = None).
    { destruct (cenE (y, x)) as [h|] eqn:E; [|reflexivity]. exfalso. apply Hn. apply cenE_Some in E.
      destruct E as [u [Hu [Hd _]]]. apply dirs_tri. eauto. }
    split; [apply root3_dir_kept; auto|]. destruct (dir_old x y H) as [Ox [Oy _]].
    intros H'. apply Hn. apply (root3_dir_old y x Oy Ox H').
Qed.

Definition centredb (t : tri) : bool := match Cen t with Some _ => true | None => false end.
Lemma root3_length : length root3 = (length T + 2 * length (filter centredb T))%nat.
Proof.
  unfold root3. cut (forall U, length (flat_map tri3 U) = (length U + 2 * length (filter centredb U))%nat); [auto|].
  induction U as [|t U IH]; [reflexivity|].
  cbn [flat_map filter]. rewrite app_length, IH. unfold tri3 at 1. destruct (Cen t) as [g|] eqn:E; unfold centredb at 2; rewrite E.
  - rewrite map_length. destruct t as [[a b] c]. cbn [tdirs length]. lia.
  - cbn [length]. lia.
Qed.
End ROOT3.

Lemma good_perm P T U : Permutation T U -> good P T -> good P U.
Proof.
  intros HP [H1 H2 H3 H4].
  assert (Hin : forall t, In t U -> In t T) by (intros t H; eapply Permutation_in; [symmetry; exact HP|exact H]).
  assert (Hd : forall d, In d (dirs U) <-> In d (dirs T)).
  { intros d. unfold dirs. rewrite !in_flat_map. split; intros [t [Ht H]]; exists t; (split; [|exact H]); auto.
    eapply Permutation_in; eauto. }
  assert (Hc : forall d, In d (corners U) <-> In d (corners T)).
  { intros d. unfold corners. rewrite !in_flat_map. split; intros [t [Ht H]]; exists t; (split; [|exact H]); auto.
    eapply Permutation_in; eauto. }
  constructor.
  - auto.
  - eauto.
  - eapply Permutation_NoDup; [|exact H3]. apply Permutation_flat_map. exact HP.
  - intros b S Hne Hsub Hcl y Hy. apply (H4 b S Hne).
    + intros x Hx. specialize (Hsub x Hx). unfold nbr in *. rewrite <- !Hd. exact Hsub.
    + intros x Hx. destruct (Hcl x Hx) as [p [Hp Hx']]. exists p. split; [exact Hp|]. apply Hc. exact Hx'.
    + unfold nbr in *. rewrite <- !Hd. exact Hy.
Qed.
