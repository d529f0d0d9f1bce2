(** * TurnAny: the linear filters on a surface turned inside out, in any arithmetic with a commutative addition (C125). *)
From Verif Require Import Base Mesh Filters Drivers Spec SpecSub SpecGeo SpecRenum SpecRoot3 SpecDrive SpecConv SpecSame SpecTurn Lists AddFace SplitTri Split Points Valid Run Update Struct Count Face FaceProps
  Geo GeoProps Renum Gaps Drive Cond DriveProps Never Iter.
From Verif Require Import SpecFlt Turn AnyFlt.

Section STEP.
Context {O : Ops} {D : Type}.
Notation mesh := (mesh O D).
Variables (k : kind) (f1 f2 g1 g2 : fstate) (m1 m2 out1 out2 : mesh) (r r' : N -> N) (n1 n2 : nat).
Variables (mid1 mid2 : N -> N -> option N) (Ls1 Ls2 : list (list tri)).
Hypothesis (V1 : valid m1) (V2 : valid m2) (D1 : dense m1) (D2 : dense m2) (R1 : ready k f1 m1) (R2 : ready k f2 m2).
Hypothesis (HS : turned r r' m1 m2).
Hypothesis (E1 : update k n1 f1 m1 = Ok (g1, out1)) (E2 : update k n2 f2 m2 = Ok (g2, out2)).
Hypothesis (F1 : face_result k f1 m1 g1 out1 mid1 Ls1) (F2 : face_result k f2 m2 g2 out2 mid2 Ls2).
Hypothesis (HD : same_edges_split r k f1 m1 f2 m2).
Hypothesis (HA : forall a b, In (a, b) (dirs (tris m1)) -> to_split k f1 m1 a b).
Hypothesis (Hk : k = CellF CLinear \/ k = EdgeF ELinear) (Hadd : forall x y : K O, kadd O x y = kadd O y x).

Let q := carry r (osize (pts m1)) (inserted k f1 m1) (osize (pts m2)) (inserted k f2 m2).

Lemma qt_old x : oget x (pts m1) <> None -> q x = r x.
Proof. intros H. unfold q, carry. apply D1 in H. apply N.ltb_lt in H. rewrite H. reflexivity. Qed.

Lemma mid_pts a b x : mid1 a b = Some x -> oget a (pts m1) <> None /\ oget b (pts m1) <> None.
Proof.
  intros H. destruct (fr_new _ _ _ _ _ _ _ F1 a b x H) as [e [p [Hu [Hi _]]]]. pose proof (ins_dirs m1 k f1 e V1 Hi R1) as J.
  destruct (joined_pts m1 V1 _ _ J) as [P1 P2]. destruct e as [u v]. cbn [fst snd] in *. destruct Hu as [Hu|Hu]; injection Hu as -> ->; auto.
Qed.

Lemma q_mid a b x : mid1 a b = Some x -> mid2 (r a) (r b) = Some (q x).
Proof.
  intros E. destruct (mid_pts a b x E) as [Pa Pb].
  assert (H2 : mid2 (r a) (r b) <> None).
  { apply (sd_dom _ _ _ _ _ (fr_sub _ _ _ _ _ _ _ F2)). apply (HD a b Pa Pb). apply (sd_dom _ _ _ _ _ (fr_sub _ _ _ _ _ _ _ F1)). congruence. }
  destruct (mid2 (r a) (r b)) as [y|] eqn:Ey; [|congruence]. f_equal.
  rewrite (fr_mid _ _ _ _ _ _ _ F1) in E. rewrite (fr_mid _ _ _ _ _ _ _ F2) in Ey.
  pose proof (inserted_udistinct k f1 m1 V1 R1) as U. apply (sp_Some _ _ _ _ _ U) in E. destruct E as [Hx [e [He Hu]]].
  unfold q, carry. destruct (N.ltb_spec x (osize (pts m1))); [lia|]. rewrite He.
  assert (Es : sp (osize (pts m2)) (inserted k f2 m2) (r (fst e)) (r (snd e)) = Some y).
  { destruct e as [u v]. cbn [fst snd]. destruct Hu as [Hu|Hu]; cbn in Hu; injection Hu as -> ->; [exact Ey|].
    rewrite sp_sym_any. exact Ey. }
  rewrite Es. reflexivity.
Qed.

Lemma mid_same a b : oget a (pts m1) <> None -> oget b (pts m1) <> None -> mid2 (r a) (r b) = option_map q (mid1 a b).
Proof.
  intros Pa Pb. destruct (mid1 a b) as [x|] eqn:E; cbn [option_map]; [apply q_mid; exact E|].
  destruct (mid2 (r a) (r b)) as [y|] eqn:Ey; [exfalso|reflexivity].
  assert (H : mid2 (r a) (r b) <> None) by congruence. apply (sd_dom _ _ _ _ _ (fr_sub _ _ _ _ _ _ _ F2)) in H. apply (HD a b Pa Pb) in H.
  apply (sd_dom _ _ _ _ _ (fr_sub _ _ _ _ _ _ _ F1)) in H. congruence.
Qed.

Lemma split_facet (O' : Ops) (D' : Type) (m : Mesh.mesh O' D') kk ff gg (o : Mesh.mesh O' D') mid Ls t w : face_result kk ff m gg o mid Ls -> In t (tris m) -> In w (split_tri mid t) -> In w (tris o).
Proof.
  intros F Ht Hw. rewrite (sd_tris _ _ _ _ _ (fr_sub _ _ _ _ _ _ _ F)), (fr_Ls _ _ _ _ _ _ _ F). apply in_concat.
  exists (split_tri mid t). split; [apply in_map; exact Ht|exact Hw].
Qed.

Lemma tri_face a b c : In (a, b, c) (tris out1) -> is_face out2 (q a) (q c) (q b).
Proof.
  intros H. rewrite (sd_tris _ _ _ _ _ (fr_sub _ _ _ _ _ _ _ F1)), (fr_Ls _ _ _ _ _ _ _ F1) in H. apply in_concat in H.
  destruct H as [L [HL1 Hw]]. apply in_map_iff in HL1. destruct HL1 as [[[x y] z] [<- Ht]]. cbn [split_tri] in Hw.
  assert (Fx : is_face m1 x y z) by (left; exact Ht). destruct (face_pts m1 V1 _ _ _ Fx) as [Px [Py Pz]].
  assert (Hm : In (tmap q (a, b, c)) (split_triangle (r x) (r y) (r z) (mid2 (r x) (r y)) (mid2 (r y) (r z)) (mid2 (r z) (r x)))).
  { rewrite (mid_same x y Px Py), (mid_same y z Py Pz), (mid_same z x Pz Px), <- (qt_old x Px), <- (qt_old y Py), <- (qt_old z Pz), split_triangle_map.
    apply in_map. exact Hw. }
  cbn [tmap] in Hm.
  assert (HA' : forall u v, In (u, v) (dirs (tris m1)) -> exists w, mid2 (r u) (r v) = Some w /\ mid2 (r v) (r u) = Some w).
  { intros u v Huv. apply HA in Huv. apply (sd_dom _ _ _ _ _ (fr_sub _ _ _ _ _ _ _ F1)) in Huv.
    destruct (mid1 u v) as [w|] eqn:Ew; [|congruence]. exists (q w). apply q_mid in Ew. split; [exact Ew|].
    rewrite (sd_sym _ _ _ _ _ (fr_sub _ _ _ _ _ _ _ F2)). exact Ew. }
  destruct (HA' x y) as [e0 [M0 M0']]; [apply (is_face_dir _ _ _ _ Fx)|]. destruct (HA' y z) as [e1 [M1 M1']]; [apply (is_face_dir _ _ _ x); apply is_face_rot; exact Fx|].
  destruct (HA' z x) as [e2 [M2 M2']]; [apply (is_face_dir _ _ _ y); apply is_face_rot, is_face_rot; exact Fx|]. rewrite M0, M1, M2 in Hm.
  assert (G : is_face m2 (r x) (r z) (r y)) by (apply (tu_faces _ _ _ _ HS); exact Fx).
  assert (S2 : forall t w, In t (tris m2) -> In w (split_tri mid2 t) -> In w (tris out2)) by (intros t w T1 T2; eapply split_face; eauto).
  destruct G as [G|[G|G]]; pose proof (fun w => S2 _ w G) as S3; cbn [split_tri] in S3; rewrite M0', M1', M2' in S3;
    cbn in Hm, S3; destruct Hm as [Hm|[Hm|[Hm|[Hm|[]]]]]; injection Hm as <- <- <-; unfold is_face;
    first [left; apply S3; tauto | right; left; apply S3; tauto | right; right; apply S3; tauto].
Qed.

Lemma new_case x : oget x (pts out1) <> None -> oget x (pts m1) = None -> exists a b, mid1 a b = Some x.
Proof. intros H1 H2. apply (sd_new _ _ _ _ _ (fr_sub _ _ _ _ _ _ _ F1)). auto. Qed.

Lemma q_has x : oget x (pts out1) <> None -> oget (q x) (pts out2) <> None.
Proof.
  intros H. destruct (oget x (pts m1)) as [p|] eqn:Ex.
  - assert (Px : oget x (pts m1) <> None) by congruence. rewrite (qt_old x Px). apply (sd_old _ _ _ _ _ (fr_sub _ _ _ _ _ _ _ F2)).
    apply (ss_has m1 m2 r r' HS x Px).
  - destruct (new_case x H Ex) as [a [b Hm]]. apply q_mid in Hm.
    apply (sd_new _ _ _ _ _ (fr_sub _ _ _ _ _ _ _ F2) (q x)). eauto.
Qed.

Lemma mid_comm (x y : list (K O)) : midpoint x y = midpoint y x.
Proof.
  unfold midpoint. revert y. induction x as [|u x IH]; intros [|v y]; cbn [map2]; try reflexivity. rewrite (Hadd u v), (IH y). reflexivity.
Qed.
Lemma q_point x p : oget x (pts out1) = Some p -> oget (q x) (pts out2) = Some p.
Proof.
  intros Hp. assert (Hx : oget x (pts out1) <> None) by congruence. assert (NL : k <> CellF CLoop) by (destruct Hk; congruence).
  destruct (oget x (pts m1)) as [p0|] eqn:Ex.
  - assert (Px : oget x (pts m1) <> None) by congruence. rewrite (qt_old x Px). pose proof (fr_old _ _ _ _ _ _ _ F1 x p0 Ex NL) as E0.
    apply (fr_old _ _ _ _ _ _ _ F2); [|exact NL]. rewrite Hp in E0. injection E0 as ->. apply (tu_pts _ _ _ _ HS). exact Ex.
  - destruct (new_case x Hx Ex) as [a [b Hm]]. destruct (mid_pts _ _ _ Hm) as [Pa Pb]. pose proof (q_mid a b x Hm) as Hm2.
    destruct (fr_new _ _ _ _ _ _ _ F1 a b x Hm) as [e1 [p1 [Q1 [_ [N1 O1]]]]]. destruct (fr_new _ _ _ _ _ _ _ F2 _ _ _ Hm2) as [e2 [p2 [Q2 [_ [N2 O2]]]]].
    rewrite Hp in O1. injection O1 as <-. rewrite O2. f_equal.
    assert (G : forall (m : mesh) e y, new_point k m e = Ok y -> exists s t, oget (fst e) (pts m) = Some s /\ oget (snd e) (pts m) = Some t /\ y = midpoint s t).
    { intros m e y H. assert (H' : linear_point m e = Ok y) by (destruct Hk; subst k; exact H). unfold linear_point, get_pt in H'.
      destruct (oget (fst e) (pts m)) as [s|]; [|discriminate]. cbn [rbind] in H'. destruct (oget (snd e) (pts m)) as [t|]; [|discriminate].
      cbn [rbind] in H'. injection H' as <-. eauto. }
    destruct (G _ _ _ N1) as [s1 [t1 [A1 [B1 ->]]]]. destruct (G _ _ _ N2) as [s2 [t2 [A2 [B2 ->]]]]. clear G N1 N2.
    assert (SP : forall y z, oget y (pts m1) = Some z -> oget (r y) (pts m2) = Some z) by (intros y z H; apply (tu_pts _ _ _ _ HS); exact H).
    destruct e1 as [u v], e2 as [u2 v2]. unfold undirected_eq in Q1, Q2. cbn [fst snd] in *.
    apply SP in A1. apply SP in B1.
    destruct Q1 as [Q1|Q1]; injection Q1 as -> ->; destruct Q2 as [Q2|Q2]; injection Q2 as -> ->; rewrite A2 in *; rewrite B2 in *;
      injection A1 as ->; injection B1 as ->; try reflexivity; apply mid_comm.
Qed.
Lemma q_face a b c : is_face out1 a b c -> is_face out2 (q a) (q c) (q b).
Proof. intros [H|[H|H]]; apply tri_face in H; unfold is_face in *; tauto. Qed.
End STEP.

Lemma turn_back {O : Ops} {D : Type} r r' k f1 (m1 : mesh O D) f2 m2 : turned r r' m1 m2 -> same_edges_split r k f1 m1 f2 m2 -> same_edges_split r' k f2 m2 f1 m1.
Proof.
  intros HS HD a b Pa Pb. destruct (ss_has m2 m1 r' r (same_sym _ _ _ _ HS) a Pa) as [Qa Ea], (ss_has m2 m1 r' r (same_sym _ _ _ _ HS) b Pb) as [Qb Eb].
  rewrite (HD _ _ Qa Qb), Ea, Eb. tauto.
Qed.

Lemma turn_run {O : Ops} {D : Type} k (m1 m2 : mesh O D) f1 f2 g1 g2 out1 out2 r r' n1 n2 :
  valid m1 -> valid m2 -> dense m1 -> dense m2 -> ready k f1 m1 -> ready k f2 m2 -> turned r r' m1 m2 ->
  update k n1 f1 m1 = Ok (g1, out1) -> update k n2 f2 m2 = Ok (g2, out2) -> same_edges_split r k f1 m1 f2 m2 ->
  (forall a b, In (a, b) (dirs (tris m1)) -> to_split k f1 m1 a b) ->
  k = CellF CLinear \/ k = EdgeF ELinear -> (forall x y : K O, kadd O x y = kadd O y x) ->
  exists q q', turned q q' out1 out2 /\ (forall x, oget x (pts m1) <> None -> q x = r x).
Proof.
  intros V1 V2 D1 D2 R1 R2 HS E1 E2 HD HT Hk Hadd.
  destruct (face_run k f1 m1 n1 g1 out1 V1 D1 R1 E1) as [mid1 [Ls1 F1]]. destruct (face_run k f2 m2 n2 g2 out2 V2 D2 R2 E2) as [mid2 [Ls2 F2]].
  pose proof (same_sym _ _ _ _ HS) as HS'. pose proof (turn_back _ _ _ _ _ _ _ HS HD) as HD'.
  assert (HT' : forall a b, In (a, b) (dirs (tris m2)) -> to_split k f2 m2 a b).
  { intros a b H. assert (P : oget a (pts m2) <> None /\ oget b (pts m2) <> None) by (apply (joined_pts m2 V2); apply (v_face_edges _ V2); exact H).
    destruct P as [Pa Pb]. apply (HD' a b Pa Pb). apply (ss_dir m2 m1 r' r HS' a b Pa Pb) in H. apply HT in H.
    apply (sd_dom _ _ _ _ _ (fr_sub _ _ _ _ _ _ _ F1)) in H. apply (sd_dom _ _ _ _ _ (fr_sub _ _ _ _ _ _ _ F1)).
    rewrite (sd_sym _ _ _ _ _ (fr_sub _ _ _ _ _ _ _ F1)). exact H. }
  set (q := carry r (osize (pts m1)) (inserted k f1 m1) (osize (pts m2)) (inserted k f2 m2)).
  set (q' := carry r' (osize (pts m2)) (inserted k f2 m2) (osize (pts m1)) (inserted k f1 m1)).
  assert (Hinv : forall x, oget x (pts out1) <> None -> q' (q x) = x).
  { intros x Hx. destruct (oget x (pts m1)) as [p|] eqn:Ex.
    - assert (Px : oget x (pts m1) <> None) by congruence. destruct (ss_has m1 m2 r r' HS x Px) as [P2 Er].
      unfold q, q'. rewrite (qt_old k f1 f2 m1 m2 r D1 x Px), (qt_old k f2 f1 m2 m1 r' D2 _ P2). exact Er.
    - destruct (new_case k f1 g1 m1 out1 mid1 Ls1 F1 x Hx Ex) as [a [b Hm]].
      destruct (mid_pts k f1 g1 m1 out1 mid1 Ls1 V1 R1 F1 a b x Hm) as [Pa Pb].
      destruct (ss_has m1 m2 r r' HS a Pa) as [_ Ea], (ss_has m1 m2 r r' HS b Pb) as [_ Eb].
      assert (M2 : mid2 (r a) (r b) = Some (q x)) by (exact (q_mid k f1 f2 g1 g2 m1 m2 out1 out2 r mid1 mid2 Ls1 Ls2 V1 R1 F1 F2 HD HT _ _ _ Hm)).
      assert (M1 : mid1 (r' (r a)) (r' (r b)) = Some (q' (q x))) by (exact (q_mid k f2 f1 g2 g1 m2 m1 out2 out1 r' mid2 mid1 Ls2 Ls1 V2 R2 F2 F1 HD' HT' _ _ _ M2)). rewrite Ea, Eb in M1. congruence. }
  assert (Hinv' : forall y, oget y (pts out2) <> None -> q (q' y) = y).
  { intros x Hx. destruct (oget x (pts m2)) as [p|] eqn:Ex.
    - assert (Px : oget x (pts m2) <> None) by congruence. destruct (ss_has m2 m1 r' r HS' x Px) as [P2 Er].
      unfold q, q'. rewrite (qt_old k f2 f1 m2 m1 r' D2 x Px), (qt_old k f1 f2 m1 m2 r D1 _ P2). exact Er.
    - destruct (new_case k f2 g2 m2 out2 mid2 Ls2 F2 x Hx Ex) as [a [b Hm]].
      destruct (mid_pts k f2 g2 m2 out2 mid2 Ls2 V2 R2 F2 a b x Hm) as [Pa Pb].
      destruct (ss_has m2 m1 r' r HS' a Pa) as [_ Ea], (ss_has m2 m1 r' r HS' b Pb) as [_ Eb].
      assert (M1 : mid1 (r' a) (r' b) = Some (q' x)) by (exact (q_mid k f2 f1 g2 g1 m2 m1 out2 out1 r' mid2 mid1 Ls2 Ls1 V2 R2 F2 F1 HD' HT' _ _ _ Hm)).
      assert (M2 : mid2 (r (r' a)) (r (r' b)) = Some (q (q' x))) by (exact (q_mid k f1 f2 g1 g2 m1 m2 out1 out2 r mid1 mid2 Ls1 Ls2 V1 R1 F1 F2 HD HT _ _ _ M1)). rewrite Ea, Eb in M2. congruence. }
  exists q, q'. split.
  - constructor.
    + intros x p Hp. split; [|apply Hinv; congruence]. exact (q_point k f1 f2 g1 g2 m1 m2 out1 out2 r r' n1 n2 mid1 mid2 Ls1 Ls2 V1 D1 R1 R2 HS E1 E2 F1 F2 HD HT Hk Hadd x p Hp).
    + intros y p Hp. split; [|apply Hinv'; congruence]. exact (q_point k f2 f1 g2 g1 m2 m1 out2 out1 r' r n2 n1 mid2 mid1 Ls2 Ls1 V2 D2 R2 R1 HS' E2 E1 F2 F1 HD' HT' Hk Hadd y p Hp).
    + intros a b c H. exact (q_face k f1 f2 g1 g2 m1 m2 out1 out2 r r' mid1 mid2 Ls1 Ls2 V1 D1 R1 HS F1 F2 HD HT Hk a b c H).
    + intros a b c H. exact (q_face k f2 f1 g2 g1 m2 m1 out2 out1 r' r mid2 mid1 Ls2 Ls1 V2 D2 R2 HS' F2 F1 HD' HT' Hk a b c H).
  - intros x Px. exact (qt_old k f1 f2 m1 m2 r D1 x Px).
Qed.


Section LEVELS.
Context {O : Ops} {D : Type}.
Notation mesh := (mesh O D).
Hypothesis Hadd : forall x y : K O, kadd O x y = kadd O y x.

Lemma turn_level (m1 m2 : mesh) g1 g2 out1 out2 r r' n1 n2 :
  valid m1 -> valid m2 -> dense m1 -> dense m2 -> turned r r' m1 m2 ->
  update (CellF CLinear) n1 (fresh []) m1 = Ok (g1, out1) -> update (CellF CLinear) n2 (fresh []) m2 = Ok (g2, out2) ->
  exists q q', turned q q' out1 out2 /\ (forall x, oget x (pts m1) <> None -> q x = r x).
Proof.
  intros V1 V2 D1 D2 HS E1 E2.
  assert (R : forall m : mesh, valid m -> ready (CellF CLinear) (fresh []) m) by (intros m Hv; apply ready_uniform; try reflexivity; try discriminate).
  apply (turn_run (CellF CLinear) m1 m2 (fresh []) (fresh []) g1 g2 out1 out2 r r' n1 n2); auto.
  - intros a b Pa Pb. rewrite (any_split CLinear (fresh []) m1 a b eq_refl), (any_split CLinear (fresh []) m2 (r a) (r b) eq_refl).
    rewrite (ss_dir m1 m2 r r' HS a b Pa Pb), (ss_dir m1 m2 r r' HS b a Pb Pa). tauto.
  - intros a b H. apply any_split; auto.
Qed.
Lemma turn_pipe n (m1 : mesh) f1 out1 : pipeline CLinear n [] m1 f1 out1 -> forall (m2 : mesh) f2 out2 r r', pipeline CLinear n [] m2 f2 out2 ->
  valid m1 -> valid m2 -> dense m1 -> dense m2 -> tris m1 <> [] -> tris m2 <> [] -> turned r r' m1 m2 ->
  exists q q', turned q q' out1 out2 /\ (forall x, oget x (pts m1) <> None -> q x = r x).
Proof.
  intros H. remember (@nil N) as sel eqn:Es. induction H as [sel m1 fuel f1 out1 E|n sel m1 fuel f m f1 out1 E H IH];
    intros m2 f2 out2 r r' P V1 V2 D1 D2 N1 N2 HS; subst sel.
  - inversion P as [sel0 m0 fuel2 f0 o0 E2|n0 sel0 m0 fuel2 g m' f0 o0 E2 P2]; subst; [|inversion P2].
    eapply turn_level; eassumption.
  - inversion P as [sel0 m0 fuel2 f0 o0 E2|n0 sel0 m0 fuel2 g m' f0 o0 E2 P2]; subst; [inversion H|].
    destruct (turn_level m1 m2 f g m m' r r' fuel fuel2 V1 V2 D1 D2 HS E E2) as [q [q' [HQ Hq]]].
    destruct (any_step m1 fuel f m V1 D1 N1 E) as [A1 [A2 [A3 [A4 A5]]]]. destruct (any_step m2 fuel2 g m' V2 D2 N2 E2) as [B1 [B2 [B3 [B4 _]]]].
    rewrite B4, <- A4 in P2. destruct (IH A4 m' f2 out2 q q' P2 A1 B1 A2 B2 A3 B3 HQ) as [p [p' [HP Hp]]]. exists p, p'. split; [exact HP|].
    intros x Px. rewrite (Hp x (A5 x Px)). apply Hq. exact Px.
Qed.
Lemma turn_levels n (m1 m2 : mesh) n1 n2 f1 f2 out1 out2 r r' :
  valid m1 -> valid m2 -> dense m1 -> dense m2 -> tris m1 <> [] -> turned r r' m1 m2 ->
  iterative_update CLinear n n1 [] m1 = Ok (f1, out1) -> iterative_update CLinear n n2 [] m2 = Ok (f2, out2) ->
  exists q q', turned q q' out1 out2 /\ (forall x, oget x (pts m1) <> None -> q x = r x).
Proof.
  intros V1 V2 D1 D2 N1 HS E1 E2. unfold iterative_update in *. destruct (Nat.max 1 n) as [|k] eqn:Ek; [lia|].
  apply iter_pipe in E1. apply iter_pipe in E2. apply (turn_pipe (S k) m1 f1 out1 E1 m2 f2 out2 r r' E2); auto.
  intros E. destruct (tris m1) as [|[[a b] c] T] eqn:ET; [congruence|]. assert (F : is_face m1 a b c) by (left; rewrite ET; cbn; auto).
  apply (tu_faces _ _ _ _ HS) in F. unfold is_face in F. rewrite E in F. cbn in F. tauto.
Qed.
Lemma turn_edges (m1 m2 : mesh) f1 f2 g1 g2 out1 out2 r r' n1 n2 :
  valid m1 -> valid m2 -> dense m1 -> dense m2 -> ready (EdgeF ELinear) f1 m1 -> ready (EdgeF ELinear) f2 m2 -> no_wire m1 -> no_wire m2 ->
  turned r r' m1 m2 -> esel f1 = [] -> esel f2 = [] ->
  update (EdgeF ELinear) n1 f1 m1 = Ok (g1, out1) -> update (EdgeF ELinear) n2 f2 m2 = Ok (g2, out2) ->
  exists q q', turned q q' out1 out2 /\ (forall x, oget x (pts m1) <> None -> q x = r x).
Proof.
  intros V1 V2 D1 D2 R1 R2 W1 W2 HS Z1 Z2 E1 E2.
  apply (turn_run (EdgeF ELinear) m1 m2 f1 f2 g1 g2 out1 out2 r r' n1 n2); auto.
  - intros a b Pa Pb. cbn [to_split]. rewrite Z1, Z2. cbn [In]. rewrite (ss_joined m1 m2 r r' V1 V2 HS a b W1 W2 Pa Pb). tauto.
  - intros a b H. cbn [to_split]. left. split; [exact Z1|]. apply (v_face_edges _ V1). exact H.
Qed.
End LEVELS.
