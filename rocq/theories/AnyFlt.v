(** * AnyFlt: several levels of the linear filter in any arithmetic with a commutative addition, and floating-point arithmetic as
    such an arithmetic (C124). *)
From Flocq Require Import Core BinarySingleNaN.
From Verif Require Import Base Mesh Filters Drivers Spec SpecSub SpecGeo SpecRenum SpecRoot3 SpecDrive SpecConv SpecFlt SpecSame SpecMirror Lists AddFace SplitTri Split Points Valid Run Update Struct Count Face FaceProps
  Renum Drive Cond Iter Same Mirror SameAny CondAny.

Section LEVELS.
Context {O : Ops} {D : Type}.
Notation mesh := (mesh O D).
Hypothesis Hadd : forall x y : K O, kadd O x y = kadd O y x.

Lemma any_split s f (m : mesh) a b : csel f = [] -> to_split (CellF s) f m a b <-> In (a, b) (dirs (tris m)) \/ In (b, a) (dirs (tris m)).
Proof.
  intros Hc. cbn [to_split]. split.
  - intros [t [Ht He]]. rewrite Hc in Ht. destruct Ht as [[_ Ht]|[i [[] _]]]. destruct He as [He|He]; [left|right]; apply dirs_tri; eauto.
  - intros [H|H]; apply dirs_tri in H; destruct H as [t [Ht He]]; exists t; (split; [left; auto|]); [left|right]; exact He.
Qed.
Lemma any_level (m1 m2 : mesh) g1 g2 out1 out2 r r' n1 n2 :
  valid m1 -> valid m2 -> dense m1 -> dense m2 -> same_surface r r' m1 m2 ->
  update (CellF CLinear) n1 (fresh []) m1 = Ok (g1, out1) -> update (CellF CLinear) n2 (fresh []) m2 = Ok (g2, out2) ->
  exists q q', same_surface q q' out1 out2 /\ (forall x, oget x (pts m1) <> None -> q x = r x).
Proof.
  intros V1 V2 D1 D2 HS E1 E2.
  assert (R : forall m : mesh, valid m -> ready (CellF CLinear) (fresh []) m) by (intros m Hv; apply ready_uniform; try reflexivity; try discriminate).
  destruct (any_run (CellF CLinear) m1 m2 (fresh []) (fresh []) g1 g2 out1 out2 r r' n1 n2) as [q [q' [H1 [H2 _]]]]; auto.
  - intros a b Pa Pb. rewrite (any_split CLinear (fresh []) m1 a b eq_refl), (any_split CLinear (fresh []) m2 (r a) (r b) eq_refl).
    rewrite (ss_dir m1 m2 r r' HS a b Pa Pb), (ss_dir m1 m2 r r' HS b a Pb Pa). tauto.
  - right. intros a b H. apply any_split; auto.
  - exists q, q'. auto.
Qed.
Lemma any_step (m : mesh) fuel f out : valid m -> dense m -> tris m <> [] -> update (CellF CLinear) fuel (fresh []) m = Ok (f, out) ->
  valid out /\ dense out /\ tris out <> [] /\ csel f = [] /\ (forall x, oget x (pts m) <> None -> oget x (pts out) <> None).
Proof.
  intros Hv Hd Hne E. assert (Hr : ready (CellF CLinear) (fresh []) m) by (apply ready_uniform; try reflexivity; try discriminate).
  destruct (step_ok _ _ _ _ _ _ Hv Hd Hne Hr E) as [V1 [V2 [V3 _]]]. repeat (split; [assumption|]).
  destruct (face_run _ _ _ _ _ _ Hv Hd Hr E) as [mid [Ls FR]]. split.
  - destruct (csel f) as [|i l] eqn:Ec; [reflexivity|]. exfalso. destruct (proj1 (fr_csel _ _ _ _ _ _ _ FR i)) as [Hw _]; [rewrite Ec; cbn; auto|discriminate].
  - intros x Px. destruct (oget x (pts m)) as [p|] eqn:Ex; [|congruence]. assert (X : oget x (pts out) = Some p) by (eapply fr_old; eauto; discriminate). congruence.
Qed.
Lemma any_pipe n (m1 : mesh) f1 out1 : pipeline CLinear n [] m1 f1 out1 -> forall (m2 : mesh) f2 out2 r r', pipeline CLinear n [] m2 f2 out2 ->
  valid m1 -> valid m2 -> dense m1 -> dense m2 -> tris m1 <> [] -> tris m2 <> [] -> same_surface r r' m1 m2 ->
  exists q q', same_surface q q' out1 out2 /\ (forall x, oget x (pts m1) <> None -> q x = r x).
Proof.
  intros H. remember (@nil N) as sel eqn:Es. induction H as [sel m1 fuel f1 out1 E|n sel m1 fuel f m f1 out1 E H IH];
    intros m2 f2 out2 r r' P V1 V2 D1 D2 N1 N2 HS; subst sel.
  - inversion P as [sel0 m0 fuel2 f0 o0 E2|n0 sel0 m0 fuel2 g m' f0 o0 E2 P2]; subst; [|inversion P2].
    eapply any_level; eassumption.
  - inversion P as [sel0 m0 fuel2 f0 o0 E2|n0 sel0 m0 fuel2 g m' f0 o0 E2 P2]; subst; [inversion H|].
    destruct (any_level m1 m2 f g m m' r r' fuel fuel2 V1 V2 D1 D2 HS E E2) as [q [q' [HQ Hq]]].
    destruct (any_step m1 fuel f m V1 D1 N1 E) as [A1 [A2 [A3 [A4 A5]]]]. destruct (any_step m2 fuel2 g m' V2 D2 N2 E2) as [B1 [B2 [B3 [B4 _]]]].
    rewrite B4, <- A4 in P2. destruct (IH A4 m' f2 out2 q q' P2 A1 B1 A2 B2 A3 B3 HQ) as [p [p' [HP Hp]]]. exists p, p'. split; [exact HP|].
    intros x Px. rewrite (Hp x (A5 x Px)). apply Hq. exact Px.
Qed.
Lemma same_tris (m1 m2 : mesh) r r' : same_surface r r' m1 m2 -> tris m1 <> [] -> tris m2 <> [].
Proof.
  intros HS N1 E. destruct (tris m1) as [|[[a b] c] T] eqn:ET; [congruence|]. assert (F : is_face m1 a b c) by (left; rewrite ET; cbn; auto).
  apply (ss_faces _ _ _ _ HS) in F. unfold is_face in F. rewrite E in F. cbn in F. tauto.
Qed.
Lemma any_levels n (m1 m2 : mesh) n1 n2 f1 f2 out1 out2 r r' :
  valid m1 -> valid m2 -> dense m1 -> dense m2 -> tris m1 <> [] -> same_surface r r' m1 m2 ->
  iterative_update CLinear n n1 [] m1 = Ok (f1, out1) -> iterative_update CLinear n n2 [] m2 = Ok (f2, out2) ->
  exists q q', same_surface q q' out1 out2 /\ (forall x, oget x (pts m1) <> None -> q x = r x).
Proof.
  intros V1 V2 D1 D2 N1 HS E1 E2. unfold iterative_update in *. destruct (Nat.max 1 n) as [|k] eqn:Ek; [lia|].
  apply iter_pipe in E1. apply iter_pipe in E2. apply (any_pipe (S k) m1 f1 out1 E1 m2 f2 out2 r r' E2); auto. eapply same_tris; eauto.
Qed.
Lemma any_edges (m1 m2 : mesh) f1 f2 g1 g2 out1 out2 r r' n1 n2 :
  valid m1 -> valid m2 -> dense m1 -> dense m2 -> ready (EdgeF ELinear) f1 m1 -> ready (EdgeF ELinear) f2 m2 -> no_wire m1 -> no_wire m2 ->
  same_surface r r' m1 m2 -> esel f1 = [] -> esel f2 = [] ->
  update (EdgeF ELinear) n1 f1 m1 = Ok (g1, out1) -> update (EdgeF ELinear) n2 f2 m2 = Ok (g2, out2) ->
  exists q q', same_surface q q' out1 out2 /\ (forall x, oget x (pts m1) <> None -> q x = r x).
Proof.
  intros V1 V2 D1 D2 R1 R2 W1 W2 HS Z1 Z2 E1 E2.
  destruct (any_run (EdgeF ELinear) m1 m2 f1 f2 g1 g2 out1 out2 r r' n1 n2) as [q [q' [H1 [H2 _]]]]; auto.
  - intros a b Pa Pb. cbn [to_split]. rewrite Z1, Z2. cbn [In]. rewrite (ss_joined m1 m2 r r' V1 V2 HS a b W1 W2 Pa Pb). tauto.
  - right. intros a b H. cbn [to_split]. left. split; [exact Z1|]. apply (v_face_edges _ V1). exact H.
  - exists q, q'. auto.
Qed.
End LEVELS.

Section FLT.
Variables (prec emax : Z) (Hp : Prec_gt_0 prec) (Hm : Prec_lt_emax prec emax) (cosf : N -> binary_float prec emax) (d : nat) (D : Type).
Notation OO := (BO prec emax Hp Hm cosf d).
Notation mesh := (mesh OO D).

Lemma flt_comm (x y : K OO) : kadd OO x y = kadd OO y x.
Proof.
  cbn [kadd BO]. destruct x as [sx|sx| |sx mx ex Hx], y as [sy|sy| |sy my ey Hy]; try reflexivity; try (destruct sx, sy; reflexivity).
  unfold Bplus. rewrite (Z.min_comm ey ex). f_equal. unfold Fplus_naive. apply Z.add_comm.
Qed.
Lemma flt_anti (x y : K OO) : kmul OO (ksub OO x y) (ksub OO x y) = kmul OO (ksub OO y x) (ksub OO y x).
Proof.
  cbn [kmul ksub BO]. apply square_opp. rewrite !(minus_plus prec emax Hp Hm). rewrite (flt_comm y (Bopp x) : Bplus mode_NE y (Bopp x) = _). cbn [kadd BO].
  apply plus_opp; [left; reflexivity|]. left. symmetry. apply Bopp_involutive.
Qed.
End FLT.

Lemma flt_adaptive : forall prec emax Hp Hm cosf d D k (m1 m2 : mesh (BO prec emax Hp Hm cosf d) D) f1 f2 g1 g2 out1 out2 r r' n1 n2,
  k = CellF CLinear \/ k = EdgeF ELinear ->
  valid m1 -> valid m2 -> dense m1 -> dense m2 -> ready k f1 m1 -> ready k f2 m2 ->
  same_surface r r' m1 m2 -> same_corners r m1 m2 -> same_edges_split r k f1 m1 f2 m2 ->
  update k n1 f1 m1 = Ok (g1, out1) -> update k n2 f2 m2 = Ok (g2, out2) ->
  exists q q', same_surface q q' out1 out2 /\ (forall x, oget x (pts m1) <> None -> q x = r x) /\ same_corners q out1 out2.
Proof.
  intros prec emax Hp Hm cosf d D k m1 m2 f1 f2 g1 g2 out1 out2 r r' n1 n2 Hk V1 V2 D1 D2 R1 R2 HS HC HD E1 E2.
  destruct (any_run k m1 m2 f1 f2 g1 g2 out1 out2 r r' n1 n2 V1 V2 D1 D2 R1 R2 HS E1 E2 HD (or_introl HC) Hk (flt_comm prec emax Hp Hm cosf d)) as [q [q' [H1 [H2 H3]]]].
  exists q, q'. auto.
Qed.
