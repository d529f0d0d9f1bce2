(** * PieceRun: runs of the filters on a mesh and on a separate piece of it (C120). *)
From Coq Require Import Reals Lra Permutation.
From Verif Require Import Base Mesh Filters Drivers Spec SpecSub SpecGeo SpecRenum SpecRoot3 SpecDrive SpecConv SpecSame Lists AddFace SplitTri Split Points Valid Run Update Struct Count Face FaceProps PtsAny
  Conn Geo GeoProps Renum RenumProps Gaps Cond Root3 Root3Run Root3Main Root3Props Iter Conv.
From Verif Require Same.
From Verif Require Import Piece.

Lemma piece_run {d D} k (m1 m2 : mesh (RO d) D) f1 f2 g1 g2 out1 out2 r n1 n2 :
  valid m1 -> valid m2 -> dense m1 -> dense m2 -> tris m1 <> [] -> ready k f1 m1 -> ready k f2 m2 -> piece r m1 m2 ->
  update k n1 f1 m1 = Ok (g1, out1) -> update k n2 f2 m2 = Ok (g2, out2) -> same_edges_split r k f1 m1 f2 m2 ->
  (same_corners r m1 m2 \/ forall a b, In (a, b) (dirs (tris m1)) -> to_split k f1 m1 a b) ->
  unambiguous (scheme_of k) m1 -> (k = CellF CLoop -> no_wire m2) ->
  (k = CellF CLoop -> forall x, oget x (pts m1) <> None -> smooths f1 x = smooths f2 (r x)) ->
  exists q, piece q out1 out2 /\ (forall x, oget x (pts m1) <> None -> q x = r x).
Proof.
  intros V1 V2 D1 D2 Hne R1 R2 HS E1 E2 HD HT U1 U2 HL. destruct (step_ok _ _ _ _ _ _ V1 D1 Hne R1 E1) as [VO _].
  destruct (face_run k f1 m1 n1 g1 out1 V1 D1 R1 E1) as [mid1 [Ls1 F1]]. destruct (face_run k f2 m2 n2 g2 out2 V2 D2 R2 E2) as [mid2 [Ls2 F2]].
  exists (carry r (osize (pts m1)) (inserted k f1 m1) (osize (pts m2)) (inserted k f2 m2)). split.
  - constructor.
    + intros x p Hp. exact (q_point k f1 f2 g1 g2 m1 m2 out1 out2 r n1 n2 mid1 mid2 Ls1 Ls2 V1 V2 D1 D2 R1 R2 HS E1 E2 F1 F2 HD HT U1 U2 HL x p Hp).
    + intros x y Hx Hy E. exact (q_inj k f1 f2 g1 g2 m1 m2 out1 out2 r mid1 mid2 Ls1 Ls2 V1 D1 R1 HS F1 F2 HD HL x y Hx Hy E).
    + intros a b c H. exact (q_face k f1 f2 g1 g2 m1 m2 out1 out2 r mid1 mid2 Ls1 Ls2 V1 D1 R1 HS F1 F2 HD HT HL a b c H).
    + intros x v w Hx H. exact (q_whole k f1 f2 g1 g2 m1 m2 out1 out2 r mid1 mid2 Ls1 Ls2 V1 V2 D1 R1 HS F1 F2 HD HT VO HL x v w Hx H).
  - intros x Px. exact (q_old k f1 f2 m1 m2 r D1 x Px).
Qed.
Lemma piece_run3 {d D} (m1 m2 : mesh (RO d) D) f1 f2 g1 g2 out1 out2 r n1 n2 :
  valid m1 -> valid m2 -> dense m1 -> dense m2 -> tris m1 <> [] -> ready3 f1 m1 -> ready3 f2 m2 -> piece r m1 m2 ->
  update (CellF CSqrt3) n1 f1 m1 = Ok (g1, out1) -> update (CellF CSqrt3) n2 f2 m2 = Ok (g2, out2) ->
  (forall a b c, is_face m1 a b c -> picked m1 (csel f1) a b c <-> picked m2 (csel f2) (r a) (r b) (r c)) ->
  exists q, piece q out1 out2 /\ (forall x, oget x (pts m1) <> None -> q x = r x).
Proof.
  intros V1 V2 D1 D2 Hne Y1 Y2 HS E1 E2 HP. pose proof (root3_run f1 m1 n1 g1 out1 V1 D1 Y1 E1) as R1. pose proof (root3_run f2 m2 n2 g2 out2 V2 D2 Y2 E2) as R2.
  assert (S1 : NoDup (csel f1)) by apply Y1. assert (S2 : NoDup (csel f2)) by apply Y2. destruct (rr_valid _ _ _ _ _ R1 Hne) as [VO _].
  exists (carry3 r f1 m1 f2 m2). split.
  - constructor.
    + intros x p Hp. exact (q3_point m1 m2 out1 out2 f1 f2 g1 g2 r V1 V2 D1 D2 S1 S2 R1 R2 HS HP x p Hp).
    + intros x y Hx Hy E. exact (q3_inj m1 m2 out1 out2 f1 f2 g1 g2 r V1 V2 D1 D2 S1 S2 R1 R2 HS HP x y Hx Hy E).
    + intros a b c H. exact (q3_face m1 m2 out1 out2 f1 f2 g1 g2 r V1 V2 D1 D2 S1 S2 R1 R2 HS HP a b c H).
    + intros x v w Hx H. exact (q3_whole m1 m2 out1 out2 f1 f2 g1 g2 r V1 V2 D1 D2 S1 S2 R1 R2 HS HP VO x v w Hx H).
  - intros x Px. apply q3_old; auto.
Qed.

Lemma piece_uniform {d D} s f1 f2 (m1 m2 : mesh (RO d) D) r : valid m1 -> piece r m1 m2 -> csel f1 = [] -> csel f2 = [] ->
  same_edges_split r (CellF s) f1 m1 f2 m2.
Proof.
  intros V1 HS C1 C2 a b Pa Pb. rewrite (Same.split_uniform s f1 m1 a b C1), (Same.split_uniform s f2 m2 (r a) (r b) C2).
  rewrite (ss_dir m1 m2 r V1 HS a b Pa Pb), (ss_dir m1 m2 r V1 HS b a Pb Pa). tauto.
Qed.

Lemma piece_uniform_run {d D} s (m1 m2 : mesh (RO d) D) g1 g2 out1 out2 r n1 n2 :
  valid m1 -> valid m2 -> dense m1 -> dense m2 -> tris m1 <> [] -> unambiguous s m1 -> (s = CLoop -> no_isolated m2 /\ no_wire m2) ->
  (s = CSqrt3 -> (nV m1 + nF m1 < 2 ^ 64)%Z /\ (nV m2 + nF m2 < 2 ^ 64)%Z) -> piece r m1 m2 ->
  update (CellF s) n1 (fresh []) m1 = Ok (g1, out1) -> update (CellF s) n2 (fresh []) m2 = Ok (g2, out2) ->
  exists q, piece q out1 out2 /\ (forall x, oget x (pts m1) <> None -> q x = r x).
Proof.
  intros V1 V2 D1 D2 Hne U1 U2 H3 HS E1 E2.
  assert (Hk : s = CSqrt3 \/ s <> CSqrt3) by (destruct s; auto; right; discriminate). destruct Hk as [->|Hk].
  - destruct (H3 eq_refl) as [B1 B2].
    apply (piece_run3 m1 m2 (fresh []) (fresh []) g1 g2 out1 out2 r n1 n2); auto.
    + split; [intros i []|]. split; [constructor|exact B1].
    + split; [intros i []|]. split; [constructor|exact B2].
    + intros a b c F. rewrite !(Same.picked_uniform (d := d)). split; [intros _; apply (pc_faces _ _ _ HS); exact F|intros _; exact F].
  - assert (I1 : s = CLoop -> no_isolated m1) by (intros ->; apply U1). assert (I2 : s = CLoop -> no_isolated m2) by (intros Es; apply U2; exact Es).
    apply (piece_run (CellF s) m1 m2 (fresh []) (fresh []) g1 g2 out1 out2 r n1 n2); auto.
    + apply ready_uniform; auto.
    + apply ready_uniform; auto.
    + apply (piece_uniform s _ _ m1 m2 r V1 HS); reflexivity.
    + right. intros a b H. apply Same.split_uniform; auto.
    + intros Ek. apply U2. injection Ek as ->. reflexivity.
Qed.

(** What the whole mesh must satisfy for [n] levels. *)
Definition able3 {d D} (s : cscheme) (n : nat) (m : mesh (RO d) D) : Prop :=
  valid m /\ dense m /\ tris m <> [] /\ (s = CLoop -> no_isolated m /\ no_wire m) /\ fits s n m.
Lemma able3_step {d D} s n (m : mesh (RO d) D) fuel f' out : able3 s (S n) m -> update (CellF s) fuel (fresh []) m = Ok (f', out) ->
  able3 s n out /\ csel f' = [].
Proof.
  intros [Hv [Hd [Hne [Ht Hf]]]] E.
  assert (Hk : s = CLoop \/ s <> CLoop) by (destruct s; auto; right; discriminate). destruct Hk as [->|Hk].
  - destruct (Same.able2_step CLoop n m fuel f' out (conj Hv (conj Hd (conj Hne (conj (Ht eq_refl) Hf)))) E) as [[A [B [C [U F]]]] X].
    split; [|exact X]. exact (conj A (conj B (conj C (conj (fun _ => U) F)))).
  - assert (Hk3 : s = CSqrt3 \/ s <> CSqrt3) by (destruct s; auto; right; discriminate). destruct Hk3 as [->|Hk3].
    + destruct (Same.able2_step CSqrt3 n m fuel f' out (conj Hv (conj Hd (conj Hne (conj I Hf)))) E) as [[A [B [C [U F]]]] X].
      split; [|exact X]. repeat (split; [assumption|]). split; [discriminate|exact F].
    + assert (Hr : ready (CellF s) (fresh []) m) by (apply ready_uniform; auto; intros; contradiction).
      destruct (step_ok _ _ _ _ _ _ Hv Hd Hne Hr E) as [V1 [V2 [V3 _]]]. split.
      * repeat (split; [assumption|]). split; [intros Es; contradiction|intros Es; contradiction].
      * destruct (face_run _ _ _ _ _ _ Hv Hd Hr E) as [mid [Ls FR]]. destruct (csel f') as [|i l] eqn:Ec; [reflexivity|]. exfalso.
        destruct (proj1 (fr_csel _ _ _ _ _ _ _ FR i)) as [Hw _]; [rewrite Ec; cbn; auto|discriminate].
Qed.
Lemma pipe_lev3 {d D} s n (m : mesh (RO d) D) f out : pipeline s n [] m f out -> able3 s n m -> lev s n m out.
Proof.
  intros H. remember (@nil N) as sel eqn:Es. induction H as [sel m fuel f out E|n sel m fuel f1 m' f out E H IH]; intros A; subst sel.
  - econstructor; [exact E|constructor].
  - destruct (able3_step s n m fuel f1 m' A E) as [A1 C1]. econstructor; [exact E|]. apply (IH C1 A1).
Qed.
Lemma after_lev3 {d D} s n (m out : mesh (RO d) D) : after s n m out -> able3 s n m -> lev s n m out.
Proof.
  intros H A. destruct n as [|n]; [cbn in H; subst; constructor|]. destruct H as [fuel [f H]]. unfold iterative_update in H.
  replace (Nat.max 1 (S n)) with (S n) in H by lia. apply (pipe_lev3 s (S n) m f out); auto. eapply iter_pipe. exact H.
Qed.
Lemma piece_lev {d D} s n (m1 m2 out1 out2 : mesh (RO d) D) r : lev s n m1 out1 -> lev s n m2 out2 -> Same.able2 s n m1 -> able3 s n m2 -> piece r m1 m2 ->
  exists q, piece q out1 out2 /\ (forall x, oget x (pts m1) <> None -> q x = r x).
Proof.
  intros H. revert m2 out2 r. induction H as [m|n m1 fuel f m out E H IH]; intros m2 out2 r H2 A1 A2 HS.
  - inversion H2; subst. exists r. auto.
  - inversion H2; subst. destruct (Same.able2_step _ _ _ _ _ _ A1 E) as [B1 _]. destruct (able3_step _ _ _ _ _ _ A2 H1) as [B2 _].
    assert (Keep : forall id, oget id (pts m1) <> None -> oget id (pts m) <> None).
    { destruct A1 as [Hv [Hd _]]. destruct (C03_any_filter_pf _ D (CellF s) (fresh []) m1 fuel f m (v_pts_sorted _ Hv) (v_pts_dim _ Hv) Hd E) as [_ [_ [_ K]]]. exact K. }
    assert (Fit : forall x : mesh (RO d) D, fits s (S n) x -> s = CSqrt3 -> (nV x + nF x < 2 ^ 64)%Z).
    { intros x Hf Es. specialize (Hf Es). rewrite Nat2Z.inj_succ, Z.pow_succ_r in Hf by lia.
      assert (Hp1 : (1 <= 3 ^ Z.of_nat n)%Z) by (pose proof (Z.pow_pos_nonneg 3 (Z.of_nat n)); lia). assert (HF : (0 <= nF x)%Z) by (unfold nF; lia). nia. }
    destruct A1 as [Va [Da [Na [Ua Fa]]]], A2 as [Vb [Db [Nb [Ub Fb]]]].
    destruct (piece_uniform_run s m1 m2 f f0 m m0 r fuel fuel0 Va Vb Da Db Na Ua Ub) as [q [HQ Hq]]; auto.
    destruct (IH m0 out2 q H3 B1 B2 HQ) as [p [HQ' Hq']]. exists p. split; [exact HQ'|].
    intros x Px. rewrite (Hq' x (Keep x Px)). apply Hq. exact Px.
Qed.

Lemma C120_pf : forall (d : nat) (D : Type) s n (m1 m2 out1 out2 : mesh (RO d) D) r,
  valid m1 -> valid m2 -> dense m1 -> dense m2 -> tris m1 <> [] -> unambiguous s m1 -> (s = CLoop -> no_isolated m2 /\ no_wire m2) ->
  fits s n m1 -> fits s n m2 -> piece r m1 m2 -> after s n m1 out1 -> after s n m2 out2 ->
  exists q, piece q out1 out2 /\ (forall x, oget x (pts m1) <> None -> q x = r x).
Proof.
  intros d D s n m1 m2 out1 out2 r V1 V2 D1 D2 N1 U1 U2 F1 F2 HS A1 A2.
  assert (N2 : tris m2 <> []).
  { intros E. destruct (tris m1) as [|[[a b] c] T] eqn:ET; [congruence|]. assert (F : is_face m1 a b c) by (left; rewrite ET; cbn; auto).
    apply (pc_faces _ _ _ HS) in F. unfold is_face in F. rewrite E in F. cbn in F. tauto. }
  assert (B1 : Same.able2 s n m1) by (exact (conj V1 (conj D1 (conj N1 (conj U1 F1))))). assert (B2 : able3 s n m2) by (exact (conj V2 (conj D2 (conj N2 (conj U2 F2))))).
  apply (piece_lev s n m1 m2 out1 out2 r); auto; [apply Same.after_lev2|apply after_lev3]; auto.
Qed.

Lemma C120_adaptive_pf : forall (d : nat) (D : Type) k (m1 m2 : mesh (RO d) D) f1 f2 g1 g2 out1 out2 r n1 n2,
  valid m1 -> valid m2 -> dense m1 -> dense m2 -> tris m1 <> [] -> ready k f1 m1 -> ready k f2 m2 -> unambiguous (scheme_of k) m1 -> (k = CellF CLoop -> no_wire m2) ->
  piece r m1 m2 -> same_corners r m1 m2 -> same_edges_split r k f1 m1 f2 m2 ->
  (k = CellF CLoop -> forall x, oget x (pts m1) <> None -> (uniform f1 = true \/ In x (csel f1)) <-> (uniform f2 = true \/ In (r x) (csel f2))) ->
  update k n1 f1 m1 = Ok (g1, out1) -> update k n2 f2 m2 = Ok (g2, out2) ->
  exists q, piece q out1 out2 /\ (forall x, oget x (pts m1) <> None -> q x = r x).
Proof.
  intros d D k m1 m2 f1 f2 g1 g2 out1 out2 r n1 n2 V1 V2 D1 D2 Hne R1 R2 U1 U2 HS HC HD HL E1 E2.
  apply (piece_run k m1 m2 f1 f2 g1 g2 out1 out2 r n1 n2); auto.
  intros Ek x Px. specialize (HL Ek x Px). unfold smooths.
  pose proof (memN_In x (csel f1)) as X1. pose proof (memN_In (r x) (csel f2)) as X2.
  destruct (uniform f1), (uniform f2), (memN x (csel f1)), (memN (r x) (csel f2)); cbn; try reflexivity; exfalso; intuition congruence.
Qed.

Lemma C120_edges_pf : forall (d : nat) (D : Type) s (m1 m2 : mesh (RO d) D) f1 f2 g1 g2 out1 out2 r n1 n2,
  valid m1 -> valid m2 -> dense m1 -> dense m2 -> tris m1 <> [] -> ready (EdgeF s) f1 m1 -> ready (EdgeF s) f2 m2 -> no_wire m1 -> no_wire m2 ->
  unambiguous (scheme_of (EdgeF s)) m1 -> piece r m1 m2 -> esel f1 = [] -> esel f2 = [] ->
  update (EdgeF s) n1 f1 m1 = Ok (g1, out1) -> update (EdgeF s) n2 f2 m2 = Ok (g2, out2) ->
  exists q, piece q out1 out2 /\ (forall x, oget x (pts m1) <> None -> q x = r x).
Proof.
  intros d D s m1 m2 f1 f2 g1 g2 out1 out2 r n1 n2 V1 V2 D1 D2 Hne R1 R2 W1 W2 U1 HS Z1 Z2 E1 E2.
  apply (piece_run (EdgeF s) m1 m2 f1 f2 g1 g2 out1 out2 r n1 n2); auto.
  - intros a b Pa Pb. cbn [to_split]. rewrite Z1, Z2. cbn [In]. rewrite (ss_joined m1 m2 r V1 V2 HS a b W1 W2 Pa Pb). tauto.
  - right. intros a b H. cbn [to_split]. left. split; [exact Z1|]. apply (v_face_edges _ V1). exact H.
  - discriminate.
Qed.
