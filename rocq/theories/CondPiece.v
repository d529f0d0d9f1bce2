(** * CondPiece: the conditional filters treat a separate piece of a mesh as if it were alone (C123). *)
From Coq Require Import Reals Lra.
From Verif Require Import Base Mesh Filters Drivers Spec SpecSub SpecGeo SpecRenum SpecRoot3 SpecDrive SpecConv SpecSame Lists AddFace SplitTri Split Points Valid Run Update Struct Count Face FaceProps
  Geo GeoProps Renum Gaps Drive Cond DriveProps Never.
From Verif Require Same.
From Verif Require Import CondSame Piece.

Section CP.
Context {d : nat} {D : Type}.
Notation mesh := (mesh (RO d) D).
Implicit Types m : mesh.

(** A piece whose cells start with the same points as in the whole. *)
Definition part (r : N -> N) m1 m2 : Prop := piece r m1 m2 /\ same_corners r m1 m2.

Lemma crd_part m1 m2 r i x : piece r m1 m2 -> oget x (pts m1) <> None -> crd m2 i (r x) = crd m1 i x.
Proof.
  intros HS Px. destruct (oget x (pts m1)) as [p|] eqn:E; [|congruence]. pose proof (pc_pts _ _ _ HS x p E) as E2.
  unfold crd, ptof. rewrite E, E2. reflexivity.
Qed.
Lemma dot_part m1 m2 r o a b : piece r m1 m2 -> oget o (pts m1) <> None -> oget a (pts m1) <> None -> oget b (pts m1) <> None ->
  dot m2 (r o) (r a) (r b) = dot m1 o a b.
Proof. intros HS Po Pa Pb. unfold dot. apply rsum_ext. intros i _. rewrite !(crd_part m1 m2 r) by assumption. reflexivity. Qed.
Lemma seg_part m1 m2 r a b : piece r m1 m2 -> oget a (pts m1) <> None -> oget b (pts m1) <> None -> seg_length m2 (r a) (r b) = seg_length m1 a b.
Proof. intros HS Pa Pb. unfold seg_length. rewrite (dot_part m1 m2 r) by assumption. reflexivity. Qed.
Lemma area_part m1 m2 r a b c : piece r m1 m2 -> oget a (pts m1) <> None -> oget b (pts m1) <> None -> oget c (pts m1) <> None ->
  tri_area m2 (r a, r b, r c) = tri_area m1 (a, b, c).
Proof. intros HS Pa Pb Pc. unfold tri_area. rewrite !(dot_part m1 m2 r) by assumption. reflexivity. Qed.

(** A triangle of the whole that touches the part is one of its triangles. *)
Lemma touch_part m1 m2 r v t2 : valid m2 -> part r m1 m2 -> oget v (pts m1) <> None -> In t2 (tris m2) -> In (r v) (tverts t2) ->
  exists a b c, In (a, b, c) (tris m1) /\ t2 = (r a, r b, r c).
Proof.
  intros V2 [HS HC] Pv H2 Hv. destruct (touch m1 m2 r HS v t2 Pv H2 Hv) as [a [b [c [Ht Hr]]]]. exists a, b, c. split; [exact Ht|].
  apply (v_notwin _ V2 _ _ H2 (HC _ _ _ Ht)). destruct Hr as [->|[->| ->]]; unfold same_verts; cbn; intros; tauto.
Qed.

(** ** What the criteria select in the part *)
Lemma area_in t m1 m2 r : valid m1 -> valid m2 -> part r m1 m2 -> sel_empty (asel (O := RO d) t m1) = false -> sel_empty (asel (O := RO d) t m2) = false.
Proof.
  intros V1 V2 [HS HC] E. apply (area_pick t m1 V1) in E. destruct E as [[[x y] z] [Hu Hlt]]. apply (area_pick t m2 V2).
  assert (Fx : is_face m1 x y z) by (left; exact Hu). destruct (Same.face_pts m1 V1 _ _ _ Fx) as [Px [Py Pz]].
  exists (r x, r y, r z). split; [apply HC; exact Hu|rewrite (area_part m1 m2 r) by assumption; exact Hlt].
Qed.
Lemma len_in t m1 m2 r : valid m1 -> valid m2 -> no_wire m1 -> no_wire m2 -> part r m1 m2 ->
  sel_empty (esl_ (O := RO d) t m1) = false -> sel_empty (esl_ (O := RO d) t m2) = false.
Proof.
  intros V1 V2 W1 W2 [HS HC] E. apply (len_pick t m1 V1) in E. destruct E as [a [b [Hj Hlt]]]. apply (len_pick t m2 V2).
  destruct (Same.joined_pts m1 V1 a b Hj) as [Pa Pb]. exists (r a), (r b). split.
  - apply (ss_joined m1 m2 r V1 V2 HS a b W1 W2 Pa Pb). exact Hj.
  - rewrite (seg_part m1 m2 r) by assumption. exact Hlt.
Qed.
Lemma edge_vert u a b : edge_of u a b -> In a (tverts u).
Proof. destruct u as [[x y] z]. unfold edge_of. cbn. intros [H|H]; intuition congruence. Qed.
Lemma area_big t m1 m2 r a b : valid m1 -> valid m2 -> part r m1 m2 -> oget a (pts m1) <> None -> oget b (pts m1) <> None ->
  (exists u, In u (tris m1) /\ (t < tri_area m1 u)%R /\ edge_of u a b) <-> exists u, In u (tris m2) /\ (t < tri_area m2 u)%R /\ edge_of u (r a) (r b).
Proof.
  intros V1 V2 HP Pa Pb. pose proof HP as [HS HC]. split.
  - intros [[[x y] z] [Hu [Hlt He]]]. assert (Fx : is_face m1 x y z) by (left; exact Hu). destruct (Same.face_pts m1 V1 _ _ _ Fx) as [Px [Py Pz]].
    exists (r x, r y, r z). split; [apply HC; exact Hu|]. split; [rewrite (area_part m1 m2 r) by assumption; exact Hlt|].
    unfold edge_of in *. cbn [tdirs In] in *. intuition congruence.
  - intros [u [Hu [Hlt He]]]. destruct (touch_part m1 m2 r a u V2 HP Pa Hu (edge_vert _ _ _ He)) as [x [y [z [Ht ->]]]].
    assert (Fx : is_face m1 x y z) by (left; exact Ht). destruct (Same.face_pts m1 V1 _ _ _ Fx) as [Px [Py Pz]].
    rewrite (area_part m1 m2 r) in Hlt by assumption. exists (x, y, z). split; [exact Ht|]. split; [exact Hlt|].
    assert (I : forall v w, oget v (pts m1) <> None -> oget w (pts m1) <> None -> r v = r w -> v = w) by (apply (pc_inj _ _ _ HS)).
    unfold edge_of in *. cbn [tdirs In] in *.
    repeat match goal with X : _ \/ _ |- _ => destruct X as [X|X] | X : False |- _ => destruct X end;
      apply pair_equal_spec in He; destruct He as [X1 X2]; apply I in X1; try assumption; apply I in X2; try assumption; subst; auto 10.
Qed.
Lemma len_long t m1 m2 r a b : valid m1 -> valid m2 -> no_wire m1 -> no_wire m2 -> part r m1 m2 -> oget a (pts m1) <> None -> oget b (pts m1) <> None ->
  joined m1 a b /\ (t < seg_length m1 a b)%R <-> joined m2 (r a) (r b) /\ (t < seg_length m2 (r a) (r b))%R.
Proof.
  intros V1 V2 W1 W2 [HS HC] Pa Pb. rewrite (seg_part m1 m2 r a b HS Pa Pb), (ss_joined m1 m2 r V1 V2 HS a b W1 W2 Pa Pb). reflexivity.
Qed.

(** ** One round *)
Lemma part_run k m1 m2 f1 f2 g1 g2 out1 out2 r n1 n2 : k <> CellF CLoop ->
  valid m1 -> valid m2 -> dense m1 -> dense m2 -> tris m1 <> [] -> ready k f1 m1 -> ready k f2 m2 -> part r m1 m2 ->
  update k n1 f1 m1 = Ok (g1, out1) -> update k n2 f2 m2 = Ok (g2, out2) -> same_edges_split r k f1 m1 f2 m2 -> unambiguous (scheme_of k) m1 ->
  exists q, part q out1 out2 /\ (forall x, oget x (pts m1) <> None -> q x = r x /\ oget x (pts out1) <> None).
Proof.
  intros Hk V1 V2 D1 D2 Hne R1 R2 [HS HC] E1 E2 HD U1. destruct (step_ok _ _ _ _ _ _ V1 D1 Hne R1 E1) as [VO _].
  assert (U2 : k = CellF CLoop -> no_wire m2) by (intros; contradiction).
  assert (HL : k = CellF CLoop -> forall x, oget x (pts m1) <> None -> smooths f1 x = smooths f2 (r x)) by (intros; contradiction).
  destruct (face_run k f1 m1 n1 g1 out1 V1 D1 R1 E1) as [mid1 [Ls1 F1]]. destruct (face_run k f2 m2 n2 g2 out2 V2 D2 R2 E2) as [mid2 [Ls2 F2]].
  pose proof (or_introl HC : same_corners r m1 m2 \/ forall a b, In (a, b) (dirs (tris m1)) -> to_split k f1 m1 a b) as HT.
  exists (carry r (osize (pts m1)) (inserted k f1 m1) (osize (pts m2)) (inserted k f2 m2)). split; [split|].
  - constructor.
    + intros x p Hp. exact (q_point k f1 f2 g1 g2 m1 m2 out1 out2 r n1 n2 mid1 mid2 Ls1 Ls2 V1 V2 D1 D2 R1 R2 HS E1 E2 F1 F2 HD HT U1 U2 HL x p Hp).
    + intros x y Hx Hy E. exact (q_inj k f1 f2 g1 g2 m1 m2 out1 out2 r mid1 mid2 Ls1 Ls2 V1 D1 R1 HS F1 F2 HD HL x y Hx Hy E).
    + intros a b c H. exact (q_face k f1 f2 g1 g2 m1 m2 out1 out2 r mid1 mid2 Ls1 Ls2 V1 D1 R1 HS F1 F2 HD HT HL a b c H).
    + intros x v w Hx H. exact (q_whole k f1 f2 g1 g2 m1 m2 out1 out2 r mid1 mid2 Ls1 Ls2 V1 V2 D1 R1 HS F1 F2 HD HT VO HL x v w Hx H).
  - intros a b c H. rewrite (sd_tris _ _ _ _ _ (fr_sub _ _ _ _ _ _ _ F1)), (fr_Ls _ _ _ _ _ _ _ F1) in H. apply in_concat in H.
    destruct H as [L [HL1 Hw]]. apply in_map_iff in HL1. destruct HL1 as [[[x y] z] [<- Ht]]. cbn [split_tri] in Hw.
    assert (Fx : is_face m1 x y z) by (left; exact Ht). destruct (Same.face_pts m1 V1 _ _ _ Fx) as [Px [Py Pz]].
    apply (split_face _ _ m2 k f2 g2 out2 mid2 Ls2 (r x, r y, r z)); [exact F2|apply HC; exact Ht|]. cbn [split_tri].
    pose proof (mid_same k f1 f2 g1 g2 m1 m2 out1 out2 r mid1 mid2 Ls1 Ls2 V1 R1 F1 F2 HD HL) as MS. pose proof (q_old k f1 f2 m1 m2 r D1) as QO.
    rewrite (MS x y Px Py), (MS y z Py Pz), (MS z x Pz Px), <- (QO x Px), <- (QO y Py), <- (QO z Pz), split_triangle_map.
    apply in_map_iff. exists (a, b, c). split; [reflexivity|exact Hw].
  - intros x Px. split; [exact (q_old k f1 f2 m1 m2 r D1 x Px)|]. destruct (oget x (pts m1)) as [p|] eqn:Ex; [|congruence].
    assert (X : oget x (pts out1) = Some p) by (eapply fr_old; eauto). congruence.
Qed.

(** A round that splits nothing of the part leaves it as it is. *)
Lemma part_idle k m1 m2 f2 g2 out2 r n2 : k <> CellF CLoop -> valid m1 -> valid m2 -> dense m2 -> ready k f2 m2 -> part r m1 m2 ->
  update k n2 f2 m2 = Ok (g2, out2) ->
  (forall a b, oget a (pts m1) <> None -> oget b (pts m1) <> None -> ~ to_split k f2 m2 (r a) (r b)) -> part r m1 out2.
Proof.
  intros Hk V1 V2 D2 R2 HP E2 HN. pose proof HP as [HS HC]. destruct (face_run k f2 m2 n2 g2 out2 V2 D2 R2 E2) as [mid2 [Ls2 F2]].
  pose proof (fr_sub _ _ _ _ _ _ _ F2) as SD.
  assert (M : forall a b, oget a (pts m1) <> None -> oget b (pts m1) <> None -> mid2 (r a) (r b) = None).
  { intros a b Pa Pb. destruct (mid2 (r a) (r b)) as [x|] eqn:Em; [|reflexivity]. exfalso. apply (HN a b Pa Pb). apply (sd_dom _ _ _ _ _ SD). congruence. }
  assert (SP : forall a b c, In (a, b, c) (tris m1) -> split_tri mid2 (r a, r b, r c) = [(r a, r b, r c)]).
  { intros a b c Ht. assert (Fx : is_face m1 a b c) by (left; exact Ht). destruct (Same.face_pts m1 V1 _ _ _ Fx) as [Pa [Pb Pc]].
    cbn [split_tri]. rewrite (M a b Pa Pb), (M b c Pb Pc), (M c a Pc Pa). reflexivity. }
  assert (CO : same_corners r m1 out2).
  { intros a b c Ht. apply (split_face _ _ m2 k f2 g2 out2 mid2 Ls2 (r a, r b, r c)); [exact F2|apply HC; exact Ht|]. rewrite (SP a b c Ht). left. reflexivity. }
  split; [|exact CO]. constructor.
  - intros x p Hp. apply (pc_pts _ _ _ HS) in Hp. eapply fr_old; eauto.
  - apply (pc_inj _ _ _ HS).
  - intros a b c [H|[H|H]]; apply CO in H; unfold is_face; auto.
  - intros x v w Px H. apply (pc_whole _ _ _ HS x v w Px).
    assert (IN : forall t, In t (tris out2) -> In (r x) (tverts t) -> In t (tris m2)).
    { intros t Ht Hv. rewrite (sd_tris _ _ _ _ _ SD), (fr_Ls _ _ _ _ _ _ _ F2) in Ht. apply in_concat in Ht.
      destruct Ht as [L [HL1 Hw]]. apply in_map_iff in HL1. destruct HL1 as [[[i j] l] [<- Ht]].
      assert (Pr : oget (r x) (pts m2) <> None) by (apply (ss_has m1 m2 r HS x Px)).
      destruct (split_corner mid2 i j l t (r x) Hw Hv) as [K|[s [u [_ Hm]]]].
      - destruct (touch_part m1 m2 r x (i, j, l) V2 HP Px Ht K) as [a [b [c [Ht1 E]]]]. rewrite E in Hw, Ht. rewrite (SP a b c Ht1) in Hw.
        destruct Hw as [<-|[]]. exact Ht.
      - exfalso. apply Pr. apply (sd_new _ _ _ _ _ SD). eauto. }
    destruct H as [H|[H|H]]; apply IN in H; unfold is_face; cbn; auto.
Qed.

(** ** All rounds *)
Section LOOP.
Variables (k : kind) (cr : @criterion (RO d) D) (selof : mesh -> selection) (G1 G2 : mesh -> Prop).
Hypothesis Hk : k <> CellF CLoop.
Hypothesis Hmono : crit_mono cr.
Hypothesis Hcrit : forall m old, valid m -> exists fuel, cr fuel m old = Ok (selof m).
Hypothesis Hdet : forall fuel m old s, cr fuel m old = Ok s -> s = selof m.
Hypothesis HG1 : forall m, G1 m -> even k m.
Hypothesis HG2 : forall m, G2 m -> cond_start k m.
Hypothesis Hr1 : forall m f, G1 m -> sel_empty (selof m) = false -> ready k (apply_selection f (selof m)) m.
Hypothesis Hr2 : forall m f, G2 m -> sel_empty (selof m) = false -> ready k (apply_selection f (selof m)) m.
Hypothesis Hs1 : forall m f fuel f' m', G1 m -> sel_empty (selof m) = false -> update k fuel (apply_selection f (selof m)) m = Ok (f', m') -> G1 m'.
Hypothesis Hs2 : forall m f fuel f' m', G2 m -> sel_empty (selof m) = false -> update k fuel (apply_selection f (selof m)) m = Ok (f', m') -> G2 m'.
Hypothesis Hsel : forall m1 m2 r, G1 m1 -> G2 m2 -> part r m1 m2 -> sel_empty (selof m1) = false -> sel_empty (selof m2) = false.
Hypothesis Hsplit : forall m1 m2 f1 f2 r, G1 m1 -> G2 m2 -> part r m1 m2 -> sel_empty (selof m1) = false -> sel_empty (selof m2) = false ->
  same_edges_split r k (apply_selection f1 (selof m1)) m1 (apply_selection f2 (selof m2)) m2.
Hypothesis Hidle : forall m1 m2 f2 r, G1 m1 -> G2 m2 -> part r m1 m2 -> sel_empty (selof m1) = true -> sel_empty (selof m2) = false ->
  forall a b, oget a (pts m1) <> None -> oget b (pts m1) <> None -> ~ to_split k (apply_selection f2 (selof m2)) m2 (r a) (r b).

Lemma loop_part : forall n2 m1 m2 f1 f2 g2 o2 r, G1 m1 -> G2 m2 -> part r m1 m2 -> conditional_loop n2 k cr (selof m2) f2 m2 = Ok (g2, o2) ->
  exists n1 g1 o1 q, conditional_loop n1 k cr (selof m1) f1 m1 = Ok (g1, o1) /\ part q o1 o2 /\ (forall x, oget x (pts m1) <> None -> q x = r x).
Proof.
  induction n2 as [|n2 IH]; intros m1 m2 f1 f2 g2 o2 r A1 A2 HP E2; [discriminate|].
  apply (loop_inv k cr selof Hdet) in E2. pose proof (Hsel m1 m2 r A1 A2 HP) as Hs.
  destruct (HG1 _ A1) as [[V1 [D1 [N1 _]]] U1]. destruct (HG2 _ A2) as [V2 [D2 _]].
  destruct (sel_empty (selof m1)) eqn:S1.
  - destruct E2 as [[S2 ->]|[S2 [n2' [f2' [m2' [En [U2 L2]]]]]]].
    + exists 1%nat, f1, m1, r. cbn [conditional_loop]. rewrite S1. auto.
    + injection En as <-. pose proof (part_idle k m1 m2 _ f2' m2' r n2 Hk V1 V2 D2 (Hr2 _ f2 A2 S2) HP U2 (Hidle m1 m2 f2 r A1 A2 HP S1 S2)) as HP'.
      exact (IH m1 m2' f1 f2' g2 o2 r A1 (Hs2 _ _ _ _ _ A2 S2 U2) HP' L2).
  - destruct E2 as [[S2 _]|[S2 [n2' [f2' [m2' [En [U2 L2]]]]]]]; [rewrite (Hs eq_refl) in S2; discriminate|]. injection En as <-.
    pose proof (Hr1 m1 f1 A1 S1) as R1. destruct (face_completes k _ m1 V1 D1 R1) as [f1' [m1' [_ [k1 H1]]]]. cbv beta in H1.
    pose proof (H1 k1 (le_n k1)) as E1. pose proof (Hs1 _ _ _ _ _ A1 S1 E1) as A1'. pose proof (Hs2 _ _ _ _ _ A2 S2 U2) as A2'.
    destruct (part_run k m1 m2 _ _ f1' f2' m1' m2' r k1 n2 Hk V1 V2 D1 D2 N1 R1 (Hr2 _ f2 A2 S2) HP E1 U2 (Hsplit m1 m2 f1 f2 r A1 A2 HP S1 S2) U1) as [q [HP' Hq]].
    destruct (IH m1' m2' f1' f2' g2 o2 q A1' A2' HP' L2) as [n1 [g1 [o1 [p [L1 [HO Hp]]]]]].
    destruct (Hcrit m1' (selof m1)) as [k2 H2]; [apply (HG1 _ A1')|].
    exists (S (Nat.max k1 (Nat.max k2 n1))), g1, o1, p. split; [|split; [exact HO|]].
    + cbn [conditional_loop]. rewrite S1. rewrite H1 by lia. cbn [rbind].
      replace (Nat.max k1 (Nat.max k2 n1)) with (k2 + (Nat.max k1 (Nat.max k2 n1) - k2))%nat by lia. rewrite Hmono by congruence. rewrite H2. cbn [rbind].
      replace (k2 + (Nat.max k1 (Nat.max k2 n1) - k2))%nat with (n1 + (Nat.max k1 (Nat.max k2 n1) - n1))%nat by lia.
      rewrite cond_loop_mono; [exact L1|exact Hmono|congruence].
    + intros x Px. destruct (Hq x Px) as [Q1 Q2]. rewrite (Hp x Q2). exact Q1.
Qed.

Lemma cond_part n2 old1 old2 f1 f2 inp1 inp2 g2 o2 r : G1 (copy_geometry inp1) -> G2 (copy_geometry inp2) -> part r (copy_geometry inp1) (copy_geometry inp2) ->
  pts (copy_geometry inp1) = pts inp1 ->
  conditional_update n2 k (Some cr) old2 f2 inp2 = Ok (g2, o2) ->
  exists g1 o1 q, completes (fun fuel => conditional_update fuel k (Some cr) old1 f1 inp1) (Ok (g1, o1)) /\
    piece q o1 o2 /\ same_corners q o1 o2 /\ (forall x, oget x (pts inp1) <> None -> q x = r x).
Proof.
  intros A1 A2 HP Hp E2. unfold conditional_update in E2.
  destruct (cr n2 (copy_geometry inp2) old2) as [s0| | |] eqn:Ec; cbn [rbind] in E2; try discriminate. apply Hdet in Ec. subst s0.
  destruct (loop_part n2 _ _ f1 f2 g2 o2 r A1 A2 HP E2) as [n1 [g1 [o1 [q [E1 [[H1 H2] H3]]]]]].
  exists g1, o1, q. split; [|split; [exact H1|split; [exact H2|rewrite Hp in H3; exact H3]]].
  destruct (Hcrit (copy_geometry inp1) old1 ltac:(apply (HG1 _ A1))) as [n3 E3].
  apply (cond_completes k cr old1 f1 inp1 (n3 + n1)); [exact Hmono| |discriminate].
  unfold conditional_update. rewrite Hmono by congruence. rewrite E3. cbn [rbind]. rewrite Nat.add_comm, cond_loop_mono; [exact E1|exact Hmono|congruence].
Qed.
End LOOP.

Lemma copy_part m1 m2 r : valid m1 -> valid m2 -> part r m1 m2 -> part r (copy_geometry m1) (copy_geometry m2).
Proof.
  intros V1 V2 [HS HC]. destruct (copy_shape m1 V1) as [P1 [T1 _]], (copy_shape m2 V2) as [P2 [T2 _]]. split.
  - constructor; unfold is_face; rewrite ?P1, ?P2, ?T1, ?T2; [apply (pc_pts _ _ _ HS)|apply (pc_inj _ _ _ HS)|apply (pc_faces _ _ _ HS)|apply (pc_whole _ _ _ HS)].
  - unfold same_corners. rewrite T1, T2. exact HC.
Qed.
End CP.

Lemma C123_cells_pf : forall (d : nat) (D : Type) s (maxarea : R) (inp1 inp2 : mesh (RO d) D) old1 old2 f1 f2 fuel f2' out2 r,
  s = CLinear \/ s = CButterfly ->
  valid inp1 -> valid inp2 -> dense inp1 -> dense inp2 -> tris inp1 <> [] -> unambiguous s inp1 -> piece r inp1 inp2 -> same_corners r inp1 inp2 ->
  conditional_update fuel (CellF s) (Some (cell_area_criterion (O := RO d) maxarea)) old2 f2 inp2 = Ok (f2', out2) ->
  exists f1' out1 q,
    completes (fun n => conditional_update n (CellF s) (Some (cell_area_criterion (O := RO d) maxarea)) old1 f1 inp1) (Ok (f1', out1)) /\
    piece q out1 out2 /\ same_corners q out1 out2 /\ (forall x, oget x (pts inp1) <> None -> q x = r x).
Proof.
  intros d D s t inp1 inp2 old1 old2 f1 f2 fuel f2' out2 r Hs V1 V2 D1 D2 N1 U1 HS HC E.
  assert (N2 : tris inp2 <> []).
  { destruct (tris inp1) as [|[[a b] c] l] eqn:T; [congruence|]. assert (X : In (a, b, c) (tris inp1)) by (rewrite T; left; reflexivity).
    apply HC in X. intros T2. rewrite T2 in X. destruct X. }
  assert (G : forall m : mesh (RO d) D, valid m -> dense m -> tris m <> [] -> cond_start (CellF s) m).
  { intros m Hv Hd Hn. apply start_of; auto; [unfold splits_faces; destruct Hs; congruence|]. intros [X|X]; destruct Hs; congruence. }
  apply (cond_part (CellF s) (cell_area_criterion (O := RO d) t) (asel (O := RO d) t) (even (CellF s)) (cond_start (CellF s))) with (n2 := fuel) (old2 := old2) (f2 := f2) (g2 := f2') (inp2 := inp2); auto.
  - destruct Hs; congruence.
  - apply area_crit_mono.
  - intros m old Hv. apply area_crit_runs. exact Hv.
  - intros n0 m o x X. apply area_crit_inv in X. apply X.
  - intros m f H _. apply area_ready. apply H.
  - intros m f H _. apply area_ready. exact H.
  - intros m f n0 g m' H _ X. eapply even_step; [exact H|apply area_ready; apply H|exact X].
  - intros m f n0 g m' H _ X. eapply start_step; [exact H|apply area_ready; apply H|exact X].
  - intros m1 m2 q H1 H2 H3. apply (area_in t m1 m2 q); [apply H1|apply H2|exact H3].
  - intros m1 m2 g1 g2 q H1 H2 H3 S1 S2 a b Pa Pb. rewrite (area_split t m1 s g1 a b (proj1 (proj1 H1)) S1), (area_split t m2 s g2 _ _ (proj1 H2) S2).
    apply (area_big t m1 m2 q a b); [apply H1|apply H2| | |]; assumption.
  - intros m1 m2 g2 q H1 H2 H3 S1 S2 a b Pa Pb X. apply (area_split t m2 s g2 _ _ (proj1 H2) S2) in X.
    apply (area_big t m1 m2 q a b (proj1 (proj1 H1)) (proj1 H2) H3 Pa Pb) in X. destruct X as [u [Hu [Hlt _]]].
    assert (Y : sel_empty (asel (O := RO d) t m1) = false) by (apply area_pick; [apply H1|eauto]). congruence.
  - apply copy_even. split; auto.
  - apply copy_start. auto.
  - apply copy_part; auto. split; assumption.
  - apply (copy_shape inp1 V1).
Qed.

Lemma C123_edges_pf : forall (d : nat) (D : Type) s (maxlen : R) (inp1 inp2 : mesh (RO d) D) old1 old2 f1 f2 fuel f2' out2 r,
  valid inp1 -> valid inp2 -> dense inp1 -> dense inp2 -> tris inp1 <> [] -> no_wire inp1 -> no_wire inp2 -> (s = ELoop -> no_isolated inp2) ->
  unambiguous (scheme_of (EdgeF s)) inp1 -> piece r inp1 inp2 -> same_corners r inp1 inp2 ->
  conditional_update fuel (EdgeF s) (Some (edge_length_criterion (O := RO d) maxlen)) old2 f2 inp2 = Ok (f2', out2) ->
  exists f1' out1 q,
    completes (fun n => conditional_update n (EdgeF s) (Some (edge_length_criterion (O := RO d) maxlen)) old1 f1 inp1) (Ok (f1', out1)) /\
    piece q out1 out2 /\ same_corners q out1 out2 /\ (forall x, oget x (pts inp1) <> None -> q x = r x).
Proof.
  intros d D s t inp1 inp2 old1 old2 f1 f2 fuel f2' out2 r V1 V2 D1 D2 N1 W1 W2 I2 U1 HS HC E.
  assert (N2 : tris inp2 <> []).
  { destruct (tris inp1) as [|[[a b] c] l] eqn:T; [congruence|]. assert (X : In (a, b, c) (tris inp1)) by (rewrite T; left; reflexivity).
    apply HC in X. intros T2. rewrite T2 in X. destruct X. }
  apply (cond_part (EdgeF s) (edge_length_criterion (O := RO d) t) (esl_ (O := RO d) t) (fun m => even (EdgeF s) m /\ no_wire m) (fun m => cond_start (EdgeF s) m /\ no_wire m))
    with (n2 := fuel) (old2 := old2) (f2 := f2) (g2 := f2') (inp2 := inp2).
  - discriminate.
  - apply edge_crit_mono.
  - intros m old Hv. exists 0%nat. apply edge_crit_runs. exact Hv.
  - intros n0 m o x X. apply edge_crit_inv in X. apply X.
  - intros m H. apply H.
  - intros m H. apply H.
  - intros m f H He. apply edge_ready; [apply H|exact He].
  - intros m f H He. apply edge_ready; [apply H|exact He].
  - intros m f n0 g m' H He X. eapply even_step; [apply H|apply edge_ready; [apply H|exact He]|exact X].
  - intros m f n0 g m' [H HW] He X. pose proof (edge_ready (O := RO d) s t m f H He) as Hr. split; [eapply start_step; eauto|].
    destruct H as [Hv [Hd [Hne _]]]. apply (step_ok _ _ _ _ _ _ Hv Hd Hne Hr X).
  - intros m1 m2 q [H1 H1'] [H2 H2'] H3. apply (len_in t m1 m2 q); [apply H1|apply H2| | |]; assumption.
  - intros m1 m2 g1 g2 q [H1 H1'] [H2 H2'] H3 S1 S2 a b Pa Pb. rewrite (len_split t m1 s g1 a b (proj1 (proj1 H1)) S1), (len_split t m2 s g2 _ _ (proj1 H2) S2).
    apply (len_long t m1 m2 q a b); [apply H1|apply H2| | | | |]; assumption.
  - intros m1 m2 g2 q [H1 H1'] [H2 H2'] H3 S1 S2 a b Pa Pb X. apply (len_split t m2 s g2 _ _ (proj1 H2) S2) in X.
    apply (len_long t m1 m2 q a b (proj1 (proj1 H1)) (proj1 H2) H1' H2' H3 Pa Pb) in X.
    assert (Y : sel_empty (esl_ (O := RO d) t m1) = false) by (apply len_pick; [apply H1|eauto]). congruence.
  - split; [|apply copy_nowire; assumption]. apply copy_even. split; [|exact U1].
    apply start_of; auto; [unfold splits_faces; congruence|]. intros [X|X]; [discriminate|]. injection X as ->. exact U1.
  - split; [|apply copy_nowire; assumption]. apply copy_start.
    apply start_of; auto; [unfold splits_faces; congruence|]. intros [X|X]; [discriminate|]. injection X as ->. auto.
  - apply copy_part; auto. split; assumption.
  - apply (copy_shape inp1 V1).
  - exact E.
Qed.
