(** * CondAny: the conditional filters around the linear filters in any arithmetic in which addition is commutative and the
    square of a difference does not depend on its order (C124). *)
From Verif Require Import Base Mesh Filters Drivers Spec SpecSub SpecGeo SpecRenum SpecRoot3 SpecDrive SpecConv SpecSame Lists AddFace SplitTri Split Points Valid Run Update Struct Count Face FaceProps
  Geo GeoProps Renum Gaps Drive Cond DriveProps Never.
From Verif Require Same SameAny.
From Verif Require Import Same.

Section CA.
Context {O : Ops} {D : Type}.
Notation mesh := (mesh O D).
Implicit Types m : mesh.

Definition linked (r r' : N -> N) m1 m2 : Prop := same_surface r r' m1 m2 /\ same_corners r m1 m2.

Lemma corners_back m1 m2 r r' : valid m1 -> valid m2 -> linked r r' m1 m2 -> same_corners r' m2 m1.
Proof.
  intros V1 V2 [HS HC] a b c H. pose proof (same_sym _ _ _ _ HS) as HS'.
  assert (Fc : is_face m2 a b c) by (left; exact H). pose proof (ss_faces' _ _ _ _ HS a b c Fc) as G.
  destruct (face_pts m2 V2 _ _ _ Fc) as [Pa [Pb Pc]]. destruct (ss_has m2 m1 r' r HS' a Pa) as [_ Ea], (ss_has m2 m1 r' r HS' b Pb) as [_ Eb], (ss_has m2 m1 r' r HS' c Pc) as [_ Ec].
  destruct G as [G|[G|G]]; [exact G| |]; exfalso; apply HC in G; rewrite ?Ea, ?Eb, ?Ec in G.
  + assert (X : (a, b, c) = (b, c, a)) by (apply (v_notwin _ V2); [exact H|exact G|]; unfold same_verts; cbn; intros; tauto).
    pose proof (v_proper _ V2 _ H) as Hp. cbn in Hp. injection X as -> _ _. tauto.
  + assert (X : (a, b, c) = (c, a, b)) by (apply (v_notwin _ V2); [exact H|exact G|]; unfold same_verts; cbn; intros; tauto).
    pose proof (v_proper _ V2 _ H) as Hp. cbn in Hp. injection X as -> _ _. tauto.
Qed.
Lemma linked_sym m1 m2 r r' : valid m1 -> valid m2 -> linked r r' m1 m2 -> linked r' r m2 m1.
Proof. intros V1 V2 HL. split; [apply same_sym, HL|eapply corners_back; eauto]. Qed.

(** What the criteria compute. *)
Definition big (t : K O) m (u : tri) : Prop :=
  let '(a, b, c) := u in exists pa pb pc, oget a (pts m) = Some pa /\ oget b (pts m) = Some pb /\ oget c (pts m) = Some pc /\ kgtb O (area pa pb pc) t = true.
Definition long (t : K O) m (a b : N) : Prop :=
  exists p q, oget a (pts m) = Some p /\ oget b (pts m) = Some q /\ kgtb O (dist p q) t = true.

Lemma big_same t m1 m2 r r' a b c : same_surface r r' m1 m2 -> big t m1 (a, b, c) -> big t m2 (r a, r b, r c).
Proof. intros HS [pa [pb [pc [Ha [Hb [Hc H]]]]]]. exists pa, pb, pc. repeat split; auto; apply (ss_pts _ _ _ _ HS); assumption. Qed.
Lemma long_there t m1 m2 r r' a b : same_surface r r' m1 m2 -> long t m1 a b -> long t m2 (r a) (r b).
Proof. intros HS [p [q [Ha [Hb H]]]]. exists p, q. repeat split; auto; apply (ss_pts _ _ _ _ HS); assumption. Qed.
Lemma long_same t m1 m2 r r' a b : same_surface r r' m1 m2 -> oget a (pts m1) <> None -> oget b (pts m1) <> None -> long t m1 a b <-> long t m2 (r a) (r b).
Proof.
  intros HS Pa Pb. split; [apply (long_there t m1 m2 r r' a b HS)|]. intros H. apply (long_there t m2 m1 r' r _ _ (same_sym _ _ _ _ HS)) in H.
  destruct (ss_has m1 m2 r r' HS a Pa) as [_ Ea], (ss_has m1 m2 r r' HS b Pb) as [_ Eb]. rewrite Ea, Eb in H. exact H.
Qed.
Lemma long_cells_big t m i : valid m -> In i (long_cells t m) <-> exists u, In (i, u) (faces m) /\ big t m u.
Proof.
  intros Hv. rewrite (long_cells_In t m i Hv). split.
  - intros [a [b [c [pa [pb [pc [Hf [[Ha [Hb Hc]] Hg]]]]]]]]. exists (a, b, c). split; [exact Hf|]. exists pa, pb, pc. auto.
  - intros [[[a b] c] [Hf [pa [pb [pc [Ha [Hb [Hc Hg]]]]]]]]. exists a, b, c, pa, pb, pc. split; [exact Hf|]. split; [repeat split; assumption|exact Hg].
Qed.
Hypothesis Hadd : forall x y : K O, kadd O x y = kadd O y x.

Lemma area_pick t m : valid m -> sel_empty (asel t m) = false <-> exists u, In u (tris m) /\ big t m u.
Proof.
  intros Hv. cbn. split.
  - intros H. destruct (long_cells t m) as [|i l] eqn:E; [discriminate|].
    assert (Hi : In i (long_cells t m)) by (rewrite E; cbn; auto). apply (long_cells_big t m i Hv) in Hi.
    destruct Hi as [u [Hu Hlt]]. exists u. split; [apply in_map_iff; exists (i, u); auto|exact Hlt].
  - intros [u [Hu Hlt]]. apply in_map_iff in Hu. destruct Hu as [[i u'] [Eu Hi]]. cbn in Eu. subst u'.
    assert (H : In i (long_cells t m)) by (apply long_cells_big; eauto). destruct (long_cells t m); [destruct H|reflexivity].
Qed.
Lemma area_split t m s f a b : valid m -> sel_empty (asel t m) = false ->
  to_split (CellF s) (apply_selection f (asel t m)) m a b <-> exists u, In u (tris m) /\ big t m u /\ edge_of u a b.
Proof.
  intros Hv Hs. cbn [to_split]. unfold selected. cbn [apply_selection asel csel set_cells_to_be_subdivided]. split.
  - intros [u [[[H _]|[i [Hi Hf]]] He]]; [exfalso; cbn in Hs; cbn in H; rewrite H in Hs; discriminate|].
    exists u. split; [apply in_map_iff; exists (i, u); auto|]. split; [|exact He].
    apply (long_cells_big t m i Hv) in Hi. destruct Hi as [u' [Hu' Hlt]]. rewrite (faces_fun _ _ _ _ Hv Hf Hu'). exact Hlt.
  - intros [u [Hu [Hlt He]]]. exists u. split; [|exact He]. right. unfold tris in Hu. apply in_map_iff in Hu. destruct Hu as [[i u'] [Eu Hi]]. cbn in Eu. subst u'.
    exists i. split; [|exact Hi]. apply (long_cells_big t m i Hv). exists u. auto.
Qed.
Lemma area_there t m1 m2 r r' a b : valid m1 -> linked r r' m1 m2 ->
  (exists u, In u (tris m1) /\ big t m1 u /\ edge_of u a b) -> exists u, In u (tris m2) /\ big t m2 u /\ edge_of u (r a) (r b).
Proof.
  intros V1 [HS HC] [[[x y] z] [Hu [Hlt He]]]. assert (Fx : is_face m1 x y z) by (left; exact Hu). destruct (face_pts m1 V1 _ _ _ Fx) as [Px [Py Pz]].
  exists (r x, r y, r z). split; [apply HC; exact Hu|]. split; [apply (big_same t m1 m2 r r' x y z HS); exact Hlt|].
  unfold edge_of in *. cbn [tdirs In] in *. intuition congruence.
Qed.
Lemma area_sel t m1 m2 r r' : valid m1 -> valid m2 -> linked r r' m1 m2 -> sel_empty (asel t m1) = sel_empty (asel t m2).
Proof.
  assert (H : forall m1 m2 r r', valid m1 -> valid m2 -> linked r r' m1 m2 -> sel_empty (asel t m1) = false -> sel_empty (asel t m2) = false).
  { intros n1 n2 q q' V1 V2 [HS HC] E. apply (area_pick t n1 V1) in E. destruct E as [[[x y] z] [Hu Hlt]]. apply (area_pick t n2 V2).
    assert (Fx : is_face n1 x y z) by (left; exact Hu). destruct (face_pts n1 V1 _ _ _ Fx) as [Px [Py Pz]].
    exists (q x, q y, q z). split; [apply HC; exact Hu|apply (big_same t n1 n2 q q' x y z HS); exact Hlt]. }
  intros V1 V2 HL. pose proof (H _ _ _ _ V1 V2 HL) as H1. pose proof (H _ _ _ _ V2 V1 (linked_sym _ _ _ _ V1 V2 HL)) as H2.
  destruct (sel_empty (asel t m1)), (sel_empty (asel t m2)); auto.
  symmetry. auto.
Qed.
Lemma area_edges t s f1 f2 m1 m2 r r' : valid m1 -> valid m2 -> linked r r' m1 m2 ->
  sel_empty (asel t m1) = false -> sel_empty (asel t m2) = false ->
  same_edges_split r (CellF s) (apply_selection f1 (asel t m1)) m1 (apply_selection f2 (asel t m2)) m2.
Proof.
  intros V1 V2 HL N1 N2 a b Pa Pb. rewrite (area_split t m1 s f1 a b V1 N1), (area_split t m2 s f2 _ _ V2 N2). split.
  - apply (area_there t m1 m2 r r' a b V1 HL).
  - intros H. apply (area_there t m2 m1 r' r _ _ V2 (linked_sym _ _ _ _ V1 V2 HL)) in H.
    destruct (ss_has m1 m2 r r' (proj1 HL) a Pa) as [_ Ea], (ss_has m1 m2 r r' (proj1 HL) b Pb) as [_ Eb]. rewrite Ea, Eb in H. exact H.
Qed.

(** ** One round, and all of them *)
Lemma lin_step k f m fuel f' out : cond_start k m -> ready k f m -> update k fuel f m = Ok (f', out) -> cond_start k out /\ no_wire out.
Proof.
  intros HG Hr E. split; [eapply start_step; eauto|]. destruct HG as [Hv [Hd [Hne _]]]. apply (step_ok _ _ _ _ _ _ Hv Hd Hne Hr E).
Qed.
Lemma round_same k f1 f2 m1 m2 n1 n2 g1 g2 o1 o2 r r' : k = CellF CLinear \/ k = EdgeF ELinear -> cond_start k m1 -> cond_start k m2 -> ready k f1 m1 -> ready k f2 m2 -> linked r r' m1 m2 ->
  same_edges_split r k f1 m1 f2 m2 -> update k n1 f1 m1 = Ok (g1, o1) -> update k n2 f2 m2 = Ok (g2, o2) ->
  exists q q', linked q q' o1 o2 /\ (forall x, oget x (pts m1) <> None -> q x = r x /\ oget x (pts o1) <> None).
Proof.
  intros Hk G1 G2 R1 R2 [HS HC] HD E1 E2. destruct G1 as [V1 [D1 _]], G2 as [V2 [D2 _]]. assert (NL : k <> CellF CLoop) by (destruct Hk; congruence).
  destruct (SameAny.any_run k m1 m2 f1 f2 g1 g2 o1 o2 r r' n1 n2 V1 V2 D1 D2 R1 R2 HS E1 E2 HD (or_introl HC) Hk Hadd) as [q [q' [H1 [H2 H3]]]].
  exists q, q'. split; [split; auto|]. intros x Px. split; [auto|].
  destruct (face_run k f1 m1 n1 g1 o1 V1 D1 R1 E1) as [mid [Ls FR]]. destruct (oget x (pts m1)) as [p|] eqn:Ex; [|congruence].
  assert (X : oget x (pts o1) = Some p) by (eapply fr_old; eauto). congruence.
Qed.

Section LOOP.
Variables (k : kind) (cr : @criterion O D) (selof : mesh -> selection) (G : mesh -> Prop).
Hypothesis Hk : k = CellF CLinear \/ k = EdgeF ELinear.
Hypothesis Hmono : crit_mono cr.
Hypothesis Hcrit : forall m old, valid m -> exists fuel, cr fuel m old = Ok (selof m).
Hypothesis Hdet : forall fuel m old s, cr fuel m old = Ok s -> s = selof m.
Hypothesis HG : forall m, G m -> cond_start k m.
Hypothesis Hready : forall m f, G m -> sel_empty (selof m) = false -> ready k (apply_selection f (selof m)) m.
Hypothesis Hstep : forall m f fuel f' m', G m -> sel_empty (selof m) = false -> update k fuel (apply_selection f (selof m)) m = Ok (f', m') -> G m'.
Hypothesis Hsel : forall m1 m2 r r', G m1 -> G m2 -> linked r r' m1 m2 -> sel_empty (selof m1) = sel_empty (selof m2).
Hypothesis Hsplit : forall m1 m2 f1 f2 r r', G m1 -> G m2 -> linked r r' m1 m2 -> sel_empty (selof m1) = false -> sel_empty (selof m2) = false ->
  same_edges_split r k (apply_selection f1 (selof m1)) m1 (apply_selection f2 (selof m2)) m2.

Lemma loop_inv n m f g out : conditional_loop n k cr (selof m) f m = Ok (g, out) ->
  (sel_empty (selof m) = true /\ out = m) \/
  (sel_empty (selof m) = false /\ exists n' f' m', n = S n' /\ update k n' (apply_selection f (selof m)) m = Ok (f', m') /\ conditional_loop n' k cr (selof m') f' m' = Ok (g, out)).
Proof.
  destruct n as [|n]; [discriminate|]. cbn [conditional_loop]. destruct (sel_empty (selof m)) eqn:Es; intros H.
  - inv H. auto.
  - right. split; [reflexivity|]. destruct (update k n (apply_selection f (selof m)) m) as [[f1 m1]| | |] eqn:E; cbn [rbind] in H; try discriminate.
    destruct (cr n m1 (selof m)) as [s1| | |] eqn:Ec; cbn [rbind] in H; try discriminate. pose proof (Hdet _ _ _ _ Ec) as ->. exists n, f1, m1. auto.
Qed.

Lemma loop_same : forall n1 n2 m1 m2 f1 f2 g1 g2 o1 o2 r r', G m1 -> G m2 -> linked r r' m1 m2 ->
  conditional_loop n1 k cr (selof m1) f1 m1 = Ok (g1, o1) -> conditional_loop n2 k cr (selof m2) f2 m2 = Ok (g2, o2) ->
  exists q q', linked q q' o1 o2 /\ (forall x, oget x (pts m1) <> None -> q x = r x).
Proof.
  induction n1 as [|n1 IH]; intros n2 m1 m2 f1 f2 g1 g2 o1 o2 r r' G1 G2 HL E1 E2; [discriminate|].
  apply loop_inv in E1. apply loop_inv in E2. pose proof (Hsel m1 m2 r r' G1 G2 HL) as Es.
  destruct E1 as [[S1 ->]|[S1 [n1' [f1' [m1' [En1 [U1 L1]]]]]]], E2 as [[S2 ->]|[S2 [n2' [f2' [m2' [En2 [U2 L2]]]]]]]; try congruence.
  - exists r, r'. auto.
  - injection En1 as <-.
    destruct (round_same k _ _ m1 m2 n1 n2' f1' f2' m1' m2' r r' Hk (HG _ G1) (HG _ G2) (Hready _ f1 G1 S1) (Hready _ f2 G2 S2) HL (Hsplit m1 m2 f1 f2 r r' G1 G2 HL S1 S2) U1 U2) as [q [q' [HL' Hq]]].
    destruct (IH n2' m1' m2' f1' f2' g1 g2 o1 o2 q q' (Hstep _ _ _ _ _ G1 S1 U1) (Hstep _ _ _ _ _ G2 S2 U2) HL' L1 L2) as [p [p' [HP Hp]]].
    exists p, p'. split; [exact HP|]. intros x Px. destruct (Hq x Px) as [Q1 Q2]. rewrite (Hp x Q2). exact Q1.
Qed.

Lemma loop_ends n1 m1 m2 f1 f2 g1 o1 r r' : G m1 -> G m2 -> linked r r' m1 m2 -> conditional_loop n1 k cr (selof m1) f1 m1 = Ok (g1, o1) ->
  exists n2 g2 o2, conditional_loop n2 k cr (selof m2) f2 m2 = Ok (g2, o2).
Proof.
  intros G1 G2 HL E1.
  apply (rounds_terminate (O := O) (D := D) k cr selof G Hmono) with
    (Q := fun n m => exists m1 r r' f1, G m1 /\ linked r r' m1 m /\ conditional_loop n k cr (selof m1) f1 m1 = Ok (g1, o1)) (n := n1).
  - intros m old Gm. apply Hcrit. apply (HG _ Gm).
  - exact Hdet.
  - exact Hready.
  - intros m Gm. destruct (HG _ Gm) as [H1 [H2 _]]. auto.
  - exact Hstep.
  - intros m _ [a [q [q' [f [_ [_ E]]]]]]. discriminate.
  - intros n m f fuel f' m' Gm [a [q [q' [fa [Ga [HLa E]]]]]] Es U. apply loop_inv in E.
    pose proof (Hsel a m q q' Ga Gm HLa) as Ee.
    destruct E as [[S1 _]|[S1 [n' [fa' [a' [En [Ua La]]]]]]]; [congruence|]. injection En as <-.
    destruct (round_same k _ _ a m n fuel fa' f' a' m' q q' Hk (HG _ Ga) (HG _ Gm) (Hready _ fa Ga S1) (Hready _ f Gm Es) HLa (Hsplit a m fa f q q' Ga Gm HLa S1 Es) Ua U) as [p [p' [HP _]]].
    exists a', p, p', fa'. split; [exact (Hstep _ _ _ _ _ Ga S1 Ua)|]. auto.
  - exact G2.
  - exists m1, r, r', f1. auto.
Qed.

Lemma cond_same n1 old1 old2 f1 f2 inp1 inp2 g1 o1 r r' : G (copy_geometry inp1) -> G (copy_geometry inp2) -> linked r r' (copy_geometry inp1) (copy_geometry inp2) ->
  pts (copy_geometry inp1) = pts inp1 ->
  conditional_update n1 k (Some cr) old1 f1 inp1 = Ok (g1, o1) ->
  exists g2 o2 q q', completes (fun fuel => conditional_update fuel k (Some cr) old2 f2 inp2) (Ok (g2, o2)) /\
    same_surface q q' o1 o2 /\ same_corners q o1 o2 /\ (forall x, oget x (pts inp1) <> None -> q x = r x).
Proof.
  intros G1 G2 HL Hp E1. unfold conditional_update in E1.
  destruct (cr n1 (copy_geometry inp1) old1) as [s0| | |] eqn:Ec; cbn [rbind] in E1; try discriminate. apply Hdet in Ec. subst s0.
  destruct (loop_ends n1 _ _ f1 f2 g1 o1 r r' G1 G2 HL E1) as [n2 [g2 [o2 E2]]].
  destruct (loop_same n1 n2 _ _ f1 f2 g1 g2 o1 o2 r r' G1 G2 HL E1 E2) as [q [q' [[H1 H2] H3]]].
  exists g2, o2, q, q'. split; [|split; [exact H1|split; [exact H2|rewrite Hp in H3; exact H3]]].
  destruct (Hcrit (copy_geometry inp2) old2 ltac:(apply (HG _ G2))) as [n3 E3].
  apply (cond_completes k cr old2 f2 inp2 (n3 + n2)); [exact Hmono| |discriminate].
  unfold conditional_update. rewrite Hmono by congruence. rewrite E3. cbn [rbind]. rewrite Nat.add_comm, cond_loop_mono; [exact E2|exact Hmono|congruence].
Qed.
End LOOP.

Lemma copy_linked m1 m2 r r' : valid m1 -> valid m2 -> linked r r' m1 m2 -> linked r r' (copy_geometry m1) (copy_geometry m2).
Proof.
  intros V1 V2 [HS HC]. destruct (copy_shape m1 V1) as [P1 [T1 _]], (copy_shape m2 V2) as [P2 [T2 _]]. split.
  - constructor.
    + rewrite P1, P2. apply (ss_pts _ _ _ _ HS).
    + rewrite P1, P2. apply (ss_pts' _ _ _ _ HS).
    + unfold is_face. rewrite T1, T2. apply (ss_faces _ _ _ _ HS).
    + unfold is_face. rewrite T1, T2. apply (ss_faces' _ _ _ _ HS).
  - unfold same_corners. rewrite T1, T2. exact HC.
Qed.
Lemma copy_nowire m : valid m -> no_wire m -> no_wire (copy_geometry m).
Proof. intros Hv Hw a b H. destruct (copy_shape m Hv) as [_ [T Hj]]. rewrite T. apply Hw. apply Hj. exact H. Qed.

Lemma cells_any (t : K O) (inp1 inp2 : mesh) old1 old2 f1 f2 fuel f1' out1 r r' :
  valid inp1 -> valid inp2 -> dense inp1 -> dense inp2 -> tris inp1 <> [] -> tris inp2 <> [] -> same_surface r r' inp1 inp2 -> same_corners r inp1 inp2 ->
  conditional_update fuel (CellF CLinear) (Some (cell_area_criterion t)) old1 f1 inp1 = Ok (f1', out1) ->
  exists f2' out2 q q',
    completes (fun n => conditional_update n (CellF CLinear) (Some (cell_area_criterion t)) old2 f2 inp2) (Ok (f2', out2)) /\
    same_surface q q' out1 out2 /\ same_corners q out1 out2 /\ (forall x, oget x (pts inp1) <> None -> q x = r x).
Proof.
  intros V1 V2 D1 D2 N1 N2 HS HC E.
  assert (G : forall m, valid m -> dense m -> tris m <> [] -> cond_start (CellF CLinear) m).
  { intros m Hv Hd Hn. apply start_of; auto; [unfold splits_faces; congruence|]. intros [X|X]; congruence. }
  apply (cond_same (CellF CLinear) (cell_area_criterion t) (asel t) (cond_start (CellF CLinear))) with (n1 := fuel) (old1 := old1) (f1 := f1) (g1 := f1') (r' := r'); auto.
  - apply area_crit_mono.
  - intros m old Hv. apply area_crit_runs. exact Hv.
  - intros n0 m o x X. apply area_crit_inv in X. apply X.
  - intros m f H _. apply area_ready. apply H.
  - intros m f n0 g m' H _ X. eapply lin_step; [exact H|apply area_ready; apply H|exact X].
  - intros m1 m2 q q' H1 H2. apply area_sel; [apply H1|apply H2].
  - intros m1 m2 g1 g2 q q' H1 H2 H3. apply (area_edges t CLinear g1 g2 m1 m2 q q'); [apply H1|apply H2|exact H3].
  - apply copy_start. auto.
  - apply copy_start. auto.
  - apply copy_linked; auto. split; assumption.
  - apply (copy_shape inp1 V1).
Qed.

Hypothesis Hsq : forall x y : K O, kmul O (ksub O x y) (ksub O x y) = kmul O (ksub O y x) (ksub O y x).
Lemma sq_sym p q : forall acc, sqdist (O := O) acc p q = sqdist acc q p.
Proof. revert q. induction p as [|x p IH]; intros [|y q] acc; cbn [sqdist]; try reflexivity. rewrite (Hsq x y). apply IH. Qed.
Lemma long_sym t m a b : long t m a b -> long t m b a.
Proof. intros [p [q [Ha [Hb H]]]]. exists q, p. unfold dist in *. rewrite sq_sym. auto. Qed.
Lemma long_edges_dir t m a b : valid m -> In (Some (a, b)) (long_edges t m) <-> In (Some (a, b)) (map snd (edges_of m)) /\ joined m a b /\ long t m a b.
Proof.
  intros Hv. unfold long_edges. rewrite filter_In.
  assert (Hj : In (Some (a, b)) (map snd (edges_of m)) -> joined m a b).
  { intros H. apply in_map_iff in H. destruct H as [[i o] [E H]]. cbn in E. subst o.
    destruct (v_ecells _ Hv) as [es [He [_ [H1 _]]]]. unfold edges_of in H. rewrite He in H.
    destruct (H1 _ _ H) as [x [y [E Hj]]]. inv E. exact Hj. }
  unfold edge_over, long. cbn [fst snd]. split.
  - intros [H1 H2]. split; [exact H1|]. split; [exact (Hj H1)|]. destruct (oget a (pts m)) as [p|]; [|discriminate]. destruct (oget b (pts m)) as [q|]; [|discriminate]. eauto.
  - intros [H1 [_ [p [q [-> [-> H]]]]]]. auto.
Qed.
Lemma long_edges_iff t m a b : valid m -> (In (Some (a, b)) (long_edges t m) \/ In (Some (b, a)) (long_edges t m)) <-> joined m a b /\ long t m a b.
Proof.
  intros Hv. rewrite !(long_edges_dir t m) by exact Hv. split.
  - intros [[_ H]|[_ [H1 H2]]]; [exact H|]. split; [apply (v_ring_sym _ Hv); exact H1|]. apply long_sym. exact H2.
  - intros [H1 H2]. destruct (v_ecells _ Hv) as [es [He [_ [_ [H3 _]]]]].
    destruct (H3 a b H1) as [id [e [Hin [-> | ->]]]]; cbn [fst snd] in Hin.
    + left. split; [|auto]. apply in_map_iff. exists (id, Some (a, b)). unfold edges_of. rewrite He. auto.
    + right. split; [|split; [apply (v_ring_sym _ Hv); exact H1|apply long_sym; exact H2]].
      apply in_map_iff. exists (id, Some (b, a)). unfold edges_of. rewrite He. auto.
Qed.
Lemma len_pick t m : valid m -> sel_empty (esl_ t m) = false <-> exists a b, joined m a b /\ long t m a b.
Proof.
  intros Hv. cbn. split.
  - intros H. destruct (long_edges t m) as [|o l] eqn:E; [discriminate|].
    assert (Hi : In o (long_edges t m)) by (rewrite E; cbn; auto). destruct (long_edges_In t m o Hv Hi) as [a [b [-> Hj]]].
    exists a, b. apply (long_edges_iff t m a b Hv). left. exact Hi.
  - intros [a [b H]]. apply (long_edges_iff t m a b Hv) in H. destruct (long_edges t m); [destruct H as [[]|[]]|reflexivity].
Qed.
Lemma len_split t m s f a b : valid m -> sel_empty (esl_ t m) = false ->
  to_split (EdgeF s) (apply_selection f (esl_ t m)) m a b <-> joined m a b /\ long t m a b.
Proof.
  intros Hv Hs. rewrite <- (long_edges_iff t m a b Hv). cbn. split; [|auto].
  intros [[H _]|H]; [exfalso; cbn in Hs; rewrite H in Hs; discriminate|exact H].
Qed.
Lemma len_sel t m1 m2 r r' : valid m1 -> valid m2 -> no_wire m1 -> no_wire m2 -> linked r r' m1 m2 ->
  sel_empty (esl_ t m1) = sel_empty (esl_ t m2).
Proof.
  assert (H : forall m1 m2 r r', valid m1 -> valid m2 -> no_wire m1 -> no_wire m2 -> linked r r' m1 m2 ->
            sel_empty (esl_ t m1) = false -> sel_empty (esl_ t m2) = false).
  { intros n1 n2 q q' V1 V2 W1 W2 [HS HC] E. apply (len_pick t n1 V1) in E. destruct E as [a [b [Hj Hlt]]]. apply (len_pick t n2 V2).
    destruct (joined_pts n1 V1 a b Hj) as [Pa Pb]. exists (q a), (q b). split.
    - apply (ss_joined n1 n2 q q' V1 V2 HS a b W1 W2 Pa Pb). exact Hj.
    - apply (long_there t n1 n2 q q' a b HS). exact Hlt. }
  intros V1 V2 W1 W2 HL. pose proof (H _ _ _ _ V1 V2 W1 W2 HL) as H1. pose proof (H _ _ _ _ V2 V1 W2 W1 (linked_sym _ _ _ _ V1 V2 HL)) as H2.
  destruct (sel_empty (esl_ t m1)), (sel_empty (esl_ t m2)); auto.
  symmetry. auto.
Qed.

Lemma len_edges t s f1 f2 m1 m2 r r' : valid m1 -> valid m2 -> no_wire m1 -> no_wire m2 -> linked r r' m1 m2 ->
  sel_empty (esl_ t m1) = false -> sel_empty (esl_ t m2) = false ->
  same_edges_split r (EdgeF s) (apply_selection f1 (esl_ t m1)) m1 (apply_selection f2 (esl_ t m2)) m2.
Proof.
  intros V1 V2 W1 W2 HL N1 N2 a b Pa Pb. rewrite (len_split t m1 s f1 a b V1 N1), (len_split t m2 s f2 _ _ V2 N2).
  rewrite <- (long_same t m1 m2 r r' a b (proj1 HL) Pa Pb), (ss_joined m1 m2 r r' V1 V2 (proj1 HL) a b W1 W2 Pa Pb). reflexivity.
Qed.


Lemma edges_any (t : K O) (inp1 inp2 : mesh) old1 old2 f1 f2 fuel f1' out1 r r' :
  valid inp1 -> valid inp2 -> dense inp1 -> dense inp2 -> tris inp1 <> [] -> tris inp2 <> [] -> no_wire inp1 -> no_wire inp2 ->
  same_surface r r' inp1 inp2 -> same_corners r inp1 inp2 ->
  conditional_update fuel (EdgeF ELinear) (Some (edge_length_criterion t)) old1 f1 inp1 = Ok (f1', out1) ->
  exists f2' out2 q q',
    completes (fun n => conditional_update n (EdgeF ELinear) (Some (edge_length_criterion t)) old2 f2 inp2) (Ok (f2', out2)) /\
    same_surface q q' out1 out2 /\ same_corners q out1 out2 /\ (forall x, oget x (pts inp1) <> None -> q x = r x).
Proof.
  intros V1 V2 D1 D2 N1 N2 W1 W2 HS HC E.
  assert (G : forall m, valid m -> dense m -> tris m <> [] -> cond_start (EdgeF ELinear) m).
  { intros m Hv Hd Hn. apply start_of; auto; [unfold splits_faces; congruence|]. intros [X|X]; congruence. }
  apply (cond_same (EdgeF ELinear) (edge_length_criterion t) (esl_ t) (fun m => cond_start (EdgeF ELinear) m /\ no_wire m)) with (n1 := fuel) (old1 := old1) (f1 := f1) (g1 := f1') (r' := r').
  - auto.
  - apply edge_crit_mono.
  - intros m old Hv. exists 0%nat. apply edge_crit_runs. exact Hv.
  - intros n0 m o x X. apply edge_crit_inv in X. apply X.
  - intros m H. apply H.
  - intros m f H He. apply edge_ready; [apply H|exact He].
  - intros m f n0 g m' H He X. eapply lin_step; [apply H|apply edge_ready; [apply H|exact He]|exact X].
  - intros m1 m2 q q' [H1 H1'] [H2 H2']. apply len_sel; [apply H1|apply H2| |]; assumption.
  - intros m1 m2 g1 g2 q q' [H1 H1'] [H2 H2'] H3. apply (len_edges t ELinear g1 g2 m1 m2 q q'); [apply H1|apply H2| | |exact H3]; assumption.
  - split; [apply copy_start; auto|apply copy_nowire; assumption].
  - split; [apply copy_start; auto|apply copy_nowire; assumption].
  - apply copy_linked; auto. split; assumption.
  - apply (copy_shape inp1 V1).
  - exact E.
Qed.
End CA.
