(** * Endless: the conditional filter around the Butterfly filter that never ends (C107).

    A triangle (v, q, c) whose new edge points fall onto the places of q and c again: it is among its own
    four children, for any scalar arithmetic in which the stencils give these values. *)
From Verif Require Import Base Mesh Filters Drivers Spec SpecSub SpecDrive Lists AddFace SplitTri Split Points Valid Run Update Struct Count Face Copy PtsAny Geo GeoProps Conn Drive Area Cond DriveProps Never.

Section ENDLESS.
Context {O : Ops} {D : Type}.
Notation mesh := (mesh O D).
Notation point := (list (K O)).
Implicit Types m inp out : mesh.

(** The eight-point stencil of the edge (a, b), in the order in which the code adds up. *)
Definition stencil (a b c e w1 w2 w3 w4 : point) : point := comb pzero butterfly_weights [a; b; c; e; w1; w3; w2; w4].
Definition both (a b c e w1 w2 w3 w4 r : point) : Prop := stencil a b c e w1 w2 w3 w4 = r /\ stencil b a e c w4 w3 w2 w1 = r.

Lemma get_dest m x y p : oget y (pts m) = Some p -> dest_or_zero m (Some (x, y)) = Ok p.
Proof. intros H. unfold dest_or_zero, get_pt. cbn. rewrite H. reflexivity. Qed.
Lemma stencil_eval m a b c e w1 w2 w3 w4 A B C E W1 W2 W3 W4 : valid m ->
  is_face m a b c -> is_face m b a e -> is_face m c b w1 -> is_face m a c w2 -> is_face m b e w3 -> is_face m e a w4 ->
  oget a (pts m) = Some A -> oget b (pts m) = Some B -> oget c (pts m) = Some C -> oget e (pts m) = Some E ->
  oget w1 (pts m) = Some W1 -> oget w2 (pts m) = Some W2 -> oget w3 (pts m) = Some W3 -> oget w4 (pts m) = Some W4 ->
  butterfly_point m (a, b) = Ok (stencil A B C E W1 W2 W3 W4).
Proof.
  intros Hv Fc Fe F1 F2 F3 F4 HA HB HC HE H1 H2 H3 H4. unfold butterfly_point. cbn [fst snd].
  rewrite (face_lnext m a b c Hv Fc), (face_rprev m a b e Hv Fe), (face_lprev m a b c Hv Fc), (face_rnext m a b e Hv Fe). cbn [obind].
  rewrite (face_rprev m b c w1 Hv F1), (face_lnext m b e w3 Hv F3), (face_rprev m c a w2 Hv F2), (face_lnext m e a w4 Hv F4).
  unfold get_pt. rewrite HA, HB. cbn [rbind]. rewrite (get_dest m _ _ _ HC), (get_dest m _ _ _ HE), (get_dest m _ _ _ H1), (get_dest m _ _ _ H2), (get_dest m _ _ _ H3), (get_dest m _ _ _ H4).
  reflexivity.
Qed.
Lemma face_third m a b c e : valid m -> is_face m a b c -> is_face m a b e -> c = e.
Proof. intros Hv H1 H2. pose proof (face_lnext m a b c Hv H1). pose proof (face_lnext m a b e Hv H2). congruence. Qed.

(** ** One step *)
Section STEP.
Variables (m m1 : mesh) (mid : N -> N -> option N).
Hypothesis Hv : valid m.
Hypothesis Htris : tris m1 = concat (map (split_tri mid) (tris m)).

Lemma child_in u w : In u (tris m) -> In w (split_tri mid u) -> In w (tris m1).
Proof. intros Hu Hw. rewrite Htris. apply in_concat. exists (split_tri mid u). split; [apply in_map; exact Hu|exact Hw]. Qed.

Lemma keep_face a b e : is_face m a b e -> mid a b = None -> mid b e = None -> mid e a = None -> is_face m1 a b e.
Proof.
  intros H M0 M1 M2. unfold is_face. destruct H as [H|[H|H]].
  - left. apply (child_in _ _ H). unfold split_tri, split_triangle. rewrite M0, M1, M2. left. reflexivity.
  - right; left. apply (child_in _ _ H). unfold split_tri, split_triangle. rewrite M0, M1, M2. left. reflexivity.
  - right; right. apply (child_in _ _ H). unfold split_tri, split_triangle. rewrite M0, M1, M2. left. reflexivity.
Qed.
Lemma halve_face a b e x : is_face m a b e -> mid a b = Some x -> mid b e = None -> mid e a = None -> is_face m1 x b e /\ is_face m1 x e a.
Proof.
  intros H M0 M1 M2. unfold is_face. destruct H as [H|[H|H]]; split; left; apply (child_in _ _ H);
    unfold split_tri, split_triangle, split_one; rewrite M0, M1, M2; cbn; auto.
Qed.
Lemma four_faces a b e x y z : is_face m a b e -> mid a b = Some x -> mid b e = Some y -> mid e a = Some z ->
  is_face m1 a x z /\ is_face m1 x b y /\ is_face m1 y e z /\ is_face m1 x y z.
Proof.
  intros H M0 M1 M2. unfold is_face. destruct H as [H|[H|H]]; pose proof (fun w => child_in _ w H) as I;
    unfold split_tri, split_triangle, split_three in I; rewrite M0, M1, M2 in I; repeat split;
    first [solve [left; apply I; cbn; auto 8]|solve [right; left; apply I; cbn; auto 8]|solve [right; right; apply I; cbn; auto 8]].
Qed.

Definition cut_of w : Prop :=
  (exists a b e, In (a, b, e) (tris m) /\ mid a b = None /\ mid b e = None /\ mid e a = None /\ w = (a, b, e)) \/
  (exists a b e x, is_face m a b e /\ mid a b = Some x /\ mid b e = None /\ mid e a = None /\ (w = (x, b, e) \/ w = (x, e, a))) \/
  (exists a b e, is_face m a b e /\ mid a b <> None /\ mid b e <> None /\ mid e a = None) \/
  (exists a b e x y z, In (a, b, e) (tris m) /\ mid a b = Some x /\ mid b e = Some y /\ mid e a = Some z /\ In w [(a, x, z); (x, b, y); (y, e, z); (x, y, z)]).
Lemma cut_cases w : In w (tris m1) -> cut_of w.
Proof.
  rewrite Htris. intros H. apply in_concat in H. destruct H as [L [HL Hw]]. apply in_map_iff in HL. destruct HL as [[[a b] e] [<- Hu]].
  unfold split_tri, split_triangle in Hw. unfold cut_of.
  assert (F1 : is_face m a b e) by (left; exact Hu). assert (F2 : is_face m b e a) by (right; right; exact Hu). assert (F3 : is_face m e a b) by (right; left; exact Hu).
  destruct (mid a b) as [x|] eqn:E0; destruct (mid b e) as [y|] eqn:E1; destruct (mid e a) as [z|] eqn:E2.
  - right; right; right. exists a, b, e, x, y, z. auto.
  - right; right; left. exists a, b, e. rewrite E0, E1, E2. repeat split; auto; discriminate.
  - right; right; left. exists e, a, b. rewrite E0, E1, E2. repeat split; auto; discriminate.
  - right; left. exists a, b, e, x. repeat split; auto. cbn in Hw. destruct Hw as [Hw|[Hw|[]]]; auto.
  - right; right; left. exists b, e, a. rewrite E0, E1, E2. repeat split; auto; discriminate.
  - right; left. exists b, e, a, y. repeat split; auto. cbn in Hw. destruct Hw as [Hw|[Hw|[]]]; auto.
  - right; left. exists e, a, b, z. repeat split; auto. cbn in Hw. destruct Hw as [Hw|[Hw|[]]]; auto.
  - left. exists a, b, e. repeat split; auto. cbn in Hw. destruct Hw as [Hw|[]]; auto.
Qed.
End STEP.

(** ** The recurring triangle *)
Section AGAIN.
Variables (V Z Q C Z' Y Y' M1 : point) (t : K O).
Definition small1 (a b e : point) : Prop := kgtb O (area a b e) t = false.
Definition small (a b e : point) : Prop := small1 a b e /\ small1 b e a /\ small1 e a b.
Definition large1 (a b e : point) : Prop := kgtb O (area a b e) t = true.
Definition large (a b e : point) : Prop := large1 a b e /\ large1 b e a /\ large1 e a b.

Lemma small_rot a b e : small a b e -> small b e a.
Proof. unfold small. tauto. Qed.

Hypothesis inner : large V Q C.
Hypothesis fan1 : small V Z Q.
Hypothesis fan2 : small V C Z'.
Hypothesis flat1 : small Z Q Q.
Hypothesis flat2 : small C Z' C.
Hypothesis flat3 : small Q Q M1.
Hypothesis flat4 : small M1 C C.
Hypothesis middle : small Q M1 C.

(** The surroundings: M, the apex beyond (q, c), and the tips W1, W2, W3, W4 of the four outer triangles. *)
Record good (M W1 W2 W3 W4 : point) : Prop := {
  g_q : both V Q C Z M Z' W1 Y Q;
  g_m : both Q C V M Z' Z W4 W3 M1;
  g_c : both C V Q Z' Z M Y' W2 C;
  g_1 : small C M1 M;
  g_2 : small M1 Q M
}.
Hypothesis stays : good M1 Q C Q C.

Record conf m (v z q c z' y y' x w1 w2 w3 w4 : N) (M W1 W2 W3 W4 : point) : Prop := {
  k_inner : is_face m v q c;
  k_fan1 : is_face m v z q;
  k_fan2 : is_face m v c z';
  k_side1 : is_face m v y z;
  k_side2 : is_face m v z' y';
  k_x : is_face m c q x;
  k_w1 : is_face m q z w1;
  k_w2 : is_face m z' c w2;
  k_w3 : is_face m x q w3;
  k_w4 : is_face m c x w4;
  k_zc : z <> c; k_zq : z' <> q; k_yq : y <> q; k_yc : y <> c; k_yq' : y' <> q; k_yc' : y' <> c; k_xv : x <> v;
  p_v : oget v (pts m) = Some V; p_z : oget z (pts m) = Some Z; p_q : oget q (pts m) = Some Q; p_c : oget c (pts m) = Some C;
  p_z' : oget z' (pts m) = Some Z'; p_y : oget y (pts m) = Some Y; p_y' : oget y' (pts m) = Some Y'; p_x : oget x (pts m) = Some M;
  p_w1 : oget w1 (pts m) = Some W1; p_w2 : oget w2 (pts m) = Some W2; p_w3 : oget w3 (pts m) = Some W3; p_w4 : oget w4 (pts m) = Some W4
}.
Definition others m (v q c : N) : Prop := forall a b e, In (a, b, e) (tris m) ->
  In (a, b, e) [(v, q, c); (q, c, v); (c, v, q)] \/ exists A B E, tri_pts m a b e A B E /\ small A B E.
Definition state m : Prop := cond_start (CellF CButterfly) m /\ exists v z q c z' y y' x w1 w2 w3 w4 M W1 W2 W3 W4,
  good M W1 W2 W3 W4 /\ conf m v z q c z' y y' x w1 w2 w3 w4 M W1 W2 W3 W4 /\ others m v q c.

Lemma face_id m u : In u (tris m) <-> exists i, In (i, u) (faces m).
Proof.
  unfold tris. rewrite in_map_iff. split; [intros [[i w] [E H]]; cbn in E; subst; eauto|]. intros [i H]. exists (i, u). auto.
Qed.
Lemma chosen m v q c i u : valid m -> oget v (pts m) = Some V -> oget q (pts m) = Some Q -> oget c (pts m) = Some C -> others m v q c ->
  In (i, u) (faces m) -> (In i (long_cells t m) <-> In u [(v, q, c); (q, c, v); (c, v, q)]).
Proof.
  intros Hv Hv0 Hq Hc Ho Hi. rewrite (long_cells_In t m i Hv). split.
  - intros [a [b [e [A [B [E [Hf [[HA [HB HE]] G]]]]]]]].
    assert (u = (a, b, e)) as -> by (eapply faces_fun; [apply Hv|exact Hi|exact Hf]).
    destruct (Ho a b e) as [H|[A' [B' [E' [[HA' [HB' HE']] [Hs _]]]]]]; [apply face_id; eauto|exact H|].
    exfalso. unfold small1 in Hs. congruence.
  - destruct inner as [I1 [I2 I3]]. unfold large1 in *. intros [<-|[<-|[<-|[]]]];
      [exists v, q, c, V, Q, C|exists q, c, v, Q, C, V|exists c, v, q, C, V, Q]; unfold tri_pts; auto 8.
Qed.

Lemma step m f n f1 m1 : state m -> update (CellF CButterfly) n (apply_selection f (asel t m)) m = Ok (f1, m1) -> state m1.
Proof.
  intros [H0 [v [z [q [c [z' [y [y' [x [w1 [w2 [w3 [w4 [M [W1 [W2 [W3 [W4 [G [K Ho]]]]]]]]]]]]]]]]]]]] E.
  pose proof (area_ready CButterfly t m f H0) as Hr. split; [eapply start_step; [exact H0|exact Hr|exact E]|]. destruct H0 as [Hv [Hd _]].
  destruct (face_run _ _ m n f1 m1 Hv Hd Hr E) as [mid [Ls FR]]. pose proof (fr_sub _ _ _ _ _ _ _ FR) as Hsd.
  assert (Ht : tris m1 = concat (map (split_tri mid) (tris m))) by (rewrite (sd_tris _ _ _ _ _ Hsd), (fr_Ls _ _ _ _ _ _ _ FR); reflexivity).
  pose proof (k_inner _ _ _ _ _ _ _ _ _ _ _ _ _ _ _ _ _ _ K) as F0. destruct K as [_ Ff1 Ff2 Fs1 Fs2 Fx Fw1 Fw2 Fw3 Fw4 Nzc Nzq Nyq Nyc Nyq' Nyc' Nxv Pv Pz Pq Pc Pz' Py Py' Px Pw1 Pw2 Pw3 Pw4].
  (* the edges that are split *)
  assert (SP : forall a b, mid a b <> None <-> edge_of (v, q, c) a b).
  { intros a b. rewrite (sd_dom _ _ _ _ _ Hsd). cbn [to_split]. split.
    - intros [u [Hs Hab]]. destruct Hs as [[Hn Hu]|[i [Hi Hu]]].
      + exfalso. destruct F0 as [F|[F|F]]; apply face_id in F; destruct F as [i Hi];
          pose proof (proj2 (chosen m v q c i _ Hv Pv Pq Pc Ho Hi)) as L; cbn in Hn; rewrite Hn in L; apply L; cbn; auto.
      + apply (chosen m v q c i u Hv Pv Pq Pc Ho Hu) in Hi. destruct Hi as [<-|[<-|[<-|[]]]]; unfold edge_of in *; cbn in *; tauto.
    - intros Hab. destruct F0 as [F|[F|F]]; pose proof F as F'; apply face_id in F'; destruct F' as [i Hi];
        (eexists; split; [right; exists i; split; [|exact Hi]; apply (chosen m v q c i _ Hv Pv Pq Pc Ho Hi); cbn; auto|]); unfold edge_of in *; cbn in *; tauto. }
  assert (NO : forall a b, ~ edge_of (v, q, c) a b -> mid a b = None).
  { intros a b H. destruct (mid a b) eqn:Em; [|reflexivity]. exfalso. apply H. apply SP. congruence. }
  assert (Sy : forall a b, mid a b = mid b a) by apply (sd_sym _ _ _ _ _ Hsd).
  destruct (mid v q) as [q1|] eqn:Eq; [|exfalso; revert Eq; apply SP; unfold edge_of; cbn; auto].
  destruct (mid q c) as [x1|] eqn:Ex; [|exfalso; revert Ex; apply SP; unfold edge_of; cbn; auto].
  destruct (mid c v) as [c1|] eqn:Ec; [|exfalso; revert Ec; apply SP; unfold edge_of; cbn; auto].
  pose proof Eq as Eq'. rewrite Sy in Eq'. pose proof Ex as Ex'. rewrite Sy in Ex'. pose proof Ec as Ec'. rewrite Sy in Ec'.
  assert (NEW : forall a b k, mid a b = Some k -> oget k (pts m) = None).
  { intros a b k Hk. apply (sd_new _ _ _ _ _ Hsd k). eauto. }
  pose proof (NEW _ _ _ Eq) as Fq. pose proof (NEW _ _ _ Ex) as Fx1. pose proof (NEW _ _ _ Ec) as Fc.
  assert (OLD : forall k p, oget k (pts m) = Some p -> oget k (pts m1) = Some p) by (intros k p Hk; eapply fr_old; eauto; discriminate).
  (* proper faces *)
  assert (PR : forall a b e, is_face m a b e -> a <> b /\ b <> e /\ e <> a).
  { intros a b e H. assert (P : forall u, In u (tris m) -> proper u) by apply (v_proper _ Hv).
    destruct H as [H|[H|H]]; apply P in H; unfold proper in H; cbn in H; tauto. }
  pose proof (PR _ _ _ F0) as D0. pose proof (PR _ _ _ Ff1) as D1. pose proof (PR _ _ _ Ff2) as D2. pose proof (PR _ _ _ Fs1) as D3. pose proof (PR _ _ _ Fs2) as D4. pose proof (PR _ _ _ Fx) as D5.
  (* the new points *)
  assert (PT : forall a b k cc ee a1 a2 a3 a4 A B CC EE A1 A2 A3 A4 r, mid a b = Some k ->
     is_face m a b cc -> is_face m b a ee -> is_face m cc b a1 -> is_face m a cc a2 -> is_face m b ee a3 -> is_face m ee a a4 ->
     oget a (pts m) = Some A -> oget b (pts m) = Some B -> oget cc (pts m) = Some CC -> oget ee (pts m) = Some EE ->
     oget a1 (pts m) = Some A1 -> oget a2 (pts m) = Some A2 -> oget a3 (pts m) = Some A3 -> oget a4 (pts m) = Some A4 ->
     both A B CC EE A1 A2 A3 A4 r -> oget k (pts m1) = Some r).
  { intros a b k cc ee a1 a2 a3 a4 A B CC EE A1 A2 A3 A4 r Hk X1 X2 X3 X4 X5 X6 HA HB HC HE H1 H2 H3 H4 [B1 B2].
    destruct (fr_new _ _ _ _ _ _ _ FR a b k Hk) as [e [p [Ue [_ [Pe Ge]]]]]. cbn [new_point cell_point] in Pe. rewrite Ge. f_equal.
    destruct Ue as [->| ->]; cbn [fst snd] in Pe.
    - rewrite (stencil_eval m a b cc ee a1 a2 a3 a4 A B CC EE A1 A2 A3 A4 Hv X1 X2 X3 X4 X5 X6 HA HB HC HE H1 H2 H3 H4) in Pe. injection Pe as <-. exact B1.
    - rewrite (stencil_eval m b a ee cc a4 a3 a2 a1 B A EE CC A4 A3 A2 A1 Hv X2 X1 X6 X5 X4 X3 HB HA HE HC H4 H3 H2 H1) in Pe. injection Pe as <-. exact B2. }
  destruct G as [Gq Gm Gc G1 G2].
  assert (R1 : forall a b e, is_face m a b e -> is_face m b e a) by (intros; apply is_face_rot; assumption).
  assert (R2 : forall a b e, is_face m a b e -> is_face m e a b) by (intros; apply is_face_rot, is_face_rot; assumption).
  assert (Pq1 : oget q1 (pts m1) = Some Q).
  { refine (PT v q q1 c z x z' w1 y V Q C Z M Z' W1 Y Q Eq F0 (R2 _ _ _ Ff1) Fx Ff2 Fw1 (R2 _ _ _ Fs1) Pv Pq Pc Pz Px Pz' Pw1 Py Gq). }
  assert (Px1 : oget x1 (pts m1) = Some M1).
  { refine (PT q c x1 v x z' z w4 w3 Q C V M Z' Z W4 W3 M1 Ex (R1 _ _ _ F0) Fx Ff2 (R2 _ _ _ Ff1) Fw4 Fw3 Pq Pc Pv Px Pz' Pz Pw4 Pw3 Gm). }
  assert (Pc1 : oget c1 (pts m1) = Some C).
  { refine (PT c v c1 q z' z x y' w2 C V Q Z' Z M Y' W2 C Ec (R2 _ _ _ F0) Ff2 (R2 _ _ _ Ff1) Fx Fs2 Fw2 Pc Pv Pq Pz' Pz Px Py' Pw2 Gc). }
  assert (NE : forall k p k', oget k (pts m) = Some p -> oget k' (pts m) = None -> k <> k') by (intros; congruence).
  assert (Z1 : mid v z = None /\ mid z q = None /\ mid y z = None /\ mid v y = None).
  { repeat split; apply NO; unfold edge_of; cbn; intros [H|H]; repeat (destruct H as [H|H]; [inv H; tauto|]); destruct H. }
  assert (Z2 : mid c z' = None /\ mid z' v = None /\ mid z' y' = None /\ mid y' v = None).
  { repeat split; apply NO; unfold edge_of; cbn; intros [H|H]; repeat (destruct H as [H|H]; [inv H; tauto|]); destruct H. }
  assert (Z3 : mid q x = None /\ mid x c = None).
  { repeat split; apply NO; unfold edge_of; cbn; intros [H|H]; repeat (destruct H as [H|H]; [inv H; tauto|]); destruct H. }
  destruct Z1 as [Z11 [Z12 [Z13 Z14]]]. destruct Z2 as [Z21 [Z22 [Z23 Z24]]]. destruct Z3 as [Z31 Z32].
  destruct (four_faces m m1 mid Ht v q c q1 x1 c1 F0 Eq Ex Ec) as [N0 [N1 [N2 N3]]].
  destruct (halve_face m m1 mid Ht q v z q1 (R2 _ _ _ Ff1) Eq' Z11 Z12) as [N4 N5].
  destruct (halve_face m m1 mid Ht v c z' c1 Ff2 Ec' Z21 Z22) as [N6 N7].
  assert (N8 : is_face m1 v y z) by (apply (keep_face m m1 mid Ht); auto; rewrite Sy; exact Z11).
  assert (N9 : is_face m1 v z' y') by (apply (keep_face m m1 mid Ht); auto; rewrite Sy; exact Z22).
  exists v, z, q1, c1, z', y, y', x1, q, c, q, c, M1, Q, C, Q, C. split; [exact stays|]. split.
  - constructor; try exact N0; try exact N8; try exact N9; try exact Pq1; try exact Pc1; try exact Px1; try (apply OLD; assumption).
    + apply is_face_rot. exact N4.
    + apply is_face_rot, is_face_rot. exact N7 || (apply is_face_rot; exact N7).
    + apply is_face_rot, is_face_rot. exact N3.
    + exact N5.
    + apply is_face_rot, is_face_rot. exact N6.
    + apply is_face_rot, is_face_rot. exact N1.
    + apply is_face_rot, is_face_rot. exact N2.
    + apply (NE _ _ _ Pz Fc).
    + apply (NE _ _ _ Pz' Fq).
    + apply (NE _ _ _ Py Fq).
    + apply (NE _ _ _ Py Fc).
    + apply (NE _ _ _ Py' Fq).
    + apply (NE _ _ _ Py' Fc).
    + intros ->. congruence.
  - assert (SIX : forall a b, mid a b <> None -> (a = v /\ b = q) \/ (a = q /\ b = c) \/ (a = c /\ b = v) \/ (a = q /\ b = v) \/ (a = c /\ b = q) \/ (a = v /\ b = c)).
    { intros a b H. apply SP in H. unfold edge_of in H. cbn in H. destruct H as [H|H]; repeat (destruct H as [H|H]; [inv H; tauto|]); destruct H. }
    assert (Q1 : forall k, is_face m q v k -> k = z) by (intros k H; eapply face_third; [exact Hv|exact H|apply R2; exact Ff1]).
    assert (Q2 : forall k, is_face m c q k -> k = x) by (intros k H; eapply face_third; [exact Hv|exact H|exact Fx]).
    assert (Q3 : forall k, is_face m v c k -> k = z') by (intros k H; eapply face_third; [exact Hv|exact H|exact Ff2]).
    assert (Q4 : forall k, is_face m v q k -> k = c) by (intros k H; eapply face_third; [exact Hv|exact H|exact F0]).
    assert (Q5 : forall k, is_face m q c k -> k = v) by (intros k H; eapply face_third; [exact Hv|exact H|apply R1; exact F0]).
    assert (Q6 : forall k, is_face m c v k -> k = q) by (intros k H; eapply face_third; [exact Hv|exact H|apply R2; exact F0]).
    assert (PTS : forall a b e A B E, oget a (pts m1) = Some A -> oget b (pts m1) = Some B -> oget e (pts m1) = Some E -> small A B E ->
              exists A B E, tri_pts m1 a b e A B E /\ small A B E) by (intros a b e A B E0 HA HB HE Hs; exists A, B, E0; unfold tri_pts; auto).
    pose proof (OLD _ _ Pv) as Ov. pose proof (OLD _ _ Pq) as Oq. pose proof (OLD _ _ Pc) as Oc. pose proof (OLD _ _ Pz) as Oz.
    pose proof (OLD _ _ Pz') as Oz'. pose proof (OLD _ _ Px) as Ox.
    assert (C4 : forall w, In w [(v, q1, c1); (q1, q, x1); (x1, c, c1); (q1, x1, c1)] \/ In w [(q, x1, q1); (x1, c, c1); (c1, v, q1); (x1, c1, q1)] \/
              In w [(c, c1, x1); (c1, v, q1); (q1, q, x1); (c1, q1, x1)] -> forall a b e, w = (a, b, e) ->
              In (a, b, e) [(v, q1, c1); (q1, c1, v); (c1, v, q1)] \/ exists A B E, tri_pts m1 a b e A B E /\ small A B E).
    { assert (S1 : small Q M1 Q) by (apply small_rot; exact flat3). assert (S2 : small C C M1) by (apply small_rot; exact flat4).
      assert (S3 : small M1 C Q) by (apply small_rot; exact middle). assert (S4 : small C Q M1) by (apply small_rot; exact S3).
      intros w Hw a b e ->. cbn [In] in Hw.
      repeat match goal with H : _ \/ _ |- _ => destruct H as [H|H] | H : False |- _ => destruct H | H : (_, _, _) = (a, b, e) |- _ => injection H as <- <- <- end;
        first [solve [left; cbn; auto]|right; eapply PTS; [eassumption|eassumption|eassumption|assumption]]. }
    intros a b e He. apply (cut_cases m m1 mid Ht) in He. destruct He as [He|[He|[He|He]]].
    + destruct He as [a0 [b0 [e0 [Hin [E0 [E1 [E2 Ew]]]]]]]. injection Ew as -> -> ->.
      destruct (Ho _ _ _ Hin) as [H|[A [B [E3 [[HA [HB HE]] Hs]]]]].
      * exfalso. destruct H as [H|[H|[H|[]]]]; injection H as <- <- <-; congruence.
      * right. exact (PTS _ _ _ _ _ _ (OLD _ _ HA) (OLD _ _ HB) (OLD _ _ HE) Hs).
    + destruct He as [a0 [b0 [e0 [k [Hin [E0 [E1 [E2 Ew]]]]]]]]. right.
      assert (SX : mid a0 b0 <> None) by congruence. apply SIX in SX.
      destruct SX as [[-> ->]|[[-> ->]|[[-> ->]|[[-> ->]|[[-> ->]|[-> ->]]]]]].
      * exfalso. apply Q4 in Hin. subst e0. congruence.
      * exfalso. apply Q5 in Hin. subst e0. congruence.
      * exfalso. apply Q6 in Hin. subst e0. congruence.
      * apply Q1 in Hin. subst e0. assert (k = q1) as -> by congruence. destruct Ew as [Ew|Ew]; injection Ew as -> -> ->.
        -- apply (PTS _ _ _ _ _ _ Pq1 Ov Oz). apply small_rot, small_rot. exact fan1.
        -- apply (PTS _ _ _ _ _ _ Pq1 Oz Oq). apply small_rot, small_rot. exact flat1.
      * apply Q2 in Hin. subst e0. assert (k = x1) as -> by congruence. destruct Ew as [Ew|Ew]; injection Ew as -> -> ->.
        -- apply (PTS _ _ _ _ _ _ Px1 Oq Ox). exact G2.
        -- apply (PTS _ _ _ _ _ _ Px1 Ox Oc). apply small_rot. exact G1.
      * apply Q3 in Hin. subst e0. assert (k = c1) as -> by congruence. destruct Ew as [Ew|Ew]; injection Ew as -> -> ->.
        -- apply (PTS _ _ _ _ _ _ Pc1 Oc Oz'). apply small_rot, small_rot. exact flat2.
        -- apply (PTS _ _ _ _ _ _ Pc1 Oz' Ov). apply small_rot. exact fan2.
    + exfalso. destruct He as [a0 [b0 [e0 [Hin [E0 [E1 E2]]]]]]. apply SIX in E0.
      destruct E0 as [[-> ->]|[[-> ->]|[[-> ->]|[[-> ->]|[[-> ->]|[-> ->]]]]]].
      * apply Q4 in Hin. subst e0. congruence.
      * apply Q5 in Hin. subst e0. congruence.
      * apply Q6 in Hin. subst e0. congruence.
      * apply Q1 in Hin. subst e0. congruence.
      * apply Q2 in Hin. subst e0. congruence.
      * apply Q3 in Hin. subst e0. congruence.
    + destruct He as [a0 [b0 [e0 [k0 [k1 [k2 [Hin [E0 [E1 [E2 Ew]]]]]]]]]].
      assert (F : is_face m a0 b0 e0) by (left; exact Hin).
      assert (SX : mid a0 b0 <> None) by congruence. apply SIX in SX.
      destruct SX as [[-> ->]|[[-> ->]|[[-> ->]|[[-> ->]|[[-> ->]|[-> ->]]]]]].
      * apply Q4 in F. subst e0. assert (k0 = q1) as -> by congruence. assert (k1 = x1) as -> by congruence. assert (k2 = c1) as -> by congruence.
        apply (C4 _ (or_introl Ew) a b e eq_refl).
      * apply Q5 in F. subst e0. assert (k0 = x1) as -> by congruence. assert (k1 = c1) as -> by congruence. assert (k2 = q1) as -> by congruence.
        apply (C4 _ (or_intror (or_introl Ew)) a b e eq_refl).
      * apply Q6 in F. subst e0. assert (k0 = c1) as -> by congruence. assert (k1 = q1) as -> by congruence. assert (k2 = x1) as -> by congruence.
        apply (C4 _ (or_intror (or_intror Ew)) a b e eq_refl).
      * exfalso. apply Q1 in F. subst e0. congruence.
      * exfalso. apply Q2 in F. subst e0. congruence.
      * exfalso. apply Q3 in F. subst e0. congruence.
Qed.

Lemma endless old f inp v z q c z' y y' x w1 w2 w3 w4 M W1 W2 W3 W4 : valid inp -> dense inp -> good M W1 W2 W3 W4 ->
  conf inp v z q c z' y y' x w1 w2 w3 w4 M W1 W2 W3 W4 -> others inp v q c ->
  diverges (fun fuel => conditional_update fuel (CellF CButterfly) (Some (cell_area_criterion t)) old f inp).
Proof.
  intros Hv Hd G K Ho. apply (area_never CButterfly t state).
  - intros m [H _]. exact H.
  - intros m [[Hm _] [v0 [z0 [q0 [c0 [z0' [y0 [y0' [x0 [u1 [u2 [u3 [u4 [M0 [U1 [U2 [U3 [U4 [G0 [K0 Ho0]]]]]]]]]]]]]]]]]]]] E.
    pose proof (p_v _ _ _ _ _ _ _ _ _ _ _ _ _ _ _ _ _ _ K0) as A1. pose proof (p_q _ _ _ _ _ _ _ _ _ _ _ _ _ _ _ _ _ _ K0) as A2.
    pose proof (p_c _ _ _ _ _ _ _ _ _ _ _ _ _ _ _ _ _ _ K0) as A3. pose proof (k_inner _ _ _ _ _ _ _ _ _ _ _ _ _ _ _ _ _ _ K0) as F0.
    destruct F0 as [F|[F|F]]; apply face_id in F; destruct F as [i Hi]; pose proof (proj2 (chosen m v0 q0 c0 i _ Hm A1 A2 A3 Ho0 Hi)) as L; rewrite E in L; apply L; cbn; auto.
  - intros m f0 n f1 m1 H E. eapply step; eauto.
  - destruct (copy_shape inp Hv) as [Hp [Ht _]]. split.
    + apply copy_start. apply start_of; auto; [|unfold splits_faces; congruence|intros [E|E]; discriminate].
      intros E. pose proof (k_inner _ _ _ _ _ _ _ _ _ _ _ _ _ _ _ _ _ _ K) as F0. unfold is_face in F0. rewrite E in F0. cbn in F0. tauto.
    + exists v, z, q, c, z', y, y', x, w1, w2, w3, w4, M, W1, W2, W3, W4. split; [exact G|]. split.
      * destruct K. constructor; unfold is_face in *; rewrite ?Ht, ?Hp; assumption.
      * unfold others, tri_pts in *. rewrite Ht, Hp. exact Ho.
Qed.
End AGAIN.
End ENDLESS.
