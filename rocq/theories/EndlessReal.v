(** * EndlessReal: the recurring triangle with real coordinates, in any dimension (C107). *)
From Coq Require Import Reals Lra.
From Verif Require Import Base Mesh Filters Drivers Samples Spec SpecSub SpecGeo SpecDrive SpecEndless Check CheckGeo Lists AddFace SplitTri Split Points Valid Run Update Struct Count Face Copy PtsAny Geo GeoProps Conn Drive Area Cond DriveProps Never Endless.
Open Scope R_scope.

Section PLACES.
Context {d : nat}.
Variables (V Q C : list R).
Hypothesis LV : length V = d.
Hypothesis LQ : length Q = d.
Hypothesis LC : length C = d.

Definition at_ (P : list R) (a b : R) : Prop := length P = d /\
  forall i, nth i P 0 = nth i V 0 + a * (nth i Q 0 - nth i V 0) + b * (nth i C 0 - nth i V 0).

Lemma at_V : at_ V 0 0. Proof. split; [exact LV|]. intros i. ring. Qed.
Lemma at_Q : at_ Q 1 0. Proof. split; [exact LQ|]. intros i. ring. Qed.
Lemma at_C : at_ C 0 1. Proof. split; [exact LC|]. intros i. ring. Qed.
Lemma at_eq P P' a b a' b' : at_ P a b -> at_ P' a' b' -> a = a' -> b = b' -> P = P'.
Proof.
  intros [L H] [L' H'] -> ->. apply (nth_ext _ _ 0 0); [congruence|]. intros i _. rewrite H, H'. reflexivity.
Qed.

(** The point at given coordinates. *)
Definition point_at (a b : R) : list R := map2 (fun v qc => v + a * (fst qc - v) + b * (snd qc - v)) V (combine Q C).
Lemma point_at_ok a b : at_ (point_at a b) a b.
Proof.
  unfold point_at, at_. rewrite <- LV. assert (Hq : length Q = length V) by congruence. assert (Hc : length C = length V) by congruence. clear LV LQ LC.
  revert Q C Hq Hc. induction V as [|x l IH]; intros [|y q] [|z c] Hq Hc; try discriminate.
  - split; [reflexivity|]. intros [|i]; cbn; ring.
  - destruct (IH q c) as [L H]; [cbn in Hq; lia|cbn in Hc; lia|]. split; [cbn; f_equal; exact L|]. intros [|i]; cbn; [ring|apply H].
Qed.

Definition six (A B E : list R) : mesh (RO d) unit := Mesh (O := RO d) [(0%N, V); (1%N, Q); (2%N, C); (3%N, A); (4%N, B); (5%N, E)] [] None None None.
Lemma at_area A B E a1 b1 a2 b2 a3 b3 : at_ A a1 b1 -> at_ B a2 b2 -> at_ E a3 b3 ->
  @area (RO d) A B E = Rabs ((a2 - a1) * (b3 - b1) - (a3 - a1) * (b2 - b1)) * @area (RO d) V Q C.
Proof.
  intros [LA HA] [LB HB] [LE HE].
  assert (W : wf_points (six A B E)).
  { split.
    - unfold sorted_keys, six, okeys. cbn. repeat constructor.
    - intros id p. unfold six. cbn [pts oget].
      repeat match goal with |- (if ?b then _ else _) = _ -> _ => destruct b; [intros H; injection H as <-; assumption|] end. discriminate. }
  rewrite (area_heron (six A B E) 3 4 5 A B E W eq_refl eq_refl eq_refl), (area_heron (six A B E) 0 1 2 V Q C W eq_refl eq_refl eq_refl).
  apply area_loc; intros i; unfold crd, ptof; cbn; [apply HA|apply HB|apply HE].
Qed.

Lemma comb_length ws ps (acc : list R) : length acc = d -> (forall p, In p ps -> length p = d) -> length (@comb (RO d) acc ws ps) = d.
Proof.
  revert ps acc. induction ws as [|w ws IH]; intros [|p ps] acc Ha Hp; cbn; auto.
  apply IH; [|intros p' H; apply Hp; right; exact H]. apply map2_length; [exact Ha|apply Hp; left; reflexivity].
Qed.
Lemma at_stencil P0 P1 P2 P3 P4 P5 P6 P7 a0 a1 a2 a3 a4 a5 a6 a7 b0 b1 b2 b3 b4 b5 b6 b7 :
  at_ P0 a0 b0 -> at_ P1 a1 b1 -> at_ P2 a2 b2 -> at_ P3 a3 b3 -> at_ P4 a4 b4 -> at_ P5 a5 b5 -> at_ P6 a6 b6 -> at_ P7 a7 b7 ->
  at_ (@stencil (RO d) P0 P1 P2 P3 P4 P5 P6 P7)
    (1 / 2 * (a0 + a1) + 1 / 8 * (a2 + a3) - 1 / 16 * (a4 + a5 + a6 + a7)) (1 / 2 * (b0 + b1) + 1 / 8 * (b2 + b3) - 1 / 16 * (b4 + b5 + b6 + b7)).
Proof.
  intros [L0 H0] [L1 H1] [L2 H2] [L3 H3] [L4 H4] [L5 H5] [L6 H6] [L7 H7]. unfold stencil.
  assert (LP : forall p, In p [P0; P1; P2; P3; P4; P6; P5; P7] -> length p = d).
  { intros p H. cbn in H. repeat (destruct H as [<-|H]; [assumption|]). destruct H. }
  split.
  - apply comb_length; [apply repeat_length|exact LP].
  - intros i.
    pose proof (lin_comb (d := d) (delta i) (@butterfly_weights (RO d)) [P0; P1; P2; P3; P4; P6; P5; P7] (@pzero (RO d)) (repeat_length _ _) LP eq_refl) as L.
    assert (E0 : lin (delta i) (@pzero (RO d)) = 0) by apply (lin_zero (delta i) d).
    cbn [combine butterfly_weights rsum fold_right fst snd] in L. rewrite E0 in L. rewrite !lin_delta in L. rewrite H0, H1, H2, H3, H4, H5, H6, H7 in L.
    unfold kfrac in L. cbn [kdiv kZ RO] in L. etransitivity; [exact L|]. field.
Qed.
End PLACES.

Section RECUR.
Context {d : nat} {D : Type}.
Notation mesh := (mesh (RO d) D).

Lemma kgtb_false (x t : R) : x <= t -> kgtb (RO d) x t = false.
Proof. intros H. cbn. destruct (Rlt_dec t x); [lra|reflexivity]. Qed.
Lemma kgtb_true (x t : R) : t < x -> kgtb (RO d) x t = true.
Proof. intros H. cbn. destruct (Rlt_dec t x); [reflexivity|lra]. Qed.
Lemma turn_area (m : mesh) a b e : tri_area m (b, e, a) = tri_area m (a, b, e).
Proof.
  rewrite (area_loc m m a b e b e a 1 0 0 1 0 0); [|intros i; ring|intros i; ring|intros i; ring].
  replace ((0 - 1) * (0 - 0) - (0 - 1) * (1 - 0)) with 1 by ring. rewrite Rabs_R1. ring.
Qed.

Lemma C107_local_pf : forall (t : R) (inp : mesh) v z q c z' y y' x w1 w2 w3 w4,
  valid inp -> dense inp -> recurring inp v z q c z' y y' x w1 w2 w3 w4 ->
  tri_area inp (v, q, c) / 2 <= t < tri_area inp (v, q, c) ->
  (forall a b e, In (a, b, e) (tris inp) -> In (a, b, e) [(v, q, c); (q, c, v); (c, v, q)] \/ tri_area inp (a, b, e) <= t) ->
  forall old f, diverges (fun fuel => conditional_update fuel (CellF CButterfly) (Some (cell_area_criterion (O := RO d) t)) old f inp).
Proof.
  intros t inp v z q c z' y y' x w1 w2 w3 w4 Hv Hd [F0 F1 F2 F3 F4 F5 F6 F7 F8 F9 Xz Xz' Xy Xy' Xx X1 X2 X3 X4] Ht Ho old f.
  assert (PT : forall a b e, is_face inp a b e -> oget a (pts inp) = Some (ptof inp a)).
  { intros a b e H. apply is_face_dir in H. apply (v_face_edges _ Hv) in H. destruct (joined_get inp a b Hv H) as [G _].
    unfold get_pt in G. destruct (oget a (pts inp)); [|discriminate]. injection G as ->. reflexivity. }
  assert (LN : forall k, length (ptof inp k) = d) by (intros k; apply ptof_length; exact Hv).
  assert (R1 : forall a b e, is_face inp a b e -> is_face inp b e a) by (intros; apply is_face_rot; assumption).
  assert (R2 : forall a b e, is_face inp a b e -> is_face inp e a b) by (intros; apply is_face_rot, is_face_rot; assumption).
  set (V := ptof inp v). set (Q := ptof inp q). set (C := ptof inp c). set (M1 := point_at V Q C (3 / 8) (3 / 8)).
  pose proof (PT _ _ _ F0) as Pv. pose proof (PT _ _ _ (R1 _ _ _ F0)) as Pq. pose proof (PT _ _ _ (R2 _ _ _ F0)) as Pc.
  pose proof (PT _ _ _ (R1 _ _ _ F1)) as Pz. pose proof (PT _ _ _ (R2 _ _ _ F2)) as Pz'. pose proof (PT _ _ _ (R1 _ _ _ F3)) as Py.
  pose proof (PT _ _ _ (R2 _ _ _ F4)) as Py'. pose proof (PT _ _ _ (R2 _ _ _ F5)) as Px. pose proof (PT _ _ _ (R2 _ _ _ F6)) as P1.
  pose proof (PT _ _ _ (R2 _ _ _ F7)) as P2. pose proof (PT _ _ _ (R2 _ _ _ F8)) as P3. pose proof (PT _ _ _ (R2 _ _ _ F9)) as P4.
  pose proof (valid_wf inp Hv) as WF.
  pose proof (area_heron inp v q c _ _ _ WF Pv Pq Pc) as EA. fold V Q C in EA, Pv, Pq, Pc.
  set (A := tri_area inp (v, q, c)) in *.
  pose proof (LN v) as LV. pose proof (LN q) as LQ. pose proof (LN c) as LC. fold V in LV. fold Q in LQ. fold C in LC.
  assert (AT : forall k a b, placed inp v q c k a b -> at_ (d := d) V Q C (ptof inp k) a b) by (intros k a b H; split; [apply LN|exact H]).
  pose proof (at_V V Q C LV) as AV. pose proof (at_Q V Q C LQ) as AQ. pose proof (at_C V Q C LC) as AC.
  pose proof (point_at_ok V Q C LV LQ LC (3 / 8) (3 / 8)) as AM. fold M1 in AM.
  apply AT in Xz, Xz', Xy, Xy', Xx, X1, X2, X3, X4.
  assert (A0 : 0 < A) by lra.
  assert (SM : forall P0 P1 P2 a0 b0 a1 b1 a2 b2, at_ (d := d) V Q C P0 a0 b0 -> at_ (d := d) V Q C P1 a1 b1 -> at_ (d := d) V Q C P2 a2 b2 ->
    - (1 / 2) <= (a1 - a0) * (b2 - b0) - (a2 - a0) * (b1 - b0) <= 1 / 2 -> small (O := RO d) t P0 P1 P2).
  { intros p0 p1 p2 a0 b0 a1 b1 a2 b2 H0 H1 H2 Hd0.
    assert (G : forall X Y W u1 v1 u2 v2 u3 v3, at_ (d := d) V Q C X u1 v1 -> at_ (d := d) V Q C Y u2 v2 -> at_ (d := d) V Q C W u3 v3 ->
       - (1 / 2) <= (u2 - u1) * (v3 - v1) - (u3 - u1) * (v2 - v1) <= 1 / 2 -> small1 (O := RO d) t X Y W).
    { intros X Y W u1 v1 u2 v2 u3 v3 HX HY HW Hdet. unfold small1. apply kgtb_false. rewrite (at_area V Q C LV LQ LC X Y W _ _ _ _ _ _ HX HY HW), EA.
      apply Rle_trans with (1 / 2 * A); [|lra]. apply Rmult_le_compat_r; [lra|]. apply Rabs_le. exact Hdet. }
    split; [|split]; [eapply G; [exact H0|exact H1|exact H2|lra]|eapply G; [exact H1|exact H2|exact H0|lra]|eapply G; [exact H2|exact H0|exact H1|lra]]. }
  assert (AB : forall P a b a' b', at_ (d := d) V Q C P a b -> at_ (d := d) V Q C P a' b' -> Rabs b = Rabs b').
  { intros P a b a' b' H H'. pose proof (at_area V Q C LV LQ LC V Q P _ _ _ _ _ _ AV AQ H) as E1. pose proof (at_area V Q C LV LQ LC V Q P _ _ _ _ _ _ AV AQ H') as E2.
    rewrite EA in E1, E2. rewrite E1 in E2. apply Rmult_eq_reg_r in E2; [|lra].
    replace ((1 - 0) * (b - 0) - (a - 0) * (0 - 0)) with b in E2 by ring. replace ((1 - 0) * (b' - 0) - (a' - 0) * (0 - 0)) with b' in E2 by ring. exact E2. }
  assert (NE : forall k k' a b a' b', at_ (d := d) V Q C (ptof inp k) a b -> at_ (d := d) V Q C (ptof inp k') a' b' -> Rabs b <> Rabs b' -> k <> k').
  { intros k k' a b a' b' H H' Hne ->. apply Hne. eapply AB; eauto. }
  assert (BO : forall P0 P1 P2 P3 P4 P5 P6 P7 r a0 a1 a2 a3 a4 a5 a6 a7 b0 b1 b2 b3 b4 b5 b6 b7 a b,
    at_ (d := d) V Q C P0 a0 b0 -> at_ (d := d) V Q C P1 a1 b1 -> at_ (d := d) V Q C P2 a2 b2 -> at_ (d := d) V Q C P3 a3 b3 ->
    at_ (d := d) V Q C P4 a4 b4 -> at_ (d := d) V Q C P5 a5 b5 -> at_ (d := d) V Q C P6 a6 b6 -> at_ (d := d) V Q C P7 a7 b7 -> at_ (d := d) V Q C r a b ->
    a = 1 / 2 * (a0 + a1) + 1 / 8 * (a2 + a3) - 1 / 16 * (a4 + a5 + a6 + a7) -> b = 1 / 2 * (b0 + b1) + 1 / 8 * (b2 + b3) - 1 / 16 * (b4 + b5 + b6 + b7) ->
    both (O := RO d) P0 P1 P2 P3 P4 P5 P6 P7 r).
  { intros p0 p1 p2 p3 p4 p5 p6 p7 r a0 a1 a2 a3 a4 a5 a6 a7 b0 b1 b2 b3 b4 b5 b6 b7 a b H0 H1 H2 H3 H4 H5 H6 H7 Hr Ea Eb.
    split.
    - exact (at_eq V Q C _ _ _ _ _ _ (at_stencil V Q C _ _ _ _ _ _ _ _ _ _ _ _ _ _ _ _ _ _ _ _ _ _ _ _ H0 H1 H2 H3 H4 H5 H6 H7) Hr (eq_sym Ea) (eq_sym Eb)).
    - refine (at_eq V Q C _ _ _ _ _ _ (at_stencil V Q C _ _ _ _ _ _ _ _ _ _ _ _ _ _ _ _ _ _ _ _ _ _ _ _ H1 H0 H3 H2 H7 H6 H5 H4) Hr _ _); lra. }
  assert (inner : large (O := RO d) t V Q C).
  { assert (G : forall X Y W u1 v1 u2 v2 u3 v3, at_ (d := d) V Q C X u1 v1 -> at_ (d := d) V Q C Y u2 v2 -> at_ (d := d) V Q C W u3 v3 ->
       (u2 - u1) * (v3 - v1) - (u3 - u1) * (v2 - v1) = 1 -> large1 (O := RO d) t X Y W).
    { intros X Y W u1 v1 u2 v2 u3 v3 HX HY HW Hdet. unfold large1. apply kgtb_true. rewrite (at_area V Q C LV LQ LC X Y W _ _ _ _ _ _ HX HY HW), EA, Hdet, Rabs_R1. lra. }
    split; [|split]; [eapply G; [exact AV|exact AQ|exact AC|lra]|eapply G; [exact AQ|exact AC|exact AV|lra]|eapply G; [exact AC|exact AV|exact AQ|lra]]. }
  set (Z := ptof inp z) in *. set (Z' := ptof inp z') in *. set (Y := ptof inp y) in *. set (Y' := ptof inp y') in *. set (X := ptof inp x) in *.
  set (W1 := ptof inp w1) in *. set (W2 := ptof inp w2) in *. set (W3 := ptof inp w3) in *. set (W4 := ptof inp w4) in *.
  refine (endless (O := RO d) V Z Q C Z' Y Y' M1 t inner _ _ _ _ _ _ _ _ old f inp v z q c z' y y' x w1 w2 w3 w4 X W1 W2 W3 W4 Hv Hd _ _ _).
  - eapply SM; [exact AV|exact Xz|exact AQ|lra].
  - eapply SM; [exact AV|exact AC|exact Xz'|lra].
  - eapply SM; [exact Xz|exact AQ|exact AQ|lra].
  - eapply SM; [exact AC|exact Xz'|exact AC|lra].
  - eapply SM; [exact AQ|exact AQ|exact AM|lra].
  - eapply SM; [exact AM|exact AC|exact AC|lra].
  - eapply SM; [exact AQ|exact AM|exact AC|lra].
  - constructor.
    + eapply BO; [exact AV|exact AQ|exact AC|exact Xz|exact AM|exact Xz'|exact AQ|exact Xy|exact AQ|lra|lra].
    + eapply BO; [exact AQ|exact AC|exact AV|exact AM|exact Xz'|exact Xz|exact AC|exact AQ|exact AM|lra|lra].
    + eapply BO; [exact AC|exact AV|exact AQ|exact Xz'|exact Xz|exact AM|exact Xy'|exact AC|exact AC|lra|lra].
    + eapply SM; [exact AC|exact AM|exact AM|lra].
    + eapply SM; [exact AM|exact AQ|exact AM|lra].
  - constructor.
    + eapply BO; [exact AV|exact AQ|exact AC|exact Xz|exact Xx|exact Xz'|exact X1|exact Xy|exact AQ|lra|lra].
    + eapply BO; [exact AQ|exact AC|exact AV|exact Xx|exact Xz'|exact Xz|exact X4|exact X3|exact AM|lra|lra].
    + eapply BO; [exact AC|exact AV|exact AQ|exact Xz'|exact Xz|exact Xx|exact Xy'|exact X2|exact AC|lra|lra].
    + eapply SM; [exact AC|exact AM|exact Xx|lra].
    + eapply SM; [exact AM|exact AQ|exact Xx|lra].
  - constructor; try assumption; unfold Q, C, V in *.
    + eapply NE; [exact Xz|exact AC|]. rewrite Rabs_R1, Rabs_left by lra. lra.
    + eapply NE; [exact Xz'|exact AQ|]. rewrite Rabs_R0, Rabs_right by lra. lra.
    + eapply NE; [exact Xy|exact AQ|]. rewrite Rabs_R0, Rabs_left by lra. lra.
    + eapply NE; [exact Xy|exact AC|]. rewrite Rabs_R1, Rabs_left by lra. lra.
    + eapply NE; [exact Xy'|exact AQ|]. rewrite Rabs_R0, Rabs_left by lra. lra.
    + eapply NE; [exact Xy'|exact AC|]. rewrite Rabs_R1, Rabs_left by lra. lra.
    + eapply NE; [exact Xx|exact AV|]. rewrite Rabs_R0, Rabs_right by lra. lra.
  - intros a b e He. destruct (Ho a b e He) as [H|H]; [left; exact H|right].
    assert (Fa : is_face inp a b e) by (left; exact He).
    pose proof (PT _ _ _ Fa) as Pa. pose proof (PT _ _ _ (R1 _ _ _ Fa)) as Pb. pose proof (PT _ _ _ (R2 _ _ _ Fa)) as Pe.
    exists (ptof inp a), (ptof inp b), (ptof inp e). split; [split; [exact Pa|split; [exact Pb|exact Pe]]|].
    unfold small, small1. rewrite (area_heron inp a b e _ _ _ WF Pa Pb Pe), (area_heron inp b e a _ _ _ WF Pb Pe Pa), (area_heron inp e a b _ _ _ WF Pe Pa Pb).
    rewrite (turn_area inp b e a), (turn_area inp a b e). split; [|split]; apply kgtb_false; exact H.
Qed.
End RECUR.

(** ** A mesh with the recurring triangle, at every scale *)
Definition emesh (s : R) : mesh (RO 3) N :=
  build (O := RO 3) (number (map (fun xy => [s * IZR (fst xy); s * IZR (snd xy); 0])
    [(0, 0); (-28, -24); (9, 7); (5, 4); (-5, 4); (-9, 7); (28, -24); (0, 5); (5, 2); (-5, 2); (3, 6); (-3, 6)]%Z))
  [[0; 1; 2]; [0; 2; 3]; [0; 3; 4]; [0; 4; 5]; [0; 5; 6]; [3; 2; 8]; [4; 3; 7]; [5; 4; 9]; [7; 3; 10]; [4; 7; 11]]%N.

Lemma emesh_valid s : valid (emesh s) /\ dense (emesh s) /\ no_wire (emesh s) /\ no_isolated (emesh s).
Proof.
  split; [apply validb_ok; vm_compute; reflexivity|]. split; [apply denseb_ok; vm_compute; reflexivity|].
  split; [apply no_wireb_ok; vm_compute; reflexivity|apply no_isolatedb_ok; vm_compute; reflexivity].
Qed.
Lemma emesh_tris s : tris (emesh s) = [(0, 1, 2); (0, 2, 3); (0, 3, 4); (0, 4, 5); (0, 5, 6); (3, 2, 8); (4, 3, 7); (5, 4, 9); (7, 3, 10); (4, 7, 11)]%N.
Proof. vm_compute. reflexivity. Qed.
Definition exy (k : N) : Z * Z := nth (N.to_nat k) [(0, 0); (-28, -24); (9, 7); (5, 4); (-5, 4); (-9, 7); (28, -24); (0, 5); (5, 2); (-5, 2); (3, 6); (-3, 6)]%Z (0, 0)%Z.
Lemma emesh_crd s k i : (k < 12)%N -> crd (emesh s) i k = nth i [s * IZR (fst (exy k)); s * IZR (snd (exy k)); 0] 0.
Proof.
  intros H. assert (P : pts (emesh s) = map (fun k => (k, [s * IZR (fst (exy k)); s * IZR (snd (exy k)); 0])) (map N.of_nat (seq 0 12))) by (vm_compute; reflexivity).
  unfold crd, ptof. rewrite P.
  assert (E : In k (map N.of_nat (seq 0 12))). { apply in_map_iff. exists (N.to_nat k). split; [lia|]. apply in_seq. lia. }
  clear P H. cbn [seq map] in E. repeat (destruct E as [<-|E]; [reflexivity|]). destruct E.
Qed.
Lemma emesh_placed s k x y a b : (k < 12)%N -> exy k = (x, y) -> IZR x = 5 * a - 5 * b -> IZR y = 4 * a + 4 * b -> placed (emesh s) 0 3 4 k a b.
Proof.
  intros Hk E Ha Hb i. rewrite !emesh_crd by (exact Hk || reflexivity). rewrite E. change (exy 0) with (0, 0)%Z. change (exy 3) with (5, 4)%Z. change (exy 4) with (-5, 4)%Z. cbn [fst snd]. rewrite Ha, Hb.
  destruct i as [|[|[|i]]]; cbn [nth]; [ring|ring|ring|destruct i; ring].
Qed.
Lemma emesh_area s : tri_area (emesh s) (0, 3, 4)%N = 20 * (s * s).
Proof.
  unfold tri_area, dot. cbn [seq rsum fold_right]. rewrite !emesh_crd by reflexivity. change (exy 0) with (0, 0)%Z. change (exy 3) with (5, 4)%Z. change (exy 4) with (-5, 4)%Z. cbn [fst snd nth].
  match goal with |- 1 / 2 * sqrt ?g = _ => replace g with ((40 * (s * s)) * (40 * (s * s))) by ring end.
  rewrite sqrt_square; [lra|]. pose proof (Rle_0_sqr s). unfold Rsqr in *. lra.
Qed.
Lemma emesh_recurring s : recurring (emesh s) 0 2 3 4 5 1 6 7 8 9 10 11.
Proof.
  constructor; try (apply is_faceb_ok; vm_compute; reflexivity); (eapply emesh_placed; [reflexivity|reflexivity|lra|lra]).
Qed.
Lemma emesh_others s u : In u (tris (emesh s)) -> u <> (0, 3, 4)%N -> 0 < s -> 0 < tri_area (emesh s) u <= 10 * (s * s).
Proof.
  intros Hu Hne Hs. rewrite emesh_tris in Hu. pose proof (Rmult_lt_0_compat s s Hs Hs) as S2. pose proof (emesh_recurring s) as [_ _ _ _ _ _ _ _ _ _ Xz Xz' Xy Xy' Xx X1 X2 X3 X4].
  assert (X0 : placed (emesh s) 0 3 4 0 0 0) by (eapply emesh_placed; [reflexivity|reflexivity|lra|lra]).
  assert (Xq : placed (emesh s) 0 3 4 3 1 0) by (eapply emesh_placed; [reflexivity|reflexivity|lra|lra]).
  assert (Xc : placed (emesh s) 0 3 4 4 0 1) by (eapply emesh_placed; [reflexivity|reflexivity|lra|lra]).
  assert (G : forall a b c ua va ub vb uc vc k, placed (emesh s) 0 3 4 a ua va -> placed (emesh s) 0 3 4 b ub vb -> placed (emesh s) 0 3 4 c uc vc ->
    Rabs ((ub - ua) * (vc - va) - (uc - ua) * (vb - va)) = k -> 0 < k <= 1 / 2 -> 0 < tri_area (emesh s) (a, b, c) <= 10 * (s * s)).
  { intros a b c ua va ub vb uc vc k Ha Hb Hc E Hk. rewrite (area_loc (emesh s) (emesh s) 0 3 4 a b c ua va ub vb uc vc Ha Hb Hc), E, emesh_area. split; nra. }
  assert (P : forall r k, r = k \/ r = - k -> 0 < k -> Rabs r = k).
  { intros r k [->| ->] Hk; [apply Rabs_pos_eq; lra|rewrite Rabs_Ropp; apply Rabs_pos_eq; lra]. }
  cbn [In] in Hu. destruct Hu as [<-|[<-|[<-|[<-|[<-|[<-|[<-|[<-|[<-|[<-|[]]]]]]]]]]].
  - eapply (G _ _ _ _ _ _ _ _ _ (1 / 2)); [exact X0|exact Xy|exact Xz| |lra]. apply P; lra.
  - eapply (G _ _ _ _ _ _ _ _ _ (1 / 40)); [exact X0|exact Xz|exact Xq| |lra]. apply P; lra.
  - congruence.
  - eapply (G _ _ _ _ _ _ _ _ _ (1 / 40)); [exact X0|exact Xc|exact Xz'| |lra]. apply P; lra.
  - eapply (G _ _ _ _ _ _ _ _ _ (1 / 2)); [exact X0|exact Xz'|exact Xy'| |lra]. apply P; lra.
  - eapply (G _ _ _ _ _ _ _ _ _ (1 / 5)); [exact Xq|exact Xz|exact X1| |lra]. apply P; lra.
  - eapply (G _ _ _ _ _ _ _ _ _ (1 / 4)); [exact Xc|exact Xq|exact Xx| |lra]. apply P; lra.
  - eapply (G _ _ _ _ _ _ _ _ _ (1 / 5)); [exact Xz'|exact Xc|exact X2| |lra]. apply P; lra.
  - eapply (G _ _ _ _ _ _ _ _ _ (1 / 5)); [exact Xx|exact Xq|exact X3| |lra]. apply P; lra.
  - eapply (G _ _ _ _ _ _ _ _ _ (1 / 5)); [exact Xc|exact Xx|exact X4| |lra]. apply P; lra.
Qed.

Lemma tri_or (u w : tri) : u = w \/ u <> w.
Proof. destruct u as [[a b] c], w as [[x y] z]. destruct (N.eq_dec a x), (N.eq_dec b y), (N.eq_dec c z); subst; auto; right; congruence. Qed.
Lemma C107_every_pf : forall t : R, 0 < t -> exists inp : mesh (RO 3) N, valid inp /\ dense inp /\ no_wire inp /\ no_isolated inp /\
  (forall u, In u (tris inp) -> 0 < tri_area inp u) /\ nF inp = 10%Z /\
  forall old f, diverges (fun fuel => conditional_update fuel (CellF CButterfly) (Some (cell_area_criterion (O := RO 3) t)) old f inp).
Proof.
  intros t Ht. set (s := sqrt (t / 15)). assert (Hs : 0 < s) by (apply sqrt_lt_R0; lra). assert (S2 : s * s = t / 15) by (apply sqrt_sqrt; lra).
  destruct (emesh_valid s) as [V [Dn [NW NI]]]. exists (emesh s). split; [exact V|]. split; [exact Dn|]. split; [exact NW|]. split; [exact NI|].
  pose proof (emesh_area s) as EA. split; [|split; [vm_compute; reflexivity|]].
  - intros u Hu. destruct (tri_or u (0, 3, 4)%N) as [->|U]; [rewrite EA; lra|apply (emesh_others s u Hu U Hs)].
  - intros old f. apply (C107_local_pf t (emesh s) 0 2 3 4 5 1 6 7 8 9 10 11 V Dn (emesh_recurring s)); [rewrite EA; lra|].
    intros a b e He. destruct (tri_or (a, b, e) (0, 3, 4)%N) as [U|U]; [left; left; symmetry; exact U|right]. pose proof (emesh_others s _ He U Hs). lra.
Qed.
