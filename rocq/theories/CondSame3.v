(** * CondSame3: the same for the sqrt(3) filter (C122). *)
From Coq Require Import Reals Lra Psatz.
From Verif Require Import Base Mesh Filters Drivers Spec SpecSub SpecGeo SpecRenum SpecDrive SpecRoot3 SpecConv SpecSame Lists AddFace SplitTri Split Points Valid Run Update Struct Count Face Copy PtsAny
  Geo GeoProps Conn Renum Drive Area Cond FaceProps DriveProps Gaps Never Root3 Root3Run Root3Main Root3Props CondRoot3 Conv Same CondSame.
Open Scope R_scope.

Section CS3.
Context {d : nat} {D : Type}.
Notation mesh := (mesh (RO d) D).
Implicit Types m : mesh.

Lemma area_turn m u v w : tri_area m (u, v, w) = tri_area m (v, w, u).
Proof.
  assert (L1 : loc m m u v w u 0 0) by (intros i; ring).
  assert (L2 : loc m m u v w v 1 0) by (intros i; ring).
  assert (L3 : loc m m u v w w 0 1) by (intros i; ring).
  rewrite (area_loc m m u v w v w u 1 0 0 1 0 0 L2 L3 L1).
  replace ((0 - 1) * (0 - 0) - (0 - 1) * (1 - 0)) with 1 by ring. rewrite Rabs_R1. lra.
Qed.
Lemma area_rot m t a b c : rot t a b c -> tri_area m t = tri_area m (a, b, c).
Proof. intros [-> | [-> | -> ]]; [reflexivity|symmetry; apply area_turn|apply area_turn]. Qed.

Lemma big_there m1 m2 r r' a b c : valid m1 -> same_surface r r' m1 m2 -> is_face m1 a b c -> tri_area m2 (r a, r b, r c) = tri_area m1 (a, b, c).
Proof. intros V1 HS F. destruct (face_pts m1 V1 _ _ _ F) as [Pa [Pb Pc]]. apply (area_same m1 m2 r r'); assumption. Qed.

Lemma picked_big t m f a b c : valid m -> sel_empty (asel (O := RO d) t m) = false -> is_face m a b c ->
  picked m (csel (apply_selection f (asel (O := RO d) t m))) a b c <-> t < tri_area m (a, b, c).
Proof.
  intros Hv Hs F. destruct (face_rot m a b c F) as [u [Hu Hr]]. rewrite (picked_rot m _ u a b c Hv Hu Hr), (selected_iff t m f Hv Hs u Hu), (area_rot m u a b c Hr).
  reflexivity.
Qed.
Lemma picked_same3 t m1 m2 f1 f2 r r' : valid m1 -> valid m2 -> same_surface r r' m1 m2 ->
  sel_empty (asel (O := RO d) t m1) = false -> sel_empty (asel (O := RO d) t m2) = false -> forall a b c, is_face m1 a b c ->
  picked m1 (csel (apply_selection f1 (asel (O := RO d) t m1))) a b c <-> picked m2 (csel (apply_selection f2 (asel (O := RO d) t m2))) (r a) (r b) (r c).
Proof.
  intros V1 V2 HS S1 S2 a b c F. rewrite (picked_big t m1 f1 a b c V1 S1 F), (picked_big t m2 f2 _ _ _ V2 S2 (ss_faces _ _ _ _ HS a b c F)).
  rewrite (big_there m1 m2 r r' a b c V1 HS F). reflexivity.
Qed.
Lemma some_same3 t m1 m2 r r' : valid m1 -> valid m2 -> same_surface r r' m1 m2 -> sel_empty (asel (O := RO d) t m1) = false -> sel_empty (asel (O := RO d) t m2) = false.
Proof.
  intros V1 V2 HS E. apply (area_pick t m1 V1) in E. destruct E as [[[a b] c] [Hu Hlt]]. assert (F : is_face m1 a b c) by (left; exact Hu).
  destruct (face_rot m2 _ _ _ (ss_faces _ _ _ _ HS a b c F)) as [u [Hu2 Hr]]. apply (area_pick t m2 V2). exists u. split; [exact Hu2|].
  rewrite (area_rot m2 u _ _ _ Hr), (big_there m1 m2 r r' a b c V1 HS F). exact Hlt.
Qed.
Lemma empty_same3 t m1 m2 r r' : valid m1 -> valid m2 -> same_surface r r' m1 m2 -> sel_empty (asel (O := RO d) t m1) = sel_empty (asel (O := RO d) t m2).
Proof.
  intros V1 V2 HS. pose proof (some_same3 t m1 m2 r r' V1 V2 HS) as H1. pose proof (some_same3 t m2 m1 r' r V2 V1 (same_sym _ _ _ _ HS)) as H2.
  destruct (sel_empty (asel (O := RO d) t m1)), (sel_empty (asel (O := RO d) t m2)); auto. symmetry; auto.
Qed.

(** The size a run of at most [n] rounds needs. *)
Definition room (n : nat) m : Prop := (2 * nV m + nF m * (3 ^ Z.of_nat (S n) - 1) < 2 ^ 65)%Z.

Lemma room_step t n m f : valid m -> dense m -> tris m <> [] -> room (S n) m -> ready3 (apply_selection f (asel (O := RO d) t m)) m /\
  exists f1 m1, (forall fuel, (S (length (tris m)) <= fuel)%nat -> update (CellF CSqrt3) fuel (apply_selection f (asel (O := RO d) t m)) m = Ok (f1, m1)) /\
    valid m1 /\ dense m1 /\ tris m1 <> [] /\ room n m1 /\ (forall id x, oget id (pts m) = Some x -> oget id (pts m1) = Some x).
Proof.
  intros Hv Hd Hne Hsz. unfold room in *.
  assert (P3 : (1 <= 3 ^ Z.of_nat n)%Z) by (pose proof (Z.pow_pos_nonneg 3 (Z.of_nat n)); lia).
  assert (PS : (3 ^ Z.of_nat (S (S n)) = 9 * 3 ^ Z.of_nat n)%Z).
  { replace (Z.of_nat (S (S n))) with (Z.of_nat n + 2)%Z by lia. rewrite Z.pow_add_r by lia. lia. }
  assert (PS1 : (3 ^ Z.of_nat (S n) = 3 * 3 ^ Z.of_nat n)%Z).
  { replace (Z.of_nat (S n)) with (Z.of_nat n + 1)%Z by lia. rewrite Z.pow_add_r by lia. lia. }
  assert (FN : (0 <= nF m)%Z) by (unfold nF; lia).
  assert (Hsz1 : (nV m + nF m < 2 ^ 64)%Z) by (rewrite PS in Hsz; nia).
  pose proof (area_ready3 t m f Hv Hsz1) as Hr. split; [exact Hr|].
  destruct (root3_completes _ m Hv Hd Hr) as [f1 [m1 [H1 RR]]]. exists f1, m1.
  destruct (rr_valid _ _ _ _ _ RR Hne) as [Hv1 Hd1]. pose proof (tris_out3 _ _ _ _ _ Hv RR Hne) as Hne1.
  assert (Kle : (Z.of_nat (ksel m (apply_selection f (asel (O := RO d) t m))) <= nF m)%Z).
  { rewrite <- (tris_len m) by exact Hv. unfold ksel. pose proof (visited_le m (csel (apply_selection f (asel (O := RO d) t m))) Hv).
    destruct Hr as [_ [Hr _]]. specialize (H Hr). lia. }
  split; [intros fuel Hf; apply H1; lia|]. split; [exact Hv1|]. split; [exact Hd1|]. split; [exact Hne1|]. split; [|apply (rr_old _ _ _ _ _ RR)].
  rewrite (rr_nV _ _ _ _ _ RR), (rr_nF _ _ _ _ _ RR). rewrite PS1. rewrite PS in Hsz.
  set (K := Z.of_nat (ksel m (apply_selection f (asel (O := RO d) t m)))) in *. assert (0 <= K)%Z by (unfold K; lia).
  set (X := (3 ^ Z.of_nat n)%Z) in *. nia.
Qed.

Lemma loop_once t m f f1 m1 n n1 n3 r : (forall fuel, (n1 <= fuel)%nat -> update (CellF CSqrt3) fuel (apply_selection f (asel (O := RO d) t m)) m = Ok (f1, m1)) ->
  sel_empty (asel (O := RO d) t m) = false -> cell_area_criterion (O := RO d) t n m1 (asel (O := RO d) t m) = Ok (asel (O := RO d) t m1) ->
  conditional_loop n3 (CellF CSqrt3) (cell_area_criterion (O := RO d) t) (asel (O := RO d) t m1) f1 m1 = Ok r ->
  conditional_loop (S (Nat.max n1 (Nat.max n n3))) (CellF CSqrt3) (cell_area_criterion (O := RO d) t) (asel (O := RO d) t m) f m = Ok r.
Proof.
  intros H1 Es H2 E3. cbn [conditional_loop]. rewrite Es. rewrite H1 by lia. cbn [rbind].
  rewrite (crit_more t m1 _ n) by (assumption || lia). cbn [rbind]. apply (loop_more t m1 f1 n3); [exact E3|lia].
Qed.

Lemma rounds3_same t q : 0 < t -> forall n m m' f f' p k B r r', valid m -> dense m -> tris m <> [] -> valid m' -> dense m' -> tris m' <> [] -> same_surface r r' m m' ->
  0 <= B -> n = (p * q + k)%nat ->
  stage t B k m -> B * B / 2 * (4 / 9) ^ S p <= t -> B * B / 2 <= t * 3 ^ q -> room n m -> room n m' ->
  exists fuel fuel' g g' out out' s s', conditional_loop fuel (CellF CSqrt3) (cell_area_criterion (O := RO d) t) (asel (O := RO d) t m) f m = Ok (g, out) /\
    conditional_loop fuel' (CellF CSqrt3) (cell_area_criterion (O := RO d) t) (asel (O := RO d) t m') f' m' = Ok (g', out') /\
    same_surface s s' out out' /\ (forall x, oget x (pts m) <> None -> s x = r x).
Proof.
  intros Ht. induction n as [n IH] using (well_founded_induction Wf_nat.lt_wf). intros m m' f f' p k B r r' Hv Hd Hne Hv' Hd' Hne' HS B0 En HQ Hp Hq Hsz Hsz'.
  pose proof (empty_same3 t m m' r r' Hv Hv' HS) as Ee.
  destruct (sel_empty (asel (O := RO d) t m)) eqn:Es.
  - exists 1%nat, 1%nat, f, f', m, m', r, r'. cbn [conditional_loop]. rewrite Es, <- Ee. auto.
  - destruct (some_selected t m Hv Es) as [u0 [Hu0 Hlt0]].
    assert (NF : exists p k B, 0 <= B /\ n = (p * q + S k)%nat /\ stage t B (S k) m /\ B * B / 2 * (4 / 9) ^ S p <= t /\ B * B / 2 <= t * 3 ^ q).
    { destruct k as [|k]; [|exists p, k, B; auto].
      assert (W : forall u, In u (tris m) -> t < tri_area m u -> within m (2 / 3 * B) u).
      { intros u Hu Hlt. destruct (HQ u Hu Hlt) as [_ [W|W]]; [exact W|]. cbn [pow] in W. lra. }
      assert (A : forall u, In u (tris m) -> t < tri_area m u -> tri_area m u <= 2 / 3 * B * (2 / 3 * B) / 2).
      { intros u Hu Hlt. apply within_area; [lra|]. apply W; assumption. }
      pose proof (A u0 Hu0 Hlt0) as A0.
      destruct p as [|p]; [exfalso; cbn [pow] in Hp; lra|].
      destruct q as [|q]; [exfalso; cbn [pow] in Hq; nra|].
      exists p, q, (2 / 3 * B). split; [lra|]. split; [lia|].
      assert (Hq2 : 2 / 3 * B * (2 / 3 * B) / 2 <= t * 3 ^ S q) by nra. split; [|split; [|exact Hq2]].
      - intros u Hu Hlt. split; [apply W; assumption|]. right. pose proof (A u Hu Hlt). lra.
      - cbn [pow] in Hp |- *. lra. }
    clear p k B B0 En HQ Hp Hq. destruct NF as [p [k [B [B0 [En [HQ [Hp Hq]]]]]]].
    destruct n as [|n]; [lia|].
    destruct (room_step t n m f Hv Hd Hne Hsz) as [Hr [f1 [m1 [H1 [Hv1 [Hd1 [Hne1 [Hs1 Ho1]]]]]]]].
    destruct (room_step t n m' f' Hv' Hd' Hne' Hsz') as [Hr' [f1' [m1' [H1' [Hv1' [Hd1' [Hne1' [Hs1' _]]]]]]]].
    pose proof (H1 _ (le_n _)) as E1. pose proof (H1' _ (le_n _)) as E1'.
    destruct (same_run3 m m' _ _ f1 f1' m1 m1' r r' _ _ Hv Hv' Hd Hd' Hr Hr' HS E1 E1' (picked_same3 t m m' f f' r r' Hv Hv' HS Es (eq_sym Ee))) as [s [s' [HS1 Hs]]].
    destruct (IH n ltac:(lia) m1 m1' f1 f1' p k B s s' Hv1 Hd1 Hne1 Hv1' Hd1' Hne1' HS1 B0 ltac:(lia)) as [n3 [n3' [g [g' [out [out' [z [z' [E3 [E3' [HZ Hz]]]]]]]]]]].
    { eapply round_stage; [exact Hv|exact Hd|exact Hr|exact Es|exact E1|exact B0|exact HQ]. }
    { exact Hp. } { exact Hq. } { exact Hs1. } { exact Hs1'. }
    destruct (area_crit_runs (O := RO d) t m1 (asel (O := RO d) t m) Hv1) as [n2 H2].
    destruct (area_crit_runs (O := RO d) t m1' (asel (O := RO d) t m') Hv1') as [n2' H2'].
    eexists _, _, g, g', out, out', z, z'. split; [exact (loop_once t m f f1 m1 n2 _ n3 _ H1 Es H2 E3)|].
    split; [exact (loop_once t m' f' f1' m1' n2' _ n3' _ H1' (eq_sym Ee) H2' E3')|]. split; [exact HZ|].
    intros x Px. rewrite Hz; [apply Hs; exact Px|]. destruct (oget x (pts m)) as [y|] eqn:Ex; [|congruence]. rewrite (Ho1 x y Ex). discriminate.
Qed.
End CS3.

Lemma C122_sqrt3_pf : forall (d : nat) (D : Type) (maxarea M : R) (p q : nat) old1 old2 f1 f2 (inp1 inp2 : mesh (RO d) D) r r',
  valid inp1 -> valid inp2 -> dense inp1 -> dense inp2 -> tris inp1 <> [] -> tris inp2 <> [] -> same_surface r r' inp1 inp2 -> 0 < maxarea ->
  (forall u a b, In u (tris inp1) -> In (a, b) (tdirs u) -> seg_length inp1 a b <= M) ->
  M * M / 2 <= maxarea * (9 / 4) ^ p -> M * M / 2 <= maxarea * 3 ^ q ->
  (nV inp1 + 2 * nF inp1 * 3 ^ Z.of_nat (p * q) < 2 ^ 64)%Z -> (nV inp2 + 2 * nF inp2 * 3 ^ Z.of_nat (p * q) < 2 ^ 64)%Z ->
  exists f1' f2' out1 out2 s s',
    completes (fun fuel => conditional_update fuel (CellF CSqrt3) (Some (cell_area_criterion (O := RO d) maxarea)) old1 f1 inp1) (Ok (f1', out1)) /\
    completes (fun fuel => conditional_update fuel (CellF CSqrt3) (Some (cell_area_criterion (O := RO d) maxarea)) old2 f2 inp2) (Ok (f2', out2)) /\
    same_surface s s' out1 out2 /\ (forall x, oget x (pts inp1) <> None -> s x = r x).
Proof.
  intros d D t M p q old1 old2 f1 f2 inp1 inp2 r r' Hv Hv' Hd Hd' Hne Hne' HS Ht HM Hp Hq Hsz Hsz'.
  assert (M0 : 0 <= M).
  { destruct (tris inp1) as [|[[a b] c] T]; [congruence|]. apply Rle_trans with (seg_length inp1 a b); [apply sqrt_pos|].
    apply (HM (a, b, c)); cbn; auto. }
  assert (CP : forall inp : mesh (RO d) D, valid inp -> dense inp -> tris inp <> [] -> (nV inp + 2 * nF inp * 3 ^ Z.of_nat (p * q) < 2 ^ 64)%Z ->
     valid (copy_geometry inp) /\ dense (copy_geometry inp) /\ tris (copy_geometry inp) <> [] /\ room (p * q) (copy_geometry inp) /\
     pts (copy_geometry inp) = pts inp /\ tris (copy_geometry inp) = tris inp).
  { intros inp Wv Wd Wn Ws. destruct (copy_shape inp Wv) as [Hpt [Htr Hjo]]. assert (Wv0 : valid (copy_geometry inp)) by (apply copy_valid; assumption).
    split; [exact Wv0|]. split; [unfold dense; rewrite Hpt; exact Wd|]. split; [rewrite Htr; exact Wn|]. split; [|auto].
    assert (NV : (nV (copy_geometry inp) = nV inp)%Z) by (unfold nV; rewrite Hpt; reflexivity).
    assert (NF : (nF (copy_geometry inp) = nF inp)%Z) by (rewrite <- (tris_len _ Wv0), <- (tris_len inp Wv), Htr; reflexivity).
    unfold room. rewrite NV, NF. replace (Z.of_nat (S (p * q))) with (Z.of_nat (p * q) + 1)%Z by lia. rewrite Z.pow_add_r by lia.
    assert (FN : (0 <= nF inp)%Z) by (unfold nF; lia).
    assert (P3 : (1 <= 3 ^ Z.of_nat (p * q))%Z) by (pose proof (Z.pow_pos_nonneg 3 (Z.of_nat (p * q))); lia).
    set (X := (3 ^ Z.of_nat (p * q))%Z) in *. change (2 ^ 65)%Z with (2 * 2 ^ 64)%Z. nia. }
  destruct (CP inp1 Hv Hd Hne Hsz) as [Hv0 [Hd0 [Hne0 [Hs0 [Hpt Htr]]]]]. destruct (CP inp2 Hv' Hd' Hne' Hsz') as [Hv0' [Hd0' [Hne0' [Hs0' [Hpt' Htr']]]]].
  assert (HS0 : same_surface r r' (copy_geometry inp1) (copy_geometry inp2)).
  { constructor; unfold is_face; rewrite ?Hpt, ?Hpt', ?Htr, ?Htr'; [apply (ss_pts _ _ _ _ HS)|apply (ss_pts' _ _ _ _ HS)|apply (ss_faces _ _ _ _ HS)|apply (ss_faces' _ _ _ _ HS)]. }
  assert (HW : forall u, In u (tris (copy_geometry inp1)) -> within (copy_geometry inp1) M u).
  { intros u Hu a b Hab. rewrite Htr in Hu. rewrite (same_shape_dot inp1 (copy_geometry inp1) Hpt). apply seg_le; [exact M0|]. eapply HM; eauto. }
  assert (HA : forall u, In u (tris (copy_geometry inp1)) -> tri_area (copy_geometry inp1) u <= M * M / 2) by (intros u Hu; apply within_area; [exact M0|apply HW; exact Hu]).
  assert (HM2 : M * M / 2 * (4 / 9) ^ p <= t).
  { assert (X : (9 / 4) ^ p * (4 / 9) ^ p = 1) by (rewrite <- Rpow_mult_distr; replace (9 / 4 * (4 / 9)) with 1 by field; apply pow1).
    assert (0 < (4 / 9) ^ p) by (apply pow_lt; lra). nra. }
  assert (GO : exists fuel fuel' g g' out out' s s', conditional_loop fuel (CellF CSqrt3) (cell_area_criterion (O := RO d) t) (asel (O := RO d) t (copy_geometry inp1)) f1 (copy_geometry inp1) = Ok (g, out) /\
    conditional_loop fuel' (CellF CSqrt3) (cell_area_criterion (O := RO d) t) (asel (O := RO d) t (copy_geometry inp2)) f2 (copy_geometry inp2) = Ok (g', out') /\
    same_surface s s' out out' /\ (forall x, oget x (pts (copy_geometry inp1)) <> None -> s x = r x)).
  { destruct p as [|p].
    - assert (Es : sel_empty (asel (O := RO d) t (copy_geometry inp1)) = true).
      { destruct (sel_empty (asel (O := RO d) t (copy_geometry inp1))) eqn:Es; [reflexivity|]. destruct (some_selected t _ Hv0 Es) as [u [Hu Hlt]].
        pose proof (HA u Hu). cbn [pow] in HM2. lra. }
      pose proof (empty_same3 t _ _ r r' Hv0 Hv0' HS0) as Ee. exists 1%nat, 1%nat, f1, f2, (copy_geometry inp1), (copy_geometry inp2), r, r'.
      cbn [conditional_loop]. rewrite <- Ee, Es. auto.
    - apply (rounds3_same t q Ht (S p * q) (copy_geometry inp1) (copy_geometry inp2) f1 f2 p q M r r'); auto; [lia|].
      intros u Hu Hlt. split; [apply HW; exact Hu|]. right. pose proof (HA u Hu). lra. }
  destruct GO as [n1 [n2 [g [g' [out [out' [s [s' [E [E' [H1 H2]]]]]]]]]]]. exists g, g', out, out', s, s'.
  assert (CO : forall inp old f n g out, valid (copy_geometry inp) ->
    conditional_loop n (CellF CSqrt3) (cell_area_criterion (O := RO d) t) (asel (O := RO d) t (copy_geometry inp)) f (copy_geometry inp) = Ok (g, out) ->
    completes (fun fuel => conditional_update fuel (CellF CSqrt3) (Some (cell_area_criterion (O := RO d) (D := D) t)) old f inp) (Ok (g, out))).
  { intros inp old f n g0 out0 Wv EE. destruct (area_crit_runs (O := RO d) t (copy_geometry inp) old Wv) as [k2 K2].
    apply (cond_completes (O := RO d)) with (fuel := Nat.max n k2); [apply area_crit_mono| |discriminate].
    unfold conditional_update. rewrite (crit_more t (copy_geometry inp) _ k2) by (assumption || lia). cbn [rbind]. apply (loop_more t (copy_geometry inp) f n); [exact EE|lia]. }
  split; [exact (CO _ _ _ _ _ _ Hv0 E)|]. split; [exact (CO _ _ _ _ _ _ Hv0' E')|]. split; [exact H1|]. rewrite Hpt in H2. exact H2.
Qed.
