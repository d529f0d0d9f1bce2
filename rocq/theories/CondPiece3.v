(** * CondPiece3: the same for the sqrt(3) filter (C123). *)
From Coq Require Import Reals Lra Psatz.
From Verif Require Import Base Mesh Filters Drivers Spec SpecSub SpecGeo SpecRenum SpecDrive SpecRoot3 SpecConv SpecSame Lists AddFace SplitTri Split Points Valid Run Update Struct Count Face Copy PtsAny
  Geo GeoProps Conn Renum Drive Area Cond FaceProps DriveProps Gaps Never Root3 Root3Run Root3Main Root3Props CondRoot3 Conv.
From Verif Require Same.
From Verif Require Import CondSame CondSame3 Piece PieceRun CondPiece.
Open Scope R_scope.

Section CP3.
Context {d : nat} {D : Type}.
Notation mesh := (mesh (RO d) D).
Implicit Types m : mesh.

Lemma area_turned m t a b c : rot t a b c -> tri_area m t = tri_area m (a, b, c).
Proof. intros [-> | [-> | -> ]]; [reflexivity|symmetry; apply area_turn|apply area_turn]. Qed.
Lemma big_in m1 m2 r a b c : valid m1 -> piece r m1 m2 -> is_face m1 a b c -> tri_area m2 (r a, r b, r c) = tri_area m1 (a, b, c).
Proof. intros V1 HS F. destruct (Same.face_pts m1 V1 _ _ _ F) as [Pa [Pb Pc]]. apply (area_part m1 m2 r); assumption. Qed.
Lemma picked_in t m1 m2 f1 f2 r : valid m1 -> valid m2 -> piece r m1 m2 ->
  sel_empty (asel (O := RO d) t m1) = false -> sel_empty (asel (O := RO d) t m2) = false -> forall a b c, is_face m1 a b c ->
  picked m1 (csel (apply_selection f1 (asel (O := RO d) t m1))) a b c <-> picked m2 (csel (apply_selection f2 (asel (O := RO d) t m2))) (r a) (r b) (r c).
Proof.
  intros V1 V2 HS S1 S2 a b c F. rewrite (picked_big t m1 f1 a b c V1 S1 F), (picked_big t m2 f2 _ _ _ V2 S2 (pc_faces _ _ _ HS a b c F)).
  rewrite (big_in m1 m2 r a b c V1 HS F). reflexivity.
Qed.
Lemma some_in t m1 m2 r : valid m1 -> valid m2 -> piece r m1 m2 -> sel_empty (asel (O := RO d) t m1) = false -> sel_empty (asel (O := RO d) t m2) = false.
Proof.
  intros V1 V2 HS E. apply (area_pick t m1 V1) in E. destruct E as [[[a b] c] [Hu Hlt]]. assert (F : is_face m1 a b c) by (left; exact Hu).
  destruct (face_rot m2 _ _ _ (pc_faces _ _ _ HS a b c F)) as [u [Hu2 Hr]]. apply (area_pick t m2 V2). exists u. split; [exact Hu2|].
  rewrite (area_turned m2 u _ _ _ Hr), (big_in m1 m2 r a b c V1 HS F). exact Hlt.
Qed.

(** A round that subdivides no triangle of the piece leaves it as it is. *)
Lemma idle3 m1 m2 f2 g2 out2 r n2 : valid m1 -> valid m2 -> dense m2 -> ready3 f2 m2 -> piece r m1 m2 ->
  update (CellF CSqrt3) n2 f2 m2 = Ok (g2, out2) ->
  (forall a b c t, In (a, b, c) (tris m1) -> In t (tris m2) -> rot t (r a) (r b) (r c) -> ~ selected m2 (csel f2) t) -> piece r m1 out2.
Proof.
  intros V1 V2 D2 Y2 HS E2 HN. pose proof (root3_run f2 m2 n2 g2 out2 V2 D2 Y2 E2) as R2. pose proof (rr_sub _ _ _ _ _ R2) as SD.
  assert (N0 : forall a b c t, In (a, b, c) (tris m1) -> In t (tris m2) -> rot t (r a) (r b) (r c) -> cenm m2 f2 t = None).
  { intros a b c t Ht H2 Hr. destruct (cenm m2 f2 t) as [g|] eqn:E; [|reflexivity]. exfalso. apply (HN a b c t Ht H2 Hr). apply (r3_dom _ _ _ _ SD _ H2). congruence. }
  assert (NW : forall x t, oget x (pts m1) <> None -> In t (tris m2) -> cenm m2 f2 t = Some (r x) -> False).
  { intros x t Px Ht Hc. apply (ss_has m1 m2 r HS x Px). apply (r3_new _ _ _ _ SD). eauto. }
  assert (TN : forall x t g, oget x (pts m1) <> None -> In t (tris m2) -> In (r x) (tverts t) -> cenm m2 f2 t = Some g -> False).
  { intros x t g Px Ht Hv Hc. destruct (touch m1 m2 r HS x t Px Ht Hv) as [a [b [c [H1 Hr]]]]. rewrite (N0 a b c t H1 Ht Hr) in Hc. discriminate. }
  assert (IN : forall x t, oget x (pts m1) <> None -> In t (tris out2) -> In (r x) (tverts t) -> In t (tris m2)).
  { intros x t Px Ht Hv. apply (r3_faces _ _ _ _ SD) in Ht. destruct Ht as [t2 [H2 Hw]].
    destruct Hw as [[_ ->]|[[g [u [v [Hc [Hd [_ ->]]]]]]|[g [h [u [v [Hc [Hd [Hce ->]]]]]]]]]; [exact H2| |]; exfalso;
      destruct (dir_vert _ _ _ Hd) as [Du Dv]; cbn in Hv.
    - destruct Hv as [E|[E|[E|[]]]]; [rewrite E in Du|rewrite E in Dv|rewrite E in Hc]; eauto.
    - destruct Hv as [E|[E|[E|[]]]]; [rewrite E in Hc| |rewrite E in Dv]; eauto.
      destruct Hce as [t3 [H3 [_ Hc3]]]. rewrite E in Hc3. eauto. }
  constructor.
  - intros x p Hp. apply (rr_old _ _ _ _ _ R2). apply (pc_pts _ _ _ HS). exact Hp.
  - apply (pc_inj _ _ _ HS).
  - intros a b c F. destruct (face_rot m2 _ _ _ (pc_faces _ _ _ HS a b c F)) as [u [Hu Hr]].
    assert (Hn : cenm m2 f2 u = None).
    { destruct (cenm m2 f2 u) as [g|] eqn:E; [|reflexivity]. exfalso. destruct (Same.face_pts m1 V1 _ _ _ F) as [Pa _].
      apply (TN a u g Pa Hu); [|exact E]. destruct Hr as [->|[->| ->]]; cbn; auto. }
    assert (X : In u (tris out2)) by (apply (r3_faces _ _ _ _ SD); exists u; split; [exact Hu|left; split; [exact Hn|reflexivity]]).
    destruct Hr as [->|[->| ->]]; unfold is_face; auto.
  - intros x v w Px H. apply (pc_whole _ _ _ HS x v w Px).
    destruct H as [H|[H|H]]; apply (IN x) in H; unfold is_face; cbn; auto.
Qed.

Lemma rounds3_piece t q : 0 < t -> forall n m m' f f' p k B r, valid m -> dense m -> tris m <> [] -> valid m' -> dense m' -> tris m' <> [] -> piece r m m' ->
  0 <= B -> n = (p * q + k)%nat ->
  stage t B k m' -> B * B / 2 * (4 / 9) ^ S p <= t -> B * B / 2 <= t * 3 ^ q -> room n m -> room n m' ->
  exists fuel fuel' g g' out out' s, conditional_loop fuel (CellF CSqrt3) (cell_area_criterion (O := RO d) t) (asel (O := RO d) t m) f m = Ok (g, out) /\
    conditional_loop fuel' (CellF CSqrt3) (cell_area_criterion (O := RO d) t) (asel (O := RO d) t m') f' m' = Ok (g', out') /\
    piece s out out' /\ (forall x, oget x (pts m) <> None -> s x = r x).
Proof.
  intros Ht. induction n as [n IH] using (well_founded_induction Wf_nat.lt_wf). intros m m' f f' p k B r Hv Hd Hne Hv' Hd' Hne' HS B0 En HQ Hp Hq Hsz Hsz'.
  pose proof (some_in t m m' r Hv Hv' HS) as Ee.
  destruct (sel_empty (asel (O := RO d) t m')) eqn:Es'.
  - destruct (sel_empty (asel (O := RO d) t m)) eqn:Es; [|specialize (Ee eq_refl); discriminate].
    exists 1%nat, 1%nat, f, f', m, m', r. cbn [conditional_loop]. rewrite Es, Es'. auto.
  - destruct (some_selected t m' Hv' Es') as [u0 [Hu0 Hlt0]].
    assert (NF : exists p k B, 0 <= B /\ n = (p * q + S k)%nat /\ stage t B (S k) m' /\ B * B / 2 * (4 / 9) ^ S p <= t /\ B * B / 2 <= t * 3 ^ q).
    { destruct k as [|k]; [|exists p, k, B; auto].
      assert (W : forall u, In u (tris m') -> t < tri_area m' u -> within m' (2 / 3 * B) u).
      { intros u Hu Hlt. destruct (HQ u Hu Hlt) as [_ [W|W]]; [exact W|]. cbn [pow] in W. lra. }
      assert (A : forall u, In u (tris m') -> t < tri_area m' u -> tri_area m' u <= 2 / 3 * B * (2 / 3 * B) / 2).
      { intros u Hu Hlt. apply within_area; [lra|]. apply W; assumption. }
      pose proof (A u0 Hu0 Hlt0) as A0.
      destruct p as [|p]; [exfalso; cbn [pow] in Hp; lra|].
      destruct q as [|q]; [exfalso; cbn [pow] in Hq; nra|].
      exists p, q, (2 / 3 * B). split; [lra|]. split; [lia|].
      assert (Hq2 : 2 / 3 * B * (2 / 3 * B) / 2 <= t * 3 ^ S q) by nra. split; [|split; [|exact Hq2]].
      - intros u Hu Hlt. split; [apply W; assumption|]. right. pose proof (A u Hu Hlt). lra.
      - cbn [pow] in Hp |- *. lra. }
    clear p k B B0 En HQ Hp Hq. destruct NF as [p [k [B [B0 [En [HQ [Hp Hq]]]]]]].
    destruct n as [|n]; [lia|].
    destruct (room_step t n m' f' Hv' Hd' Hne' Hsz') as [Hr' [f1' [m1' [H1' [Hv1' [Hd1' [Hne1' [Hs1' _]]]]]]]].
    pose proof (H1' _ (le_n _)) as E1'.
    assert (HQ1 : stage t B k m1') by (eapply round_stage; [exact Hv'|exact Hd'|exact Hr'|exact Es'|exact E1'|exact B0|exact HQ]).
    destruct (area_crit_runs (O := RO d) t m1' (asel (O := RO d) t m') Hv1') as [n2' H2'].
    destruct (room_step t n m f Hv Hd Hne Hsz) as [Hr [f1 [m1 [H1 [Hv1 [Hd1 [Hne1 [Hs1 Ho1]]]]]]]].
    destruct (sel_empty (asel (O := RO d) t m)) eqn:Es.
    + assert (HS1 : piece r m m1').
      { apply (idle3 m m' _ f1' m1' r _ Hv Hv' Hd' Hr' HS E1'). intros a b c u Hab Hu Hr0 Hs.
        apply (selected_iff t m' f' Hv' Es' u Hu) in Hs. rewrite (area_turned m' u _ _ _ Hr0) in Hs.
        assert (F : is_face m a b c) by (left; exact Hab). rewrite (big_in m m' r a b c Hv HS F) in Hs.
        assert (Y : sel_empty (asel (O := RO d) t m) = false) by (apply area_pick; [exact Hv|eauto]). congruence. }
      assert (Hsm : room n m).
      { unfold room in *. assert (FN : (0 <= nF m)%Z) by (unfold nF; lia).
        assert (P3 : (3 ^ Z.of_nat (S n) <= 3 ^ Z.of_nat (S (S n)))%Z) by (apply Z.pow_le_mono_r; lia). nia. }
      destruct (IH n ltac:(lia) m m1' f f1' p k B r Hv Hd Hne Hv1' Hd1' Hne1' HS1 B0 ltac:(lia) HQ1 Hp Hq Hsm Hs1') as [n3 [n3' [g [g' [out [out' [z [E3 [E3' [HZ Hz]]]]]]]]]].
      eexists n3, _, g, g', out, out', z. split; [exact E3|].
      split; [exact (loop_once t m' f' f1' m1' n2' _ n3' _ H1' Es' H2' E3')|]. auto.
    + pose proof (H1 _ (le_n _)) as E1.
      destruct (piece_run3 m m' _ _ f1 f1' m1 m1' r _ _ Hv Hv' Hd Hd' Hne Hr Hr' HS E1 E1' (picked_in t m m' f f' r Hv Hv' HS Es Es')) as [s [HS1 Hs]].
      destruct (IH n ltac:(lia) m1 m1' f1 f1' p k B s Hv1 Hd1 Hne1 Hv1' Hd1' Hne1' HS1 B0 ltac:(lia) HQ1 Hp Hq Hs1 Hs1') as [n3 [n3' [g [g' [out [out' [z [E3 [E3' [HZ Hz]]]]]]]]]].
      destruct (area_crit_runs (O := RO d) t m1 (asel (O := RO d) t m) Hv1) as [n2 H2].
      eexists _, _, g, g', out, out', z. split; [exact (loop_once t m f f1 m1 n2 _ n3 _ H1 Es H2 E3)|].
      split; [exact (loop_once t m' f' f1' m1' n2' _ n3' _ H1' Es' H2' E3')|]. split; [exact HZ|].
      intros x Px. rewrite Hz; [apply Hs; exact Px|]. destruct (oget x (pts m)) as [y|] eqn:Ex; [|congruence]. rewrite (Ho1 x y Ex). discriminate.
Qed.
End CP3.

Lemma C123_sqrt3_pf : forall (d : nat) (D : Type) (maxarea M : R) (p q : nat) old1 old2 f1 f2 (inp1 inp2 : mesh (RO d) D) r,
  valid inp1 -> valid inp2 -> dense inp1 -> dense inp2 -> tris inp1 <> [] -> piece r inp1 inp2 -> 0 < maxarea ->
  (forall u a b, In u (tris inp2) -> In (a, b) (tdirs u) -> seg_length inp2 a b <= M) ->
  M * M / 2 <= maxarea * (9 / 4) ^ p -> M * M / 2 <= maxarea * 3 ^ q ->
  (nV inp1 + 2 * nF inp1 * 3 ^ Z.of_nat (p * q) < 2 ^ 64)%Z -> (nV inp2 + 2 * nF inp2 * 3 ^ Z.of_nat (p * q) < 2 ^ 64)%Z ->
  exists f1' f2' out1 out2 s,
    completes (fun fuel => conditional_update fuel (CellF CSqrt3) (Some (cell_area_criterion (O := RO d) maxarea)) old1 f1 inp1) (Ok (f1', out1)) /\
    completes (fun fuel => conditional_update fuel (CellF CSqrt3) (Some (cell_area_criterion (O := RO d) maxarea)) old2 f2 inp2) (Ok (f2', out2)) /\
    piece s out1 out2 /\ (forall x, oget x (pts inp1) <> None -> s x = r x).
Proof.
  intros d D t M p q old1 old2 f1 f2 inp1 inp2 r Hv Hv' Hd Hd' Hne HS Ht HM Hp Hq Hsz Hsz'.
  assert (Hne' : tris inp2 <> []).
  { destruct (tris inp1) as [|[[a b] c] l] eqn:T; [congruence|]. assert (X : is_face inp1 a b c) by (left; rewrite T; left; reflexivity).
    apply (pc_faces _ _ _ HS) in X. intros T2. unfold is_face in X. rewrite T2 in X. destruct X as [[]|[[]|[]]]. }
  assert (M0 : 0 <= M).
  { destruct (tris inp2) as [|[[a b] c] T]; [congruence|]. apply Rle_trans with (seg_length inp2 a b); [apply sqrt_pos|].
    apply (HM (a, b, c)); cbn; auto. }
  assert (CP : forall inp : mesh (RO d) D, valid inp -> dense inp -> tris inp <> [] -> (nV inp + 2 * nF inp * 3 ^ Z.of_nat (p * q) < 2 ^ 64)%Z ->
     valid (copy_geometry inp) /\ dense (copy_geometry inp) /\ tris (copy_geometry inp) <> [] /\ room (p * q) (copy_geometry inp) /\
     pts (copy_geometry inp) = pts inp /\ tris (copy_geometry inp) = tris inp).
  { intros inp Wv Wd Wn Ws. destruct (copy_shape inp Wv) as [Hpt [Htr Hjo]]. assert (Wv0 : valid (copy_geometry inp)) by (apply copy_valid; assumption).
    split; [exact Wv0|]. split; [unfold dense; rewrite Hpt; exact Wd|]. split; [rewrite Htr; exact Wn|]. split; [|auto].
    assert (NV : (nV (copy_geometry inp) = nV inp)%Z) by (unfold nV; rewrite Hpt; reflexivity).
    assert (NF : (nF (copy_geometry inp) = nF inp)%Z) by (rewrite <- (tris_len _ Wv0), <- (tris_len inp Wv), Htr; reflexivity).
    unfold room. rewrite NV, NF. replace (Z.of_nat (S (p * q))) with (Z.of_nat (p * q) + 1)%Z by lia. rewrite Z.pow_add_r by lia.
    assert (FN : (0 <= nF inp)%Z) by (unfold nF; lia).
    assert (P3 : (1 <= 3 ^ Z.of_nat (p * q))%Z) by (pose proof (Z.pow_pos_nonneg 3 (Z.of_nat (p * q))); lia).
    set (X := (3 ^ Z.of_nat (p * q))%Z) in *. change (2 ^ 65)%Z with (2 * 2 ^ 64)%Z. nia. }
  destruct (CP inp1 Hv Hd Hne Hsz) as [Hv0 [Hd0 [Hne0 [Hs0 [Hpt Htr]]]]]. destruct (CP inp2 Hv' Hd' Hne' Hsz') as [Hv0' [Hd0' [Hne0' [Hs0' [Hpt' Htr']]]]].
  assert (HS0 : piece r (copy_geometry inp1) (copy_geometry inp2)).
  { constructor; unfold is_face; rewrite ?Hpt, ?Hpt', ?Htr, ?Htr'; [apply (pc_pts _ _ _ HS)|apply (pc_inj _ _ _ HS)|apply (pc_faces _ _ _ HS)|apply (pc_whole _ _ _ HS)]. }
  assert (HW : forall u, In u (tris (copy_geometry inp2)) -> within (copy_geometry inp2) M u).
  { intros u Hu a b Hab. rewrite Htr' in Hu. rewrite (same_shape_dot inp2 (copy_geometry inp2) Hpt'). apply seg_le; [exact M0|]. eapply HM; eauto. }
  assert (HA : forall u, In u (tris (copy_geometry inp2)) -> tri_area (copy_geometry inp2) u <= M * M / 2) by (intros u Hu; apply within_area; [exact M0|apply HW; exact Hu]).
  assert (HM2 : M * M / 2 * (4 / 9) ^ p <= t).
  { assert (X : (9 / 4) ^ p * (4 / 9) ^ p = 1) by (rewrite <- Rpow_mult_distr; replace (9 / 4 * (4 / 9)) with 1 by field; apply pow1).
    assert (0 < (4 / 9) ^ p) by (apply pow_lt; lra). nra. }
  assert (GO : exists fuel fuel' g g' out out' s, conditional_loop fuel (CellF CSqrt3) (cell_area_criterion (O := RO d) t) (asel (O := RO d) t (copy_geometry inp1)) f1 (copy_geometry inp1) = Ok (g, out) /\
    conditional_loop fuel' (CellF CSqrt3) (cell_area_criterion (O := RO d) t) (asel (O := RO d) t (copy_geometry inp2)) f2 (copy_geometry inp2) = Ok (g', out') /\
    piece s out out' /\ (forall x, oget x (pts (copy_geometry inp1)) <> None -> s x = r x)).
  { destruct p as [|p].
    - assert (Es : sel_empty (asel (O := RO d) t (copy_geometry inp2)) = true).
      { destruct (sel_empty (asel (O := RO d) t (copy_geometry inp2))) eqn:Es; [reflexivity|]. destruct (some_selected t _ Hv0' Es) as [u [Hu Hlt]].
        pose proof (HA u Hu). cbn [pow] in HM2. lra. }
      assert (Es1 : sel_empty (asel (O := RO d) t (copy_geometry inp1)) = true).
      { destruct (sel_empty (asel (O := RO d) t (copy_geometry inp1))) eqn:Es1; [reflexivity|]. rewrite (some_in t _ _ r Hv0 Hv0' HS0 Es1) in Es. discriminate. }
      exists 1%nat, 1%nat, f1, f2, (copy_geometry inp1), (copy_geometry inp2), r.
      cbn [conditional_loop]. rewrite Es1, Es. auto.
    - apply (rounds3_piece t q Ht (S p * q) (copy_geometry inp1) (copy_geometry inp2) f1 f2 p q M r); auto; [lia|].
      intros u Hu Hlt. split; [apply HW; exact Hu|]. right. pose proof (HA u Hu). lra. }
  destruct GO as [n1 [n2 [g [g' [out [out' [s [E [E' [H1 H2]]]]]]]]]]. exists g, g', out, out', s.
  assert (CO : forall inp old f n g out, valid (copy_geometry inp) ->
    conditional_loop n (CellF CSqrt3) (cell_area_criterion (O := RO d) t) (asel (O := RO d) t (copy_geometry inp)) f (copy_geometry inp) = Ok (g, out) ->
    completes (fun fuel => conditional_update fuel (CellF CSqrt3) (Some (cell_area_criterion (O := RO d) (D := D) t)) old f inp) (Ok (g, out))).
  { intros inp old f n g0 out0 Wv EE. destruct (area_crit_runs (O := RO d) t (copy_geometry inp) old Wv) as [k2 K2].
    apply (cond_completes (O := RO d)) with (fuel := Nat.max n k2); [apply area_crit_mono| |discriminate].
    unfold conditional_update. rewrite (crit_more t (copy_geometry inp) _ k2) by (assumption || lia). cbn [rbind]. apply (loop_more t (copy_geometry inp) f n); [exact EE|lia]. }
  split; [exact (CO _ _ _ _ _ _ Hv0 E)|]. split; [exact (CO _ _ _ _ _ _ Hv0' E')|]. split; [exact H1|]. rewrite Hpt in H2. exact H2.
Qed.
