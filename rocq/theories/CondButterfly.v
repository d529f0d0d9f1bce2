(** * CondButterfly: the conditional filter around the Butterfly edge filter ends on closed meshes (C110). *)
From Coq Require Import Reals Lra Psatz Permutation.
From Verif Require Import Base Mesh Filters Drivers Spec SpecSub SpecGeo SpecDrive Lists AddFace SplitTri Split Points Valid Run Update Struct Count Face PtsAny Geo GeoProps Conn Drive Area Cond FaceProps DriveProps Gaps Conv CondLoop.
Open Scope R_scope.

(** ** Lengths around the point that the butterfly rule makes of an edge *)
Definition at_wings (e v w a b c1 c2 c3 c4 : nat -> R) : Prop :=
  forall i, e i = 1 / 2 * (v i + w i) + 1 / 8 * (a i + b i) - 1 / 16 * (c1 i + c2 i + c3 i + c4 i).

Lemma rsum5 {A} (f g h j k : A -> R) x y z t u l :
  rsum (fun i => x * f i + y * g i + z * h i + t * j i + u * k i) l = x * rsum f l + y * rsum g l + z * rsum h l + t * rsum j l + u * rsum k l.
Proof. rewrite !rsum_plus, !rsum_scal. reflexivity. Qed.

Lemma wing_half d e v w a b c1 c2 c3 c4 M : at_wings e v w a b c1 c2 c3 c4 ->
  D2 d w v <= M -> D2 d c1 a <= M -> D2 d c2 a <= M -> D2 d c3 b <= M -> D2 d c4 b <= M -> D2 d e v <= 9 / 16 * M.
Proof.
  intros H H0 H1 H2 H3 H4.
  apply Rle_trans with (3 / 8 * D2 d w v + 3 / 64 * D2 d c1 a + 3 / 64 * D2 d c2 a + 3 / 64 * D2 d c3 b + 3 / 64 * D2 d c4 b); [|lra].
  unfold D2, sq. rewrite <- rsum5. apply rsum_le. intros i _. rewrite (H i).
  set (x := w i - v i). set (p := c1 i - a i). set (q := c2 i - a i). set (r := c3 i - b i). set (s := c4 i - b i).
  match goal with |- ?l * _ <= _ => replace l with (1 / 2 * x - 1 / 16 * p - 1 / 16 * q - 1 / 16 * r - 1 / 16 * s) by (unfold x, p, q, r, s; field) end.
  pose proof (Rle_0_sqr (x + p)). pose proof (Rle_0_sqr (x + q)). pose proof (Rle_0_sqr (x + r)). pose proof (Rle_0_sqr (x + s)).
  pose proof (Rle_0_sqr (p - q)). pose proof (Rle_0_sqr (p - r)). pose proof (Rle_0_sqr (p - s)).
  pose proof (Rle_0_sqr (q - r)). pose proof (Rle_0_sqr (q - s)). pose proof (Rle_0_sqr (r - s)). unfold Rsqr in *. lra.
Qed.

(** From the point to the third corner [a]: the median and four edges. *)
Lemma wing_median d e v w a b c1 c2 c3 c4 M : at_wings e v w a b c1 c2 c3 c4 ->
  D2 d c1 w <= M -> D2 d c2 v <= M -> D2 d c3 b <= M -> D2 d c4 b <= M ->
  D2 d e a <= 539 / 512 * (1 / 2 * D2 d v a + 1 / 2 * D2 d w a - 1 / 4 * D2 d v w) + 11 / 48 * M.
Proof.
  intros H H1 H2 H3 H4.
  apply Rle_trans with (539 / 512 * (1 / 2 * D2 d v a + 1 / 2 * D2 d w a + - (1 / 4) * D2 d v w) + 11 / 192 * (1 * D2 d c1 w + 1 * D2 d c2 v + 1 * D2 d c3 b + 1 * D2 d c4 b + 0 * D2 d v w)); [|lra].
  unfold D2, sq. rewrite <- rsum3, <- rsum5, <- !rsum_scal, <- rsum_plus. apply rsum_le. intros i _. rewrite (H i).
  set (x := v i - a i). set (y := w i - a i). set (p := c1 i - w i). set (q := c2 i - v i). set (r := c3 i - b i). set (s := c4 i - b i).
  match goal with |- ?l * _ <= _ => replace l with (7 / 16 * (x + y) - 1 / 16 * (p + q + r + s)) by (unfold x, y, p, q, r, s; field) end.
  replace (v i - w i) with (x - y) by (unfold x, y; ring).
  set (z := x + y). set (u := p + q + r + s).
  apply Rle_trans with (539 / 2048 * (z * z) + 11 / 768 * (u * u)).
  - pose proof (Rle_0_sqr (7 * 3 * z + 8 * u)) as S. unfold Rsqr in S. lra.
  - assert (u * u <= 4 * (p * p + q * q + r * r + s * s)).
    { unfold u. pose proof (Rle_0_sqr (p - q)). pose proof (Rle_0_sqr (p - r)). pose proof (Rle_0_sqr (p - s)).
      pose proof (Rle_0_sqr (q - r)). pose proof (Rle_0_sqr (q - s)). pose proof (Rle_0_sqr (r - s)). unfold Rsqr in *. lra. }
    unfold z. lra.
Qed.

(** ** Children of one triangle, for any symmetric measure of pairs *)
Section PIECES.
Variables (dd : N -> N -> R) (mid : N -> N -> option N) (a b c : N) (L S B : R).
Hypothesis dd_sym : forall x y, dd x y = dd y x.
Hypothesis Hkeep : forall v w z, rot a b c v w z -> mid v w = None -> dd v w <= L.
Hypothesis Hhalf : forall v w z e, rot a b c v w z -> mid v w = Some e -> dd e v <= S /\ dd e w <= S.
Hypothesis Hinner : forall v w z e0 e1, rot a b c v w z -> mid v w = Some e0 -> mid w z = Some e1 -> dd e0 e1 <= S.
Hypothesis Hmed : forall v w z e, rot a b c v w z -> mid v w = Some e -> mid w z = None \/ mid z v = None -> dd e z <= B.

Ltac pieces Hu :=
  let R0 := fresh in let R1 := fresh in let R2 := fresh in
  assert (R0 : rot a b c a b c) by (left; reflexivity); pose proof (rot1 _ _ _ _ _ _ R0) as R1; pose proof (rot1 _ _ _ _ _ _ R1) as R2;
  pose proof (Hkeep _ _ _ R0); pose proof (Hkeep _ _ _ R1); pose proof (Hkeep _ _ _ R2);
  pose proof (Hhalf a b c); pose proof (Hhalf b c a); pose proof (Hhalf c a b);
  pose proof (Hinner a b c); pose proof (Hinner b c a); pose proof (Hinner c a b);
  pose proof (Hmed a b c); pose proof (Hmed b c a); pose proof (Hmed c a b);
  destruct (mid a b) as [e0|]; destruct (mid b c) as [e1|]; destruct (mid c a) as [e2|];
  unfold split_triangle, split_one, split_two_01, split_two_02, split_two_12, split_three in Hu; in_cases Hu;
  repeat match goal with
  | H : forall e, rot a b c ?v ?w ?z -> None = Some e -> _ |- _ => clear H
  | H : forall e0 e1, rot a b c ?v ?w ?z -> None = Some _ -> _ |- _ => clear H
  | H : forall e0 e1, rot a b c ?v ?w ?z -> _ -> None = Some _ -> _ |- _ => clear H
  | H : forall e, rot a b c ?v ?w ?z -> Some ?x = Some e -> _ |- _ => specialize (H x ltac:(assumption) eq_refl)
  | H : forall e0 e1, rot a b c ?v ?w ?z -> Some ?x = Some e0 -> Some ?y = Some e1 -> _ |- _ => specialize (H x y ltac:(assumption) eq_refl eq_refl)
  | H : Some _ = None -> _ |- _ => clear H
  | H : None = None -> _ |- _ => specialize (H eq_refl)
  | H : (Some _ = None \/ Some _ = None) -> _ |- _ => clear H
  | H : (None = None \/ _) -> _ |- _ => specialize (H (or_introl eq_refl))
  | H : (_ \/ None = None) -> _ |- _ => specialize (H (or_intror eq_refl))
  | H : _ /\ _ |- _ => destruct H
  end.

Lemma piece_edge u x y : L <= B -> S <= B -> In u (split_triangle a b c (mid a b) (mid b c) (mid c a)) -> In (x, y) (tdirs u) -> dd x y <= B.
Proof.
  intros HL HS Hu Hxy. pieces Hu; subst u; cbn [tdirs] in Hxy; in_cases Hxy; injection Hxy as <- <-;
    first [lra | rewrite dd_sym; lra].
Qed.
Lemma piece_tri x y z : S <= L -> (exists u, In u (split_triangle a b c (mid a b) (mid b c) (mid c a)) /\ (u = (x, y, z) \/ u = (y, z, x) \/ u = (z, x, y))) ->
  L < dd x y -> (dd y z <= L /\ dd z x <= S) \/ (dd y z <= S /\ dd z x <= L).
Proof.
  intros HS [u [Hu Hr]] Hl. pieces Hu; subst u; destruct Hr as [Hr|[Hr|Hr]]; injection Hr as <- <- <-;
    first [ exfalso; first [lra | rewrite dd_sym in Hl; lra]
          | left; split; first [lra | rewrite dd_sym; lra]
          | right; split; first [lra | rewrite dd_sym; lra] ].
Qed.
End PIECES.

Section BUTTERFLYEDGE.
Context {d : nat} {D : Type}.
Notation mesh := (mesh (RO d) D).
Implicit Types m inp out : mesh.
Notation P m x := (fun i => crd m i x).

(** ** What a round does on a closed mesh *)
Lemma stencil_run f inp fuel f' out mid Ls a b (m : N) c e w1 w2 w3 w4 i : valid inp -> ready (EdgeF EButterfly) f inp ->
  face_result (EdgeF EButterfly) f inp f' out mid Ls -> update (EdgeF EButterfly) fuel f inp = Ok (f', out) -> mid a b = Some m ->
  is_face inp a b c -> is_face inp b a e -> is_face inp c b w1 -> is_face inp a c w2 -> is_face inp b e w3 -> is_face inp e a w4 ->
  crd out i m = 1 / 2 * (crd inp i a + crd inp i b) + 1 / 8 * (crd inp i c + crd inp i e)
                - 1 / 16 * (crd inp i w1 + crd inp i w2 + crd inp i w3 + crd inp i w4).
Proof.
  intros Hv Hr FR E Hm Hc Hf H1 H2 H3 H4.
  destruct (new_crd _ f inp fuel f' out mid Ls a b m i Hv Hr FR E Hm) as [x [y [He [_ [_ ->]]]]].
  cbn [new_mask]. unfold butterfly_mask. destruct He as [He|He]; cbn [fst snd] in He; inv He.
  - rewrite (face_lnext inp a b c Hv Hc), (face_rprev inp a b e Hv Hf), (face_lprev inp a b c Hv Hc), (face_rnext inp a b e Hv Hf).
    cbn [obind].
    rewrite (face_rprev inp b c w1 Hv H1), (face_lnext inp b e w3 Hv H3), (face_rprev inp c a w2 Hv H2), (face_lnext inp e a w4 Hv H4).
    unfold weighted. cbn. lra.
  - rewrite (face_lnext inp b a e Hv Hf), (face_rprev inp b a c Hv Hc), (face_lprev inp b a e Hv Hf), (face_rnext inp b a c Hv Hc).
    cbn [obind].
    rewrite (face_rprev inp a e w4 Hv H4), (face_lnext inp a c w2 Hv H2), (face_rprev inp e b w3 Hv H3), (face_lnext inp c b w1 Hv H1).
    unfold weighted. cbn. lra.
Qed.

Lemma butterfly_edge_facts f inp fuel f' out M : valid inp -> dense inp -> closed inp -> ready (EdgeF EButterfly) f inp ->
  update (EdgeF EButterfly) fuel f inp = Ok (f', out) ->
  (forall x y, joined inp x y -> D2 d (P inp y) (P inp x) <= M) ->
  exists mid Ls, face_result (EdgeF EButterfly) f inp f' out mid Ls /\
    (forall i x, oget x (pts inp) <> None -> crd out i x = crd inp i x) /\
    (forall v w z e, is_face inp v w z -> mid v w = Some e ->
       D2 d (P out e) (P inp v) <= 9 / 16 * M /\ D2 d (P out e) (P inp w) <= 9 / 16 * M /\
       D2 d (P out e) (P inp z) <= 539 / 512 * (1 / 2 * D2 d (P inp v) (P inp z) + 1 / 2 * D2 d (P inp w) (P inp z) - 1 / 4 * D2 d (P inp v) (P inp w)) + 11 / 48 * M) /\
    (forall v w z e0 e1, is_face inp v w z -> mid v w = Some e0 -> mid w z = Some e1 -> D2 d (P out e0) (P out e1) <= 9 / 16 * M).
Proof.
  intros Hv Hd Hcl Hr E HM. destruct (face_run _ f inp fuel f' out Hv Hd Hr E) as [mid [Ls FR]]. exists mid, Ls.
  assert (HM' : forall x y, joined inp x y -> D2 d (P inp x) (P inp y) <= M) by (intros; rewrite D2_sym; auto).
  split; [exact FR|]. split; [|split].
  - intros i x Hx. destruct (oget x (pts inp)) as [p|] eqn:Ex; [|exfalso; apply Hx; reflexivity].
    assert (Eo : oget x (pts out) = Some p) by (eapply fr_old; eauto; discriminate).
    unfold crd. rewrite (ptof_get inp x p Ex), (ptof_get out x p Eo). reflexivity.
  - intros v w z e F He.
    destruct (closed_faces inp v w Hcl (or_introl (is_face_dir _ _ _ _ F))) as [_ [b [_ Fb]]].
    destruct (closed_wing inp _ _ _ Hcl F) as [w1 G1]. destruct (closed_wing' inp _ _ _ Hcl F) as [w2 G2].
    destruct (closed_wing' inp _ _ _ Hcl Fb) as [w3 G3]. destruct (closed_wing inp _ _ _ Hcl Fb) as [w4 G4].
    destruct (face_j inp Hv _ _ _ F) as [J1 [J2 [J3 [J4 [J5 J6]]]]]. destruct (face_j inp Hv _ _ _ G1) as [A1 [A2 [A3 [A4 [A5 A6]]]]].
    destruct (face_j inp Hv _ _ _ G2) as [B1 [B2 [B3 [B4 [B5 B6]]]]]. destruct (face_j inp Hv _ _ _ G3) as [C1 [C2 [C3 [C4 [C5 C6]]]]].
    destruct (face_j inp Hv _ _ _ G4) as [E1 [E2 [E3 [E4 [E5 E6]]]]].
    assert (W : at_wings (P out e) (P inp v) (P inp w) (P inp z) (P inp b) (P inp w1) (P inp w2) (P inp w3) (P inp w4)).
    { intros i. apply (stencil_run f inp fuel f' out mid Ls v w e z b w1 w2 w3 w4 i Hv Hr FR E He F Fb G1 G2 G3 G4). }
    assert (W' : at_wings (P out e) (P inp w) (P inp v) (P inp z) (P inp b) (P inp w1) (P inp w2) (P inp w3) (P inp w4)).
    { intros i. rewrite (W i). ring. }
    split; [|split].
    + eapply wing_half; [exact W|auto..].
    + eapply wing_half; [exact W'|auto..].
    + eapply wing_median; [exact W|auto..].
  - intros v0 w0 x0 e1 e2 F H1 H2.
    (* the shared corner is w0; orient the face so that it comes first *)
    assert (Fw : is_face inp w0 x0 v0) by (unfold is_face in *; tauto).
    destruct (closed_faces inp w0 x0 Hcl (or_introl (is_face_dir _ _ _ _ Fw))) as [_ [b [_ Fb]]].
    destruct (closed_wing' inp _ _ _ Hcl Fw) as [c Fc]. destruct (closed_wing inp _ _ _ Hcl Fw) as [y Fy].
    destruct (closed_wing' inp _ _ _ Hcl Fb) as [w3 G3]. destruct (closed_wing inp _ _ _ Hcl Fb) as [w4 G4].
    destruct (closed_wing' inp _ _ _ Hcl Fc) as [u3 K3]. destruct (closed_wing inp _ _ _ Hcl Fc) as [u4 K4].
    destruct (face_j inp Hv _ _ _ Fw) as [_ [_ [Jwx _]]]. destruct (face_j inp Hv _ _ _ Fb) as [_ [_ [Jvb [Jbv _]]]]. destruct (face_j inp Hv _ _ _ Fc) as [_ [_ [_ [_ [Jcv Jvc]]]]].
    destruct (face_j inp Hv _ _ _ G3) as [_ [_ [M3 _]]]. destruct (face_j inp Hv _ _ _ G4) as [_ [_ [_ [_ [_ M4]]]]].
    destruct (face_j inp Hv _ _ _ K3) as [_ [_ [P3 _]]]. destruct (face_j inp Hv _ _ _ K4) as [_ [_ [_ [_ [_ P4]]]]].
    apply Rle_trans with (9 / 32 * D2 d (P inp x0) (P inp v0) + 3 / 64 * (1 * D2 d (P inp b) (P inp w0) + 1 * D2 d (P inp c) (P inp w0) + 1 * D2 d (P inp b) (P inp w3) + 1 * D2 d (P inp b) (P inp w4) + 1 * D2 d (P inp c) (P inp u3)) + 3 / 64 * D2 d (P inp c) (P inp u4)).
    + unfold D2, sq. rewrite <- rsum5, <- rsum3. apply rsum_le. intros i _.
      assert (Q1 : crd out i e2 = 1 / 2 * (crd inp i w0 + crd inp i x0) + 1 / 8 * (crd inp i v0 + crd inp i b)
                - 1 / 16 * (crd inp i y + crd inp i c + crd inp i w3 + crd inp i w4)).
      { apply (stencil_run f inp fuel f' out mid Ls w0 x0 e2 v0 b y c w3 w4 i Hv Hr FR E H2 Fw Fb Fy Fc G3 G4). }
      assert (Q2 : crd out i e1 = 1 / 2 * (crd inp i v0 + crd inp i w0) + 1 / 8 * (crd inp i x0 + crd inp i c)
                - 1 / 16 * (crd inp i b + crd inp i y + crd inp i u3 + crd inp i u4)).
      { apply (stencil_run f inp fuel f' out mid Ls v0 w0 e1 x0 c b y u3 u4 i Hv Hr FR E H1 F Fc Fb Fy K3 K4). }
      rewrite Q1, Q2.
      set (p := crd inp i x0 - crd inp i v0). set (q := crd inp i b - crd inp i w0). set (r := crd inp i c - crd inp i w0).
      set (s := crd inp i b - crd inp i w3). set (t := crd inp i b - crd inp i w4). set (u := crd inp i c - crd inp i u3). set (o := crd inp i c - crd inp i u4).
      match goal with |- ?l * _ <= _ => replace l with (- (3 / 8) * p - 1 / 16 * q + 1 / 16 * r - 1 / 16 * s - 1 / 16 * t + 1 / 16 * u + 1 / 16 * o)
        by (unfold p, q, r, s, t, u, o; field) end.
      set (g := q - r + s + t - u - o).
      assert (g * g <= 6 * (q * q + r * r + s * s + t * t + u * u + o * o)).
      { unfold g. pose proof (Rle_0_sqr (q + r)). pose proof (Rle_0_sqr (q - s)). pose proof (Rle_0_sqr (q - t)). pose proof (Rle_0_sqr (q + u)). pose proof (Rle_0_sqr (q + o)).
        pose proof (Rle_0_sqr (r + s)). pose proof (Rle_0_sqr (r + t)). pose proof (Rle_0_sqr (r - u)). pose proof (Rle_0_sqr (r - o)).
        pose proof (Rle_0_sqr (s - t)). pose proof (Rle_0_sqr (s + u)). pose proof (Rle_0_sqr (s + o)).
        pose proof (Rle_0_sqr (t + u)). pose proof (Rle_0_sqr (t + o)). pose proof (Rle_0_sqr (u - o)). unfold Rsqr in *. lra. }
      replace (- (3 / 8) * p - 1 / 16 * q + 1 / 16 * r - 1 / 16 * s - 1 / 16 * t + 1 / 16 * u + 1 / 16 * o) with (- (3 / 8 * p + 1 / 16 * g)) by (unfold g; field).
      pose proof (Rle_0_sqr (6 * p - g)) as S. unfold Rsqr in S. lra.
    + assert (forall x y, joined inp x y -> D2 d (P inp x) (P inp y) <= M) by exact HM'.
      assert (D2 d (P inp x0) (P inp v0) <= M) by auto. assert (D2 d (P inp b) (P inp w0) <= M) by auto. assert (D2 d (P inp c) (P inp w0) <= M) by auto.
      assert (D2 d (P inp b) (P inp w3) <= M) by auto. assert (D2 d (P inp b) (P inp w4) <= M) by auto. assert (D2 d (P inp c) (P inp u3) <= M) by auto. assert (D2 d (P inp c) (P inp u4) <= M) by auto. lra.
Qed.

(** One round: [B] bounds the new lengths if it bounds the new medians; a long edge of the result lies between
    triangles that have one short side and one side within the threshold. *)
Lemma butterfly_round L f m n f1 m1 M B : 0 < L -> cond_start (EdgeF EButterfly) m -> closed m -> sel_empty (esl_ (O := RO d) L m) = false ->
  update (EdgeF EButterfly) n (apply_selection f (esl_ (O := RO d) L m)) m = Ok (f1, m1) ->
  (forall x y, joined m x y -> dot m x y y <= M) -> L * L <= B -> 9 / 16 * M <= B ->
  (forall v w z, is_face m v w z -> L * L < D2 d (P m v) (P m w) -> D2 d (P m w) (P m z) <= L * L \/ D2 d (P m v) (P m z) <= L * L ->
     539 / 512 * (1 / 2 * D2 d (P m v) (P m z) + 1 / 2 * D2 d (P m w) (P m z) - 1 / 4 * D2 d (P m v) (P m w)) + 11 / 48 * M <= B) ->
  (forall x y, joined m1 x y -> dot m1 x y y <= B) /\
  (9 / 16 * M <= L * L -> forall x y z, is_face m1 x y z -> L * L < D2 d (P m1 x) (P m1 y) ->
     (D2 d (P m1 y) (P m1 z) <= L * L /\ D2 d (P m1 z) (P m1 x) <= 9 / 16 * M) \/
     (D2 d (P m1 y) (P m1 z) <= 9 / 16 * M /\ D2 d (P m1 z) (P m1 x) <= L * L)).
Proof.
  intros Ht H0 Hcl Hs E HQ HLB HSB HB. pose proof (edge_ready (O := RO d) EButterfly L m f H0 Hs) as Hr.
  destruct H0 as [Hm [Hdm [Hnem _]]].
  destruct (step_ok _ _ _ _ _ _ Hm Hdm Hnem Hr E) as [Hm1 [_ [_ [Hw1 _]]]].
  destruct (butterfly_edge_facts _ m n f1 m1 M Hm Hdm Hcl Hr E HQ) as [mid [Ls [FR [Hold [Hmid Hin2]]]]].
  pose proof (fr_sub _ _ _ _ _ _ _ FR) as Hsd. set (dd := fun x y => D2 d (P m1 x) (P m1 y)).
  assert (Hdd : forall x y, dd x y = dd y x) by (intros; apply D2_sym).
  assert (Hpar : forall u, In u (tris m1) -> exists a b c, In u (split_triangle a b c (mid a b) (mid b c) (mid c a)) /\
    (forall v w z, rot a b c v w z -> mid v w = None -> dd v w <= L * L) /\
    (forall v w z e, rot a b c v w z -> mid v w = Some e -> dd e v <= 9 / 16 * M /\ dd e w <= 9 / 16 * M) /\
    (forall v w z e0 e1, rot a b c v w z -> mid v w = Some e0 -> mid w z = Some e1 -> dd e0 e1 <= 9 / 16 * M) /\
    (forall v w z e, rot a b c v w z -> mid v w = Some e -> mid w z = None \/ mid z v = None -> dd e z <= B)).
  { intros u Hu. destruct (out_tri_parent _ _ _ _ _ _ _ u Hm FR Hu) as [a [b [c [Hin Hu']]]]. exists a, b, c. split; [exact Hu'|].
    assert (F : forall v w z, rot a b c v w z -> is_face m v w z) by (intros v w z H; unfold rot, is_face in *; intuition congruence).
    assert (O : forall v w z, rot a b c v w z -> forall i, crd m1 i v = crd m i v).
    { intros v w z H i. apply Hold. apply (v_verts _ Hm _ _ Hin). destruct H as [X|[X|X]]; inv X; cbn; auto. }
    assert (Oz : forall v w z p, rot a b c v w z -> D2 d p (P m1 v) = D2 d p (P m v)).
    { intros v w z p H. unfold D2, sq. apply rsum_ext. intros i _. rewrite (O v w z H i). reflexivity. }
    assert (Hsp : forall v w z, rot a b c v w z -> (mid v w <> None <-> L * L < D2 d (P m v) (P m w))).
    { intros v w z H. rewrite (sd_dom _ _ _ _ _ Hsd v w). cbn [to_split apply_selection esl_ esel set_edges_to_be_subdivided].
      assert (J : joined m v w) by (apply (v_face_edges _ Hm); eapply is_face_dir; apply F; exact H).
      rewrite (long_edges_R L m v w Hm), D2_sym, <- dot_D2. assert (C : L < seg_length m v w <-> L * L < dot m v w w).
      { pose proof (seg_le m v w L ltac:(lra)) as [X1 X2].
        split; intros Y; [destruct (Rlt_dec (L * L) (dot m v w w)) as [Z|Z]|destruct (Rlt_dec L (seg_length m v w)) as [Z|Z]]; try exact Z; exfalso;
          [assert (dot m v w w <= L * L) as W by lra; apply X2 in W|assert (seg_length m v w <= L) as W by lra; apply X1 in W]; lra. }
      rewrite <- C. split.
      - intros [[Hnil Hj]|[_ H2]]; [|exact H2]. exfalso. cbn in Hs. rewrite Hnil in Hs. discriminate.
      - intros H2. right. split; [exact J|exact H2]. }
    assert (Hkp : forall v w z, rot a b c v w z -> mid v w = None -> D2 d (P m v) (P m w) <= L * L).
    { intros v w z H X. apply Rnot_lt_le. intros Y. apply (Hsp v w z H) in Y. apply Y. exact X. }
    split; [|split; [|split]].
    - intros v w z H X. unfold dd. rewrite (Oz w z v _ (rot1 _ _ _ _ _ _ H)), D2_sym, (Oz v w z _ H), D2_sym. eapply Hkp; eauto.
    - intros v w z e H X. unfold dd. rewrite (Oz v w z _ H), (Oz w z v _ (rot1 _ _ _ _ _ _ H)).
      destruct (Hmid v w z e (F _ _ _ H) X) as [X1 [X2 _]]. split; assumption.
    - intros v w z e0 e1 H X Y. unfold dd. eapply Hin2; eauto.
    - intros v w z e H X Y. pose proof (rot1 _ _ _ _ _ _ H) as Hr1. pose proof (rot1 _ _ _ _ _ _ Hr1) as Hr2. unfold dd. rewrite (Oz z v w _ Hr2).
      destruct (Hmid v w z e (F _ _ _ H) X) as [_ [_ X3]]. eapply Rle_trans; [exact X3|]. apply HB; [apply F; exact H|apply (Hsp v w z H); congruence|].
      destruct Y as [Y|Y]; [left; exact (Hkp _ _ _ Hr1 Y)|right; rewrite D2_sym; exact (Hkp _ _ _ Hr2 Y)]. }
  split.
  - assert (Hgo : forall x y, In (x, y) (dirs (tris m1)) -> dd x y <= B).
    { intros x y Hd1. apply dirs_tri in Hd1. destruct Hd1 as [u [Hu Hd1]]. destruct (Hpar u Hu) as [a [b [c [Hu' [K1 [K2 [K3 K4]]]]]]].
      exact (piece_edge dd mid a b c (L * L) (9 / 16 * M) B Hdd K1 K2 K3 K4 u x y HLB HSB Hu' Hd1). }
    intros x y Hxy. rewrite dot_D2. destruct (Hw1 x y Hxy) as [H|H]; [rewrite D2_sym|]; apply (Hgo _ _ H).
  - intros HSL x y z Hf Hl.
    assert (X : exists u, In u (tris m1) /\ (u = (x, y, z) \/ u = (y, z, x) \/ u = (z, x, y))) by (destruct Hf as [X|[X|X]]; eauto 6).
    destruct X as [u [Hu Hrot]]. destruct (Hpar u Hu) as [a [b [c [Hu' [K1 [K2 [K3 K4]]]]]]].
    exact (piece_tri dd mid a b c (L * L) (9 / 16 * M) B Hdd K1 K2 K3 K4 x y z HSL (ex_intro _ u (conj Hu' Hrot)) Hl).
Qed.

(** How far from the end: 0, no long edge; 1, long edges within 9/8 of the threshold and beside short ones; 2, within 9/8. *)
Definition near_end (L : R) (n : nat) m : Prop :=
  match n with
  | O => forall x y, joined m x y -> dot m x y y <= L * L
  | S O => (forall x y, joined m x y -> dot m x y y <= 81 / 64 * (L * L)) /\
      (forall x y z, is_face m x y z -> L * L < D2 d (P m x) (P m y) ->
        (D2 d (P m y) (P m z) <= L * L /\ D2 d (P m z) (P m x) <= 729 / 1024 * (L * L)) \/
        (D2 d (P m y) (P m z) <= 729 / 1024 * (L * L) /\ D2 d (P m z) (P m x) <= L * L))
  | S (S k) => forall x y, joined m x y -> dot m x y y <= 81 / 64 * (L * L) * (50 / 49) ^ k
  end.

Lemma near_step L n f m fuel f1 m1 : 0 < L -> cond_start (EdgeF EButterfly) m -> closed m -> sel_empty (esl_ (O := RO d) L m) = false ->
  update (EdgeF EButterfly) fuel (apply_selection f (esl_ (O := RO d) L m)) m = Ok (f1, m1) -> near_end L (S n) m -> near_end L n m1.
Proof.
  intros Ht H0 Hcl Hs E HQ. assert (L0 : 0 < L * L) by nra.
  assert (HJ : forall M v w z, (forall x y, joined m x y -> dot m x y y <= M) -> is_face m v w z -> D2 d (P m v) (P m z) <= M /\ D2 d (P m w) (P m z) <= M).
  { intros M v w z HM F. destruct (face_j m (proj1 H0) _ _ _ F) as [_ [_ [_ [J4 [J5 _]]]]].
    pose proof (HM _ _ J4) as X1. pose proof (HM _ _ J5) as X2. rewrite dot_D2 in X1, X2. split; assumption. }
  destruct n as [|[|k]].
  - destruct HQ as [HQ HT]. cbn [near_end]. eapply (butterfly_round L f m fuel f1 m1 (81 / 64 * (L * L)) (L * L)); eauto; try lra.
    intros v w z F Hl _. destruct (HT v w z F Hl) as [[X1 X2]|[X1 X2]]; rewrite D2_sym in X2; lra.
  - assert (HQ' : forall x y, joined m x y -> dot m x y y <= 81 / 64 * (L * L)).
    { intros x y H. specialize (HQ x y H). cbn [pow] in HQ. lra. }
    destruct (butterfly_round L f m fuel f1 m1 (81 / 64 * (L * L)) (81 / 64 * (L * L)) Ht H0 Hcl Hs E HQ') as [R1 R2]; try lra.
    { intros v w z F Hl Hk. destruct (HJ _ v w z HQ' F) as [X1 X2]. destruct Hk as [Hk|Hk]; lra. }
    split; [exact R1|]. intros x y z F Hl. destruct (R2 ltac:(lra) x y z F Hl) as [[X1 X2]|[X1 X2]]; [left|right]; split; lra.
  - assert (H1k : 1 <= (50 / 49) ^ k) by (apply pow_R1_Rle; lra).
    set (U := 81 / 64 * (L * L) * (50 / 49) ^ k). assert (HU : 81 / 64 * (L * L) <= U) by (unfold U; nra).
    assert (EU : 81 / 64 * (L * L) * (50 / 49) ^ S k = 50 / 49 * U) by (unfold U; cbn [pow]; ring).
    cbn [near_end] in HQ |- *. rewrite EU in HQ. fold U.
    eapply (butterfly_round L f m fuel f1 m1 (50 / 49 * U) U); eauto; try lra.
    intros v w z F Hl Hk. destruct (HJ _ v w z HQ F) as [X1 X2]. destruct Hk as [Hk|Hk]; lra.
Qed.

Lemma butterfly_terminates_sec (L : R) old f inp : valid inp -> dense inp -> tris inp <> [] -> closed inp -> 0 < L ->
  exists f' out, completes (fun fuel => conditional_update fuel (EdgeF EButterfly) (Some (edge_length_criterion (O := RO d) L)) old f inp) (Ok (f', out)).
Proof.
  intros Hv Hd Hne Hcl Ht.
  assert (HG : cond_start (EdgeF EButterfly) (copy_geometry inp)).
  { apply copy_start. apply start_of; auto; unfold splits_faces, is_loop; try congruence; intros [H|H]; discriminate. }
  assert (HC : closed (copy_geometry inp)).
  { destruct (copy_shape inp Hv) as [_ [X _]]. unfold closed in *. rewrite X. exact Hcl. }
  set (q := 81 / 64 * (L * L)). assert (Hq : 0 < q) by (unfold q; nra).
  destruct (unbounded_pow ((50 / 49) ^ 40) q (map (fun o => match o with Some (a, b) => dot (copy_geometry inp) a b b | None => 0%R end)
             (map snd (edges_of (copy_geometry inp)))) ltac:(cbn [pow]; lra) Hq) as [n Hn].
  destruct (rounds_terminate (O := RO d) (D := D) (EdgeF EButterfly) (edge_length_criterion (O := RO d) L) (esl_ (O := RO d) L)
              (fun m => cond_start (EdgeF EButterfly) m /\ closed m))
    with (Q := near_end L) (n := S (S (40 * n))) (m := copy_geometry inp) (f := f)
    as [fuel [f' [out E]]].
  - apply edge_crit_mono.
  - intros m o [[Hm _] _]. exists 0%nat. apply edge_crit_runs. exact Hm.
  - intros n0 m o x E. apply edge_crit_inv in E. apply E.
  - intros m f0 [H0 _] He. apply edge_ready; assumption.
  - intros m [[H1 [H2 _]] _]. auto.
  - intros m f0 n0 f1 m1 [H0 H0c] He E. pose proof (edge_ready (O := RO d) EButterfly L m f0 H0 He) as Hr.
    split; [eapply start_step; [exact H0|exact Hr|exact E]|].
    destruct H0 as [Hm [Hdm _]]. destruct (C06_all_pf _ _ _ _ _ _ _ _ Hm Hdm Hr E) as [_ [_ [_ [_ [Hc _]]]]]. apply Hc. exact H0c.
  - intros m [[Hm _] _] HQ. cbn. apply is_nil_true. apply (same_shape_edges m m L Hm); [|exact Hm|].
    { unfold same_shape. repeat split; auto. }
    intros a b Hj. apply seg_le; [lra|]. exact (HQ a b Hj).
  - intros k m f0 n0 f1 m1 [H0 H0c] HQ Hs E. eapply near_step; eauto.
  - split; [exact HG|exact HC].
  - intros a b Hj. pose proof (proj1 HG) as Hvc. destruct (v_ecells _ Hvc) as [es [He [_ [_ [H2 _]]]]].
    destruct (H2 a b Hj) as [id [e [Hin Hu]]].
    assert (Hi : In (Some e) (map snd (edges_of (copy_geometry inp)))).
    { apply in_map_iff. exists (id, Some e). unfold edges_of. rewrite He. auto. }
    apply (in_map (fun o => match o with Some (a, b) => dot (copy_geometry inp) a b b | None => 0%R end)) in Hi. apply Hn in Hi.
    rewrite pow_mult. fold q. destruct Hu as [-> | ->]; cbn [fst snd] in Hi; [exact Hi|]. rewrite dot_swap. exact Hi.
  - exists f', out. apply (cond_completes _ _ _ _ _ fuel); [apply edge_crit_mono| |discriminate].
    unfold conditional_update. rewrite (edge_crit_runs (O := RO d) L (copy_geometry inp) old fuel (proj1 HG)). cbn [rbind]. exact E.
Qed.
End BUTTERFLYEDGE.

Lemma C110_pf : forall (d : nat) (D : Type) (maxlen : R) old f (inp : mesh (RO d) D),
  valid inp -> dense inp -> tris inp <> [] -> closed inp -> (0 < maxlen)%R ->
  exists f' out, completes (fun fuel => conditional_update fuel (EdgeF EButterfly)
      (Some (edge_length_criterion (O := RO d) maxlen)) old f inp) (Ok (f', out)) /\
    (forall a b, joined out a b -> (seg_length out a b <= maxlen)%R) /\ valid out.
Proof.
  intros d D t old f inp Hv Hd Hne Hc Ht. destruct (butterfly_terminates_sec t old f inp Hv Hd Hne Hc Ht) as [f' [out H]].
  exists f', out. split; [exact H|]. destruct H as [_ [n Hn]]. specialize (Hn n (le_n n)). cbv beta in Hn.
  destruct (C34_length_valid_pf d D EButterfly t old f inp n f' out Hv Hd Hne ltac:(discriminate) Hn)
    as [H1 [_ [H2 _]]]. split; [exact H2|exact H1].
Qed.
