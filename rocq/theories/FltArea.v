(** * FltArea: the conditional Linear filter with the area criterion ends in floating point (C108). *)
From Coq Require Import Reals Lra Psatz.
From Flocq Require Import Core BinarySingleNaN.
From Verif Require Import Base Mesh Filters Drivers Spec SpecSub SpecGeo SpecFlt SpecDrive Lists Split SplitTri Valid Run Update Struct Face FaceProps Copy Geo GeoProps Drive DriveProps Area Cond Conv Flt FltRun FltBox FltLen FltTerm FltHeron.
Open Scope R_scope.

(** ** Areas of nearby triangles *)
Section REALAREA.
Context {d : nat} {D : Type}.
Notation mesh := (mesh (RO d) D).

Lemma area_sq (m : mesh) a b c :
  tri_area m (a, b, c) * tri_area m (a, b, c) = / 4 * (dot m a b b * dot m a c c - dot m a b c * dot m a b c).
Proof.
  unfold tri_area. assert (G : 0 <= dot m a b b * dot m a c c - dot m a b c ^ 2).
  { pose proof (cauchy (seq 0 d) (fun i => crd m i b - crd m i a) (fun i => crd m i c - crd m i a)) as C. unfold dot in *. cbn [pow]. rewrite Rmult_1_r. lra. }
  replace (1 / 2 * sqrt (dot m a b b * dot m a c c - dot m a b c ^ 2) * (1 / 2 * sqrt (dot m a b b * dot m a c c - dot m a b c ^ 2)))
    with (/ 4 * (sqrt (dot m a b b * dot m a c c - dot m a b c ^ 2) * sqrt (dot m a b b * dot m a c c - dot m a b c ^ 2))) by field.
  rewrite sqrt_sqrt by exact G. cbn [pow]. ring.
Qed.
Lemma heron_area (m : mesh) a b c : heron (sqrt (dot m b c c)) (sqrt (dot m a c c)) (sqrt (dot m b a a)) = tri_area m (a, b, c) * tri_area m (a, b, c).
Proof.
  rewrite area_sq.
  assert (E1 : sqrt (dot m b c c) * sqrt (dot m b c c) = dot m b c c) by (apply sqrt_sqrt; apply dot_nonneg).
  assert (E2 : sqrt (dot m a c c) * sqrt (dot m a c c) = dot m a c c) by (apply sqrt_sqrt; apply dot_nonneg).
  assert (E3 : sqrt (dot m b a a) * sqrt (dot m b a a) = dot m a b b) by (rewrite <- (dot_swap m b a); apply sqrt_sqrt; apply dot_nonneg).
  rewrite (dot_cos m a b c) in E1 at 3.
  set (x := sqrt (dot m b c c)) in *. set (y := sqrt (dot m a c c)) in *. set (z := sqrt (dot m b a a)) in *. rewrite <- E2, <- E3 in *.
  assert (Ed : dot m a b c = (z * z + y * y - x * x) / 2) by lra. rewrite Ed. unfold heron. field.
Qed.

Lemma rsum_near {A} (f g : A -> R) (l : list A) h : (forall x, In x l -> Rabs (f x - g x) <= h) -> Rabs (rsum f l - rsum g l) <= INR (length l) * h.
Proof.
  unfold rsum. induction l as [|x l IH]; intros H; [cbn; rewrite Rminus_diag_eq, Rabs_R0 by reflexivity; lra|]. cbn [fold_right length]. rewrite S_INR.
  assert (H1 := H x (or_introl eq_refl)). assert (H2 := IH (fun y Hy => H y (or_intror Hy))). apply Rabs_le_inv in H1. apply Rabs_le_inv in H2. apply Rabs_le. lra.
Qed.
Variables (m1 m2 : mesh) (M er : R).
Hypothesis M0 : 0 <= M.
Hypothesis E0 : 0 <= er.
Definition ok_id (x : N) : Prop := forall i, Rabs (crd m1 i x) <= M /\ Rabs (crd m1 i x - crd m2 i x) <= er.
Notation S4 := (4 * INR d * (M * M)).
Notation De := (INR d * (8 * M * er + 4 * (er * er))).
Lemma dot_near o a b : ok_id o -> ok_id a -> ok_id b -> Rabs (dot m1 o a b - dot m2 o a b) <= De /\ Rabs (dot m1 o a b) <= S4.
Proof.
  intros Ho Ha Hb. unfold dot. split.
  - replace (INR d) with (INR (length (seq 0 d))) by (rewrite seq_length; reflexivity). apply rsum_near. intros i _.
    destruct (Ho i) as [O1 O2]. destruct (Ha i) as [A1 A2]. destruct (Hb i) as [B1 B2].
    set (x := crd m1 i a - crd m1 i o). set (y := crd m1 i b - crd m1 i o).
    set (h := crd m2 i a - crd m2 i o - x). set (k := crd m2 i b - crd m2 i o - y).
    replace ((crd m2 i a - crd m2 i o) * (crd m2 i b - crd m2 i o)) with ((x + h) * (y + k)) by (unfold h, k; ring).
    apply Rabs_le_inv in O1, O2, A1, A2, B1, B2.
    assert (Hx : Rabs x <= 2 * M) by (apply Rabs_le; unfold x; lra). assert (Hy : Rabs y <= 2 * M) by (apply Rabs_le; unfold y; lra).
    assert (Hh : Rabs h <= 2 * er) by (apply Rabs_le; unfold h, x; lra). assert (Hk : Rabs k <= 2 * er) by (apply Rabs_le; unfold k, y; lra).
    replace (x * y - (x + h) * (y + k)) with (- (x * k + (h * y + h * k))) by ring. rewrite Rabs_Ropp.
    eapply Rle_trans; [apply Rabs_triang|]. eapply Rle_trans; [apply Rplus_le_compat_l; apply Rabs_triang|]. rewrite !Rabs_mult.
    pose proof (Rabs_pos x). pose proof (Rabs_pos y). pose proof (Rabs_pos h). pose proof (Rabs_pos k).
    assert (Rabs x * Rabs k <= 2 * M * (2 * er)) by (apply Rmult_le_compat; lra).
    assert (Rabs h * Rabs y <= 2 * er * (2 * M)) by (apply Rmult_le_compat; lra).
    assert (Rabs h * Rabs k <= 2 * er * (2 * er)) by (apply Rmult_le_compat; lra). lra.
  - replace (rsum (fun i => (crd m1 i a - crd m1 i o) * (crd m1 i b - crd m1 i o)) (seq 0 d)) with (rsum (fun i => (crd m1 i a - crd m1 i o) * (crd m1 i b - crd m1 i o)) (seq 0 d) - rsum (fun _ => 0) (seq 0 d)).
    2:{ assert (Z : rsum (fun _ : nat => 0) (seq 0 d) = 0) by (generalize (seq 0 d); intros l; unfold rsum; induction l; cbn; lra). rewrite Z. ring. }
    replace S4 with (INR (length (seq 0 d)) * (4 * (M * M))) by (rewrite seq_length; ring). apply rsum_near. intros i _.
    destruct (Ho i) as [O1 _]. destruct (Ha i) as [A1 _]. destruct (Hb i) as [B1 _]. apply Rabs_le_inv in O1, A1, B1. rewrite Rminus_0_r, Rabs_mult.
    replace (4 * (M * M)) with (2 * M * (2 * M)) by ring. apply Rmult_le_compat; try apply Rabs_pos; apply Rabs_le; lra.
Qed.
Lemma prod_near x y x' y' S Dl : Rabs (x - x') <= Dl -> Rabs (y - y') <= Dl -> Rabs x <= S -> Rabs y <= S -> Rabs (x * y - x' * y') <= 2 * S * Dl + Dl * Dl.
Proof.
  intros H1 H2 H3 H4. replace (x * y - x' * y') with ((x - x') * y + x * (y - y') + - ((x - x') * (y - y'))) by ring.
  eapply Rle_trans; [apply Rabs_triang|]. eapply Rle_trans; [apply Rplus_le_compat_r; apply Rabs_triang|]. rewrite Rabs_Ropp, !Rabs_mult.
  pose proof (Rabs_pos (x - x')). pose proof (Rabs_pos (y - y')). pose proof (Rabs_pos x). pose proof (Rabs_pos y).
  assert (Rabs (x - x') * Rabs y <= Dl * S) by (apply Rmult_le_compat; lra).
  assert (Rabs x * Rabs (y - y') <= S * Dl) by (apply Rmult_le_compat; lra).
  assert (Rabs (x - x') * Rabs (y - y') <= Dl * Dl) by (apply Rmult_le_compat; lra). lra.
Qed.
Lemma area_near a b c : ok_id a -> ok_id b -> ok_id c ->
  tri_area m1 (a, b, c) * tri_area m1 (a, b, c) <= tri_area m2 (a, b, c) * tri_area m2 (a, b, c) + S4 * De + De * De.
Proof.
  intros Ha Hb Hc. rewrite !area_sq. destruct (dot_near a b b Ha Hb Hb) as [X1 Y1]. destruct (dot_near a c c Ha Hc Hc) as [X2 Y2]. destruct (dot_near a b c Ha Hb Hc) as [X3 Y3].
  pose proof (prod_near _ _ _ _ _ _ X1 X2 Y1 Y2) as P1. pose proof (prod_near _ _ _ _ _ _ X3 X3 Y3 Y3) as P2.
  apply Rabs_le_inv in P1, P2. assert (0 <= De * De) by apply sqr_pos. lra.
Qed.
End REALAREA.

(** Children of a triangle that is split in one or two sides have at most half its area. *)
Lemma child_half {d D} (inp out : mesh (RO d) D) mid
  (Hold : forall i x, oget x (pts inp) <> None -> crd out i x = crd inp i x)
  (Hmid : forall a b e i, mid a b = Some e -> crd out i e = (crd inp i a + crd inp i b) / 2) a b c :
  oget a (pts inp) <> None -> oget b (pts inp) <> None -> oget c (pts inp) <> None ->
  forall u, In u (split_triangle a b c (mid a b) (mid b c) (mid c a)) ->
  (mid a b = None /\ mid b c = None /\ mid c a = None /\ u = (a, b, c)) \/
  exists w, tri_area out u = w * tri_area inp (a, b, c) /\ 0 <= w <= 1 / 2 /\ (all_three (mid a b) (mid b c) (mid c a) = true -> w = 1 / 4).
Proof.
  intros Ha Hb Hc u Hu. pose proof (child_areas inp out mid Hold Hmid a b c Ha Hb Hc) as CA.
  pose proof (in_map (tri_area out) _ _ Hu) as Hi. rewrite CA in Hi. apply in_map_iff in Hi. destruct Hi as [w [Hw Hi]]. clear CA.
  destruct (mid a b), (mid b c), (mid c a); cbn in Hi, Hu |- *; in_cases Hi;
    try (left; in_cases Hu; subst; repeat split; fail);
    right; exists w; (split; [symmetry; exact Hw|]); subst w; (split; [lra|]); (discriminate || reflexivity).
Qed.

Section TERMA.
Variables (prec emax : Z) (Hp : Prec_gt_0 prec) (Hm : Prec_lt_emax prec emax).
Hypothesis H8 : (8 <= prec)%Z.
Variables (cosf : N -> binary_float prec emax) (d : nat) (D : Type).
Notation F := (binary_float prec emax).
Notation OB := (BO prec emax Hp Hm cosf d).
Notation ex := (exact_mesh prec emax Hp Hm).
Notation u := (unit_roundoff prec).
Notation eta := (half_smallest prec emax).
Notation lim := (bpow radix2 (emax - 2)).
Implicit Types m : mesh OB D.
Variable M : R.
Hypothesis M0 : 0 <= M.
Notation boxM := (in_box prec emax Hp Hm (fun _ => - M) (fun _ => M)).
Notation S4 := (4 * INR d * (M * M)).
Notation e := ((INR d + 7) * u).
Notation err := (40 * (u * M + eta)).
Variable t : F.
Notation T := (B2R t).
Hypothesis Ft : is_finite t = true.
Hypothesis T0 : 0 < T.
Hypothesis Hd : 1000 * e <= 1.
Hypothesis Ha : 4 * (INR d + 1) * eta <= u * u * S4.
Hypothesis Hb : eta <= u * (S4 * S4).
Hypothesis HL : 8 * (S4 * S4 + 1) <= lim.
Hypothesis HB : 5 * (INR d + 1) * (M * M + 1) <= lim.
Hypothesis HT : 21000 * e * (S4 * S4) <= T * T.

Lemma A_room : (1 + u) ^ d * (INR d * (4 * ((1 + u) ^ 3 * (M * M)) + eta)) <= lim.
Proof. apply (FltTerm.room prec emax Hm H8 d M t Ft); [|exact HB]. pose proof (pos_INR d). pose proof (u_pos prec). nra. Qed.
Lemma A_lim : M <= lim. Proof. pose proof (M_lim emax d M M0 HB). lra. Qed.
Lemma A_TT : 0 < T * T. Proof. nra. Qed.

(** The rounding errors of one round change squared areas by less than a hundredth of T^2. *)
Notation De := (INR d * (8 * M * err + 4 * (err * err))).
Lemma A_noise : S4 * De + De * De <= T * T / 100.
Proof.
  pose proof (u_pos prec) as U0. pose proof (eta_pos prec emax) as E0. pose proof (pos_INR d) as N0. pose proof (eta_1 prec emax Hm H8) as E1.
  assert (uM : 0 <= u * M) by nra.
  assert (EM : eta <= u * M).
  { apply sq_le; [exact uM|]. assert (X : INR d * (u * u * (M * M)) <= (INR d + 1) * (u * M * (u * M))).
    { assert (0 <= u * M * (u * M)) by apply sqr_pos. replace (u * u * (M * M)) with (u * M * (u * M)) by ring. nra. }
    assert (Y : (INR d + 1) * eta <= (INR d + 1) * (u * M * (u * M))) by lra.
    assert (Z : eta <= u * M * (u * M)) by (apply Rmult_le_reg_l with (INR d + 1); lra). nra. }
  assert (X0 : 0 <= err) by lra. assert (X1 : err <= 80 * (u * M)) by lra.
  assert (u1 : 7000 * u <= 1) by nra.
  assert (Z1 : M * err <= 80 * (u * (M * M))) by (replace (80 * (u * (M * M))) with (M * (80 * (u * M))) by ring; apply Rmult_le_compat_l; assumption).
  assert (Z2 : err * err <= 6400 * (u * (u * (M * M)))).
  { replace (6400 * (u * (u * (M * M)))) with (80 * (u * M) * (80 * (u * M))) by ring. apply Rmult_le_compat; assumption. }
  assert (MM : 0 <= M * M) by apply sqr_pos. assert (uMM : 0 <= u * (M * M)) by nra.
  assert (Z3 : u * (u * (M * M)) <= u * (M * M) / 7000) by nra.
  assert (Z4 : 8 * M * err + 4 * (err * err) <= 644 * (u * (M * M))) by lra.
  assert (Z5 : De <= 161 * u * S4).
  { replace (161 * u * S4) with (INR d * (644 * (u * (M * M)))) by ring. apply Rmult_le_compat_l; assumption. }
  assert (Z6 : 0 <= De). { apply Rmult_le_pos; [exact N0|]. assert (0 <= M * err) by (apply Rmult_le_pos; assumption). assert (0 <= err * err) by apply sqr_pos. lra. }
  pose proof (S4_pos d M) as P4. assert (uS : u * S4 <= S4 / 7000) by nra. assert (Z7 : De <= S4) by lra.
  assert (Z8 : S4 * De + De * De <= 2 * (S4 * (161 * u * S4))).
  { assert (S4 * De <= S4 * (161 * u * S4)) by (apply Rmult_le_compat_l; assumption). assert (De * De <= S4 * De) by (apply Rmult_le_compat_r; assumption). lra. }
  assert (uSS : 0 <= u * (S4 * S4)) by (assert (0 <= S4 * S4) by apply sqr_pos; nra).
  assert (147000 * (u * (S4 * S4)) <= T * T).
  { eapply Rle_trans; [|exact HT]. replace (21000 * e * (S4 * S4)) with (21000 * (INR d + 7) * (u * (S4 * S4))) by ring. nra. }
  replace (2 * (S4 * (161 * u * S4))) with (322 * (u * (S4 * S4))) in Z8 by ring. lra.
Qed.

Definition light m (v : tri) : Prop := let '(a, b, c) := v in forall pa pb pc, tri_pts m a b c pa pb pc -> kgtb OB (@area OB pa pb pc) t = false.
Definition sq m (v : tri) : R := tri_area (ex m) v * tri_area (ex m) v.
Definition WA (n : nat) : R := 99 / 100 * (T * T) * 2 ^ n.
Definition QA (n : nat) m : Prop := forall v, In v (tris m) -> light m v \/ sq m v <= WA n.
Definition GA m : Prop := cond_start (CellF CLinear) m /\ boxM m.

Lemma corner_pts m a b c : valid m -> In (a, b, c) (tris m) -> exists pa pb pc, tri_pts m a b c pa pb pc.
Proof.
  intros Hv Hin. pose proof (v_verts _ Hv _ a Hin ltac:(cbn; auto)) as A. pose proof (v_verts _ Hv _ b Hin ltac:(cbn; auto)) as B. pose proof (v_verts _ Hv _ c Hin ltac:(cbn; auto)) as C.
  destruct (oget a (pts m)) as [pa|] eqn:Ea; [|congruence]. destruct (oget b (pts m)) as [pb|] eqn:Eb; [|congruence]. destruct (oget c (pts m)) as [pc|] eqn:Ec; [|congruence].
  exists pa, pb, pc. split; [exact Ea|]. split; [exact Eb|exact Ec].
Qed.
Lemma light_dec m v : valid m -> In v (tris m) -> light m v \/ ~ light m v.
Proof.
  destruct v as [[a b] c]. intros Hv Hin. destruct (corner_pts m a b c Hv Hin) as [pa [pb [pc [Ea [Eb Ec]]]]]. destruct (kgtb OB (@area OB pa pb pc) t) eqn:E.
  - right. intros H. rewrite (H pa pb pc (conj Ea (conj Eb Ec))) in E. discriminate.
  - left. intros pa' pb' pc' [Ea' [Eb' Ec']]. rewrite Ea in Ea'. rewrite Eb in Eb'. rewrite Ec in Ec'. inv Ea'. inv Eb'. inv Ec'. exact E.
Qed.
Lemma sq_hp m a b c pa pb pc : valid m -> tri_pts m a b c pa pb pc ->
  sq m (a, b, c) = heron (sqrt (ssq (vals prec emax pb) (vals prec emax pc))) (sqrt (ssq (vals prec emax pa) (vals prec emax pc))) (sqrt (ssq (vals prec emax pb) (vals prec emax pa))).
Proof.
  intros Hv [Ea [Eb Ec]]. unfold sq. rewrite <- heron_area.
  rewrite (dot_ssq prec emax Hp Hm cosf d D m b c pb pc Hv Eb Ec), (dot_ssq prec emax Hp Hm cosf d D m a c pa pc Hv Ea Ec), (dot_ssq prec emax Hp Hm cosf d D m b a pb pa Hv Eb Ea). reflexivity.
Qed.
Lemma light_le m v : valid m -> boxM m -> In v (tris m) -> light m v -> sq m v <= 103 / 100 * (T * T).
Proof.
  destruct v as [[a b] c]. intros Hv Hbx Hin H. destruct (corner_pts m a b c Hv Hin) as [pa [pb [pc Htp]]]. pose proof Htp as [Ea [Eb Ec]].
  rewrite (sq_hp m a b c pa pb pc Hv Htp).
  apply (area_false prec emax Hp Hm H8 cosf d M M0 A_lim A_room Hd Ha Hb HL t Ft T0 HT pa pb pc).
  - eapply box_within; eauto. - eapply box_within; eauto. - eapply box_within; eauto.
  - exact (v_pts_dim _ Hv _ _ Ea). - exact (v_pts_dim _ Hv _ _ Eb). - exact (v_pts_dim _ Hv _ _ Ec). - apply H. exact Htp.
Qed.
Lemma heavy_gt m v : valid m -> boxM m -> In v (tris m) -> ~ light m v -> 99 / 100 * (T * T) < sq m v.
Proof.
  destruct v as [[a b] c]. intros Hv Hbx Hin H. destruct (corner_pts m a b c Hv Hin) as [pa [pb [pc Htp]]]. pose proof Htp as [Ea [Eb Ec]].
  rewrite (sq_hp m a b c pa pb pc Hv Htp).
  apply (area_true prec emax Hp Hm H8 cosf d M M0 A_lim A_room Hd Ha Hb HL t Ft T0 HT pa pb pc).
  - eapply box_within; eauto. - eapply box_within; eauto. - eapply box_within; eauto.
  - exact (v_pts_dim _ Hv _ _ Ea). - exact (v_pts_dim _ Hv _ _ Eb). - exact (v_pts_dim _ Hv _ _ Ec).
  - destruct (kgtb OB (@area OB pa pb pc) t) eqn:E; [reflexivity|]. exfalso. apply H. intros pa' pb' pc' [Ea' [Eb' Ec']].
    rewrite Ea in Ea'. rewrite Eb in Eb'. rewrite Ec in Ec'. inv Ea'. inv Eb'. inv Ec'. exact E.
Qed.
Lemma heavy_selected m v : valid m -> In v (tris m) -> ~ light m v -> exists i, In i (long_cells (O := OB) t m) /\ In (i, v) (faces m).
Proof.
  destruct v as [[a b] c]. intros Hv Hin H. destruct (corner_pts m a b c Hv Hin) as [pa [pb [pc Htp]]]. pose proof Htp as [Ea [Eb Ec]].
  unfold tris in Hin. apply in_map_iff in Hin. destruct Hin as [[i w] [Ew Hi]]. cbn in Ew. subst w. exists i. split; [|exact Hi].
  apply (long_cells_In (O := OB) t m i Hv). exists a, b, c, pa, pb, pc. split; [exact Hi|]. split; [exact Htp|].
  destruct (kgtb OB (@area OB pa pb pc) t) eqn:E; [reflexivity|]. exfalso. apply H. intros pa' pb' pc' [Ea' [Eb' Ec']].
  rewrite Ea in Ea'. rewrite Eb in Eb'. rewrite Ec in Ec'. inv Ea'. inv Eb'. inv Ec'. exact E.
Qed.
Lemma none_light m : valid m -> (forall v, In v (tris m) -> light m v) -> long_cells (O := OB) t m = [].
Proof.
  intros Hv H. destruct (long_cells (O := OB) t m) as [|i l] eqn:El; [reflexivity|]. exfalso.
  assert (Hi : In i (long_cells (O := OB) t m)) by (rewrite El; left; reflexivity).
  apply (long_cells_In (O := OB) t m i Hv) in Hi. destruct Hi as [a [b [c [pa [pb [pc [Hf [Htp Hg]]]]]]]].
  assert (Hin : In (a, b, c) (tris m)) by (unfold tris; apply in_map_iff; exists (i, (a, b, c)); auto).
  rewrite (H _ Hin pa pb pc Htp) in Hg. discriminate.
Qed.
Lemma WA_pos n : 99 / 100 * (T * T) <= WA n.
Proof. unfold WA. assert (1 <= 2 ^ n) by (apply pow_R1_Rle; lra). pose proof A_TT. nra. Qed.
Lemma WA_S n : WA (S n) = 2 * WA n. Proof. unfold WA. cbn [pow]. ring. Qed.
Lemma lin_boxA m fuel f f' m1 : boxM m -> update (CellF CLinear) fuel f m = Ok (f', m1) -> boxM m1.
Proof.
  intros Hbx E. refine (C89_update_pf prec emax Hp Hm cosf d D _ _ (CellF CLinear) fuel f m f' m1 H8 _ _ (or_introl eq_refl) Hbx E).
  - intros _. pose proof A_lim. cbv beta. lra.
  - intros _. pose proof A_lim. cbv beta. lra.
Qed.
Lemma box_crd m x i : boxM m -> oget x (pts m) <> None -> Rabs (crd (ex m) i x) <= M.
Proof.
  intros Hbx Hx. destruct (oget x (pts m)) as [p|] eqn:Ep; [|congruence]. pose proof (box_within prec emax Hp Hm cosf d D M m x p Hbx Ep) as W.
  unfold crd, ptof. rewrite exact_get, Ep. cbn [option_map]. clear -W M0. revert i. induction W as [|y p [_ H] W IH]; intros [|i]; cbn [map nth]; try (rewrite Rabs_R0; exact M0); [exact H|apply IH].
Qed.

Lemma area_step n m f fuel f' m1 : GA m -> QA (S n) m -> sel_empty (asel (O := OB) t m) = false ->
  update (CellF CLinear) fuel (apply_selection f (asel (O := OB) t m)) m = Ok (f', m1) -> QA n m1.
Proof.
  intros [H0 Hbx] HQ Hs E. pose proof (area_ready (O := OB) CLinear t m f H0) as Hr.
  pose proof (start_step _ _ _ _ _ _ H0 Hr E) as H1. pose proof (lin_boxA _ _ _ _ _ Hbx E) as Hb1.
  destruct H0 as [Hv [Hdm [Hnem _]]]. destruct H1 as [Hv1 _].
  destruct (face_run _ _ m fuel f' m1 Hv Hdm Hr E) as [midB [LsB FRB]].
  pose proof (u_pos prec) as U0. pose proof (eta_pos prec emax) as E0.
  assert (X : exists f2 mR, update (CellF CLinear) fuel (apply_selection f (asel (O := OB) t m)) (ex m) = Ok (f2, mR) /\ near prec emax Hp Hm err m1 mR).
  { pose proof (C91_pf prec emax Hp Hm cosf d D D (CellF CLinear) fuel (apply_selection f (asel (O := OB) t m)) m (ex m) M 0 H8) as C.
    specialize (C ltac:(discriminate) ltac:(auto) M0 (Rle_refl 0) ltac:(pose proof (M_lim emax d M M0 HB); lra) (exact_near prec emax Hp Hm cosf d D M m Hbx) (exact_bounded prec emax Hp Hm cosf d D M m Hbx)).
    rewrite E in C. destruct (update (CellF CLinear) fuel (apply_selection f (asel (O := OB) t m)) (ex m)) as [[f2 mR]| | |]; try contradiction.
    exists f2, mR. split; [reflexivity|]. destruct C as [_ C]. replace (amplification (CellF CLinear) * 0 + 40 * (u * (M + 0) + eta)) with err in C by (rewrite Rmult_0_r, Rplus_0_l, Rplus_0_r; reflexivity). exact C. }
  destruct X as [f2 [mR [ER Hn]]].
  assert (Hve : valid (ex m)) by (apply exact_valid; exact Hv). assert (Hde : dense (ex m)) by (apply exact_dense; exact Hdm).
  assert (Hre : ready (CellF CLinear) (apply_selection f (asel (O := OB) t m)) (ex m)).
  { destruct Hr as [R1 [R2 R3]]. split; [exact R1|]. split; [intros [Z|Z]; discriminate|]. exact R3. }
  destruct (linear_facts _ _ (ex m) fuel f2 mR (or_introl eq_refl) Hve Hde Hre ER) as [mid [Ls [FR [Hold Hmid]]]].
  pose proof (fr_sub _ _ _ _ _ _ _ FR) as Hsd.
  assert (Ht1 : tris mR = tris m1).
  { destruct Hn as [[_ [_ [Hc _]]] _]. symmetry. unfold tris, faces. rewrite Hc. reflexivity. }
  pose proof (WA_pos n) as Wn. pose proof (WA_S n) as WS. pose proof A_TT as TT. assert (ER0 : 0 <= err) by nra. pose proof A_noise as NO.
  assert (Hid : forall v x, In v (tris m1) -> In x (tverts v) -> ok_id (ex m1) mR M err x).
  { intros v x Hvi Hx i. assert (Hpx : oget x (pts m1) <> None) by (apply (v_verts _ Hv1 v); assumption). split; [apply box_crd; assumption|].
    apply (near_crd prec emax Hp Hm cosf d D err m1 mR x i ER0 Hn Hpx). }
  intros [[x y] z] Hu1. pose proof Hu1 as Hu. rewrite <- Ht1 in Hu.
  assert (AN : sq m1 (x, y, z) <= tri_area mR (x, y, z) * tri_area mR (x, y, z) + T * T / 100).
  { unfold sq. pose proof (area_near (ex m1) mR M err x y z (Hid _ x Hu1 ltac:(cbn; auto)) (Hid _ y Hu1 ltac:(cbn; auto)) (Hid _ z Hu1 ltac:(cbn; auto))). lra. }
  destruct (out_tri_parent _ _ _ _ _ _ _ (x, y, z) Hve FR Hu) as [a [b [c [Hin Hu']]]].
  assert (Hpa : oget a (pts (ex m)) <> None) by (apply (v_verts _ Hve _ _ Hin); cbn; auto).
  assert (Hpb : oget b (pts (ex m)) <> None) by (apply (v_verts _ Hve _ _ Hin); cbn; auto).
  assert (Hpc : oget c (pts (ex m)) <> None) by (apply (v_verts _ Hve _ _ Hin); cbn; auto).
  assert (Hinm : In (a, b, c) (tris m)) by exact Hin.
  pose proof (tri_area_nonneg (ex m) (a, b, c)) as Hnn.
  assert (Sq : sq m (a, b, c) = tri_area (ex m) (a, b, c) * tri_area (ex m) (a, b, c)) by reflexivity.
  destruct (child_half (ex m) mR mid Hold Hmid a b c Hpa Hpb Hpc _ Hu') as [[N1 [N2 [N3 Eu]]]|[w [Hw [Hw1 Hw2]]]].
  - left. injection Eu as -> -> ->.
    assert (Lt : light m (a, b, c)).
    { destruct (light_dec m (a, b, c) Hv Hinm) as [G|G]; [exact G|exfalso]. destruct (heavy_selected m (a, b, c) Hv Hinm G) as [i [Hi1 Hi2]].
      assert (H3 : nsplit mid (a, b, c) = 3%nat).
      { eapply selected_nsplit; [exact Hsd|intros v1 v2 Hxy; exact Hxy|]. right. exists i. split; [exact Hi1|exact Hi2]. }
      apply all_three_nsplit in H3. rewrite N1 in H3. discriminate. }
    destruct (corner_pts m a b c Hv Hinm) as [pa [pb [pc Htp]]]. pose proof Htp as [Ea [Eb Ec]].
    intros pa' pb' pc' [Ea' [Eb' Ec']].
    rewrite (fr_old _ _ _ _ _ _ _ FRB a pa Ea ltac:(discriminate)) in Ea'. rewrite (fr_old _ _ _ _ _ _ _ FRB b pb Eb ltac:(discriminate)) in Eb'. rewrite (fr_old _ _ _ _ _ _ _ FRB c pc Ec ltac:(discriminate)) in Ec'.
    inv Ea'. inv Eb'. inv Ec'. apply Lt. exact Htp.
  - right. rewrite Hw in AN. replace (w * tri_area (ex m) (a, b, c) * (w * tri_area (ex m) (a, b, c))) with (w * w * sq m (a, b, c)) in AN by (rewrite Sq; ring).
    assert (S0 : 0 <= sq m (a, b, c)) by (rewrite Sq; apply sqr_pos).
    destruct (light_dec m (a, b, c) Hv Hinm) as [G|G].
    + pose proof (light_le m _ Hv Hbx Hinm G). assert (w * w * sq m (a, b, c) <= 1 / 4 * sq m (a, b, c)) by (apply Rmult_le_compat_r; [exact S0|nra]). lra.
    + destruct (HQ _ Hinm) as [G2|G2]; [contradiction|].
      assert (W4 : w = 1 / 4).
      { apply Hw2. destruct (heavy_selected m (a, b, c) Hv Hinm G) as [i [Hi1 Hi2]]. apply all_three_nsplit.
        eapply selected_nsplit; [exact Hsd|intros v1 v2 Hxy; exact Hxy|]. right. exists i. split; [exact Hi1|exact Hi2]. }
      rewrite W4 in AN. lra.
Qed.

Lemma C108_sec old f (inp : mesh OB D) : valid inp -> dense inp -> tris inp <> [] -> boxM inp ->
  exists f' out, completes (fun fuel => conditional_update fuel (CellF CLinear) (Some (cell_area_criterion (O := OB) t)) old f inp) (Ok (f', out)) /\
    valid out /\ (forall v, In v (tris out) -> tri_area (ex out) v <= 102 / 100 * T) /\ boxM out.
Proof.
  intros Hv Hdn Hne Hbx.
  assert (HG : GA (copy_geometry inp)).
  { split; [apply copy_start; apply start_of; auto; [unfold splits_faces; congruence|intros [E|E]; discriminate]|].
    apply copy_box; exact Hbx. }
  pose proof A_TT as TT0. assert (TT : 0 < 99 / 100 * (T * T)) by lra.
  destruct (unbounded_pow 2 (99 / 100 * (T * T)) (map (sq (copy_geometry inp)) (tris (copy_geometry inp))) ltac:(lra) TT) as [n Hn].
  assert (R1 : forall m old0, GA m -> exists fuel, cell_area_criterion (O := OB) t fuel m old0 = Ok (asel (O := OB) t m)).
  { intros m o [[Hm0 _] _]. apply area_crit_runs. exact Hm0. }
  assert (R2 : forall fuel m old0 s, cell_area_criterion (O := OB) t fuel m old0 = Ok s -> s = asel (O := OB) t m).
  { intros n0 m o x E. apply area_crit_inv in E. apply E. }
  assert (R3 : forall m f0, GA m -> sel_empty (asel (O := OB) t m) = false -> ready (CellF CLinear) (apply_selection f0 (asel (O := OB) t m)) m).
  { intros m f0 [H0 _] He. apply area_ready; assumption. }
  assert (R4 : forall m, GA m -> valid m /\ dense m) by (intros m [[H1 [H2 _]] _]; auto).
  assert (R5 : forall m f0 fuel f1 m1, GA m -> sel_empty (asel (O := OB) t m) = false -> update (CellF CLinear) fuel (apply_selection f0 (asel (O := OB) t m)) m = Ok (f1, m1) -> GA m1).
  { intros m f0 n0 f1 m1 H0 He E. split; [eapply start_step; [exact (proj1 H0)|apply R3; [exact H0|exact He]|exact E]|]. eapply lin_boxA; [exact (proj2 H0)|exact E]. }
  destruct (rounds_terminate (O := OB) (D := D) (CellF CLinear) (cell_area_criterion (O := OB) t) (asel (O := OB) t) GA (area_crit_mono (O := OB) t) R1 R2 R3 R4 R5)
    with (Q := QA) (n := n) (m := copy_geometry inp) (f := f) as [fuel [f' [out E]]].
  - intros m [[Hm0 _] Hbm] HQ. cbn. apply is_nil_true. apply none_light; [exact Hm0|].
    intros v Hvi. destruct (HQ v Hvi) as [G|G]; [exact G|]. destruct (light_dec m v Hm0 Hvi) as [K|K]; [exact K|].
    apply heavy_gt in K; auto. unfold WA in G. cbn [pow] in G. lra.
  - intros n0 m f0 fuel f1 m1 HG0 HQ Hs E. eapply area_step; eauto.
  - exact HG.
  - intros v Hvi. right. apply Hn. apply in_map. exact Hvi.
  - destruct (rounds_chain (O := OB) (D := D) (CellF CLinear) (cell_area_criterion (O := OB) t) (asel (O := OB) t) GA R2 R3 R5 fuel (copy_geometry inp) f f' out HG E) as [[[Hvo _] Hbo] [Hse _]].
    exists f', out. split; [|split; [exact Hvo|split; [|exact Hbo]]].
    + destruct (area_crit_runs (O := OB) t (copy_geometry inp) old (proj1 (proj1 HG))) as [n1 E1].
      apply (cond_completes _ _ _ _ _ (n1 + fuel)%nat); [apply area_crit_mono| |discriminate].
      unfold conditional_update. rewrite (area_crit_mono (O := OB) t) by congruence. rewrite E1. cbn [rbind].
      rewrite Nat.add_comm. rewrite cond_loop_mono; [exact E|apply area_crit_mono|congruence].
    + intros v Hvi. assert (S : light out v).
      { destruct (light_dec out v Hvo Hvi) as [K|K]; [exact K|]. exfalso. destruct (heavy_selected out v Hvo Hvi K) as [i [Hi _]]. cbn in Hse. apply is_nil_true in Hse. rewrite Hse in Hi. destruct Hi. }
      pose proof (light_le out v Hvo Hbo Hvi S) as LE. unfold sq in LE. apply sq_le; [lra|]. nra.
Qed.
End TERMA.

Lemma C108_pf : forall prec emax Hp Hm cosf d D (M : R) (t : binary_float prec emax) old f (inp : mesh (BO prec emax Hp Hm cosf d) D),
  let u := unit_roundoff prec in let eta := half_smallest prec emax in let T := B2R t in let S := 4 * INR d * (M * M) in
  (8 <= prec)%Z -> valid inp -> dense inp -> tris inp <> [] ->
  0 <= M -> in_box prec emax Hp Hm (fun _ => - M) (fun _ => M) inp ->
  is_finite t = true -> 0 < T ->
  1000 * ((INR d + 7) * u) <= 1 -> 21000 * ((INR d + 7) * u) * (S * S) <= T * T ->
  4 * (INR d + 1) * eta <= u * u * S -> eta <= u * (S * S) ->
  5 * (INR d + 1) * (M * M + 1) <= bpow radix2 (emax - 2) -> 8 * (S * S + 1) <= bpow radix2 (emax - 2) ->
  exists f' out, completes (fun fuel => conditional_update fuel (CellF CLinear) (Some (cell_area_criterion (O := BO prec emax Hp Hm cosf d) t)) old f inp) (Ok (f', out)) /\
    valid out /\ (forall v, In v (tris out) -> tri_area (exact_mesh prec emax Hp Hm out) v <= 102 / 100 * T) /\
    in_box prec emax Hp Hm (fun _ => - M) (fun _ => M) out.
Proof. intros. eapply C108_sec; eauto. Qed.
