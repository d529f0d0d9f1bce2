(** * Conv: repeated uniform subdivision converges (C101, C102). *)
From Coq Require Import Reals Lra Psatz Permutation.
From Verif Require Import Base Mesh Filters Drivers Spec SpecSub SpecGeo SpecDrive SpecRoot3 SpecConv Lists AddFace SplitTri Split Points Valid Run Update Struct Count Face PtsAny Geo GeoProps Conn Drive Area Cond FaceProps DriveProps Gaps Root3Main Root3Props Iter.
Open Scope R_scope.

(** ** Combinations of short vectors are short *)
Definition comb (W : list (R * (nat -> R))) (i : nat) : R := rsum (fun cz => fst cz * snd cz i) W.
Definition cabs (W : list (R * (nat -> R))) : R := rsum (fun cz => Rabs (fst cz)) W.
Definition sq (d : nat) (h : nat -> R) : R := rsum (fun i => h i * h i) (seq 0 d).

Lemma cabs_pos W : 0 <= cabs W.
Proof. apply rsum_nonneg. intros. apply Rabs_pos. Qed.
Lemma sq_pos d h : 0 <= sq d h.
Proof. apply rsum_nonneg. intros. apply Rle_0_sqr. Qed.
Lemma comb_sqr W i : comb W i * comb W i <= cabs W * rsum (fun cz => Rabs (fst cz) * (snd cz i * snd cz i)) W.
Proof.
  induction W as [|[c z] W IH]; [unfold comb, cabs, rsum; cbn; lra|].
  change (comb ((c, z) :: W) i) with (c * z i + comb W i). change (cabs ((c, z) :: W)) with (Rabs c + cabs W).
  change (rsum (fun cz => Rabs (fst cz) * (snd cz i * snd cz i)) ((c, z) :: W)) with (Rabs c * (z i * z i) + rsum (fun cz => Rabs (fst cz) * (snd cz i * snd cz i)) W).
  set (A := cabs W) in *. set (B := rsum (fun cz => Rabs (fst cz) * (snd cz i * snd cz i)) W) in *. set (C := comb W i) in *. set (x := z i).
  assert (A0 : 0 <= A) by apply cabs_pos.
  assert (B0 : 0 <= B) by (apply rsum_nonneg; intros; apply Rmult_le_pos; [apply Rabs_pos|apply Rle_0_sqr]).
  assert (X0 : 0 <= x * x) by apply Rle_0_sqr. pose proof (Rabs_pos c) as C0.
  assert (H : Rabs (C * x) * 2 <= A * (x * x) + B).
  { apply Rsqr_incr_0_var; [|nra]. unfold Rsqr. replace (Rabs (C * x) * 2 * (Rabs (C * x) * 2)) with (4 * ((C * C) * (x * x))).
    - assert (C * C * (x * x) <= A * B * (x * x)) by (apply Rmult_le_compat_r; assumption).
      pose proof (Rle_0_sqr (A * (x * x) - B)) as S. unfold Rsqr in S. nra.
    - replace (Rabs (C * x) * 2 * (Rabs (C * x) * 2)) with (4 * (Rabs (C * x) * Rabs (C * x))) by ring. rewrite <- Rabs_mult, Rabs_pos_eq; [ring|].
      pose proof (Rle_0_sqr (C * x)). exact H. }
  assert (E : c * c = Rabs c * Rabs c) by (rewrite <- Rabs_mult, Rabs_pos_eq; [reflexivity|apply Rle_0_sqr]).
  assert (G : 2 * (c * (C * x)) <= Rabs c * (A * (x * x) + B)).
  { apply Rle_trans with (Rabs c * (Rabs (C * x) * 2)); [|apply Rmult_le_compat_l; assumption].
    pose proof (Rle_abs (c * (C * x))) as L. rewrite Rabs_mult in L. lra. }
  replace ((c * x + C) * (c * x + C)) with (c * c * (x * x) + 2 * (c * (C * x)) + C * C) by ring. rewrite E. nra.
Qed.

Lemma comb_len d W h L s : 0 <= L -> (forall c z, In (c, z) W -> sq d z <= L * L) ->
  (forall i, h i = comb W i) -> cabs W <= s -> sq d h <= (s * L) * (s * L).
Proof.
  intros L0 HW Hh Hs. pose proof (cabs_pos W) as A0.
  apply Rle_trans with (cabs W * (cabs W * (L * L))).
  - apply Rle_trans with (rsum (fun i => cabs W * rsum (fun cz => Rabs (fst cz) * (snd cz i * snd cz i)) W) (seq 0 d)).
    + unfold sq. apply rsum_le. intros i _. rewrite Hh. apply comb_sqr.
    + rewrite rsum_scal. apply Rmult_le_compat_l; [exact A0|]. clear Hh Hs A0. induction W as [|[c z] W IH].
      * unfold cabs. cbn. induction (seq 0 d); cbn in *; unfold rsum in *; cbn; lra.
      * rewrite (rsum_ext _ (fun i => Rabs c * (z i * z i) + rsum (fun cz => Rabs (fst cz) * (snd cz i * snd cz i)) W)) by reflexivity.
        rewrite rsum_plus, rsum_scal. change (cabs ((c, z) :: W)) with (Rabs c + cabs W).
        assert (H1 := HW c z (or_introl eq_refl)). unfold sq in H1. assert (H2 := IH (fun c' z' H => HW c' z' (or_intror H))).
        pose proof (Rabs_pos c). assert (Rabs c * rsum (fun i => z i * z i) (seq 0 d) <= Rabs c * (L * L)) by (apply Rmult_le_compat_l; assumption). lra.
  - assert (P : cabs W * L <= s * L) by (apply Rmult_le_compat_r; assumption).
    replace (cabs W * (cabs W * (L * L))) with ((cabs W * L) * (cabs W * L)) by ring.
    apply Rmult_le_compat; auto; apply Rmult_le_pos; assumption.
Qed.

(** ** Loop's weights *)
Lemma cos_frac n m : 0 < n -> n <= m -> 2 <= n -> cos (2 * PI / n) <= cos (2 * PI / m).
Proof.
  intros Hn Hm H2. pose proof PI_RGT_0 as P. assert (I : / m <= / n) by (apply Rinv_le_contravar; assumption). assert (I2 : / n <= / 2) by (apply Rinv_le_contravar; lra).
  assert (0 < / m) by (apply Rinv_0_lt_compat; lra). unfold Rdiv. apply cos_decr_1; nra.
Qed.
Lemma cos_6 : cos (2 * PI / 6) = 1 / 2.
Proof. replace (2 * PI / 6) with (PI / 3) by lra. apply cos_PI3. Qed.
Lemma cos_4 : cos (2 * PI / 4) = 0.
Proof. replace (2 * PI / 4) with (PI / 2) by lra. apply cos_PI2. Qed.
Lemma cos_24 : 19 / 20 <= cos (2 * PI / 24).
Proof.
  replace (2 * PI / 24) with (PI / 12) by lra. pose proof PI_RGT_0 as P.
  assert (C0 : 0 <= cos (PI / 12)) by (apply cos_ge_0; lra).
  assert (E : cos (PI / 6) = 2 * cos (PI / 12) * cos (PI / 12) - 1) by (replace (PI / 6) with (2 * (PI / 12)) by lra; apply cos_2a_cos).
  rewrite cos_PI6 in E. assert (17 / 10 <= sqrt 3). { rewrite <- (sqrt_square (17 / 10)) by lra. apply sqrt_le_1_alt. lra. } nra.
Qed.
(** The sum of the weights of the difference of a moved point and a new point beside it. *)
Lemma loop_beta_bounds (n : nat) : (3 <= n)%nat -> let b := loop_weight (N.of_nat n) in
  0 < b /\ INR n * b <= 5 / 8 /\ Rabs (3 / 8 - b) + 2 * Rabs (1 / 8 - b) + (INR n - 3) * b <= 7 / 8.
Proof.
  intros Hn b. unfold b, loop_weight. rewrite nat_N_Z, <- INR_IZR_INZ. clear b. set (x := INR n).
  assert (Hx : 3 <= x) by (replace 3 with (INR 3) by (cbn; lra); apply le_INR; exact Hn).
  set (c := cos (2 * PI / x)). assert (Hc : -1 <= c <= 1) by (unfold c; split; apply COS_bound).
  set (t := 5 / 8 - (3 / 8 + 1 / 4 * c) ^ 2). assert (Ht : 15 / 64 <= t <= 39 / 64) by (unfold t; nra).
  assert (Eb : x * (t / x) = t) by (field; lra). set (b := t / x) in *.
  assert (B0 : 0 < b) by (unfold b; apply Rdiv_lt_0_compat; lra). split; [exact B0|]. split; [lra|].
  assert (Cases : n = 3%nat \/ n = 4%nat \/ (5 <= n)%nat) by lia. destruct Cases as [E|[E|E]].
  - assert (X : x = 3) by (unfold x; rewrite E; cbn; lra). assert (C : c = - (1 / 2)) by (unfold c; rewrite X; apply cos_third).
    assert (T : t = 9 / 16) by (unfold t; rewrite C; lra). assert (b = 3 / 16) by (unfold b; rewrite T, X; lra).
    rewrite H, X. unfold Rabs. repeat destruct Rcase_abs; lra.
  - assert (X : x = 4) by (unfold x; rewrite E; cbn; lra). assert (C : c = 0) by (unfold c; rewrite X; apply cos_4).
    assert (T : t = 31 / 64) by (unfold t; rewrite C; lra). assert (b = 31 / 256) by (unfold b; rewrite T, X; lra).
    rewrite H, X. unfold Rabs. repeat destruct Rcase_abs; lra.
  - assert (X : 5 <= x) by (replace 5 with (INR 5) by (cbn; lra); apply le_INR; exact E).
    assert (B8 : b <= 1 / 8) by nra. rewrite !Rabs_pos_eq by lra. enough ((x - 6) * b <= 1 / 4) by lra.
    assert (Cases : (n <= 6)%nat \/ (7 <= n <= 18)%nat \/ (19 <= n < 24)%nat \/ (24 <= n)%nat) by lia. destruct Cases as [F|[F|[F|F]]].
    + assert (x <= 6) by (replace 6 with (INR 6) by (cbn; lra); apply le_INR; exact F). nra.
    + assert (X1 : 7 <= x) by (replace 7 with (INR 7) by (cbn; lra); apply le_INR; lia). assert (X2 : x <= 18) by (replace 18 with (INR 18) by (cbn; lra); apply le_INR; lia).
      assert (C : 1 / 2 <= c) by (rewrite <- cos_6; apply cos_frac; lra). assert (t <= 3 / 8) by (unfold t; nra). nra.
    + assert (X1 : 19 <= x) by (replace 19 with (INR 19) by (cbn; lra); apply le_INR; lia). assert (X2 : x <= 24) by (replace 24 with (INR 24) by (cbn; lra); apply le_INR; lia).
      assert (C : 17 / 20 <= c).
      { apply Rle_trans with (cos (2 * PI / 12)); [|apply cos_frac; lra]. replace (2 * PI / 12) with (PI / 6) by lra. rewrite cos_PI6.
        assert (17 / 10 <= sqrt 3); [|lra]. rewrite <- (sqrt_square (17 / 10)) by lra. apply sqrt_le_1_alt. lra. }
      assert (t <= 285 / 1000) by (unfold t; nra). nra.
    + assert (X1 : 24 <= x) by (replace 24 with (INR 24) by (cbn; lra); apply le_INR; lia).
      assert (C : 19 / 20 <= c) by (eapply Rle_trans; [apply cos_24|apply cos_frac; lra]). assert (t <= 1 / 4) by (unfold t; nra). nra.
Qed.

(** ** Lengths *)
Lemma cauchy {A} (l : list A) (x y : A -> R) :
  rsum (fun i => x i * y i) l * rsum (fun i => x i * y i) l <= rsum (fun i => x i * x i) l * rsum (fun i => y i * y i) l.
Proof.
  induction l as [|a l IH]; [cbn; lra|].
  change (rsum (fun i => x i * y i) (a :: l)) with (x a * y a + rsum (fun i => x i * y i) l).
  change (rsum (fun i => x i * x i) (a :: l)) with (x a * x a + rsum (fun i => x i * x i) l).
  change (rsum (fun i => y i * y i) (a :: l)) with (y a * y a + rsum (fun i => y i * y i) l).
  set (p := rsum (fun i => x i * y i) l) in *. set (X := rsum (fun i => x i * x i) l) in *. set (Y := rsum (fun i => y i * y i) l) in *.
  assert (X0 : 0 <= X) by (apply rsum_nonneg; intros; apply Rle_0_sqr). assert (Y0 : 0 <= Y) by (apply rsum_nonneg; intros; apply Rle_0_sqr).
  set (u := x a). set (v := y a). assert (U0 : 0 <= u * u) by apply Rle_0_sqr. assert (V0 : 0 <= v * v) by apply Rle_0_sqr.
  assert (H : 2 * (p * (u * v)) <= X * (v * v) + Y * (u * u)).
  { apply Rsqr_incr_0_var; [|nra]. unfold Rsqr.
    assert (p * p * ((u * u) * (v * v)) <= X * Y * ((u * u) * (v * v))) by (apply Rmult_le_compat_r; [apply Rmult_le_pos; assumption|exact IH]).
    pose proof (Rle_0_sqr (X * (v * v) - Y * (u * u))) as S. unfold Rsqr in S.
    replace (2 * (p * (u * v)) * (2 * (p * (u * v)))) with (4 * (p * p * (u * u * (v * v)))) by ring. nra. }
  nra.
Qed.
Lemma sq_add d h1 h2 h A B : 0 <= A -> 0 <= B -> sq d h1 <= A * A -> sq d h2 <= B * B -> (forall i, h i = h1 i + h2 i) -> sq d h <= (A + B) * (A + B).
Proof.
  intros A0 B0 H1 H2 E. pose proof (cauchy (seq 0 d) h1 h2) as C. fold (sq d h1) (sq d h2) in C. set (p := rsum (fun i => h1 i * h2 i) (seq 0 d)) in *.
  assert (S : sq d h = sq d h1 + 2 * p + sq d h2).
  { unfold sq, p. rewrite <- rsum_scal, <- !rsum_plus. apply rsum_ext. intros i _. rewrite E. ring. }
  pose proof (sq_pos d h1). pose proof (sq_pos d h2).
  assert (Hp : p <= A * B).
  { apply Rsqr_incr_0_var; [|apply Rmult_le_pos; assumption]. unfold Rsqr. apply Rle_trans with (1 := C).
    replace (A * B * (A * B)) with ((A * A) * (B * B)) by ring. apply Rmult_le_compat; assumption. }
  lra.
Qed.
Lemma sqrt_le_sq x y : 0 <= y -> (sqrt x <= y <-> x <= y * y).
Proof.
  intros Hy. split; intros H.
  - destruct (Rle_dec 0 x) as [Hx|Hx]; [|pose proof (Rle_0_sqr y) as S; unfold Rsqr in S; lra].
    rewrite <- (sqrt_sqrt x Hx). apply Rmult_le_compat; auto; apply sqrt_pos.
  - rewrite <- (sqrt_square y Hy). apply sqrt_le_1_alt. exact H.
Qed.

Definition vec {d D} (m : mesh (RO d) D) (a b : N) (i : nat) : R := crd m i b - crd m i a.
Definition gap {d D} (m1 : mesh (RO d) D) (a : N) (m2 : mesh (RO d) D) (b : N) (i : nat) : R := crd m2 i b - crd m1 i a.
Lemma seg_sq {d D} (m : mesh (RO d) D) a b L : 0 <= L -> (seg_length m a b <= L <-> sq d (vec m a b) <= L * L).
Proof. intros HL. apply (sqrt_le_sq (sq d (vec m a b)) L HL). Qed.
Lemma apart_sq {d D} (m1 m2 : mesh (RO d) D) a b L : 0 <= L -> (apart m1 a m2 b <= L <-> sq d (gap m1 a m2 b) <= L * L).
Proof. intros HL. apply (sqrt_le_sq (sq d (gap m1 a m2 b)) L HL). Qed.
Lemma sq_opp d h g : (forall i, g i = - h i) -> sq d g = sq d h.
Proof. intros E. apply rsum_ext. intros i _. rewrite E. ring. Qed.
Lemma apart_trans {d D} (m1 m2 m3 : mesh (RO d) D) a b c A B : 0 <= A -> 0 <= B -> apart m1 a m2 b <= A -> apart m2 b m3 c <= B -> apart m1 a m3 c <= A + B.
Proof.
  intros A0 B0 H1 H2. apply apart_sq in H1; [|exact A0]. apply apart_sq in H2; [|exact B0]. apply apart_sq; [lra|].
  apply (sq_add d _ _ _ A B A0 B0 H1 H2). intros i. unfold gap. ring.
Qed.
Lemma apart_self {d D} (m : mesh (RO d) D) a : apart m a m a = 0.
Proof.
  unfold apart. rewrite (rsum_ext _ (fun _ => 0)) by (intros; ring). assert (forall l : list nat, rsum (fun _ => 0) l = 0) as ->; [|apply sqrt_0].
  induction l; cbn in *; unfold rsum in *; cbn; lra.
Qed.
Lemma apart_same {d D} (m1 m2 : mesh (RO d) D) a : (forall i, crd m2 i a = crd m1 i a) -> apart m1 a m2 a = 0.
Proof. intros H. rewrite <- (apart_self m1 a). unfold apart. f_equal. apply rsum_ext. intros i _. rewrite H. reflexivity. Qed.

(** ** The edges of a uniform level of a face-split scheme *)
Section LEVEL.
Context {d : nat} {D : Type}.
Notation mesh := (mesh (RO d) D).
Implicit Types m inp out : mesh.

Lemma Forall2_in_r {A B} (P : A -> B -> Prop) l l' : Forall2 P l l' -> forall y, In y l' -> exists x, In x l /\ P x y.
Proof.
  induction 1 as [|x y l l' Hxy H IH]; intros z Hz; [destruct Hz|]. destruct Hz as [<-|Hz]; [exists x; cbn; auto|].
  destruct (IH z Hz) as [w [Hw Hp]]. exists w. cbn. auto.
Qed.

Lemma edge_ind inp out S mid Ls (P : N -> N -> Prop) : subdivision inp out S mid Ls ->
  (forall a b, In (a, b) (dirs (tris inp)) -> mid a b <> None) ->
  (forall x y, P x y -> P y x) ->
  (forall a b e, In (a, b) (dirs (tris inp)) \/ In (b, a) (dirs (tris inp)) -> mid a b = Some e -> P a e) ->
  (forall v w z e1 e2, is_face inp v w z -> mid v w = Some e1 -> mid v z = Some e2 -> P e1 e2) ->
  forall x y, joined out x y -> P x y.
Proof.
  intros Hsd Hall Hsym Hon Hcut.
  assert (G : forall x y, In (x, y) (dirs (tris out)) -> P x y).
  { intros x y Hxy. apply dirs_tri in Hxy. destruct Hxy as [u [Hu Hxy]]. rewrite (sd_tris _ _ _ _ _ Hsd) in Hu.
    apply in_concat in Hu. destruct Hu as [L [HL Hu]]. destruct (Forall2_in_r _ _ _ (sd_refines _ _ _ _ _ Hsd) _ HL) as [[[a b] c] [Ht HR]].
    assert (D1 : In (a, b) (dirs (tris inp))) by (apply dirs_tri; exists (a, b, c); cbn; auto).
    assert (D2 : In (b, c) (dirs (tris inp))) by (apply dirs_tri; exists (a, b, c); cbn; auto).
    assert (D3 : In (c, a) (dirs (tris inp))) by (apply dirs_tri; exists (a, b, c); cbn; auto).
    destruct (mid a b) as [e0|] eqn:E0; [|destruct (Hall a b D1 E0)]. destruct (mid b c) as [e1|] eqn:E1; [|destruct (Hall b c D2 E1)].
    destruct (mid c a) as [e2|] eqn:E2; [|destruct (Hall c a D3 E2)].
    pose proof (sd_sym _ _ _ _ _ Hsd) as Sy. assert (E0' := E0). assert (E1' := E1). assert (E2' := E2). rewrite Sy in E0', E1', E2'.
    assert (F1 : is_face inp a b c) by (left; exact Ht). assert (F2 : is_face inp b c a) by (right; right; exact Ht). assert (F3 : is_face inp c a b) by (right; left; exact Ht).
    apply (rf_four _ _ _ HR a b c e0 e1 e2 eq_refl E0 E1 E2) in Hu. cbn [In] in Hu.
    destruct Hu as [Hu|[Hu|[Hu|[Hu|[]]]]]; subst u; cbn [tdirs In] in Hxy; destruct Hxy as [Hxy|[Hxy|[Hxy|[]]]]; injection Hxy as <- <-; eauto. }
  intros x y Hxy. destruct (sd_nowire _ _ _ _ _ Hsd x y Hxy) as [H|H]; [apply G; exact H|apply Hsym, G; exact H].
Qed.
End LEVEL.

(** What one level does to a mesh with edges of length at most [L]. *)
Definition level_facts {d D} (s : cscheme) (L : R) (inp out : mesh (RO d) D) : Prop :=
  edges_within (shrink s * L) out /\
  (forall id, oget id (pts inp) <> None -> apart inp id out id <= stride s * L) /\
  (forall id, oget id (pts out) <> None -> exists id', oget id' (pts inp) <> None /\ apart inp id' out id <= stride s * L).

Section SCHEMES.
Context {d : nat} {D : Type}.
Notation mesh := (mesh (RO d) D).
Implicit Types m inp out : mesh.
Variables (L : R) (inp : mesh).
Hypotheses (L0 : 0 <= L) (HL : edges_within L inp) (Hv : valid inp).

Lemma short_edge a b : joined inp a b -> sq d (vec inp a b) <= L * L.
Proof. intros H. apply seg_sq; [exact L0|]. apply HL. exact H. Qed.
Lemma face_j a b c : is_face inp a b c -> joined inp a b /\ joined inp b a /\ joined inp b c /\ joined inp c b /\ joined inp c a /\ joined inp a c.
Proof.
  intros H. assert (J : forall x y z, is_face inp x y z -> joined inp x y /\ joined inp y x).
  { intros x y z F. assert (X : joined inp x y) by (apply (v_face_edges _ Hv); eapply is_face_dir; eauto). split; [exact X|apply (v_ring_sym _ Hv); exact X]. }
  destruct (J _ _ _ H) as [J1 J2]. destruct (J b c a) as [J3 J4]; [unfold is_face in *; tauto|]. destruct (J c a b) as [J5 J6]; [unfold is_face in *; tauto|]. auto 8.
Qed.

Lemma comb_ok W h s : (forall c z, In (c, z) W -> exists a b, z = vec inp a b /\ joined inp a b) ->
  (forall i, h i = comb W i) -> cabs W <= s -> sq d h <= (s * L) * (s * L).
Proof.
  intros HW. apply comb_len; [exact L0|]. intros c z Hz. destruct (HW c z Hz) as [a [b [-> Hj]]]. apply short_edge. exact Hj.
Qed.

Lemma face_level s out S mid Ls : s <> CSqrt3 -> subdivision inp out S mid Ls -> (forall a b, In (a, b) (dirs (tris inp)) -> mid a b <> None) ->
  (forall a b, mid a b <> None -> In (a, b) (dirs (tris inp)) \/ In (b, a) (dirs (tris inp))) ->
  (forall a b e, In (a, b) (dirs (tris inp)) \/ In (b, a) (dirs (tris inp)) -> mid a b = Some e -> sq d (vec out a e) <= (shrink s * L) * (shrink s * L)) ->
  (forall v w z e1 e2, is_face inp v w z -> mid v w = Some e1 -> mid v z = Some e2 -> sq d (vec out e1 e2) <= (shrink s * L) * (shrink s * L)) ->
  (forall id, oget id (pts inp) <> None -> sq d (gap inp id out id) <= (stride s * L) * (stride s * L)) ->
  (forall a b e, In (a, b) (dirs (tris inp)) \/ In (b, a) (dirs (tris inp)) -> mid a b = Some e -> sq d (gap inp a out e) <= (stride s * L) * (stride s * L)) ->
  level_facts s L inp out.
Proof.
  intros Hs Hsd Hall Hdom HA HB HC HD.
  assert (S0 : 0 <= shrink s * L) by (apply Rmult_le_pos; [destruct s; cbn; lra|exact L0]).
  assert (T0 : 0 <= stride s * L) by (apply Rmult_le_pos; [destruct s; cbn; lra|exact L0]).
  split; [|split].
  - intros x y. revert x y. apply (edge_ind inp out S mid Ls (fun x y => seg_length out x y <= shrink s * L) Hsd Hall).
    + intros x y H. apply seg_sq; [exact S0|]. apply seg_sq in H; [|exact S0]. rewrite (sq_opp d (vec out x y)); [exact H|]. intros i. unfold vec. ring.
    + intros a b e H1 H2. apply seg_sq; [exact S0|]. eapply HA; eauto.
    + intros v w z e1 e2 H1 H2 H3. apply seg_sq; [exact S0|]. eapply HB; eauto.
  - intros id H. apply apart_sq; [exact T0|]. apply HC. exact H.
  - intros id H. destruct (oget id (pts inp)) as [p|] eqn:E.
    + exists id. split; [congruence|]. apply apart_sq; [exact T0|]. apply HC. congruence.
    + destruct (proj2 (sd_new _ _ _ _ _ Hsd id) (conj E H)) as [a [b He]].
      assert (Hab : In (a, b) (dirs (tris inp)) \/ In (b, a) (dirs (tris inp))) by (apply Hdom; congruence).
      exists a. split; [|apply apart_sq; [exact T0|]; eapply HD; eauto].
      assert (J : joined inp b a) by (destruct Hab as [X|X]; [apply (v_ring_sym _ Hv)|]; apply (v_face_edges _ Hv); exact X).
      apply (v_ring_pts _ Hv b a J).
Qed.

(** Which edges are split when nothing is selected. *)
Lemma all_split s f out mid Ls : csel f = [] -> subdivision inp out (to_split (CellF s) f inp) mid Ls ->
  (forall a b, In (a, b) (dirs (tris inp)) -> mid a b <> None) /\
  (forall a b, mid a b <> None -> In (a, b) (dirs (tris inp)) \/ In (b, a) (dirs (tris inp))).
Proof.
  intros Hc Hsd. split.
  - intros a b H. apply (sd_dom _ _ _ _ _ Hsd). apply dirs_tri in H. destruct H as [t [Ht H]]. exists t. split; [left; auto|left; exact H].
  - intros a b H. apply (sd_dom _ _ _ _ _ Hsd) in H. destruct H as [t [[[_ Ht]|[i [Hi _]]] Hab]]; [|rewrite Hc in Hi; destruct Hi].
    destruct Hab as [X|X]; [left|right]; apply dirs_tri; eauto.
Qed.
Lemma split_old s f out mid Ls v e w : subdivision inp out (to_split (CellF s) f inp) mid Ls -> mid v w = Some e -> oget e (pts inp) = None.
Proof. intros Hsd E. apply (sd_new _ _ _ _ _ Hsd e). eauto. Qed.

Ltac shorts := let c := fresh in let z := fresh in let H := fresh in intros c z H; cbn [In] in H;
  repeat match type of H with _ \/ _ => destruct H as [H|H] end; try contradiction; injection H as <- <-; do 2 eexists; (split; [reflexivity|assumption]).
Ltac weights := unfold cabs, rsum; cbn [fold_right fst snd]; repeat rewrite Rabs_pos_eq by lra; lra.
Ltac ucomb := unfold comb, rsum; cbn [fold_right fst snd]; unfold vec, gap.

Lemma old_same k f fuel f' out : dense inp -> ready k f inp -> k <> CellF CLoop -> update k fuel f inp = Ok (f', out) ->
  forall id i, oget id (pts inp) <> None -> crd out i id = crd inp i id.
Proof.
  intros Hd Hr Hk E id i H. destruct (oget id (pts inp)) as [p|] eqn:Ep; [|congruence].
  pose proof (C15_interpolating_pf _ _ k f inp fuel f' out id p Hv Hd Hr Hk E Ep) as Eo. unfold crd, ptof. rewrite Ep, Eo. reflexivity.
Qed.

Lemma linear_level f fuel f' out : dense inp -> csel f = [] -> update (CellF CLinear) fuel f inp = Ok (f', out) -> level_facts CLinear L inp out.
Proof.
  intros Hd Hc E. assert (Hr : ready (CellF CLinear) f inp) by (apply ready_uniform; auto; discriminate).
  destruct (C16_midpoint_pf d D _ f inp fuel f' out (or_introl eq_refl) Hv Hd Hr E) as [mid [Ls [Hsd Hm]]].
  pose proof (old_same _ f fuel f' out Hd Hr ltac:(discriminate) E) as Ho.
  destruct (all_split _ _ _ _ _ Hc Hsd) as [Hall Hdom].
  apply (face_level CLinear out _ mid Ls ltac:(discriminate) Hsd Hall Hdom); cbn [shrink stride].
  - intros a b e H He. assert (J : joined inp a b) by (destruct H as [X|X]; [|apply (v_ring_sym _ Hv)]; apply (v_face_edges _ Hv); exact X).
    apply (comb_ok [(1 / 2, vec inp a b)]); [shorts| |weights]. intros i. ucomb. rewrite (Hm a b e i He), Ho; [lra|]. apply (v_ring_pts _ Hv b a). apply (v_ring_sym _ Hv). exact J.
  - intros v w z e1 e2 F H1 H2. destruct (face_j _ _ _ F) as [J1 [J2 [J3 [J4 [J5 J6]]]]].
    apply (comb_ok [(1 / 2, vec inp w z)]); [shorts| |weights]. intros i. ucomb. rewrite (Hm _ _ _ i H1), (Hm _ _ _ i H2). lra.
  - intros id H. apply (comb_ok []); [intros c z []| |weights]. intros i. ucomb. rewrite Ho by exact H. lra.
  - intros a b e H He. assert (J : joined inp a b) by (destruct H as [X|X]; [|apply (v_ring_sym _ Hv)]; apply (v_face_edges _ Hv); exact X).
    apply (comb_ok [(1 / 2, vec inp a b)]); [shorts| |weights]. intros i. ucomb. rewrite (Hm a b e i He). lra.
Qed.

Lemma closed_faces a b : closed inp -> In (a, b) (dirs (tris inp)) \/ In (b, a) (dirs (tris inp)) -> exists c e, is_face inp a b c /\ is_face inp b a e.
Proof.
  intros Hc H. assert (X : In (a, b) (dirs (tris inp)) /\ In (b, a) (dirs (tris inp))) by (destruct H as [X|X]; split; auto).
  destruct X as [X1 X2]. apply dir_is_face in X1, X2. destruct X1 as [c X1], X2 as [e X2]. eauto.
Qed.
Lemma closed_wing a b c : closed inp -> is_face inp a b c -> exists w, is_face inp c b w.
Proof. intros Hc F. apply dir_is_face. apply Hc. eapply is_face_dir. unfold is_face in *. instantiate (1 := a). tauto. Qed.
Lemma closed_wing' a b c : closed inp -> is_face inp a b c -> exists w, is_face inp a c w.
Proof. intros Hc F. apply dir_is_face. apply Hc. eapply is_face_dir. unfold is_face in *. instantiate (1 := b). tauto. Qed.
Lemma rot a b c : is_face inp a b c -> is_face inp b c a.
Proof. unfold is_face. tauto. Qed.

Lemma butterfly_level f fuel f' out : dense inp -> csel f = [] -> closed inp -> update (CellF CButterfly) fuel f inp = Ok (f', out) -> level_facts CButterfly L inp out.
Proof.
  intros Hd Hc Hcl E. assert (Hr : ready (CellF CButterfly) f inp) by (apply ready_uniform; auto; discriminate).
  destruct (C19_butterfly_stencil_pf d D _ f inp fuel f' out (or_introl eq_refl) Hv Hd Hr E) as [mid [Ls [Hsd Hm]]].
  pose proof (old_same _ f fuel f' out Hd Hr ltac:(discriminate) E) as Ho.
  destruct (all_split _ _ _ _ _ Hc Hsd) as [Hall Hdom].
  assert (A : forall a b e, In (a, b) (dirs (tris inp)) \/ In (b, a) (dirs (tris inp)) -> mid a b = Some e ->
     sq d (gap inp a out e) <= (3 / 4 * L) * (3 / 4 * L) /\ oget a (pts inp) <> None).
  { intros a b e H He. destruct (closed_faces a b Hcl H) as [c [x [F1 F2]]]. destruct (closed_wing _ _ _ Hcl F1) as [w1 G1]. destruct (closed_wing' _ _ _ Hcl F1) as [w2 G2].
    destruct (closed_wing' _ _ _ Hcl F2) as [w3 G3]. destruct (closed_wing _ _ _ Hcl F2) as [w4 G4].
    destruct (face_j _ _ _ F1) as [J1 [J2 _]]. destruct (face_j _ _ _ G1) as [_ [_ [_ [_ [_ K1]]]]]. destruct (face_j _ _ _ G2) as [_ [_ [K2 _]]].
    destruct (face_j _ _ _ G3) as [_ [_ [K3 _]]]. destruct (face_j _ _ _ G4) as [_ [_ [_ [_ [_ K4]]]]].
    split; [|apply (v_ring_pts _ Hv b a J2)].
    apply (comb_ok [(1 / 2, vec inp a b); (- (1 / 16), vec inp c w1); (- (1 / 16), vec inp c w2); (- (1 / 16), vec inp x w3); (- (1 / 16), vec inp x w4)]); [shorts| |].
    - intros i. ucomb. rewrite (Hm a b e c x w1 w2 w3 w4 i He F1 F2 G1 G2 G3 G4). lra.
    - unfold cabs, rsum; cbn [fold_right fst snd]. rewrite !Rabs_Ropp. repeat rewrite Rabs_pos_eq by lra. lra. }
  apply (face_level CButterfly out _ mid Ls ltac:(discriminate) Hsd Hall Hdom); cbn [shrink stride].
  - intros a b e H He. destruct (A a b e H He) as [A1 A2]. replace (sq d (vec out a e)) with (sq d (gap inp a out e)); [exact A1|].
    apply rsum_ext. intros i _. unfold gap, vec. rewrite (Ho a i A2). reflexivity.
  - intros v w x e1 e2 F H1 H2.
    destruct (closed_faces v w Hcl (or_introl (is_face_dir _ _ _ _ F))) as [_ [b [_ Fb]]].
    destruct (closed_wing' _ _ _ Hcl F) as [c Fc]. destruct (closed_wing _ _ _ Hcl F) as [y Fy].
    destruct (closed_wing' _ _ _ Hcl Fb) as [w3 G3]. destruct (closed_wing _ _ _ Hcl Fb) as [w4 G4].
    destruct (closed_wing' _ _ _ Hcl Fc) as [u3 K3]. destruct (closed_wing _ _ _ Hcl Fc) as [u4 K4].
    assert (Fx : is_face inp x v w) by (apply rot, rot; exact F).
    assert (S2 : mid x v = Some e2) by (rewrite (sd_sym _ _ _ _ _ Hsd); exact H2).
    destruct (face_j _ _ _ F) as [_ [_ [Jwx _]]]. destruct (face_j _ _ _ Fb) as [_ [_ [Jvb [Jbv _]]]]. destruct (face_j _ _ _ Fc) as [_ [_ [_ [_ [Jcv Jvc]]]]].
    destruct (face_j _ _ _ G3) as [_ [_ [M3 _]]]. destruct (face_j _ _ _ G4) as [_ [_ [_ [_ [_ M4]]]]].
    destruct (face_j _ _ _ K3) as [_ [_ [P3 _]]]. destruct (face_j _ _ _ K4) as [_ [_ [_ [_ [_ P4]]]]].
    apply (comb_ok [(3 / 8, vec inp w x); (1 / 16, vec inp b v); (1 / 16, vec inp v c); (1 / 16, vec inp b w3); (1 / 16, vec inp b w4); (- (1 / 16), vec inp c u3); (- (1 / 16), vec inp c u4)]); [shorts| |].
    + intros i. ucomb. rewrite (Hm v w e1 x b y c w3 w4 i H1 F Fb Fy Fc G3 G4), (Hm x v e2 w c b y u3 u4 i S2 Fx Fc Fb Fy K3 K4). lra.
    + unfold cabs, rsum; cbn [fold_right fst snd]. rewrite !Rabs_Ropp. repeat rewrite Rabs_pos_eq by lra. lra.
  - intros id H. apply (comb_ok []); [intros c z []| |weights]. intros i. ucomb. rewrite Ho by exact H. lra.
  - intros a b e H He. apply (A a b e H He).
Qed.

(** *** Loop *)
Lemma comb_app W1 W2 i : comb (W1 ++ W2) i = comb W1 i + comb W2 i.
Proof. apply rsum_app. Qed.
Lemma cabs_app W1 W2 : cabs (W1 ++ W2) = cabs W1 + cabs W2.
Proof. apply rsum_app. Qed.
Definition star (c : R) (v : N) (l : list N) : list (R * (nat -> R)) := map (fun u => (c, vec inp v u)) l.
Lemma comb_star c v l i : comb (star c v l) i = c * (rsum (crd inp i) l - INR (length l) * crd inp i v).
Proof.
  unfold comb, star. induction l as [|u l IH]; [cbn; ring|]. cbn [map length]. rewrite S_INR.
  change (rsum (fun cz => fst cz * snd cz i) ((c, vec inp v u) :: map (fun u => (c, vec inp v u)) l))
    with (c * vec inp v u i + rsum (fun cz => fst cz * snd cz i) (map (fun u => (c, vec inp v u)) l)).
  change (rsum (crd inp i) (u :: l)) with (crd inp i u + rsum (crd inp i) l). rewrite IH. unfold vec. ring.
Qed.
Lemma cabs_star c v l : cabs (star c v l) = INR (length l) * Rabs c.
Proof.
  unfold cabs, star. induction l as [|u l IH]; [cbn; ring|]. cbn [map length]. rewrite S_INR.
  change (rsum (fun cz => Rabs (fst cz)) ((c, vec inp v u) :: map (fun u => (c, vec inp v u)) l))
    with (Rabs c + rsum (fun cz => Rabs (fst cz)) (map (fun u => (c, vec inp v u)) l)). rewrite IH. ring.
Qed.
Lemma star_ok c0 v l c z : (forall u, In u l -> joined inp v u) -> In (c, z) (star c0 v l) -> exists a b, z = vec inp a b /\ joined inp a b.
Proof. intros Hl H. unfold star in H. apply in_map_iff in H. destruct H as [u [E Hu]]. injection E as <- <-. eauto. Qed.

Lemma pick (l : list N) a b c : In a l -> In b l -> In c l -> a <> b -> a <> c -> b <> c -> exists r, Permutation l (a :: b :: c :: r).
Proof.
  intros Ha Hb Hc N1 N2 N3. destruct (in_split _ _ Ha) as [x1 [y1 E1]].
  assert (P1 : Permutation l (a :: x1 ++ y1)) by (rewrite E1; symmetry; apply Permutation_middle).
  assert (Hb1 : In b (x1 ++ y1)) by (apply (Permutation_in _ P1) in Hb; destruct Hb; [congruence|assumption]).
  assert (Hc1 : In c (x1 ++ y1)) by (apply (Permutation_in _ P1) in Hc; destruct Hc; [congruence|assumption]).
  destruct (in_split _ _ Hb1) as [x2 [y2 E2]].
  assert (P2 : Permutation (x1 ++ y1) (b :: x2 ++ y2)) by (rewrite E2; symmetry; apply Permutation_middle).
  assert (Hc2 : In c (x2 ++ y2)) by (apply (Permutation_in _ P2) in Hc1; destruct Hc1; [congruence|assumption]).
  destruct (in_split _ _ Hc2) as [x3 [y3 E3]]. exists (x3 ++ y3).
  rewrite P1, P2, E3. do 2 apply perm_skip. symmetry. apply Permutation_middle.
Qed.

Lemma face_neq a b c : is_face inp a b c -> a <> b /\ b <> c /\ a <> c.
Proof.
  intros F. destruct (face_j _ _ _ F) as [J1 [_ [J2 [_ [_ J3]]]]]. pose proof (v_ring_irr _ Hv) as Ir.
  repeat split; intros ->; eapply Ir; eauto.
Qed.
Lemma face_unique a b c e : is_face inp a b c -> is_face inp a b e -> c = e.
Proof. intros F G. pose proof (face_lnext inp a b c Hv F) as X. rewrite (face_lnext inp a b e Hv G) in X. congruence. Qed.
Lemma not_twin a b c e : is_face inp a b c -> is_face inp b a e -> c <> e.
Proof.
  intros F G ->. destruct (face_neq _ _ _ F) as [N1 [N2 N3]]. assert (T : forall x y z, is_face inp x y z -> exists t, In t (tris inp) /\ (t = (x, y, z) \/ t = (y, z, x) \/ t = (z, x, y))).
  { intros x y z [H|[H|H]]; eauto. }
  destruct (T _ _ _ F) as [t [Ht Et]]. destruct (T _ _ _ G) as [u [Hu Eu]].
  assert (E : t = u).
  { apply (v_notwin _ Hv t u Ht Hu). intros x. destruct Et as [->|[->| ->]]; destruct Eu as [->|[->| ->]]; cbn; tauto. }
  destruct Et as [->|[->| ->]]; destruct Eu as [->|[->| ->]]; inversion E; congruence.
Qed.

Lemma loop_level f fuel f' out : dense inp -> csel f = [] -> uniform f = true -> no_isolated inp -> (forall v, one_fan inp v) ->
  update (CellF CLoop) fuel f inp = Ok (f', out) -> level_facts CLoop L inp out.
Proof.
  intros Hd Hc Hu Hni Hof E. assert (Hr : ready (CellF CLoop) f inp) by (apply ready_uniform; auto; discriminate).
  destruct (C17_edge_rule_pf d D _ f inp fuel f' out (or_introl eq_refl) Hv Hd Hr E) as [mid [Ls [Hsd Hm]]].
  destruct (all_split _ _ _ _ _ Hc Hsd) as [Hall Hdom].
  assert (HV : forall v, oget v (pts inp) <> None ->
     (interior_vertex inp v /\ forall i, crd out i v = (1 - INR (length (ring inp v)) * loop_weight (N.of_nat (length (ring inp v)))) * crd inp i v + loop_weight (N.of_nat (length (ring inp v))) * rsum (crd inp i) (ring inp v)) \/
     exists p q, joined inp v p /\ joined inp v q /\ forall i, crd out i v = 3 / 4 * crd inp i v + 1 / 8 * (crd inp i p + crd inp i q)).
  { intros v Hin. pose proof (C18_vertex_rule_pf d D f inp fuel f' out v) as HR.
    destruct (filter_border inp v Hv) as [B1 B2]. set (B := filter _ (ring inp v)) in *. assert (HB : border_neighbours inp v B) by (split; assumption).
    destruct (Hof v B HB) as [B0|Bt].
    - left. assert (IV : interior_vertex inp v) by (split; [apply Hni; exact Hin|]; intros w Hw; apply B2 in Hw; rewrite B0 in Hw; destruct Hw).
      split; [exact IV|]. intros i. destruct (HR i Hv Hd Hni Hc Hu E Hin) as [R1 _]. rewrite (R1 IV), <- INR_IZR_INZ. reflexivity.
    - right. destruct B as [|p [|q [|x B]]]; try discriminate Bt. exists p, q.
      split; [apply (proj1 (B2 p)); cbn; auto|]. split; [apply (proj1 (B2 q)); cbn; auto|]. intros i.
      destruct (HR i Hv Hd Hni Hc Hu E Hin) as [_ R2]. rewrite (R2 _ HB ltac:(discriminate)). unfold rsum; cbn [fold_right]. ring. }
  assert (Hj : forall a b, In (a, b) (dirs (tris inp)) \/ In (b, a) (dirs (tris inp)) -> joined inp a b).
  { intros a b H. destruct H as [X|X]; [|apply (v_ring_sym _ Hv)]; apply (v_face_edges _ Hv); exact X. }
  assert (HE : forall a b e, mid a b = Some e ->
     (exists c x, is_face inp a b c /\ is_face inp b a x /\ forall i, crd out i e = 3 / 8 * crd inp i a + 3 / 8 * crd inp i b + 1 / 8 * crd inp i c + 1 / 8 * crd inp i x) \/
     (border_edge inp a b /\ forall i, crd out i e = (crd inp i a + crd inp i b) / 2)).
  { intros a b e He. destruct (Hm a b e He) as [[HI|HB] [H2 [H3 H4]]]; [left|right; auto]. destruct (H2 HI) as [c [x [F1 F2]]]. exists c, x. auto. }
  apply (face_level CLoop out _ mid Ls ltac:(discriminate) Hsd Hall Hdom); cbn [shrink stride].
  - intros v w e H He. pose proof (Hj v w H) as J. pose proof (v_ring_pts _ Hv w v (v_ring_sym _ Hv _ _ J)) as Hin.
    destruct (HV v Hin) as [[IV Ev]|[p [q [Jp [Jq Ev]]]]].
    + destruct (HE v w e He) as [[a [b [F1 [F2 Ee]]]]|[HB _]]; [|destruct (proj2 IV w HB)].
      destruct (face_j _ _ _ F1) as [_ [_ [_ [_ [_ Ja]]]]]. destruct (face_j _ _ _ F2) as [_ [_ [Jb _]]].
      destruct (face_neq _ _ _ F1) as [_ [N1 _]]. destruct (face_neq _ _ _ F2) as [_ [_ N2]]. pose proof (not_twin _ _ _ _ F1 F2) as N3.
      destruct (pick (ring inp v) w a b J Ja Jb N1 N2 N3) as [r Pr]. pose proof (Permutation_length Pr) as Hn. cbn [length] in Hn.
      set (n := length (ring inp v)) in *. assert (N : (3 <= n)%nat) by lia. destruct (loop_beta_bounds n N) as [B0 [_ B2]]. set (be := loop_weight (N.of_nat n)) in *.
      apply (comb_ok ((3 / 8 - be, vec inp v w) :: (1 / 8 - be, vec inp v a) :: (1 / 8 - be, vec inp v b) :: star (- be) v r)).
      * intros c z [X|[X|[X|X]]]; try (injection X as <- <-; do 2 eexists; (split; [reflexivity|assumption])). apply (star_ok _ _ _ _ _) in X; [exact X|].
        intros u Hu'. apply (Permutation_in _ (Permutation_sym Pr)). cbn. auto.
      * intros i. change (comb ((3 / 8 - be, vec inp v w) :: (1 / 8 - be, vec inp v a) :: (1 / 8 - be, vec inp v b) :: star (- be) v r) i)
          with ((3 / 8 - be) * vec inp v w i + ((1 / 8 - be) * vec inp v a i + ((1 / 8 - be) * vec inp v b i + comb (star (- be) v r) i))).
        rewrite comb_star. unfold vec. rewrite Ev, Ee, (rsum_perm _ _ _ Pr).
        change (rsum (crd inp i) (w :: a :: b :: r)) with (crd inp i w + (crd inp i a + (crd inp i b + rsum (crd inp i) r))).
        rewrite Hn, !S_INR. field.
      * change (cabs ((3 / 8 - be, vec inp v w) :: (1 / 8 - be, vec inp v a) :: (1 / 8 - be, vec inp v b) :: star (- be) v r))
          with (Rabs (3 / 8 - be) + (Rabs (1 / 8 - be) + (Rabs (1 / 8 - be) + cabs (star (- be) v r)))).
        rewrite cabs_star, Rabs_Ropp, (Rabs_pos_eq be) by lra. assert (INR n = INR (length r) + 3) by (rewrite Hn, !S_INR; ring). nra.
    + destruct (HE v w e He) as [[a [b [F1 [F2 Ee]]]]|[HB Ee]].
      * destruct (face_j _ _ _ F1) as [_ [_ [_ [_ [_ Ja]]]]]. destruct (face_j _ _ _ F2) as [_ [_ [Jb _]]]. pose proof (v_ring_sym _ Hv _ _ Jp). pose proof (v_ring_sym _ Hv _ _ Jq).
        apply (comb_ok [(3 / 8, vec inp v w); (1 / 8, vec inp v a); (1 / 8, vec inp v b); (1 / 8, vec inp p v); (1 / 8, vec inp q v)]); [shorts| |weights].
        intros i. ucomb. rewrite Ev, Ee. lra.
      * pose proof (v_ring_sym _ Hv _ _ Jp). pose proof (v_ring_sym _ Hv _ _ Jq).
        apply (comb_ok [(1 / 2, vec inp v w); (1 / 8, vec inp p v); (1 / 8, vec inp q v)]); [shorts| |weights].
        intros i. ucomb. rewrite Ev, Ee. lra.
  - intros v w z e1 e2 F H1 H2. destruct (face_j _ _ _ F) as [J1 [J2 [J3 [J4 [J5 J6]]]]].
    assert (U1 : forall c, is_face inp v w c -> c = z) by (intros c Fc; exact (face_unique _ _ _ _ Fc F)).
    assert (U2 : forall c, is_face inp z v c -> c = w) by (intros c Fc; exact (face_unique _ _ _ _ Fc (rot _ _ _ (rot _ _ _ F)))).
    destruct (HE v w e1 H1) as [[a [b [F1 [F2 E1]]]]|[HB1 E1]]; destruct (HE v z e2 H2) as [[a' [c [G1 [G2 E2]]]]|[HB2 E2]];
      try (rewrite (U1 _ F1) in *); try (rewrite (U2 _ G2) in *).
    + destruct (face_j _ _ _ F2) as [_ [_ [Jvb [Jbv _]]]]. destruct (face_j _ _ _ G1) as [_ [_ [_ [_ [Jcv Jvc]]]]].
      apply (comb_ok [(1 / 4, vec inp w z); (1 / 8, vec inp b v); (1 / 8, vec inp v a')]); [shorts| |weights]. intros i. ucomb. rewrite E1, E2. lra.
    + destruct (face_j _ _ _ F2) as [_ [_ [Jvb [Jbv _]]]].
      apply (comb_ok [(3 / 8, vec inp w z); (1 / 8, vec inp b v)]); [shorts| |weights]. intros i. ucomb. rewrite E1, E2. lra.
    + destruct (face_j _ _ _ G1) as [_ [_ [_ [_ [Jcv Jvc]]]]].
      apply (comb_ok [(3 / 8, vec inp w z); (1 / 8, vec inp v a')]); [shorts| |weights]. intros i. ucomb. rewrite E1, E2. lra.
    + apply (comb_ok [(1 / 2, vec inp w z)]); [shorts| |weights]. intros i. ucomb. rewrite E1, E2. lra.
  - intros v Hin. destruct (HV v Hin) as [[IV Ev]|[p [q [Jp [Jq Ev]]]]].
    + set (n := length (ring inp v)) in *. set (be := loop_weight (N.of_nat n)) in *. assert (Hn : (1 <= n)%nat) by (unfold n; pose proof (proj1 IV); destruct (ring inp v); [congruence|cbn; lia]).
      destruct (C22_weight_bounds_pf (N.of_nat n) ltac:(lia)) as [B0 B1]. fold be in B0, B1. rewrite nat_N_Z, <- INR_IZR_INZ in B1.
      apply (comb_ok (star be v (ring inp v))).
      * intros c z X. apply (star_ok _ _ _ _ _) in X; [exact X|]. intros u Hu'. exact Hu'.
      * intros i. rewrite comb_star. unfold gap. rewrite Ev. fold n. ring.
      * rewrite cabs_star, Rabs_pos_eq by lra. fold n. lra.
    + apply (comb_ok [(1 / 8, vec inp v p); (1 / 8, vec inp v q)]); [shorts| |weights]. intros i. ucomb. rewrite Ev. lra.
  - intros v w e H He. pose proof (Hj v w H) as J. destruct (HE v w e He) as [[a [b [F1 [F2 Ee]]]]|[HB Ee]].
    + destruct (face_j _ _ _ F1) as [_ [_ [_ [_ [_ Ja]]]]]. destruct (face_j _ _ _ F2) as [_ [_ [Jb _]]].
      apply (comb_ok [(3 / 8, vec inp v w); (1 / 8, vec inp v a); (1 / 8, vec inp v b)]); [shorts| |weights]. intros i. ucomb. rewrite Ee. lra.
    + apply (comb_ok [(1 / 2, vec inp v w)]); [shorts| |weights]. intros i. ucomb. rewrite Ee. lra.
Qed.

(** *** sqrt(3) *)
Lemma root3_level f fuel f' out : dense inp -> csel f = [] -> closed inp -> ready3 f inp -> update (CellF CSqrt3) fuel f inp = Ok (f', out) ->
  level_facts CSqrt3 L inp out.
Proof.
  intros Hd Hc Hcl Hr E. destruct (C20_centroid_pf d D f inp fuel f' out Hv Hd Hr E) as [cen [Hsd [Ho Hg]]]. rewrite Hc in Hsd.
  assert (Hsel : forall t, In t (tris inp) -> cen t <> None) by (intros t Ht; apply (r3_dom _ _ _ _ Hsd t Ht); left; auto).
  assert (HC : forall t a b g, In t (tris inp) -> In (a, b) (tdirs t) -> cen t = Some g -> exists c, is_face inp a b c /\ forall i, crd out i g = (crd inp i a + crd inp i b + crd inp i c) / 3).
  { intros [[x y] z] a b g Ht Hab Hcen. cbn [tdirs In] in Hab. destruct Hab as [X|[X|[X|[]]]]; injection X as <- <-.
    - exists z. split; [left; exact Ht|]. intros i. apply Hg; assumption.
    - exists x. split; [right; right; exact Ht|]. intros i. rewrite (Hg x y z g i Ht Hcen). lra.
    - exists y. split; [right; left; exact Ht|]. intros i. rewrite (Hg x y z g i Ht Hcen). lra. }
  assert (HC1 : forall a b c g, is_face inp a b c -> (forall i, crd out i g = (crd inp i a + crd inp i b + crd inp i c) / 3) ->
     sq d (gap inp a out g) <= (2 / 3 * L) * (2 / 3 * L)).
  { intros a b c g F Eg. destruct (face_j _ _ _ F) as [J1 [J2 [J3 [J4 [J5 J6]]]]].
    apply (comb_ok [(1 / 3, vec inp a b); (1 / 3, vec inp a c)]); [shorts| |weights]. intros i. ucomb. rewrite Eg. lra. }
  assert (Hpt : forall a b c, is_face inp a b c -> oget a (pts inp) <> None /\ oget b (pts inp) <> None).
  { intros a b c F. destruct (face_j _ _ _ F) as [J1 [J2 _]]. split; eapply (v_ring_pts _ Hv); eauto. }
  assert (S0 : 0 <= 2 / 3 * L) by lra.
  assert (G : forall x y, In (x, y) (dirs (tris out)) -> seg_length out x y <= 2 / 3 * L).
  { intros x y Hxy. apply dirs_tri in Hxy. destruct Hxy as [w [Hw Hxy]]. apply (r3_faces _ _ _ _ Hsd) in Hw. destruct Hw as [t [Ht [[K _]|[K|K]]]].
    - destruct (Hsel t Ht K).
    - destruct K as [g [a [b [Hcen [Hab [Hno _]]]]]]. exfalso.
      assert (X : In (b, a) (dirs (tris inp))) by (apply Hcl; apply dirs_tri; eauto). apply dirs_tri in X. destruct X as [u [Hu X]].
      destruct (cen u) as [h|] eqn:Eh; [|exact (Hsel u Hu Eh)]. apply (Hno h). exists u. auto.
    - destruct K as [g [h [a [b [Hcen [Hab [[u [Hu [Hba Hcu]]] ->]]]]]]].
      destruct (HC t a b g Ht Hab Hcen) as [c [F1 E1]]. destruct (HC u b a h Hu Hba Hcu) as [e [F2 E2]].
      destruct (Hpt _ _ _ F1) as [_ Hb]. apply seg_sq; [exact S0|].
      cbn [tdirs In] in Hxy. destruct Hxy as [X|[X|[X|[]]]]; injection X as <- <-.
      + destruct (face_j _ _ _ F1) as [_ [_ [_ [_ [Jca _]]]]]. destruct (face_j _ _ _ F2) as [_ [_ [Jae _]]].
        apply (comb_ok [(1 / 3, vec inp c a); (1 / 3, vec inp a e)]); [shorts| |weights]. intros i. ucomb. rewrite E1, E2. lra.
      + rewrite (sq_opp d (gap inp b out h)); [apply (HC1 b a e); assumption|]. intros i. unfold vec, gap. rewrite (Ho b i Hb). ring.
      + replace (sq d (vec out b g)) with (sq d (gap inp b out g)); [apply (HC1 b c a); [apply rot; exact F1|intros i; rewrite E1; lra]|].
        apply rsum_ext. intros i _. unfold vec, gap. rewrite (Ho b i Hb). reflexivity. }
  split; [|split].
  - intros x y Hxy. cbn [shrink]. destruct (r3_nowire _ _ _ _ Hsd x y Hxy) as [X|X]; [apply G; exact X|]. apply G in X. apply seg_sq; [exact S0|]. apply seg_sq in X; [|exact S0].
    rewrite (sq_opp d (vec out y x)); [exact X|]. intros i. unfold vec. ring.
  - intros id H. cbn [stride]. rewrite apart_same; [lra|]. intros i. apply Ho. exact H.
  - intros id H. cbn [stride]. destruct (oget id (pts inp)) as [p|] eqn:Ep.
    + exists id. split; [congruence|]. rewrite apart_same; [lra|]. intros i. apply Ho. congruence.
    + destruct (proj2 (r3_new _ _ _ _ Hsd id) (conj Ep H)) as [[[a b] c] [Ht Hcen]]. assert (F : is_face inp a b c) by (left; exact Ht).
      exists a. split; [apply (Hpt _ _ _ F)|]. apply apart_sq; [exact S0|]. apply (HC1 a b c id F). intros i. apply Hg; assumption.
Qed.
End SCHEMES.

(** ** The next level starts from a mesh of the same kind *)
Section NEXT.
Context {d : nat} {D : Type}.
Notation mesh := (mesh (RO d) D).
Implicit Types m inp out : mesh.

Lemma two_only (B : list N) a b : NoDup B -> (forall w, In w B <-> w = a \/ w = b) -> a <> b -> length B = 2%nat.
Proof.
  intros Hn H Hab. assert (P : Permutation B [a; b]).
  { apply NoDup_Permutation; [exact Hn|repeat constructor; cbn; intuition congruence|]. intros w. rewrite H. cbn. intuition congruence. }
  rewrite (Permutation_length P). reflexivity.
Qed.

Lemma loop_fans f inp fuel f' out : valid inp -> dense inp -> csel f = [] -> no_isolated inp -> (forall v, one_fan inp v) -> valid out ->
  update (CellF CLoop) fuel f inp = Ok (f', out) -> forall v, one_fan out v.
Proof.
  intros Hv Hd Hc Hni Hof Hvo E v. assert (Hr : ready (CellF CLoop) f inp) by (apply ready_uniform; auto; discriminate).
  destruct (C06_all_pf _ _ _ f inp fuel f' out Hv Hd Hr E) as [mid [Ls [Hsd [HB _]]]].
  destruct (all_split inp _ _ _ _ _ Hc Hsd) as [Hall Hdom]. pose proof (sd_sym _ _ _ _ _ Hsd) as Sy.
  assert (New : forall a b e, mid a b = Some e -> oget e (pts inp) = None) by (intros a b e He; apply (sd_new _ _ _ _ _ Hsd e); eauto).
  assert (Old : forall a b, border_edge inp a b -> oget a (pts inp) <> None /\ a <> b).
  { intros a b [J _]. split; [apply (v_ring_pts _ Hv b a), (v_ring_sym _ Hv); exact J|]. intros ->. exact (v_ring_irr _ Hv _ J). }
  assert (Bs : forall m a b, valid m -> (border_edge m a b <-> border_dir m a b \/ border_dir m b a)).
  { intros m a b Hm. unfold border_edge, border_dir. split; [tauto|]. intros [[X Y]|[X Y]]; (split; [|tauto]); [|apply (v_ring_sym _ Hm)]; apply (v_face_edges _ Hm); exact X. }
  assert (Ch : forall x y, border_edge out x y <-> exists a b e, border_edge inp a b /\ mid a b = Some e /\ ((x = a /\ y = e) \/ (x = e /\ y = a))).
  { intros x y. rewrite (Bs out x y Hvo), !HB. split.
    - intros [[a [b [Hb Hp]]]|[a [b [Hb Hp]]]]; unfold part_of in Hp; destruct (mid a b) as [e|] eqn:Ee; try (destruct (Hall a b (proj1 Hb) Ee));
        (assert (B1 : border_edge inp a b) by (apply (Bs inp a b Hv); auto)); (assert (B2 : border_edge inp b a) by (apply (Bs inp b a Hv); auto));
        (assert (Ee' := Ee); rewrite Sy in Ee'); destruct Hp as [[-> ->]|[-> ->]];
        first [exists a, b, e; tauto | exists b, a, e; tauto].
    - intros [a [b [e [Hb [Ee Hx]]]]]. apply (Bs inp a b Hv) in Hb. assert (Ee' := Ee). rewrite Sy in Ee'.
      destruct Hb as [Hb|Hb]; destruct Hx as [[-> ->]|[-> ->]].
      + left. exists a, b. split; [exact Hb|]. unfold part_of. rewrite Ee. auto.
      + right. exists a, b. split; [exact Hb|]. unfold part_of. rewrite Ee. auto.
      + right. exists b, a. split; [exact Hb|]. unfold part_of. rewrite Ee'. auto.
      + left. exists b, a. split; [exact Hb|]. unfold part_of. rewrite Ee'. auto. }
  intros B [Hn HBn]. destruct B as [|w0 B0] eqn:EB; [left; reflexivity|]. right. rewrite <- EB in *.
  assert (H0 : border_edge out v w0) by (apply HBn; rewrite EB; cbn; auto). clear EB B0.
  apply Ch in H0. destruct H0 as [a [b [e [Hb [Ee Hx]]]]]. destruct (Old _ _ Hb) as [Oa Nab]. destruct Hx as [[-> ->]|[-> ->]].
  - destruct (filter_border inp a Hv) as [F1 F2]. set (C := filter _ (ring inp a)) in *. assert (HC : border_neighbours inp a C) by (split; assumption).
    destruct (Hof a C HC) as [C0|C2]; [apply F2 in Hb; rewrite C0 in Hb; destruct Hb|]. destruct C as [|p [|q [|r C]]]; try discriminate C2.
    assert (Hp : border_edge inp a p) by (apply F2; cbn; auto). assert (Hq : border_edge inp a q) by (apply F2; cbn; auto).
    assert (Mp : exists x, mid a p = Some x).
    { destruct (mid a p) as [x|] eqn:X; [eauto|exfalso]. apply (Bs inp a p Hv) in Hp. destruct Hp as [Hp|Hp]; [exact (Hall _ _ (proj1 Hp) X)|]. rewrite Sy in X. exact (Hall _ _ (proj1 Hp) X). }
    assert (Mq : exists x, mid a q = Some x).
    { destruct (mid a q) as [x|] eqn:X; [eauto|exfalso]. apply (Bs inp a q Hv) in Hq. destruct Hq as [Hq|Hq]; [exact (Hall _ _ (proj1 Hq) X)|]. rewrite Sy in X. exact (Hall _ _ (proj1 Hq) X). }
    destruct Mp as [xp Mp]. destruct Mq as [xq Mq]. apply (two_only B xp xq Hn).
    + intros w. rewrite HBn, Ch. split.
      * intros [a' [b' [e' [Hb' [Ee' Hx']]]]]. destruct Hx' as [[<- ->]|[-> ->]]; [|exfalso; exact (Oa (New _ _ _ Ee'))].
        apply F2 in Hb'. cbn in Hb'. destruct Hb' as [<-|[<-|[]]]; [left|right]; congruence.
      * intros [->| ->]; [exists a, p, xp|exists a, q, xq]; auto.
    + intros ->. inversion F1 as [|? ? X1 _]; subst. apply X1. destruct (sd_inj _ _ _ _ _ Hsd a p a q xq Mp Mq) as [X|X]; cbn [fst snd] in X; injection X as X; [left; congruence|].
      exfalso. destruct (Old _ _ Hp) as [_ X3]. congruence.
  - apply (two_only B a b Hn); [|exact Nab]. intros w. rewrite HBn, Ch. split.
    + intros [a' [b' [e' [Hb' [Ee' Hx']]]]]. destruct (Old _ _ Hb') as [Oa' _]. destruct Hx' as [[-> ->]|[<- ->]]; [exfalso; exact (Oa' (New _ _ _ Ee))|].
      destruct (sd_inj _ _ _ _ _ Hsd a b a' b' e Ee Ee') as [X|X]; cbn [fst snd] in X; injection X as -> ->; auto.
    + intros [->| ->]; [exists a, b, e; auto|]. exists b, a, e. split; [|rewrite Sy; auto]. destruct Hb as [J Hb]. split; [apply (v_ring_sym _ Hv); exact J|tauto].
Qed.

Definition able (s : cscheme) (n : nat) inp : Prop := valid inp /\ dense inp /\ tris inp <> [] /\ tame s inp /\ fits s n inp.

Lemma able_step s n inp fuel f' out L : able s (S n) inp -> 0 <= L -> edges_within L inp -> update (CellF s) fuel (fresh []) inp = Ok (f', out) ->
  able s n out /\ csel f' = [] /\ level_facts s L inp out.
Proof.
  intros [Hv [Hd [Hne [Ht Hf]]]] L0 HL E.
  assert (Hk : s = CSqrt3 \/ s <> CSqrt3) by (destruct s; auto; right; discriminate). destruct Hk as [->|Hk].
  - specialize (Hf eq_refl). assert (Hp : (3 ^ Z.of_nat (S n) = 3 * 3 ^ Z.of_nat n)%Z) by (rewrite Nat2Z.inj_succ, Z.pow_succ_r by lia; reflexivity).
    assert (Hp1 : (1 <= 3 ^ Z.of_nat n)%Z) by (pose proof (Z.pow_pos_nonneg 3 (Z.of_nat n)); lia). rewrite Hp in Hf. assert (HF : (0 <= nF inp)%Z) by (unfold nF; lia).
    assert (Hr : ready3 (fresh []) inp) by (split; [intros i []|]; split; [constructor|]; nia).
    pose proof (root3_run _ inp fuel f' out Hv Hd Hr E) as RR. destruct (rr_valid _ _ _ _ _ RR Hne) as [V1 V2].
    split; [|split].
    + split; [exact V1|]. split; [exact V2|]. split; [exact (tris_out3 _ _ _ _ _ Hv RR Hne)|]. split.
      * apply (C56_border_euler_pf _ D _ inp fuel f' out Hv Hd Hr E). exact Ht.
      * intros _. rewrite (rr_nF _ _ _ _ _ RR), (rr_nV _ _ _ _ _ RR), (ksel_all inp (fresh []) eq_refl Hv). nia.
    + destruct (csel f') as [|i l] eqn:Ec; [reflexivity|]. exfalso. destruct (proj1 (rr_csel _ _ _ _ _ RR i)) as [Hw _]; [rewrite Ec; cbn; auto|]. apply Hw. reflexivity.
    + eapply root3_level; eauto. reflexivity.
  - assert (Hl : s = CLoop -> no_isolated inp) by (intros ->; apply Ht).
    assert (Hr : ready (CellF s) (fresh []) inp) by (apply ready_uniform; auto).
    destruct (step_ok _ _ _ _ _ _ Hv Hd Hne Hr E) as [V1 [V2 [V3 [V4 V5]]]]. split; [|split].
    + split; [exact V1|]. split; [exact V2|]. split; [exact V3|]. split; [|intros X; contradiction].
      destruct s; cbn [tame] in *; try exact I; try contradiction.
      * destruct Ht as [T1 [T2 T3]]. split; [auto|]. split; [exact V4|]. apply (loop_fans (fresh []) inp fuel f' out Hv Hd eq_refl T1 T3 V1 E).
      * destruct (C06_all_pf _ _ _ _ inp fuel f' out Hv Hd Hr E) as [mid [Ls [_ [_ [X _]]]]]. apply X. exact Ht.
    + destruct (face_run _ _ _ _ _ _ Hv Hd Hr E) as [mid [Ls FR]]. destruct (csel f') as [|i l] eqn:Ec; [reflexivity|]. exfalso.
      destruct (proj1 (fr_csel _ _ _ _ _ _ _ FR i)) as [Hw _]; [rewrite Ec; cbn; auto|discriminate].
    + destruct s; try contradiction; cbn [tame] in Ht.
      * eapply linear_level; eauto. reflexivity.
      * destruct Ht as [T1 [T2 T3]]. eapply loop_level; eauto; reflexivity.
      * eapply butterfly_level; eauto. reflexivity.
Qed.

(** ** Several levels *)
Inductive lev (s : cscheme) : nat -> mesh -> mesh -> Prop :=
| lev_0 m : lev s 0 m m
| lev_S n inp fuel f m out : update (CellF s) fuel (fresh []) inp = Ok (f, m) -> lev s n m out -> lev s (S n) inp out.

Lemma lev_det s n inp o1 o2 : lev s n inp o1 -> lev s n inp o2 -> o1 = o2.
Proof.
  intros H. revert o2. induction H as [m|n inp fuel f m out E H IH]; intros o2 H2; inversion H2; subst; [reflexivity|].
  apply IH. pose proof (update_fuel (CellF s) (fresh []) inp fuel fuel0) as X. rewrite E, H1 in X. specialize (X ltac:(discriminate) ltac:(discriminate)). congruence.
Qed.
Lemma lev_split s j n inp out : lev s (j + n) inp out -> exists m, lev s j inp m /\ lev s n m out.
Proof.
  revert inp. induction j as [|j IH]; intros inp H; [exists inp; split; [constructor|exact H]|].
  inversion H; subst. destruct (IH _ H2) as [m' [X Y]]. exists m'. split; [econstructor; eauto|exact Y].
Qed.

Lemma shrink_pos s : 0 < shrink s < 1.
Proof. destruct s; cbn; lra. Qed.
Lemma pow_le n x : 0 <= x <= 1 -> 0 <= x ^ n <= 1.
Proof. intros H. induction n as [|n IH]; cbn [pow]; nra. Qed.

Lemma lev_able s L n q inp out : 0 <= L -> lev s n inp out -> able s (n + q) inp -> edges_within L inp -> able s q out /\ edges_within (shrink s ^ n * L) out.
Proof.
  intros L0 H. revert L L0. induction H as [m|n inp fuel f m out E H IH]; intros L L0 A HL.
  - split; [exact A|]. cbn [pow]. rewrite Rmult_1_l. exact HL.
  - cbn [Nat.add] in A. destruct (able_step s (n + q) inp fuel f m L A L0 HL E) as [A1 [_ [F1 _]]].
    destruct (IH (shrink s * L)) as [I1 I2]; auto; [apply Rmult_le_pos; [pose proof (shrink_pos s); lra|exact L0]|].
    split; [exact I1|]. cbn [pow]. replace (shrink s * shrink s ^ n * L) with (shrink s ^ n * (shrink s * L)) by ring. exact I2.
Qed.

Lemma lev_pts s L n inp out : 0 <= L -> lev s n inp out -> able s n inp -> edges_within L inp ->
  (forall id, oget id (pts inp) <> None -> oget id (pts out) <> None /\ apart inp id out id <= settle s * (1 - shrink s ^ n) * L) /\
  (forall id, oget id (pts out) <> None -> exists id', oget id' (pts inp) <> None /\ apart inp id' out id <= settle s * (1 - shrink s ^ n) * L).
Proof.
  intros L0 H. revert L L0. induction H as [q|n inp fuel f q out E H IH]; intros L L0 A HL.
  - cbn [pow]. split; intros id Hid; [split; [exact Hid|]|exists id; split; [exact Hid|]]; rewrite apart_self; lra.
  - assert (A' := A). destruct (able_step s n inp fuel f q L A L0 HL E) as [A1 [_ [F1 [F2 F3]]]]. pose proof (shrink_pos s) as Sp.
    assert (L1 : 0 <= shrink s * L) by (apply Rmult_le_pos; lra). destruct (IH (shrink s * L) L1 A1 F1) as [I1 I2].
    assert (T0 : 0 <= stride s * L) by (apply Rmult_le_pos; [destruct s; cbn; lra|exact L0]).
    assert (Pn : 0 <= shrink s ^ n <= 1) by (apply pow_le; lra).
    assert (U0 : 0 <= settle s * (1 - shrink s ^ n) * (shrink s * L)) by (apply Rmult_le_pos; [apply Rmult_le_pos; [destruct s; cbn; lra|lra]|exact L1]).
    assert (Es : stride s * L + settle s * (1 - shrink s ^ n) * (shrink s * L) = settle s * (1 - shrink s ^ S n) * L).
    { replace (stride s) with (settle s * (1 - shrink s)) by (destruct s; cbn; lra). cbn [pow]. ring. }
    assert (Keep : forall id, oget id (pts inp) <> None -> oget id (pts q) <> None).
    { destruct A' as [Hv [Hd [_ _]]]. destruct (C03_any_filter_pf _ D (CellF s) (fresh []) inp fuel f q (v_pts_sorted _ Hv) (v_pts_dim _ Hv) Hd E) as [_ [_ [_ K]]]. exact K. }
    split.
    + intros id Hid. destruct (I1 id (Keep id Hid)) as [J1 J2]. split; [exact J1|]. rewrite <- Es. eapply apart_trans; eauto.
    + intros id Hid. destruct (I2 id Hid) as [id1 [J1 J2]]. destruct (F3 id1 J1) as [id' [K1 K2]]. exists id'. split; [exact K1|]. rewrite <- Es. eapply apart_trans; eauto.
Qed.

Lemma pipe_lev s L n inp f out : 0 <= L -> pipeline s n [] inp f out -> able s n inp -> edges_within L inp -> lev s n inp out.
Proof.
  intros L0 H. remember (@nil N) as sel eqn:Es. revert L L0. induction H as [sel inp fuel f out E|n sel inp fuel f1 m f out E H IH]; intros L L0 A HL; subst sel.
  - econstructor; [exact E|constructor].
  - destruct (able_step s n inp fuel f1 m L A L0 HL E) as [A1 [C1 [F1 _]]]. econstructor; [exact E|].
    apply (IH C1 (shrink s * L)); auto. apply Rmult_le_pos; [pose proof (shrink_pos s); lra|exact L0].
Qed.
Lemma after_lev s L n inp out : 0 <= L -> after s n inp out -> able s n inp -> edges_within L inp -> lev s n inp out.
Proof.
  intros L0 H A HL. destruct n as [|n]; [cbn in H; subst; constructor|]. destruct H as [fuel [f H]]. unfold iterative_update in H.
  replace (Nat.max 1 (S n)) with (S n) in H by lia. apply (pipe_lev s L (S n) inp f out L0); auto. eapply iter_pipe. exact H.
Qed.
Lemma within_pos inp L : valid inp -> tris inp <> [] -> edges_within L inp -> 0 <= L.
Proof.
  intros Hv Hne HL. destruct (tris inp) as [|[[a b] c] T] eqn:ET; [congruence|]. apply Rle_trans with (seg_length inp a b); [apply sqrt_pos|].
  apply HL, (v_face_edges _ Hv). rewrite ET. cbn. auto.
Qed.
End NEXT.

Lemma C101_pf : forall (d : nat) (D : Type) (s : cscheme) (n : nat) (inp out : mesh (RO d) D) L,
  valid inp -> dense inp -> tris inp <> [] -> tame s inp -> fits s n inp -> edges_within L inp -> after s n inp out ->
  edges_within (shrink s ^ n * L) out.
Proof.
  intros d D s n inp out L Hv Hd Hne Ht Hf HL Ha. pose proof (within_pos inp L Hv Hne HL) as L0.
  assert (A : able s n inp) by exact (conj Hv (conj Hd (conj Hne (conj Ht Hf)))). pose proof (after_lev s L n inp out L0 Ha A HL) as Hl.
  apply (lev_able s L n 0 inp out L0 Hl); [|exact HL]. rewrite Nat.add_0_r. exact A.
Qed.

Lemma geom_small x L e : 0 <= x < 1 -> 0 < e -> exists n0, forall n, (n0 <= n)%nat -> x ^ n * L <= e.
Proof.
  intros Hx He. destruct (pow_lt_1_zero x ltac:(rewrite Rabs_pos_eq; lra) (e / (Rabs L + 1))) as [n0 Hn].
  - apply Rdiv_lt_0_compat; [exact He|]. pose proof (Rabs_pos L). lra.
  - exists n0. intros n H. specialize (Hn n H). pose proof (Rabs_pos L) as P. pose proof (Rle_abs L) as PL. pose proof (pow_le n x ltac:(lra)) as [X0 X1]. rewrite Rabs_pos_eq in Hn by exact X0.
    apply Rmult_lt_compat_r with (r := Rabs L + 1) in Hn; [|lra]. unfold Rdiv in Hn. rewrite Rmult_assoc, Rinv_l, Rmult_1_r in Hn by lra. nra.
Qed.
Lemma C101_vanish_pf : forall (d : nat) (D : Type) (s : cscheme) (inp : mesh (RO d) D) L eps,
  valid inp -> dense inp -> tris inp <> [] -> tame s inp -> edges_within L inp -> 0 < eps ->
  exists n0, forall n out, (n0 <= n)%nat -> fits s n inp -> after s n inp out -> edges_within eps out.
Proof.
  intros d D s inp L eps Hv Hd Hne Ht HL He. destruct (geom_small (shrink s) L eps) as [n0 Hn]; [pose proof (shrink_pos s); lra|exact He|].
  exists n0. intros n out H Hf Ha a b Hab. apply Rle_trans with (shrink s ^ n * L); [|apply Hn; exact H]. eapply C101_pf; eauto.
Qed.

Lemma C102_pf : forall (d : nat) (D : Type) (s : cscheme) (j k : nat) (inp m1 m2 : mesh (RO d) D) L,
  valid inp -> dense inp -> tris inp <> [] -> tame s inp -> fits s k inp -> edges_within L inp ->
  (j <= k)%nat -> after s j inp m1 -> after s k inp m2 ->
  (forall id, oget id (pts m1) <> None -> oget id (pts m2) <> None /\ apart m1 id m2 id <= settle s * shrink s ^ j * L) /\
  (forall id, oget id (pts m2) <> None -> exists id', oget id' (pts m1) <> None /\ apart m1 id' m2 id <= settle s * shrink s ^ j * L).
Proof.
  intros d D s j k inp m1 m2 L Hv Hd Hne Ht Hf HL Hjk H1 H2. pose proof (within_pos inp L Hv Hne HL) as L0. pose proof (shrink_pos s) as Sp.
  assert (A : able s k inp) by exact (conj Hv (conj Hd (conj Hne (conj Ht Hf)))). pose proof (after_lev s L k inp m2 L0 H2 A HL) as V2.
  assert (Aj : able s j inp).
  { split; [exact Hv|]. split; [exact Hd|]. split; [exact Hne|]. split; [exact Ht|]. intros E. specialize (Hf E). assert ((3 ^ Z.of_nat j <= 3 ^ Z.of_nat k)%Z) by (apply Z.pow_le_mono_r; lia).
    assert (0 <= nF inp)%Z by (unfold nF; lia). nia. }
  pose proof (after_lev s L j inp m1 L0 H1 Aj HL) as V1.
  replace k with (j + (k - j))%nat in V2, A by lia. destruct (lev_split s j (k - j) inp m2 V2) as [m [X Y]].
  rewrite (lev_det s j inp m m1 X V1) in *. destruct (lev_able s L j (k - j) inp m1 L0 V1 A HL) as [A1 E1].
  assert (P1 : 0 <= shrink s ^ j * L) by (apply Rmult_le_pos; [apply pow_le; lra|exact L0]).
  destruct (lev_pts s (shrink s ^ j * L) (k - j) m1 m2 P1 Y A1 E1) as [Q1 Q2].
  assert (B : settle s * (1 - shrink s ^ (k - j)) * (shrink s ^ j * L) <= settle s * shrink s ^ j * L).
  { assert (0 <= shrink s ^ (k - j) <= 1) by (apply pow_le; lra). assert (0 <= settle s) by (destruct s; cbn; lra).
    replace (settle s * shrink s ^ j * L) with (settle s * 1 * (shrink s ^ j * L)) by ring. apply Rmult_le_compat_r; [exact P1|]. apply Rmult_le_compat_l; lra. }
  split.
  - intros id Hid. destruct (Q1 id Hid). split; [assumption|lra].
  - intros id Hid. destruct (Q2 id Hid) as [id' [R1 R2]]. exists id'. split; [assumption|lra].
Qed.

Lemma rsum_member {A} (g : A -> R) l x : (forall y, 0 <= g y) -> In x l -> g x <= rsum g l.
Proof.
  intros Hg. induction l as [|y l IH]; [intros []|]. change (rsum g (y :: l)) with (g y + rsum g l). pose proof (Hg y). assert (0 <= rsum g l) by (apply rsum_nonneg; auto).
  intros [->|H1]; [lra|]. specialize (IH H1). lra.
Qed.
Lemma apart_crd {d D} (m1 m2 : mesh (RO d) D) a b i L : (i < d)%nat -> apart m1 a m2 b <= L -> Rabs (crd m2 i b - crd m1 i a) <= L.
Proof.
  intros Hi H. assert (L0 : 0 <= L) by (eapply Rle_trans; [apply sqrt_pos|exact H]). apply apart_sq in H; [|exact L0].
  assert (G : gap m1 a m2 b i * gap m1 a m2 b i <= L * L).
  { eapply Rle_trans; [|exact H]. apply (rsum_member (fun i => gap m1 a m2 b i * gap m1 a m2 b i)); [intros; apply Rle_0_sqr|]. apply in_seq. lia. }
  change (Rabs (gap m1 a m2 b i) <= L). apply Rsqr_incr_0_var; [|exact L0]. unfold Rsqr. rewrite <- Rabs_mult, Rabs_pos_eq by apply Rle_0_sqr. exact G.
Qed.

Lemma abs_inv x y : Rabs x <= y -> - y <= x <= y.
Proof. intros H. split; [|pose proof (Rle_abs x); lra]. pose proof (Rle_abs (- x)) as X. rewrite Rabs_Ropp in X. lra. Qed.
(** A family of reals, any two of which are as close as the earlier one allows, has a limit. *)
Lemma limit_of (P : nat -> R -> Prop) (r : nat -> R) j c0 : P j c0 -> (forall k, 0 <= r k) ->
  (forall k m c e, (j <= k)%nat -> (k <= m)%nat -> P k c -> P m e -> Rabs (e - c) <= r k) ->
  { x : R | forall k c, (j <= k)%nat -> P k c -> Rabs (c - x) <= r k }.
Proof.
  intros H0 Hr HP. set (S := fun y => exists k c, (j <= k)%nat /\ P k c /\ y = c - r k).
  assert (Up : forall k c, (j <= k)%nat -> P k c -> is_upper_bound S (c + r k)).
  { intros k c Hk Hc y [m [e [Hm [He ->]]]]. pose proof (Hr k). pose proof (Hr m). destruct (Nat.le_ge_cases k m) as [X|X].
    - pose proof (HP k m c e Hk X Hc He) as Y. apply abs_inv in Y. lra.
    - pose proof (HP m k e c Hm X He Hc) as Y. apply abs_inv in Y. lra. }
  destruct (completeness S) as [x [X1 X2]].
  - exists (c0 + r j). apply Up; auto.
  - exists (c0 - r j). exists j, c0. auto.
  - exists x. intros k c Hk Hc. apply Rabs_le. specialize (X2 _ (Up k c Hk Hc)). assert (Y : S (c - r k)) by (exists k, c; auto). specialize (X1 _ Y). lra.
Qed.

Lemma C102_limit_pf : forall (d : nat) (D : Type) (s : cscheme) (j : nat) (inp m1 : mesh (RO d) D) L id,
  valid inp -> dense inp -> tris inp <> [] -> tame s inp -> edges_within L inp -> after s j inp m1 -> oget id (pts m1) <> None ->
  fits s j inp ->
  exists x : nat -> R, forall k m2 i, (j <= k)%nat -> fits s k inp -> after s k inp m2 -> (i < d)%nat ->
    Rabs (crd m2 i id - x i) <= settle s * shrink s ^ k * L.
Proof.
  intros d D s j inp m1 L id Hv Hd Hne Ht HL H1 Hid Hf.
  pose proof (within_pos inp L Hv Hne HL) as L0. pose proof (shrink_pos s) as Sp.
  assert (G : forall i, { x : R | forall k c, (j <= k)%nat -> (fits s k inp /\ (i < d)%nat /\ exists m2, after s k inp m2 /\ c = crd m2 i id) -> Rabs (c - x) <= settle s * shrink s ^ k * L }).
  { intros i. destruct (lt_dec i d) as [Hi|Hi].
    - apply (limit_of (fun k c => fits s k inp /\ (i < d)%nat /\ exists m2, after s k inp m2 /\ c = crd m2 i id) (fun k => settle s * shrink s ^ k * L) j (crd m1 i id)); eauto 6.
      + intros k. apply Rmult_le_pos; [|exact L0]. apply Rmult_le_pos; [destruct s; cbn; lra|apply pow_le; lra].
      + intros k m c e Hk Hkm [_ [_ [ma [Ha ->]]]] [Fm [_ [mb [Hb ->]]]]. apply apart_crd; [exact Hi|].
        destruct (C102_pf d D s k m inp ma mb L Hv Hd Hne Ht Fm HL Hkm Ha Hb) as [Q _]. apply Q.
        assert (Fk : fits s k inp).
        { intros E. specialize (Fm E). assert ((3 ^ Z.of_nat k <= 3 ^ Z.of_nat m)%Z) by (apply Z.pow_le_mono_r; lia). assert (0 <= nF inp)%Z by (unfold nF; lia). nia. }
        apply (C102_pf d D s j k inp m1 ma L Hv Hd Hne Ht Fk HL Hk H1 Ha). exact Hid.
    - exists 0. intros k c _ [_ [X _]]. contradiction. }
  exists (fun i => proj1_sig (G i)). intros k m2 i Hk Hf2 H2 Hi. apply (proj2_sig (G i)); eauto 6.
Qed.
