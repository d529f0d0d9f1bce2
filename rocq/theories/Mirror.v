(** * Mirror: floating-point runs on a mesh and on its mirror image (C116). *)
From Coq Require Import Reals Lra.
From Flocq Require Import Core BinarySingleNaN.
From Verif Require Import Base Mesh Filters Drivers Spec SpecSub SpecGeo SpecDrive SpecFlt SpecMirror Lists PtsAny Drive Sim SimProps SimDrive.

Section OPP.
Variables (prec emax : Z) (Hp : Prec_gt_0 prec) (Hm : Prec_lt_emax prec emax).
Notation float := (binary_float prec emax).
Notation fexp := (SpecFloat.fexp prec emax).
Notation plus := (@Bplus prec emax Hp Hm mode_NE).
Notation minus := (@Bminus prec emax Hp Hm mode_NE).
Notation mult := (@Bmult prec emax Hp Hm mode_NE).
Notation div := (@Bdiv prec emax Hp Hm mode_NE).
Implicit Types x y w : float.
Notation rnd := (round radix2 fexp (round_mode mode_NE)).

Lemma rnd_opp r : rnd (- r) = (- rnd r)%R.
Proof. apply round_NE_opp. Qed.
Lemma opp_fin (z z' : float) : is_finite z = true -> is_finite z' = true -> B2R z' = (- B2R z)%R -> opposite z z'.
Proof.
  intros F F' E. destruct (Req_dec (B2R z) 0) as [Z|Z].
  - right. rewrite Z, Ropp_0 in E. destruct z as [s| | |s m e H]; try discriminate F.
    + destruct z' as [s'| | |s' m' e' H']; try discriminate F'; [eauto|]. exfalso. cbn in E. apply eq_0_F2R in E. destruct s'; discriminate E.
    + exfalso. cbn in Z. apply eq_0_F2R in Z. destruct s; discriminate Z.
  - left. apply B2R_inj.
    + apply is_finite_strict_B2R. rewrite E. intros X. apply Z. lra.
    + apply is_finite_strict_B2R. rewrite B2R_Bopp. intros X. apply Z. lra.
    + rewrite B2R_Bopp. exact E.
Qed.
Lemma inf_of (z : float) s : B2SF z = binary_overflow prec emax mode_NE s -> z = B754_infinity s.
Proof. cbn. destruct z; cbn; intros H; inversion H; reflexivity. Qed.
Lemma opp_real (x y : float) : opposite x y -> is_finite y = is_finite x /\ B2R y = (- B2R x)%R.
Proof.
  intros [->|[s [s' [-> ->]]]]; [rewrite is_finite_Bopp, B2R_Bopp; auto|]. cbn. rewrite Ropp_0. auto.
Qed.
Lemma opp_sign (x y : float) : opposite x y -> B2R x <> 0%R -> Bsign y = negb (Bsign x).
Proof.
  intros [->|[s [s' [-> ->]]]] H; [|cbn in H; lra]. destruct x; try reflexivity. cbn in H. lra.
Qed.
Lemma opp_sym (x y : float) : opposite x y -> opposite y x.
Proof. intros [->|[s [s' [-> ->]]]]; [left; symmetry; apply Bopp_involutive|right; eauto]. Qed.
Lemma opp_opp (x y : float) : opposite x y -> opposite (Bopp x) (Bopp y).
Proof. intros [->|[s [s' [-> ->]]]]; [left; reflexivity|right; cbn; eauto]. Qed.

Lemma rnd_small x : Rlt_bool (Rabs (rnd (B2R x))) (bpow radix2 emax) = true.
Proof.
  rewrite round_generic; [|apply valid_rnd_round_mode|apply generic_format_B2R]. apply Rlt_bool_true. apply abs_B2R_lt_emax.
Qed.
Lemma plus_fin (x y x' y' : float) : is_finite x = true -> is_finite y = true -> opposite x x' -> opposite y y' -> opposite (plus x y) (plus x' y').
Proof.
  intros Fx Fy Hx Hy. destruct (opp_real _ _ Hx) as [Fx' Rx]. destruct (opp_real _ _ Hy) as [Fy' Ry]. rewrite Fx in Fx'. rewrite Fy in Fy'.
  pose proof (Bplus_correct prec emax Hp Hm mode_NE x y Fx Fy) as C. pose proof (Bplus_correct prec emax Hp Hm mode_NE x' y' Fx' Fy') as C'.
  rewrite Rx, Ry in C'. replace (- B2R x + - B2R y)%R with (- (B2R x + B2R y))%R in C' by ring. rewrite rnd_opp, Rabs_Ropp in C'.
  destruct (Rlt_bool (Rabs (rnd (B2R x + B2R y))) (bpow radix2 emax)) eqn:EB.
  - destruct C as [C1 [C2 _]], C' as [C1' [C2' _]]. apply opp_fin; [exact C2|exact C2'|]. rewrite C1, C1'. reflexivity.
  - destruct C as [C1 C2], C' as [C1' C2']. apply inf_of in C1. apply inf_of in C1'. rewrite C1, C1'. left. cbn. f_equal.
    destruct (Req_dec (B2R x) 0) as [Z|Z]; [|apply opp_sign; assumption].
    exfalso. rewrite Z, Rplus_0_l, rnd_small in EB. discriminate.
Qed.
Lemma plus_opp (x y x' y' : float) : opposite x x' -> opposite y y' -> opposite (plus x y) (plus x' y').
Proof.
  intros Hx Hy. destruct (is_finite x) eqn:Fx.
  - destruct (is_finite y) eqn:Fy; [apply plus_fin; assumption|]. destruct Hy as [->|[s [s' [-> ->]]]]; [|discriminate Fy].
    left. destruct Hx as [->|[s [s' [-> ->]]]]; destruct y as [|b| |]; try discriminate Fy; try reflexivity; destruct x; try discriminate Fx; reflexivity.
  - destruct Hx as [->|[s [s' [-> ->]]]]; [|discriminate Fx]. left.
    destruct Hy as [->|[s [s' [-> ->]]]]; destruct x as [|b| |]; try discriminate Fx; try reflexivity; destruct y as [|b'| |]; try reflexivity. destruct b, b'; reflexivity.
Qed.
Lemma minus_plus (x y : float) : minus x y = plus x (Bopp y).
Proof. destruct x, y; reflexivity. Qed.
Lemma minus_opp (x y x' y' : float) : opposite x x' -> opposite y y' -> opposite (minus x y) (minus x' y').
Proof. intros Hx Hy. rewrite !minus_plus. apply plus_opp; [exact Hx|apply opp_opp; exact Hy]. Qed.
Lemma mult_comm (x y : float) : mult x y = mult y x.
Proof.
  destruct x as [sx|sx| |sx mx ex Hx], y as [sy|sy| |sy my ey Hy]; try reflexivity; try (cbn; f_equal; apply Bool.xorb_comm).
  pose proof (Bmult_correct prec emax Hp Hm mode_NE (B754_finite sx mx ex Hx) (B754_finite sy my ey Hy)) as C.
  pose proof (Bmult_correct prec emax Hp Hm mode_NE (B754_finite sy my ey Hy) (B754_finite sx mx ex Hx)) as C'.
  rewrite (Rmult_comm (B2R (B754_finite sy my ey Hy))) in C'. rewrite (Bool.xorb_comm (Bsign (B754_finite sy my ey Hy))) in C'.
  destruct (Rlt_bool _ _).
  - destruct C as [C1 [C2 C3]], C' as [C1' [C2' C3']]. change (is_finite (B754_finite sx mx ex Hx) && is_finite (B754_finite sy my ey Hy)) with true in C2. change (is_finite (B754_finite sy my ey Hy) && is_finite (B754_finite sx mx ex Hx)) with true in C2'.
    apply B2R_Bsign_inj; [exact C2|exact C2'|congruence|]. rewrite C3, C3'; [reflexivity| |]; [destruct (mult (B754_finite sy my ey Hy) _)|destruct (mult (B754_finite sx mx ex Hx) _)]; try reflexivity; discriminate.
  - apply B2SF_inj. congruence.
Qed.
Lemma mult_opp (w x x' : float) : opposite x x' -> opposite (mult w x) (mult w x').
Proof.
  intros Hx. destruct (opp_real _ _ Hx) as [Fx' Rx]. destruct (is_finite w && is_finite x) eqn:F.
  - apply andb_prop in F. destruct F as [Fw Fx]. rewrite Fx in Fx'.
    pose proof (Bmult_correct prec emax Hp Hm mode_NE w x) as C. pose proof (Bmult_correct prec emax Hp Hm mode_NE w x') as C'.
    rewrite Rx in C'. replace (B2R w * - B2R x)%R with (- (B2R w * B2R x))%R in C' by ring. rewrite rnd_opp, Rabs_Ropp in C'.
    destruct (Rlt_bool (Rabs (rnd (B2R w * B2R x))) (bpow radix2 emax)) eqn:EB.
    + destruct C as [C1 [C2 _]], C' as [C1' [C2' _]]. rewrite Fw, Fx in C2. rewrite Fw, Fx' in C2'. apply opp_fin; [exact C2|exact C2'|]. rewrite C1, C1'. reflexivity.
    + apply inf_of in C. apply inf_of in C'. rewrite C, C'. left. cbn. f_equal.
      assert (Z : B2R x <> 0%R).
      { intros Z. rewrite Z, Rmult_0_r, round_0, Rabs_R0 in EB by (apply valid_rnd_round_mode). rewrite Rlt_bool_true in EB by (apply bpow_gt_0). discriminate. }
      rewrite (opp_sign _ _ Hx Z). destruct (Bsign w), (Bsign x); reflexivity.
  - destruct Hx as [->|[s [s' [-> ->]]]].
    + left. destruct w as [sw|sw| |sw mw ew Hw], x as [sx|sx| |sx mx ex Hx]; try discriminate F; try reflexivity; cbn; f_equal; destruct sw, sx; reflexivity.
    + destruct w as [sw|sw| |sw mw ew Hw]; try discriminate F; left; reflexivity.
Qed.
Lemma mult_opp_r (w x x' : float) : opposite x x' -> opposite (mult x w) (mult x' w).
Proof. intros H. rewrite (mult_comm x), (mult_comm x'). apply mult_opp. exact H. Qed.
Lemma square_opp (x x' : float) : opposite x x' -> mult x x = mult x' x'.
Proof.
  intros [->|[s [s' [-> ->]]]]; [|cbn; rewrite !Bool.xorb_nilpotent; reflexivity].
  destruct x as [s|s| |s m e H]; try reflexivity; try (destruct s; reflexivity).
  pose proof (Bmult_correct prec emax Hp Hm mode_NE (B754_finite s m e H) (B754_finite s m e H)) as C.
  pose proof (Bmult_correct prec emax Hp Hm mode_NE (Bopp (B754_finite s m e H)) (Bopp (B754_finite s m e H))) as C'.
  rewrite B2R_Bopp in C'. replace (- B2R (B754_finite s m e H) * - B2R (B754_finite s m e H))%R with (B2R (B754_finite s m e H) * B2R (B754_finite s m e H))%R in C' by ring.
  destruct (Rlt_bool _ _).
  - destruct C as [C1 [C2 C3]], C' as [C1' [C2' C3']]. change (is_finite (B754_finite s m e H) && is_finite (B754_finite s m e H)) with true in C2. change (is_finite (Bopp (B754_finite s m e H)) && is_finite (Bopp (B754_finite s m e H))) with true in C2'.
    apply B2R_Bsign_inj; [exact C2|exact C2'|congruence|]. rewrite C3, C3'; [rewrite !Bool.xorb_nilpotent; reflexivity| |]; [destruct (mult (Bopp _) _)|destruct (mult (B754_finite s m e H) _)]; try reflexivity; discriminate.
  - apply B2SF_inj. rewrite C, C', !Bool.xorb_nilpotent. reflexivity.
Qed.
Lemma div_opp (w x x' : float) : opposite x x' -> opposite (div x w) (div x' w).
Proof.
  intros Hx. destruct (opp_real _ _ Hx) as [Fx' Rx]. destruct w as [sw|sw| |sw mw ew Hw].
  - destruct Hx as [->|[s [s' [-> ->]]]]; left; [|reflexivity]. destruct x as [b|b| |b m e H]; try reflexivity; cbn; f_equal; destruct b, sw; reflexivity.
  - destruct Hx as [->|[s [s' [-> ->]]]]; [|right; cbn; eauto]. left. destruct x as [b|b| |b m e H]; try reflexivity; cbn; f_equal; destruct b, sw; reflexivity.
  - left. destruct Hx as [->|[s [s' [-> ->]]]]; [|reflexivity]. destruct x; reflexivity.
  - assert (Zw : B2R (B754_finite sw mw ew Hw) <> 0%R) by (cbn; intros X; apply eq_0_F2R in X; destruct sw; discriminate X).
    destruct (is_finite x) eqn:Fx.
    + pose proof (Bdiv_correct prec emax Hp Hm mode_NE x _ Zw) as C. pose proof (Bdiv_correct prec emax Hp Hm mode_NE x' _ Zw) as C'. set (w := B754_finite sw mw ew Hw) in *.
      rewrite Rx in C'. replace (- B2R x / B2R w)%R with (- (B2R x / B2R w))%R in C' by (field; exact Zw). rewrite rnd_opp, Rabs_Ropp in C'.
      destruct (Rlt_bool (Rabs (rnd (B2R x / B2R w))) (bpow radix2 emax)) eqn:EB.
      * destruct C as [C1 [C2 _]], C' as [C1' [C2' _]]. rewrite Fx in C2. rewrite Fx' in C2'. apply opp_fin; [exact C2|exact C2'|]. rewrite C1, C1'. reflexivity.
      * apply inf_of in C. apply inf_of in C'. rewrite C, C'. left. cbn [Bopp]. f_equal.
        assert (Z : B2R x <> 0%R).
        { intros Z. rewrite Z in EB. unfold Rdiv in EB. rewrite Rmult_0_l, round_0, Rabs_R0 in EB by (apply valid_rnd_round_mode). rewrite Rlt_bool_true in EB by (apply bpow_gt_0). discriminate. }
        rewrite (opp_sign _ _ Hx Z). destruct (Bsign w), (Bsign x); reflexivity.
    + destruct Hx as [->|[s [s' [-> ->]]]]; [|discriminate Fx]. left. destruct x as [b|b| |]; try discriminate Fx; try reflexivity. cbn. f_equal. destruct b, sw; reflexivity.
Qed.
End OPP.

Section POINTS.
Variables (prec emax : Z) (Hp : Prec_gt_0 prec) (Hm : Prec_lt_emax prec emax) (cosf : N -> binary_float prec emax) (d : nat).
Notation float := (binary_float prec emax).
Notation OO := (BO prec emax Hp Hm cosf d).
Implicit Types p q r : list float.

Lemma nth_map2 (g : float -> float -> float) p q i z : nth_error (map2 g p q) i = Some z ->
  exists x y, nth_error p i = Some x /\ nth_error q i = Some y /\ z = g x y.
Proof.
  revert q i. induction p as [|x p IH]; intros q i H; [destruct i; discriminate H|]. destruct q as [|y q]; [destruct i; discriminate H|].
  destruct i as [|i]; cbn in H |- *; [injection H as <-; eauto|apply IH; exact H].
Qed.
Lemma len_map2 (g : float -> float -> float) p q : length (map2 g p q) = Nat.min (length p) (length q).
Proof. revert q. induction p as [|x p IH]; intros [|y q]; cbn; auto. Qed.

Definition keeps (g : float -> float -> float) : Prop :=
  forall x y x' y', opposite x x' -> opposite y y' -> opposite (g x y) (g x' y').
Lemma mir_map2 fl g p q p' q' : keeps g -> mirrored fl p p' -> mirrored fl q q' -> mirrored fl (map2 g p q) (map2 g p' q').
Proof.
  intros Hg [L1 H1] [L2 H2]. split; [rewrite !len_map2; lia|]. intros i x y Ex Ey.
  apply nth_map2 in Ex. destruct Ex as [a [b [Ea [Eb ->]]]]. apply nth_map2 in Ey. destruct Ey as [a' [b' [Ea' [Eb' ->]]]].
  specialize (H1 i a a' Ea Ea'). specialize (H2 i b b' Eb Eb'). destruct (fl i); [apply Hg; assumption|congruence].
Qed.
Lemma mir_map fl (g : float -> float) p p' : (forall x x', opposite x x' -> opposite (g x) (g x')) -> mirrored fl p p' -> mirrored fl (map g p) (map g p').
Proof.
  intros Hg [L H]. split; [rewrite !map_length; exact L|]. intros i x y Ex Ey. rewrite nth_error_map in Ex, Ey.
  destruct (nth_error p i) as [a|] eqn:Ea; [|discriminate]. destruct (nth_error p' i) as [b|] eqn:Eb; [|discriminate]. injection Ex as <-. injection Ey as <-.
  specialize (H i a b Ea Eb). destruct (fl i); [apply Hg; exact H|congruence].
Qed.
Lemma mir_zero fl : mirrored fl (@pzero OO) (@pzero OO).
Proof.
  split; [reflexivity|]. intros i x y Ex Ey. assert (E : x = y) by congruence. subst y. destruct (fl i); [|reflexivity].
  apply nth_error_In in Ex. unfold pzero in Ex. apply repeat_spec in Ex. subst x. right. exists false, false. split; reflexivity.
Qed.
Lemma mir_mid fl p q p' q' : mirrored fl p p' -> mirrored fl q q' -> mirrored fl (@midpoint OO p q) (@midpoint OO p' q').
Proof. apply mir_map2. intros x y x' y' Hx Hy. cbn [kdiv kadd BO]. apply div_opp. apply plus_opp; assumption. Qed.
Lemma mir_padd fl p q p' q' : mirrored fl p p' -> mirrored fl q q' -> mirrored fl (@padd OO p q) (@padd OO p' q').
Proof. apply mir_map2. intros x y x' y' Hx Hy. apply plus_opp; assumption. Qed.
Lemma mir_pscale fl s p p' : mirrored fl p p' -> mirrored fl (@pscale OO s p) (@pscale OO s p').
Proof. apply mir_map. intros x x' H. apply mult_opp_r. exact H. Qed.
Lemma mir_comb fl ws : forall acc acc' ps ps', mirrored fl acc acc' -> Forall2 (mirrored fl) ps ps' -> mirrored fl (@comb OO acc ws ps) (@comb OO acc' ws ps').
Proof.
  induction ws as [|w ws IH]; intros acc acc' ps ps' HA HF; cbn [comb]; [exact HA|]. destruct HF as [|p p' ps ps' H HF]; [exact HA|].
  apply IH; [|exact HF]. apply mir_map2; [|exact HA|exact H]. intros x y x' y' Hx Hy. apply plus_opp; [exact Hx|apply mult_opp; exact Hy].
Qed.
Lemma mir_border fl p q p' q' : mirrored fl p p' -> mirrored fl q q' -> mirrored fl (@border_rule OO p q) (@border_rule OO p' q').
Proof. apply mir_map2. intros x y x' y' Hx Hy. apply plus_opp; apply mult_opp; assumption. Qed.
Lemma mir_interior fl n p q p' q' : mirrored fl p p' -> mirrored fl q q' -> mirrored fl (@interior_rule OO n p q) (@interior_rule OO n p' q').
Proof. apply mir_map2. intros x y x' y' Hx Hy. apply plus_opp; apply mult_opp; assumption. Qed.

Lemma mir_sqdist p : forall fl q p' q' acc, mirrored fl p p' -> mirrored fl q q' -> @sqdist OO acc p q = @sqdist OO acc p' q'.
Proof.
  induction p as [|x p IH]; intros fl q p' q' acc [L1 H1] [L2 H2]; destruct p' as [|x' p']; try discriminate L1; [destruct q, q'; reflexivity|].
  destruct q as [|y q], q' as [|y' q']; try discriminate L2; [reflexivity|]. cbn [sqdist].
  assert (E : @Bmult prec emax Hp Hm mode_NE (Bminus mode_NE x y) (Bminus mode_NE x y) = @Bmult prec emax Hp Hm mode_NE (Bminus mode_NE x' y') (Bminus mode_NE x' y')).
  { pose proof (H1 0%nat x x' eq_refl eq_refl) as A. pose proof (H2 0%nat y y' eq_refl eq_refl) as B. destruct (fl 0%nat); [|congruence].
    apply square_opp. apply minus_opp; assumption. }
  cbn [kmul ksub kadd BO]. rewrite E. apply (IH (fun i => fl (S i))); (split; [cbn in *; lia|]); intros i a b Ha Hb; [apply (H1 (S i))|apply (H2 (S i))]; assumption.
Qed.
Lemma mir_dist fl p q p' q' : mirrored fl p p' -> mirrored fl q q' -> @dist OO p q = @dist OO p' q'.
Proof. intros H1 H2. unfold dist. rewrite (mir_sqdist p fl q p' q' _ H1 H2). reflexivity. Qed.
Lemma mir_area fl p q r p' q' r' : mirrored fl p p' -> mirrored fl q q' -> mirrored fl r r' -> @area OO p q r = @area OO p' q' r'.
Proof. intros H1 H2 H3. unfold area. rewrite (mir_dist fl q r q' r' H2 H3), (mir_dist fl p r p' r' H1 H3), (mir_dist fl q p q' p' H2 H1). reflexivity. Qed.

Section RUNS.
Context {D1 D2 : Type}.
Variable fl : nat -> bool.
Notation mesh1 := (mesh OO D1).
Notation mesh2 := (mesh OO D2).
Definition Rm : list (K OO) -> list (K OO) -> Prop := @mirrored prec emax fl.
Notation Rp := Rm.
Notation msim := (@msim OO OO D1 D2 Rp).
Notation ssim := (@ssim OO OO D1 D2 Rp).

Lemma mir_mesh (m1 : mesh1) (m2 : mesh2) : msim m1 m2 <-> mirror_image fl m1 m2.
Proof.
  unfold mirror_image, same_connectivity. split.
  - intros [HP [H1 [H2 H3]]]. split; [split; [eapply psim_keys; exact HP|auto]|]. unfold psim in HP.
    induction HP as [|[i p] [j q] l1 l2 [_ R] _ IH]; constructor; auto.
  - intros [[HK [H1 [H2 H3]]] HF]. split; [|auto]. unfold psim. unfold okeys in HK. clear - HK HF. revert HK. generalize dependent (pts m2). generalize (pts m1).
    induction 1 as [|[i p] [j q] l1 l2 R _ IH]; intros HK; constructor; cbn in HK; injection HK as -> HK; auto. 
Qed.

Section ONE.
Variables (m1 : mesh1) (m2 : mesh2).
Hypothesis HM : msim m1 m2.
Lemma mir_oprev e : oprev m1 e = oprev m2 e.
Proof. unfold oprev. rewrite (sim_ring Rp m1 m2 HM). reflexivity. Qed.
Lemma mir_onext e : onext m1 e = onext m2 e.
Proof. unfold onext. rewrite (sim_ring Rp m1 m2 HM). reflexivity. Qed.
Lemma mir_dest e : rsim Rp (dest_or_zero m1 e) (dest_or_zero m2 e).
Proof. destruct e as [g|]; cbn [dest_or_zero]; [exact (sim_get_pt Rp m1 m2 HM (snd g))|exact (mir_zero fl)]. Qed.
Lemma mir_loop e : rsim Rp (loop_point m1 e) (loop_point m2 e).
Proof.
  unfold loop_point. rewrite (sim_internal Rp m1 m2 HM), (sim_at_border Rp m1 m2 HM).
  unfold lnext, rprev. rewrite mir_oprev, mir_onext.
  destruct (is_internal m2 e); [|destruct (is_at_border m2 e); [|reflexivity]];
  repeat (eapply rbind_sim; [first [apply (sim_get_pt Rp m1 m2 HM)|apply mir_dest]|intros ? ? ?]); [|apply mir_mid; assumption].
  apply mir_comb; [apply mir_zero|]. repeat (apply Forall2_cons; [assumption|]). apply Forall2_nil.
Qed.
Lemma mir_butterfly e : rsim Rp (butterfly_point m1 e) (butterfly_point m2 e).
Proof.
  unfold butterfly_point, lnext, rprev, lprev, rnext. rewrite !mir_oprev, !mir_onext.
  rewrite !(obind_ext _ (fun x => onext m1 (sym x)) (fun x => onext m2 (sym x))) by (intros; apply mir_onext).
  rewrite !(obind_ext _ (fun x => oprev m1 (sym x)) (fun x => oprev m2 (sym x))) by (intros; apply mir_oprev).
  repeat (eapply rbind_sim; [first [apply (sim_get_pt Rp m1 m2 HM)|apply mir_dest]|intros ? ? ?]).
  apply mir_comb; [apply mir_zero|]. repeat (apply Forall2_cons; [assumption|]). apply Forall2_nil.
Qed.
Lemma mir_sums v (l : list N) : forall (b1 b2 : list float) n (o1 o2 : list float) nn, mirrored fl b1 b2 -> mirrored fl o1 o2 ->
  rsim (fun x y => snd x = snd y /\ Rp (snd (fst x)) (snd (fst y)) /\ snd (fst (fst x)) = snd (fst (fst y)) /\ Rp (fst (fst (fst x))) (fst (fst (fst y))))
       (smooth_sums m1 v l b1 n o1 nn) (smooth_sums m2 v l b2 n o2 nn).
Proof.
  induction l as [|x l IH]; intros b1 b2 n o1 o2 nn Hb Ho; cbn [smooth_sums]; [cbn; auto|].
  eapply rbind_sim; [apply (sim_elem_pt Rp m1 m2 HM)|]. intros p q H.
  rewrite (sim_at_border Rp m1 m2 HM). destruct (is_at_border m2 (v, x)); apply IH; try apply mir_padd; assumption.
Qed.
Lemma mir_vertex v p q : mirrored fl p q -> rsim Rp (smoothing_point m1 v p) (smoothing_point m2 v q).
Proof.
  intros H. unfold smoothing_point. rewrite (sim_ring Rp m1 m2 HM). destruct (ring m2 v) as [|x r]; [reflexivity|].
  eapply rbind_sim; [apply mir_sums; apply mir_zero|]. intros [[[b1 n1] o1] k1] [[[b2 n2] o2] k2] [H1 [H2 [H3 H4]]]. cbn in H1, H2, H3, H4. subst.
  destruct (N.eqb n2 0); [apply mir_interior|apply mir_border]; assumption.
Qed.
Lemma mir_update k fuel f : (k = CellF CLoop -> sorted_keys (pts m1)) -> rsim ssim (update k fuel f m1) (update k fuel f m2).
Proof.
  intros Hn. apply update_sim.
  - exact HM.
  - apply mir_mid.
  - intros _ p q r p' q' r' H1 H2 H3. apply mir_pscale. repeat (apply mir_padd; try assumption). apply mir_zero.
  - intros _ e _. apply mir_loop.
  - intros _ e _. apply mir_butterfly.
  - intros _ v p q E1 E2. apply mir_vertex. pose proof (psim_get Rp v _ _ (proj1 HM)) as G. rewrite E1, E2 in G. exact G.
  - intros H. apply sorted_NoDup_keys. apply Hn. exact H.
Qed.
End ONE.
Lemma mir_outcome (r1 : res (@state OO D1)) (r2 : res (@state OO D2)) : rsim ssim r1 r2 -> mirror_outcome fl r1 r2.
Proof.
  intros H. unfold mirror_outcome. destruct r1 as [[f1 o1]| | |], r2 as [[f2 o2]| | |]; cbn in H; auto. destruct H as [H1 H2]. split; [exact H1|apply mir_mesh; exact H2].
Qed.
Lemma mir_step k fuel f (m1 : mesh1) (m2 : mesh2) : msim m1 m2 -> wf_points m1 ->
  rsim (fun a b => ssim a b /\ wf_points (snd a)) (update k fuel f m1) (update k fuel f m2).
Proof.
  intros HM [H1 H2]. pose proof (mir_update m1 m2 HM k fuel f (fun _ => H1)) as U.
  destruct (update k fuel f m1) as [[f1 o1]| | |] eqn:E, (update k fuel f m2) as [[f2 o2]| | |]; cbn in U |- *; auto.
  split; [exact U|]. destruct (update_dims k fuel f m1 f1 o1 H1 H2 E). split; assumption.
Qed.
End RUNS.
End POINTS.

Lemma C116_pf : forall prec emax Hp Hm cosf d D1 D2 k f fuel flip (m1 : mesh (BO prec emax Hp Hm cosf d) D1) (m2 : mesh (BO prec emax Hp Hm cosf d) D2),
  mirror_image flip m1 m2 -> (k = CellF CLoop -> wf_points m1) -> mirror_outcome flip (update k fuel f m1) (update k fuel f m2).
Proof.
  intros prec emax Hp Hm cosf d D1 D2 k f fuel fl m1 m2 HM Hw. apply mir_outcome. apply mir_update; [apply mir_mesh; exact HM|].
  intros Hk. apply (Hw Hk).
Qed.
Lemma C116_conditional_pf : forall prec emax Hp Hm cosf d D1 D2 k f old fuel flip T (m1 : mesh (BO prec emax Hp Hm cosf d) D1) (m2 : mesh (BO prec emax Hp Hm cosf d) D2),
  mirror_image flip m1 m2 -> wf_points m1 ->
  mirror_outcome flip (conditional_update fuel k (Some (cell_area_criterion T)) old f m1) (conditional_update fuel k (Some (cell_area_criterion T)) old f m2) /\
  mirror_outcome flip (conditional_update fuel k (Some (edge_length_criterion T)) old f m1) (conditional_update fuel k (Some (edge_length_criterion T)) old f m2).
Proof.
  intros prec emax Hp Hm cosf d D1 D2 k f old fuel fl T m1 m2 HM Hw. apply mir_mesh in HM.
  assert (W : wf_points (copy_geometry m1)) by (destruct Hw as [H1 H2]; unfold wf_points; rewrite copy_geometry_pts by exact H1; split; assumption).
  split; apply mir_outcome; apply (cond_sim (Rm prec emax Hp Hm cosf d fl) _ _ _ (fun a _ => wf_points a)); try exact HM; try exact W;
    try (intros; apply mir_step; assumption); intros a b n o H _.
  - apply sim_area with (Rp := Rm prec emax Hp Hm cosf d fl); [|exact H]. intros p q r p' q' r' H1 H2 H3. rewrite (mir_area _ _ _ _ _ _ fl p q r p' q' r' H1 H2 H3). reflexivity.
  - apply sim_length with (Rp := Rm prec emax Hp Hm cosf d fl); [|exact H]. intros p q p' q' H1 H2. rewrite (mir_dist _ _ _ _ _ _ fl p q p' q' H1 H2). reflexivity.
Qed.
Lemma C116_iterative_pf : forall prec emax Hp Hm cosf d D1 D2 s n sel fuel flip (m1 : mesh (BO prec emax Hp Hm cosf d) D1) (m2 : mesh (BO prec emax Hp Hm cosf d) D2),
  mirror_image flip m1 m2 -> wf_points m1 ->
  mirror_outcome flip (iterative_update s n fuel sel m1) (iterative_update s n fuel sel m2).
Proof.
  intros prec emax Hp Hm cosf d D1 D2 s n sel fuel fl m1 m2 HM Hw. apply mir_mesh in HM. apply mir_outcome. unfold iterative_update.
  apply (iter_sim (Rm prec emax Hp Hm cosf d fl) s (fun _ a _ => wf_points a)); auto. intros a b fu l H HW. apply mir_step; assumption.
Qed.
