(** * Simil: the drivers on a mesh and on its image under a similarity (C115). *)
From Coq Require Import Reals Lra Sorted.
From Verif Require Import Base Mesh Filters Drivers Spec SpecSub SpecGeo SpecDrive SpecSimil Lists AddFace SplitTri Split Points Valid Run Update Struct Count Face FaceProps Copy PtsAny Geo GeoProps Drive Area Cond Sim SimProps SimDrive Gaps Conv.

Local Open Scope R_scope.

(** ** One fan at every point is preserved by every run *)
Section FANS.
Context {O : Ops} {D : Type}.
Notation mesh := (mesh O D).
Implicit Types m inp out : mesh.

Lemma fans_step k f inp fuel f' out : valid inp -> dense inp -> ready k f inp -> (forall v, one_fan inp v) -> valid out ->
  update k fuel f inp = Ok (f', out) -> forall v, one_fan out v.
Proof.
  intros Hv Hd Hr Hof Hvo E v.
  destruct (C06_all_pf _ _ _ f inp fuel f' out Hv Hd Hr E) as [mid [Ls [Hsd [HB _]]]]. pose proof (sd_sym _ _ _ _ _ Hsd) as Sy.
  assert (New : forall a b e, mid a b = Some e -> oget e (pts inp) = None) by (intros a b e He; apply (sd_new _ _ _ _ _ Hsd e); eauto).
  assert (Old : forall a b, border_edge inp a b -> oget a (pts inp) <> None /\ oget b (pts inp) <> None /\ a <> b).
  { intros a b [J _]. split; [apply (v_ring_pts _ Hv b a), (v_ring_sym _ Hv); exact J|]. split; [apply (v_ring_pts _ Hv a b); exact J|]. intros ->. exact (v_ring_irr _ Hv _ J). }
  assert (Bsym : forall a b, border_edge inp a b -> border_edge inp b a).
  { intros a b [J H]. split; [apply (v_ring_sym _ Hv); exact J|tauto]. }
  assert (Bs : forall m a b, valid m -> (border_edge m a b <-> border_dir m a b \/ border_dir m b a)).
  { intros m a b Hm. unfold border_edge, border_dir. split; [tauto|]. intros [[X Y]|[X Y]]; (split; [|tauto]); [|apply (v_ring_sym _ Hm)]; apply (v_face_edges _ Hm); exact X. }
  assert (Ch : forall x y, border_edge out x y <->
     (exists a b e, border_edge inp a b /\ mid a b = Some e /\ ((x = a /\ y = e) \/ (x = e /\ y = a))) \/ (border_edge inp x y /\ mid x y = None)).
  { intros x y. rewrite (Bs out x y Hvo), !HB. split.
    - intros [[a [b [Hb Hp]]]|[a [b [Hb Hp]]]]; unfold part_of in Hp;
        (assert (B1 : border_edge inp a b) by (apply (Bs inp a b Hv); auto)); (assert (B2 : border_edge inp b a) by (apply Bsym; exact B1));
        destruct (mid a b) as [e|] eqn:Ee; (assert (Ee' := Ee); rewrite Sy in Ee').
      + left. destruct Hp as [[-> ->]|[-> ->]]; first [exists a, b, e; tauto | exists b, a, e; tauto].
      + right. destruct Hp as [-> ->]. tauto.
      + left. destruct Hp as [[-> ->]|[-> ->]]; first [exists a, b, e; tauto | exists b, a, e; tauto].
      + right. destruct Hp as [-> ->]. tauto.
    - intros [[a [b [e [Hb [Ee Hx]]]]]|[Hb Ee]].
      + apply (Bs inp a b Hv) in Hb. assert (Ee' := Ee). rewrite Sy in Ee'.
        destruct Hb as [Hb|Hb]; destruct Hx as [[-> ->]|[-> ->]].
        * left. exists a, b. split; [exact Hb|]. unfold part_of. rewrite Ee. auto.
        * right. exists a, b. split; [exact Hb|]. unfold part_of. rewrite Ee. auto.
        * right. exists b, a. split; [exact Hb|]. unfold part_of. rewrite Ee'. auto.
        * left. exists b, a. split; [exact Hb|]. unfold part_of. rewrite Ee'. auto.
      + assert (Ee' := Ee). rewrite Sy in Ee'. apply (Bs inp x y Hv) in Hb. destruct Hb as [Hb|Hb]; [left; exists x, y|right; exists y, x]; (split; [exact Hb|]); unfold part_of; rewrite ?Ee, ?Ee'; auto. }
  intros B [Hn HBn]. destruct B as [|w0 B0] eqn:EB; [left; reflexivity|]. right. rewrite <- EB in *.
  assert (H0 : border_edge out v w0) by (apply HBn; rewrite EB; cbn; auto). clear EB B0.
  destruct (oget v (pts inp)) as [pv|] eqn:Ov.
  - (* an old point *)
    set (g := fun w => match mid v w with Some e => e | None => w end).
    assert (Gv : forall w, border_edge out v w <-> exists u, border_edge inp v u /\ w = g u).
    { intros w. rewrite Ch. unfold g. split.
      - intros [[a [b [e [Hb [Ee [[-> ->]|[-> ->]]]]]]]|[Hb Ee]].
        + exists b. split; [exact Hb|]. rewrite Ee. reflexivity.
        + rewrite (New _ _ _ Ee) in Ov. discriminate.
        + exists w. split; [exact Hb|]. rewrite Ee. reflexivity.
      - intros [u [Hb ->]]. destruct (mid v u) as [e|] eqn:Ee; [left; exists v, u, e; auto|right; auto]. }
    destruct (filter_border inp v Hv) as [F1 F2]. set (C := filter _ (ring inp v)) in *. assert (HC : border_neighbours inp v C) by (split; assumption).
    apply Gv in H0. destruct H0 as [u0 [Hu0 _]].
    destruct (Hof v C HC) as [C0|C2]; [apply F2 in Hu0; rewrite C0 in Hu0; destruct Hu0|]. destruct C as [|p [|q [|r C]]]; try discriminate C2.
    assert (Hp : border_edge inp v p) by (apply F2; cbn; auto). assert (Hq : border_edge inp v q) by (apply F2; cbn; auto).
    assert (Npq : p <> q) by (intros ->; inversion F1 as [|? ? X1 _]; subst; apply X1; cbn; auto).
    destruct (Old _ _ Hp) as [_ [Op Np]]. destruct (Old _ _ Hq) as [_ [Oq Nq]].
    apply (two_only B (g p) (g q) Hn).
    + intros w. rewrite HBn, Gv. split.
      * intros [u [Hu ->]]. apply F2 in Hu. cbn in Hu. destruct Hu as [<-|[<-|[]]]; auto.
      * intros [->| ->]; eauto.
    + unfold g. destruct (mid v p) as [x|] eqn:Mp, (mid v q) as [y|] eqn:Mq; [| | |exact Npq].
      * intros ->. destruct (sd_inj _ _ _ _ _ Hsd v p v q y Mp Mq) as [X|X]; cbn [fst snd] in X; injection X as X; congruence.
      * intros ->. exact (Oq (New _ _ _ Mp)).
      * intros <-. exact (Op (New _ _ _ Mq)).
  - (* a new point *)
    apply Ch in H0. destruct H0 as [[a [b [e [Hb [Ee [[-> ->]|[-> ->]]]]]]]|[Hb Ee]].
    + destruct (Old _ _ Hb) as [X _]. congruence.
    + destruct (Old _ _ Hb) as [Oa [Ob Nab]]. apply (two_only B a b Hn); [|exact Nab]. intros w. rewrite HBn, Ch. split.
      * intros [[a' [b' [e' [Hb' [Ee' Hx']]]]]|[Hb' _]]; [|destruct (Old _ _ Hb') as [X _]; congruence]. destruct (Old _ _ Hb') as [Oa' _]. destruct Hx' as [[-> ->]|[<- ->]]; [congruence|].
        destruct (sd_inj _ _ _ _ _ Hsd a b a' b' e Ee Ee') as [X|X]; cbn [fst snd] in X; injection X as -> ->; auto.
      * left. destruct H as [->| ->]; [exists a, b, e; auto|]. exists b, a, e. split; [apply Bsym; exact Hb|]. rewrite Sy. auto.
    + destruct (Old _ _ Hb) as [X _]. congruence.
Qed.
End FANS.

(** ** Lengths and areas under a similarity *)
Section DIST.
Context {d1 d2 : nat}.
Variables (M : nat -> nat -> R) (t : nat -> R) (s : R).
Hypothesis HM : similarity d1 d2 M s.
Hypothesis Hs : 0 < s.
Notation Rp := (@Ra d1 d2 M t).

Lemma sim_sqdist (p q p' q' : list R) : Rp p p' -> Rp q q' -> @sqdist (RO d2) 0 p' q' = s ^ 2 * @sqdist (RO d1) 0 p q.
Proof.
  intros [L1 [L2 H]] [L3 [L4 H']]. change (@length R p = d1) in L1. change (@length R p' = d2) in L2. change (@length R q = d1) in L3. change (@length R q' = d2) in L4.
  rewrite (sqdist_acc (d := d2) p' q' (eq_trans L2 (eq_sym L4))), (sqdist_acc (d := d1) p q (eq_trans L1 (eq_sym L3))), L1, L2, !Rplus_0_l.
  etransitivity; [|exact (HM (fun i => nth i p 0 - nth i q 0))]. apply rsum_ext. intros j Hj. apply in_seq in Hj.
  assert (E1 : nth j p' 0 = t j + lin (M j) p) by (rewrite <- (lin_delta j p'); apply H; lia).
  assert (E2 : nth j q' 0 = t j + lin (M j) q) by (rewrite <- (lin_delta j q'); apply H'; lia).
  rewrite E1, E2, (lin_rsum_len _ p d1 L1), (lin_rsum_len _ q d1 L3). f_equal.
  match goal with |- t j + ?a - (t j + ?b) = _ => replace (t j + a - (t j + b)) with (a + -1 * b) by ring end.
  rewrite <- rsum_scal, <- rsum_plus. apply rsum_ext. intros i _. ring.
Qed.
Lemma sim_dist p q p' q' : Rp p p' -> Rp q q' -> @dist (RO d2) p' q' = s * @dist (RO d1) p q.
Proof.
  intros H H'. unfold dist. cbn [ksqrt kZ RO]. rewrite (sim_sqdist p q p' q' H H'). rewrite sqrt_mult_alt by (apply pow2_ge_0).
  rewrite sqrt_pow2 by lra. reflexivity.
Qed.
Lemma sim_area_eq p q r p' q' r' : Rp p p' -> Rp q q' -> Rp r r' -> @area (RO d2) p' q' r' = s * s * @area (RO d1) p q r.
Proof.
  intros H H' H''. unfold area. rewrite (sim_dist q r q' r' H' H''), (sim_dist p r p' r' H H''), (sim_dist q p q' p' H' H).
  generalize (@dist (RO d1) q r), (@dist (RO d1) p r), (@dist (RO d1) q p). intros x y z. unfold kfrac. cbn [ksqrt kmul kadd ksub kdiv kZ RO K] in *.
  assert (E : s * s = sqrt (s * s * (s * s))) by (symmetry; apply sqrt_square; apply Rle_0_sqr). rewrite E at 1.
  rewrite <- sqrt_mult_alt by (apply Rmult_le_pos; apply Rle_0_sqr). f_equal. change (K (RO d1)) with R in x, y, z. field.
Qed.
Lemma gtb_scale c x y : 0 < c -> kgtb (RO d1) x y = kgtb (RO d2) (c * x) (c * y).
Proof.
  intros Hc. cbn. destruct (Rlt_dec y x) as [H|H], (Rlt_dec (c * y) (c * x)) as [H1|H1]; auto; exfalso.
  - apply H1. apply Rmult_lt_compat_l; assumption.
  - apply H. exact (Rmult_lt_reg_l c y x Hc H1).
Qed.
End DIST.

(** ** The steps *)
Section STEPS.
Context {d1 d2 : nat} {D1 D2 : Type}.
Variables (M : nat -> nat -> R) (t : nat -> R).
Notation Rp := (@Ra d1 d2 M t).
Notation msim := (@msim (RO d1) (RO d2) D1 D2 Rp).
Notation ssim := (@ssim (RO d1) (RO d2) D1 D2 Rp).

Definition plain (k : kind) : Prop := k = CellF CLinear \/ k = CellF CSqrt3 \/ k = EdgeF ELinear.
Definition Jk (k : kind) (m1 : mesh (RO d1) D1) (m2 : mesh (RO d2) D2) : Prop :=
  plain k \/ (cond_start k m1 /\ cond_start k m2 /\ (k = CellF CLoop -> forall v, one_fan m1 v)).

Lemma msim_out m1 m2 : msim m1 m2 -> same_connectivity m1 m2 /\ affine_image M t m1 m2.
Proof. intros H. destruct (ssim_out M t (new_filter, m1) (new_filter, m2)) as [_ X]; [split; [reflexivity|exact H]|exact X]. Qed.
Lemma plain_step k fuel f m1 m2 : plain k -> msim m1 m2 -> rsim ssim (update k fuel f m1) (update k fuel f m2).
Proof.
  intros Hk HM. apply update_sim; [exact HM|apply Ra_mid|intros _; apply Ra_cen| | | |]; intros X; exfalso; destruct Hk as [ -> |[ -> | -> ]]; try discriminate X; destruct X; discriminate.
Qed.
Lemma ready_step k fuel f m1 m2 : Jk k m1 m2 -> msim m1 m2 -> (~ plain k -> ready k f m1) ->
  rsim (fun a b => ssim a b /\ Jk k (snd a) (snd b)) (update k fuel f m1) (update k fuel f m2).
Proof.
  intros HJ HM Hr. assert (HP : plain k \/ ~ plain k) by (destruct k as [[]|[]]; unfold plain; first [left; tauto|right; intros [X|[X|X]]; discriminate X]).
  destruct HP as [HP|HP].
  - pose proof (plain_step k fuel f m1 m2 HP HM) as U. destruct (update k fuel f m1), (update k fuel f m2); cbn in *; auto. split; [exact U|left; exact HP].
  - destruct HJ as [X|[S1 [S2 HF]]]; [contradiction|]. specialize (Hr HP). destruct (msim_out m1 m2 HM) as [HS HA].
    pose proof (affine_sim M t m1 m2 (proj1 S1) (proj1 S2) HS HA k fuel f HF) as U.
    destruct (update k fuel f m1) as [[f1 o1]| | |] eqn:E1, (update k fuel f m2) as [[f2 o2]| | |] eqn:E2; cbn in U |- *; auto.
    split; [exact U|]. right. pose proof (start_step k f m1 fuel f1 o1 S1 Hr E1) as S1'.
    split; [exact S1'|]. split; [exact (start_step k f m2 fuel f2 o2 S2 (same_ready m1 m2 HS k f Hr) E2)|].
    intros Hk. exact (fans_step k f m1 fuel f1 o1 (proj1 S1) (proj1 (proj2 S1)) Hr (HF Hk) (proj1 S1') E1).
Qed.
Lemma start_same k (m1 : mesh (RO d1) D1) (m2 : mesh (RO d2) D2) : valid m1 -> valid m2 -> same_connectivity m1 m2 -> cond_start k m1 -> cond_start k m2.
Proof.
  intros V1 V2 HS [_ [Hd [Hn [Hk Hl]]]]. split; [exact V2|]. split; [exact (same_dense m1 m2 HS Hd)|]. split; [unfold tris; rewrite <- (same_faces m1 m2 HS); exact Hn|].
  split; [exact Hk|]. intros H. destruct (Hl H) as [A B]. split; [exact (same_isolated m1 m2 HS A)|exact (same_wire m1 m2 HS B)].
Qed.
Lemma drivable_J k (m1 : mesh (RO d1) D1) (m2 : mesh (RO d2) D2) : valid m1 -> valid m2 -> same_connectivity m1 m2 -> drivable k m1 -> Jk k m1 m2.
Proof.
  intros V1 V2 HS [H|[H|[H|[Hd [Hn [Hl Hf]]]]]]; try (left; unfold plain; tauto).
  assert (HP : plain k \/ splits_faces k) by (destruct k as [[]|[]]; unfold plain, splits_faces; first [left; tauto|right; discriminate]).
  destruct HP as [HP|HP]; [left; exact HP|]. right. assert (S1 : cond_start k m1) by (split; [exact V1|]; auto).
  split; [exact S1|]. split; [eapply start_same; eauto|exact Hf].
Qed.
Lemma copy_fans (m : mesh (RO d1) D1) : valid m -> (forall v, one_fan m v) -> forall v, one_fan (copy_geometry m) v.
Proof.
  intros Hv H v B [Hn HB]. destruct (copy_shape m Hv) as [_ [Ht Hj]]. apply (H v B). split; [exact Hn|]. intros w. rewrite HB. unfold border_edge. rewrite Ht, Hj. reflexivity.
Qed.
Lemma copy_J k m1 m2 : Jk k m1 m2 -> Jk k (copy_geometry m1) (copy_geometry m2).
Proof.
  intros [H|[S1 [S2 H]]]; [left; exact H|]. right. split; [apply copy_start; exact S1|]. split; [apply copy_start; exact S2|].
  intros Hk. apply copy_fans; [exact (proj1 S1)|exact (H Hk)].
Qed.
Lemma image_of r1 r2 : rsim ssim r1 r2 -> image_outcome M t r1 r2.
Proof.
  intros H. unfold image_outcome. destruct r1 as [[f1 o1]| | |], r2 as [[f2 o2]| | |]; cbn in H; auto. exact (ssim_out M t _ _ H).
Qed.
End STEPS.

Lemma C115_area_pf : forall (d1 d2 : nat) (D1 D2 : Type) sc old f (m1 : mesh (RO d1) D1) (m2 : mesh (RO d2) D2) M t s A fuel,
  valid m1 -> valid m2 -> same_connectivity m1 m2 -> affine_image M t m1 m2 -> similarity d1 d2 M s -> (0 < s)%R -> drivable (CellF sc) m1 ->
  image_outcome M t (conditional_update fuel (CellF sc) (Some (cell_area_criterion (O := RO d1) A)) old f m1)
                    (conditional_update fuel (CellF sc) (Some (cell_area_criterion (O := RO d2) (s * s * A)%R)) old f m2).
Proof.
  intros d1 d2 D1 D2 sc old f m1 m2 M t s A fuel V1 V2 HS HA HM Hs Hdr. apply image_of.
  apply (cond_sim (Ra M t) _ _ _ (Jk (CellF sc))).
  - intros a b n o H _. apply sim_area with (Rp := Ra M t); [|exact H]. intros p q r p' q' r' H1 H2 H3.
    rewrite (sim_area_eq M t s HM Hs p q r p' q' r' H1 H2 H3). apply gtb_scale. apply Rmult_lt_0_compat; exact Hs.
  - intros a b n o sl fu g H HJ E _. apply ready_step; [exact HJ|exact H|]. intros HP. destruct HJ as [X|[S1 _]]; [contradiction|].
    destruct (area_crit_runs A a o (proj1 S1)) as [n' E']. assert (sl = asel A a).
    { pose proof (area_crit_mono A n n' a o) as X. pose proof (area_crit_mono A n' n a o) as Y. rewrite E in X. rewrite E' in Y. rewrite X in Y || (rewrite Nat.add_comm in Y; rewrite X in Y); try discriminate.
      specialize (Y ltac:(discriminate)). congruence. }
    subst sl. apply area_ready. exact S1.
  - apply Ra_mesh; assumption.
  - apply copy_J. apply drivable_J; assumption.
Qed.
Lemma C115_length_pf : forall (d1 d2 : nat) (D1 D2 : Type) sc old f (m1 : mesh (RO d1) D1) (m2 : mesh (RO d2) D2) M t s L fuel,
  valid m1 -> valid m2 -> same_connectivity m1 m2 -> affine_image M t m1 m2 -> similarity d1 d2 M s -> (0 < s)%R -> drivable (EdgeF sc) m1 ->
  image_outcome M t (conditional_update fuel (EdgeF sc) (Some (edge_length_criterion (O := RO d1) L)) old f m1)
                    (conditional_update fuel (EdgeF sc) (Some (edge_length_criterion (O := RO d2) (s * L)%R)) old f m2).
Proof.
  intros d1 d2 D1 D2 sc old f m1 m2 M t s L fuel V1 V2 HS HA HM Hs Hdr. apply image_of.
  apply (cond_sim (Ra M t) _ _ _ (Jk (EdgeF sc))).
  - intros a b n o H _. apply sim_length with (Rp := Ra M t); [|exact H]. intros p q p' q' H1 H2.
    rewrite (sim_dist M t s HM Hs p q p' q' H1 H2). apply gtb_scale. exact Hs.
  - intros a b n o sl fu g H HJ E Hsl. apply ready_step; [exact HJ|exact H|]. intros HP. destruct HJ as [X|[S1 _]]; [contradiction|].
    rewrite (edge_crit_runs L a o n (proj1 S1)) in E. injection E as <-. apply edge_ready; [exact S1|exact Hsl].
  - apply Ra_mesh; assumption.
  - apply copy_J. apply drivable_J; assumption.
Qed.
Lemma C115_iterative_pf : forall (d1 d2 : nat) (D1 D2 : Type) sc sel n (m1 : mesh (RO d1) D1) (m2 : mesh (RO d2) D2) M t fuel,
  valid m1 -> valid m2 -> same_connectivity m1 m2 -> affine_image M t m1 m2 -> drivable (CellF sc) m1 -> existing m1 sel ->
  image_outcome M t (iterative_update sc n fuel sel m1) (iterative_update sc n fuel sel m2).
Proof.
  intros d1 d2 D1 D2 sc sel n m1 m2 M t fuel V1 V2 HS HA Hdr He. apply image_of. unfold iterative_update.
  apply (iter_sim (Ra M t) sc (fun l a b => Jk (CellF sc) a b /\ (~ plain (CellF sc) -> existing a l))).
  - intros a b fu l H [HJ Hl].
    assert (Hr : ~ plain (CellF sc) -> ready (CellF sc) (set_cells_to_be_subdivided new_filter l) a).
    { intros HP. destruct HJ as [X|[[_ [_ [_ [Hk Hlo]]]] _]]; [contradiction|]. split; [exact Hk|]. split; [intros X; apply Hlo; exact X|]. exact (Hl HP). }
    pose proof (ready_step M t (CellF sc) fu (set_cells_to_be_subdivided new_filter l) a b HJ H Hr) as U.
    destruct (update (CellF sc) fu (set_cells_to_be_subdivided new_filter l) a) as [[f1 o1]| | |] eqn:E1, (update (CellF sc) fu (set_cells_to_be_subdivided new_filter l) b) as [[f2 o2]| | |]; cbn in U |- *; auto.
    destruct U as [U1 U2]. split; [exact U1|]. split; [exact U2|]. intros HP i Hi. destruct HJ as [X|[[Va [Da _]] _]]; [contradiction|].
    destruct (face_run _ _ _ _ _ _ Va Da (Hr HP) E1) as [mid [Ls FR]]. apply (fr_csel _ _ _ _ _ _ _ FR) in Hi. destruct Hi as [_ [_ [_ [u [Hu _]]]]]. eauto.
  - apply Ra_mesh; assumption.
  - split; [apply drivable_J; assumption|]. intros _. exact He.
Qed.
