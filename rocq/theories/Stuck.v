(** * Stuck: positive thresholds that floating-point refinement never reaches (C99). *)
From Coq Require Import Reals Lra Psatz.
From Flocq Require Import Core BinarySingleNaN.
From Verif Require Import Base Mesh Filters Drivers Spec SpecSub SpecGeo SpecFlt SpecDrive Lists AddFace SplitTri Split Points Valid Run Update Struct Count Face Copy PtsAny Geo GeoProps Conn Drive Area Cond DriveProps Never Flt FltBox Local.
Open Scope R_scope.

(** ** Any arithmetic *)
Section CUT.
Context {O : Ops} {D : Type}.
Notation mesh := (mesh O D).
Implicit Types m inp out : mesh.

Lemma cut_dirs k f inp f' out mid Ls a b : valid inp -> face_result k f inp f' out mid Ls -> In (a, b) (dirs (tris inp)) ->
  (mid a b = None /\ In (a, b) (dirs (tris out))) \/ exists y, mid a b = Some y /\ In (a, y) (dirs (tris out)) /\ In (y, b) (dirs (tris out)).
Proof.
  intros Hv FR Hab. pose proof (fr_sub _ _ _ _ _ _ _ FR) as Hsd. apply dirs_tri in Hab. destruct Hab as [t [Ht Hab]].
  assert (G : (mid a b = None /\ In (a, b) (dirs (split_tri mid t))) \/
              exists y, mid a b = Some y /\ In (a, y) (dirs (split_tri mid t)) /\ In (y, b) (dirs (split_tri mid t))).
  { destruct t as [[u v] w]. cbn in Hab. unfold split_tri.
    destruct Hab as [Hab|[Hab|[Hab|[]]]]; injection Hab as <- <-;
    destruct (mid u v) as [e0|] eqn:E0; destruct (mid v w) as [e1|] eqn:E1; destruct (mid w u) as [e2|] eqn:E2;
    first [left; split; [reflexivity|cbn; auto 14]|right; eexists; split; [reflexivity|split; cbn; auto 14]]. }
  assert (I : forall e, In e (dirs (split_tri mid t)) -> In e (dirs (tris out))).
  { intros [e1 e2] He. apply dirs_tri in He. destruct He as [u [Hu He]]. apply dirs_tri. exists u. split; [|exact He].
    rewrite (sd_tris _ _ _ _ _ Hsd), (fr_Ls _ _ _ _ _ _ _ FR). apply in_concat. exists (split_tri mid t). split; [apply in_map; exact Ht|exact Hu]. }
  destruct G as [[G1 G2]|[y [G1 [G2 G3]]]]; [left|right; exists y]; auto.
Qed.
Lemma linear_new k f inp f' out mid Ls a b x : is_linear k -> face_result k f inp f' out mid Ls -> mid a b = Some x ->
  exists p q r, ((oget a (pts inp) = Some p /\ oget b (pts inp) = Some q) \/ (oget a (pts inp) = Some q /\ oget b (pts inp) = Some p)) /\
    oget x (pts out) = Some r /\ r = midpoint p q.
Proof.
  intros Hk FR Hm. destruct (fr_new _ _ _ _ _ _ _ FR a b x Hm) as [e [r [Ue [_ [Pe Ge]]]]].
  assert (L : linear_point inp e = Ok r) by (destruct Hk as [-> | ->]; exact Pe). unfold linear_point, get_pt in L.
  destruct (oget (fst e) (pts inp)) as [p|] eqn:E1; cbn [rbind] in L; [|discriminate].
  destruct (oget (snd e) (pts inp)) as [q|] eqn:E2; cbn [rbind] in L; [|discriminate]. inv L.
  exists p, q, (midpoint p q). split; [|auto]. destruct Ue as [->| ->]; cbn in E1, E2; auto.
Qed.
Lemma long_edges_some_any t m a b p q : valid m -> joined m a b -> oget a (pts m) = Some p -> oget b (pts m) = Some q ->
  kgtb O (dist p q) t = true -> kgtb O (dist q p) t = true -> long_edges t m <> [].
Proof.
  intros Hv Hj Ha Hb H1 H2 E. destruct (v_ecells _ Hv) as [es [Hes [_ [_ [Hall _]]]]].
  destruct (Hall a b Hj) as [id [e [Hin He]]].
  assert (G : In (Some e) (long_edges t m)).
  { unfold long_edges. apply filter_In. split.
    - unfold edges_of. rewrite Hes. apply in_map_iff. exists (id, Some e). auto.
    - destruct He as [->| ->]; cbn; rewrite Ha, Hb; assumption. }
  rewrite E in G. destruct G.
Qed.

(** A triangle that reappears among its own four children. *)
Section AGAIN.
Variables (P Q R : list (K O)) (t : K O).
Hypothesis PQ : midpoint P Q = Q.
Hypothesis QP : midpoint Q P = Q.
Hypothesis PR : midpoint P R = R.
Hypothesis RP : midpoint R P = R.
Hypothesis A1 : kgtb O (area P Q R) t = true.
Hypothesis A2 : kgtb O (area Q R P) t = true.
Hypothesis A3 : kgtb O (area R P Q) t = true.

Definition here m id a b c : Prop := In (id, (a, b, c)) (faces m) /\
  (tri_pts m a b c P Q R \/ tri_pts m a b c Q R P \/ tri_pts m a b c R P Q).

Lemma here_long m id a b c : valid m -> here m id a b c -> In id (long_cells t m).
Proof.
  intros Hv [Hf H]. apply (long_cells_In t m id Hv).
  destruct H as [H|[H|H]]; [exists a, b, c, P, Q, R|exists a, b, c, Q, R, P|exists a, b, c, R, P, Q]; auto.
Qed.
Lemma mid_of m f n f1 m1 mid Ls a b x p q r : (midpoint p q = r /\ midpoint q p = r) ->
  face_result (CellF CLinear) (apply_selection f (asel t m)) m f1 m1 mid Ls -> mid a b = Some x ->
  update (CellF CLinear) n (apply_selection f (asel t m)) m = Ok (f1, m1) ->
  oget a (pts m) = Some p -> oget b (pts m) = Some q -> oget x (pts m1) = Some r.
Proof.
  intros [M1 M2] FR Hx _ Ha Hb. destruct (linear_new _ _ m f1 m1 mid Ls a b x (or_introl eq_refl) FR Hx) as [u [v [w [Huv [Hw Ew]]]]].
  destruct Huv as [[U1 U2]|[U1 U2]]; rewrite Ha in U1; rewrite Hb in U2; injection U1 as <-; injection U2 as <-; rewrite Hw, Ew; f_equal; assumption.
Qed.

Lemma stuck_area old f inp id a b c : valid inp -> dense inp -> here inp id a b c ->
  diverges (fun fuel => conditional_update fuel (CellF CLinear) (Some (cell_area_criterion t)) old f inp).
Proof.
  intros Hv Hd Hh.
  apply (area_never CLinear t (fun m => cond_start (CellF CLinear) m /\ exists id a b c, here m id a b c)).
  - intros m [H _]. exact H.
  - intros m [[Hm _] [i [x [y [z H]]]]] E. pose proof (here_long m i x y z Hm H) as Hin. rewrite E in Hin. destruct Hin.
  - intros m f0 n f1 m1 [H0 [i [x [y [z H]]]]] E. pose proof (area_ready CLinear t m f0 H0) as Hr.
    split; [eapply start_step; [exact H0|exact Hr|exact E]|]. destruct H0 as [Hm [Hdm _]].
    destruct (face_run _ _ m n f1 m1 Hm Hdm Hr E) as [mid [Ls FR]]. pose proof (fr_sub _ _ _ _ _ _ _ FR) as Hsd.
    pose proof (here_long m i x y z Hm H) as Hin. destruct H as [Hf Hpt].
    assert (S : forall u v, In (u, v) [(x, y); (y, z); (z, x)] -> exists w, mid u v = Some w).
    { intros u v Huv. destruct (mid u v) as [w|] eqn:Em; [eauto|exfalso]. revert Em. apply (sd_dom _ _ _ _ _ Hsd).
      exists (x, y, z). split; [right; exists i; split; [exact Hin|exact Hf]|]. left. exact Huv. }
    destruct (S x y) as [e0 M0]; [cbn; auto|]. destruct (S y z) as [e1 M1]; [cbn; auto|]. destruct (S z x) as [e2 M2]; [cbn; auto|].
    assert (I : forall w, In w (split_tri mid (x, y, z)) -> exists j, In (j, w) (faces m1)).
    { intros w Hw. assert (Hw1 : In w (tris m1)).
      { rewrite (sd_tris _ _ _ _ _ Hsd), (fr_Ls _ _ _ _ _ _ _ FR). apply in_concat. exists (split_tri mid (x, y, z)).
        split; [apply in_map; unfold tris; apply in_map_iff; exists (i, (x, y, z)); auto|exact Hw]. }
      unfold tris in Hw1. apply in_map_iff in Hw1. destruct Hw1 as [[j w'] [Ew Hj]]. cbn in Ew. subst w'. eauto. }
    assert (K : forall u p, oget u (pts m) = Some p -> oget u (pts m1) = Some p) by (intros u p Hu; eapply fr_old; eauto; discriminate).
    unfold split_tri in I. rewrite M0, M1, M2 in I. cbn [split_triangle] in I.
    destruct Hpt as [[X [Y Z]]|[[X [Y Z]]|[X [Y Z]]]].
    + pose proof (mid_of m f0 n f1 m1 mid Ls _ _ _ _ _ _ (conj PQ QP) FR M0 E X Y) as N0.
      pose proof (mid_of m f0 n f1 m1 mid Ls _ _ _ _ _ _ (conj RP PR) FR M2 E Z X) as N2.
      first [destruct (I (x, e0, e2)) as [j Hj]; [cbn; auto 8|]; exists j, x, e0, e2
            |destruct (I (e0, e2, x)) as [j Hj]; [cbn; auto 8|]; exists j, e0, e2, x
            |destruct (I (e2, x, e0)) as [j Hj]; [cbn; auto 8|]; exists j, e2, x, e0]; (split; [exact Hj|]); unfold tri_pts; rewrite N0, N2, (K _ _ X); auto.
    + pose proof (mid_of m f0 n f1 m1 mid Ls _ _ _ _ _ _ (conj RP PR) FR M1 E Y Z) as N0.
      pose proof (mid_of m f0 n f1 m1 mid Ls _ _ _ _ _ _ (conj PQ QP) FR M2 E Z X) as N2.
      first [destruct (I (z, e2, e1)) as [j Hj]; [cbn; auto 8|]; exists j, z, e2, e1
            |destruct (I (e2, e1, z)) as [j Hj]; [cbn; auto 8|]; exists j, e2, e1, z
            |destruct (I (e1, z, e2)) as [j Hj]; [cbn; auto 8|]; exists j, e1, z, e2]; (split; [exact Hj|]); unfold tri_pts; rewrite N0, N2, (K _ _ Z); auto.
    + pose proof (mid_of m f0 n f1 m1 mid Ls _ _ _ _ _ _ (conj RP PR) FR M0 E X Y) as N0.
      pose proof (mid_of m f0 n f1 m1 mid Ls _ _ _ _ _ _ (conj PQ QP) FR M1 E Y Z) as N2.
      first [destruct (I (y, e1, e0)) as [j Hj]; [cbn; auto 8|]; exists j, y, e1, e0
            |destruct (I (e1, e0, y)) as [j Hj]; [cbn; auto 8|]; exists j, e1, e0, y
            |destruct (I (e0, y, e1)) as [j Hj]; [cbn; auto 8|]; exists j, e0, y, e1]; (split; [exact Hj|]); unfold tri_pts; rewrite N0, N2, (K _ _ Y); auto.
  - split.
    + apply copy_start. destruct Hh as [Hf _]. apply start_of; auto; [intros E; unfold tris in E; apply map_eq_nil in E; rewrite E in Hf; destruct Hf|unfold splits_faces; congruence|].
      intros [E|E]; discriminate.
    + destruct (copy_shape inp Hv) as [Hp [Ht _]]. destruct Hh as [Hf Hh].
      assert (Hin : In (a, b, c) (tris (copy_geometry inp))) by (rewrite Ht; unfold tris; apply in_map_iff; exists (id, (a, b, c)); auto).
      unfold tris in Hin. apply in_map_iff in Hin. destruct Hin as [[j w] [Ew Hj]]. cbn in Ew. subst w. exists j, a, b, c. split; [exact Hj|].
      unfold tri_pts in *. rewrite Hp. exact Hh.
Qed.
End AGAIN.
End CUT.

(** ** Neighbouring floating-point numbers *)
Section FLOATS.
Variables (prec emax : Z) (Hp : Prec_gt_0 prec) (Hm : Prec_lt_emax prec emax).
Hypothesis H8 : (8 <= prec)%Z.
Variables (cosf : N -> binary_float prec emax) (d : nat) (D : Type).
Notation F := (binary_float prec emax).
Notation fexp := (SpecFloat.fexp prec emax).
Notation rnd := (round radix2 fexp ZnearestE).
Notation sb := (@Bminus prec emax Hp Hm mode_NE).
Notation ml := (@Bmult prec emax Hp Hm mode_NE).
Notation ad := (@Bplus prec emax Hp Hm mode_NE).
Notation lim := (bpow radix2 (emax - 2)).
Notation OB := (BO prec emax Hp Hm cosf d).
Notation emin := (3 - emax - prec)%Z.
Local Instance exp_ok2 : Valid_exp fexp := fexp_correct prec emax Hp.

Lemma rnd_id r : generic_format radix2 fexp r -> rnd r = r.
Proof. intros H. apply round_generic; [apply valid_rnd_N|exact H]. Qed.

Definition ex (x : F) (r : R) : Prop := is_finite x = true /\ B2R x = r.
Notation coords := (Forall2 ex).

Lemma ex_format x r : ex x r -> generic_format radix2 fexp r /\ Rabs r < bpow radix2 emax.
Proof. intros [Hf <-]. split; [apply generic_format_B2R|apply abs_B2R_lt_emax]. Qed.
Lemma ex_sub x y r s : ex x r -> ex y s -> generic_format radix2 fexp (r - s) -> Rabs (r - s) < bpow radix2 emax -> ex (sb x y) (r - s).
Proof.
  intros [F1 E1] [F2 E2] Hf Hb. pose proof (Bminus_correct prec emax Hp Hm mode_NE x y F1 F2) as C. change (round_mode mode_NE) with ZnearestE in C.
  rewrite E1, E2, (rnd_id _ Hf), Rlt_bool_true in C by exact Hb. destruct C as [C1 [C2 _]]. split; assumption.
Qed.
Lemma ex_add x y r s : ex x r -> ex y s -> generic_format radix2 fexp (r + s) -> Rabs (r + s) < bpow radix2 emax -> ex (ad x y) (r + s).
Proof.
  intros [F1 E1] [F2 E2] Hf Hb. pose proof (Bplus_correct prec emax Hp Hm mode_NE x y F1 F2) as C. change (round_mode mode_NE) with ZnearestE in C.
  rewrite E1, E2, (rnd_id _ Hf), Rlt_bool_true in C by exact Hb. destruct C as [C1 [C2 _]]. split; assumption.
Qed.
Lemma ex_mul x y r s : ex x r -> ex y s -> generic_format radix2 fexp (r * s) -> Rabs (r * s) < bpow radix2 emax -> ex (ml x y) (r * s).
Proof.
  intros [F1 E1] [F2 E2] Hf Hb. pose proof (Bmult_correct prec emax Hp Hm mode_NE x y) as C. change (round_mode mode_NE) with ZnearestE in C.
  rewrite E1, E2, (rnd_id _ Hf), Rlt_bool_true in C by exact Hb. destruct C as [C1 [C2 _]]. split; [rewrite C2, F1, F2; reflexivity|exact C1].
Qed.
Lemma zero_ok : generic_format radix2 fexp 0 /\ Rabs 0 < bpow radix2 emax.
Proof. split; [apply generic_format_0|]. rewrite Rabs_R0. apply bpow_gt_0. Qed.

Lemma sq_same acc c p q A : ex acc c -> coords p A -> coords q A -> ex (@sqdist OB acc p q) c.
Proof.
  intros Ha H. revert acc q Ha. induction H as [|x r p A Hx H IH]; intros acc q Ha Hq; inv Hq; cbn [sqdist]; [exact Ha|].
  apply IH; [|assumption]. destruct zero_ok as [Z1 Z2].
  assert (S : ex (sb x x0) 0). { replace 0 with (r - r) by ring. apply ex_sub; auto; replace (r - r) with 0 by ring; assumption. }
  assert (M : ex (ml (sb x x0) (sb x x0)) 0). { replace 0 with (0 * 0) by ring. apply ex_mul; auto; rewrite Rmult_0_l; assumption. }
  destruct (ex_format _ _ Ha) as [G1 G2]. cbn [ksub kmul kadd BO]. replace c with (c + 0) by ring. apply ex_add; auto; rewrite Rplus_0_r; assumption.
Qed.
Lemma sq_app acc p q x y p' q' A : coords p A -> coords q A ->
  @sqdist OB acc (p ++ x :: p') (q ++ y :: q') = @sqdist OB (ad (@sqdist OB acc p q) (ml (sb x y) (sb x y))) p' q'.
Proof.
  intros H. revert acc q. induction H as [|u r p A Hu H IH]; intros acc q Hq; inv Hq; cbn [sqdist app]; [reflexivity|]. apply IH. assumption.
Qed.

Section PAIR.
Variables (A B : list R) (r : R).
Hypothesis r_pos : 0 <= r.
Hypothesis r_fmt : generic_format radix2 fexp r.
Let s : R := succ radix2 fexp r.
Let dl : R := s - r.
Hypothesis lim_s : s <= lim.
Hypothesis lim_A : Forall (fun c => Rabs c <= lim) A.
Hypothesis lim_B : Forall (fun c => Rabs c <= lim) B.
Hypothesis sq_min : bpow radix2 emin <= dl * dl.
Hypothesis sq_max : dl * dl <= lim.

Lemma dl_bpow : exists e, dl = bpow radix2 e /\ (emin <= e)%Z.
Proof.
  unfold dl, s. rewrite succ_eq_pos by exact r_pos. replace (r + ulp radix2 fexp r - r) with (ulp radix2 fexp r) by ring.
  destruct (Req_dec r 0) as [->|Hr].
  - exists emin. split; [|lia]. change fexp with (FLT_exp emin prec). rewrite ulp_FLT_0 by exact Hp. reflexivity.
  - rewrite ulp_neq_0 by exact Hr. exists (cexp radix2 fexp r). split; [reflexivity|]. unfold cexp. change fexp with (FLT_exp emin prec). unfold FLT_exp. lia.
Qed.
Lemma lim_lt : lim < bpow radix2 emax.
Proof. apply bpow_lt. lia. Qed.
Lemma dl_ok : generic_format radix2 fexp dl /\ Rabs dl < bpow radix2 emax /\ generic_format radix2 fexp (dl * dl) /\ Rabs (dl * dl) < bpow radix2 emax /\ 0 < dl.
Proof.
  pose proof lim_lt as L. destruct dl_bpow as [e [E He]].
  assert (P : 0 < dl) by (rewrite E; apply bpow_gt_0).
  assert (E2 : dl * dl = bpow radix2 (e + e)) by (rewrite bpow_plus, <- E; reflexivity).
  split; [rewrite E; apply generic_format_FLT_bpow; [exact Hp|exact He]|].
  split; [rewrite Rabs_pos_eq by lra; unfold dl; lra|].
  split; [rewrite E2; apply generic_format_FLT_bpow; [exact Hp|]; apply (le_bpow radix2); rewrite <- E2; exact sq_min|].
  split; [rewrite Rabs_pos_eq by nra; lra|exact P].
Qed.
Lemma s_fmt : generic_format radix2 fexp s.
Proof. apply generic_format_succ; auto. typeclasses eauto. Qed.

Notation P := (A ++ r :: B).
Notation Q := (A ++ s :: B).

Lemma between_is z : ex z (B2R z) -> r <= B2R z <= s -> B2R z = r \/ B2R z = s.
Proof.
  intros _ [H1 H2]. destruct (Rle_lt_or_eq_dec _ _ H1) as [H|H]; [right|left; auto].
  apply Rle_antisym; [exact H2|]. apply succ_le_lt; auto; [typeclasses eauto|apply generic_format_B2R].
Qed.
Lemma mid_same p q C : Forall (fun c => Rabs c <= lim) C -> coords p C -> coords q C -> coords (@midpoint OB p q) C.
Proof.
  intros HC H. revert q. induction H as [|x c p C [Hx1 Hx2] H IH]; intros q Hq; inv Hq; [constructor|]. inv HC.
  apply Forall2_cons; [|apply IH; assumption]. match goal with H : ex _ (B2R x) |- _ => destruct H as [Hy1 Hy2] end.
  match goal with H : Rabs (B2R x) <= lim |- _ => apply Rabs_le_inv in H; rename H into HL end.
  match goal with |- ex ?z _ => destruct (mid_between prec emax Hp Hm H8 x x0 (B2R x) (B2R x) Hx1 Hy1) as [Z1 Z2]; try lra end.
  split; [exact Z1|]. cbn in Z2 |- *. lra.
Qed.
Lemma mid_app p q x y p' q' C : coords p C -> coords q C ->
  @midpoint OB (p ++ x :: p') (q ++ y :: q') = @midpoint OB p q ++ (@Bdiv prec emax Hp Hm mode_NE (ad x y) (binary_normalize prec emax Hp Hm mode_NE 2 0 false)) :: @midpoint OB p' q'.
Proof.
  intros H. revert q. induction H as [|u c p C Hu H IH]; intros q Hq; inv Hq; [reflexivity|]. cbn. f_equal. apply IH. assumption.
Qed.
Lemma coords_split p x : coords p (A ++ x :: B) -> exists p1 v p2, p = p1 ++ v :: p2 /\ coords p1 A /\ ex v x /\ coords p2 B.
Proof.
  intros H. apply Forall2_app_inv_r in H. destruct H as [p1 [p2 [H1 [H2 ->]]]]. inv H2. eauto 8.
Qed.
Definition ends p q : Prop := (coords p P /\ coords q Q) \/ (coords p Q /\ coords q P).

Lemma mid_ends p q : ends p q -> coords (@midpoint OB p q) P \/ coords (@midpoint OB p q) Q.
Proof.
  intros H. assert (G : exists x y, ((x = r /\ y = s) \/ (x = s /\ y = r)) /\ coords p (A ++ x :: B) /\ coords q (A ++ y :: B)).
  { destruct H as [[H1 H2]|[H1 H2]]; [exists r, s|exists s, r]; auto. }
  destruct G as [x [y [Hxy [H1 H2]]]]. apply coords_split in H1. destruct H1 as [p1 [v [p2 [-> [P1 [Pv P2]]]]]].
  apply coords_split in H2. destruct H2 as [q1 [w [q2 [-> [Q1 [Qw Q2]]]]]].
  rewrite (mid_app _ _ _ _ _ _ A P1 Q1). pose proof dl_ok as [_ [_ [_ [_ Hd]]]]. unfold dl in Hd.
  destruct Pv as [V1 V2]. destruct Qw as [W1 W2]. pose proof (bpow_gt_0 radix2 (emax - 2)) as L.
  assert (Bv : r <= B2R v <= s) by (destruct Hxy as [[-> ->]|[-> ->]]; lra). assert (Bw : r <= B2R w <= s) by (destruct Hxy as [[-> ->]|[-> ->]]; lra).
  destruct (mid_between prec emax Hp Hm H8 v w r s V1 W1 Bv Bw ltac:(lra) lim_s) as [Z1 Z2]. cbn beta in Z1, Z2.
  destruct (between_is _ (conj Z1 eq_refl) Z2) as [E|E]; [left|right]; (apply Forall2_app; [apply mid_same; assumption|]);
    (apply Forall2_cons; [split; assumption|apply mid_same; assumption]).
Qed.
Lemma dist_ends p q (t : F) : ends p q -> is_finite t = true -> B2R t < dl -> kgtb OB (@dist OB p q) t = true.
Proof.
  intros H Ft Ht. assert (G : exists x y, ((x = r /\ y = s) \/ (x = s /\ y = r)) /\ coords p (A ++ x :: B) /\ coords q (A ++ y :: B)).
  { destruct H as [[H1 H2]|[H1 H2]]; [exists r, s|exists s, r]; auto. }
  destruct G as [x [y [Hxy [H1 H2]]]]. apply coords_split in H1. destruct H1 as [p1 [v [p2 [-> [P1 [Pv P2]]]]]].
  apply coords_split in H2. destruct H2 as [q1 [w [q2 [-> [Q1 [Qw Q2]]]]]].
  unfold dist. rewrite (sq_app _ _ _ _ _ _ _ A P1 Q1). destruct dl_ok as [F1 [F2 [F3 [F4 F5]]]].
  assert (Z : ex (kZ OB 0) 0).
  { destruct (kz_exact prec emax Hp Hm H8 0) as [K1 K2]; [lia|]. split; [exact K2|exact K1]. }
  assert (S : ex (sb v w) dl \/ ex (sb v w) (- dl)).
  { destruct Hxy as [[-> ->]|[-> ->]]; [right|left].
    - replace (- dl) with (r - s) by (unfold dl; ring). apply ex_sub; auto; replace (r - s) with (- dl) by (unfold dl; ring);
        [apply generic_format_opp; exact F1|rewrite Rabs_Ropp; exact F2].
    - apply ex_sub; auto. }
  assert (M : ex (ml (sb v w) (sb v w)) (dl * dl)).
  { destruct S as [S|S]; [apply ex_mul; auto|]. replace (dl * dl) with (- dl * - dl) by ring. apply ex_mul; auto; replace (- dl * - dl) with (dl * dl) by ring; assumption. }
  assert (X : ex (@sqdist OB (ad (@sqdist OB (kZ OB 0) p1 q1) (ml (sb v w) (sb v w))) p2 q2) (dl * dl)).
  { apply sq_same with (A := B); auto. replace (dl * dl) with (0 + dl * dl) by ring. apply ex_add; auto; [apply (sq_same _ _ _ _ A); auto|..]; rewrite Rplus_0_l; assumption. }
  set (q2d := @sqdist OB _ p2 q2) in *. cbn [ksqrt kgtb BO].
  destruct X as [X1 X2]. destruct (Bsqrt_correct prec emax Hp Hm mode_NE q2d) as [R1 [R2 _]]. change (round_mode mode_NE) with ZnearestE in R1.
  rewrite X2, sqrt_square, (rnd_id _ F1) in R1 by lra.
  assert (R3 : is_finite (@Bsqrt prec emax Hp Hm mode_NE q2d) = true).
  { rewrite R2. destruct q2d as [sg| | |sg mx ex' Hx]; try reflexivity; try discriminate. destruct sg; [|reflexivity].
    exfalso. assert (0 < dl * dl) by nra. rewrite <- X2 in H0. cbn in H0. apply gt_0_F2R in H0. cbn in H0. lia. }
  rewrite Bltb_correct by assumption. rewrite R1. apply Rlt_bool_true. exact Ht.
Qed.

Lemma stuck_length (t : F) old f (inp : mesh OB D) a b p q :
  valid inp -> dense inp -> In (a, b) (dirs (tris inp)) -> oget a (pts inp) = Some p -> oget b (pts inp) = Some q -> ends p q ->
  is_finite t = true -> B2R t < dl ->
  diverges (fun fuel => conditional_update fuel (EdgeF ELinear) (Some (edge_length_criterion (O := OB) t)) old f inp).
Proof.
  intros Hv Hd Hab Ha Hb He Ft Ht.
  apply (edge_never (O := OB) ELinear t (fun m => cond_start (EdgeF ELinear) m /\ exists a b p q, In (a, b) (dirs (tris m)) /\
    oget a (pts m) = Some p /\ oget b (pts m) = Some q /\ ends p q)).
  - intros m [H _]. exact H.
  - intros m [[Hvm _] [a' [b' [p' [q' [H1 [H2 [H3 H4]]]]]]]]. apply (long_edges_some_any (O := OB) t m a' b' p' q' Hvm); auto.
    + apply (v_face_edges _ Hvm). exact H1.
    + apply dist_ends; auto.
    + apply dist_ends; auto. destruct H4 as [[X Y]|[X Y]]; [right|left]; auto.
  - intros m f0 n f1 m1 [H0 [a' [b' [p' [q' [H1 [H2 [H3 H4]]]]]]]] Hne E.
    assert (Hr : ready (EdgeF ELinear) (apply_selection f0 (esl_ (O := OB) t m)) m).
    { apply (edge_ready (O := OB)); [exact H0|]. cbn. destruct (long_edges (O := OB) t m); [congruence|reflexivity]. }
    split; [eapply start_step; [exact H0|exact Hr|exact E]|]. destruct H0 as [Hvm [Hdm _]].
    destruct (face_run _ _ m n f1 m1 Hvm Hdm Hr E) as [mid [Ls FR]].
    assert (K : forall x c, oget x (pts m) = Some c -> oget x (pts m1) = Some c) by (intros x c Hx; eapply fr_old; eauto; discriminate).
    destruct (cut_dirs (O := OB) _ _ m f1 m1 mid Ls a' b' Hvm FR H1) as [[_ G]|[y [G1 [G2 G3]]]]; [exists a', b', p', q'; auto|].
    destruct (linear_new (O := OB) _ _ m f1 m1 mid Ls a' b' y (or_intror eq_refl) FR G1) as [u [v [w [Huv [Hw Ew]]]]].
    assert (Eu : ends u v).
    { destruct Huv as [[U1 U2]|[U1 U2]]; rewrite H2 in U1; rewrite H3 in U2; inv U1; inv U2; [exact H4|].
      destruct H4 as [[X Y]|[X Y]]; [right|left]; auto. }
    rewrite Ew in Hw. destruct (mid_ends u v Eu) as [M|M]; destruct H4 as [[X Y]|[X Y]].
    + exists y, b', (midpoint u v), q'. repeat split; auto. left. auto.
    + exists a', y, p', (midpoint u v). repeat split; auto. right. auto.
    + exists a', y, p', (midpoint u v). repeat split; auto. left. auto.
    + exists y, b', (midpoint u v), q'. repeat split; auto. right. auto.
  - split.
    + apply copy_start. apply start_of; auto; [intros E; rewrite E in Hab; destruct Hab|unfold splits_faces; congruence|]. intros [E|E]; discriminate.
    + destruct (copy_shape inp Hv) as [Hpt [Htr _]]. exists a, b, p, q. rewrite Htr. split; [exact Hab|]. rewrite !Hpt. auto.
Qed.
End PAIR.
End FLOATS.

(** ** C99 *)
Lemma C99_length_pf : forall prec emax Hp Hm cosf d D (t : binary_float prec emax) old f (inp : mesh (BO prec emax Hp Hm cosf d) D) a b p q (A B : list R) (r : R),
  (8 <= prec)%Z -> valid inp -> dense inp -> In (a, b) (dirs (tris inp)) \/ In (b, a) (dirs (tris inp)) ->
  oget a (pts inp) = Some p -> oget b (pts inp) = Some q ->
  has_coordinates prec emax p (A ++ r :: B) -> has_coordinates prec emax q (A ++ succ radix2 (SpecFloat.fexp prec emax) r :: B) ->
  let h := succ radix2 (SpecFloat.fexp prec emax) r - r in
  0 <= r -> succ radix2 (SpecFloat.fexp prec emax) r <= bpow radix2 (emax - 2) -> Forall (fun c => Rabs c <= bpow radix2 (emax - 2)) (A ++ B) ->
  bpow radix2 (3 - emax - prec) <= h * h <= bpow radix2 (emax - 2) ->
  is_finite t = true -> B2R t < h ->
  diverges (fun fuel => conditional_update fuel (EdgeF ELinear) (Some (edge_length_criterion (O := BO prec emax Hp Hm cosf d) t)) old f inp).
Proof.
  intros prec emax Hp Hm cosf d D t old f inp a b p q A B r H8 Hv Hd Hab Ha Hb Cp Cq h Hr Hs HAB [Hh1 Hh2] Ft Ht.
  apply Forall_app in HAB. destruct HAB as [HA HB].
  assert (Fr : generic_format radix2 (SpecFloat.fexp prec emax) r).
  { apply Forall2_app_inv_r in Cp. destruct Cp as [p1 [p2 [_ [C2 _]]]]. inversion C2 as [|x y l l' [_ <-] _]; subst. apply generic_format_B2R. }
  destruct Hab as [Hab|Hab].
  - apply (stuck_length prec emax Hp Hm H8 cosf d D A B r Hr Fr Hs HA HB Hh1 Hh2 t old f inp a b p q); auto. left. auto.
  - apply (stuck_length prec emax Hp Hm H8 cosf d D A B r Hr Fr Hs HA HB Hh1 Hh2 t old f inp b a q p); auto. right. auto.
Qed.

(** Values determine the bits, zero apart. *)
Lemma same_bits prec emax (p q : list (binary_float prec emax)) v : has_coordinates prec emax p v -> has_coordinates prec emax q v -> Forall (fun c => c <> 0) v -> p = q.
Proof.
  intros Hp. revert q. induction Hp as [|x c p v [F1 E1] Hp IH]; intros q Hq Hn; inv Hq; [reflexivity|]. inv Hn.
  match goal with H : is_finite ?y = true /\ _ |- _ => destruct H as [F2 E2] end. f_equal; [|apply IH; assumption].
  apply B2R_inj; [..|congruence].
  - destruct x; try discriminate; [|reflexivity]. cbn in *. congruence.
  - match goal with |- is_finite_strict ?y = true => destruct y; try discriminate; [|reflexivity] end. cbn in *. congruence.
Qed.
