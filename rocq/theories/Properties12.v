(** * Properties12: floating-point coordinates (C89 to C92).

    Theorems only; proofs are in Flt.v, FltRun.v, FltLoop.v, FltIter.v and FltBox.v.  [BO prec emax Hp Hm cosf d] is IEEE-754
    arithmetic in dimension [d]; the C++ code is compiled for binary32 (24, 128) or binary64 (53, 1024). *)
From Coq Require Import Reals Lra QArith.
From Flocq Require Import Core BinarySingleNaN.
From Verif Require Import Base Mesh Filters Drivers Samples Spec SpecSub SpecGeo SpecFlt Lists Check CheckGeo
  DriveProps SimProps Reach More Flt FltRun FltBox FltLoop FltIter.

Open Scope N_scope.

Ltac ex_valid := apply validb_ok; vm_compute; reflexivity.
Ltac ex_dense := apply denseb_ok; vm_compute; reflexivity.

(** binary64, and a sample with integer coordinates in binary64. *)
Definition P53 : Prec_gt_0 53 := eq_refl.
Definition E1024 : Prec_lt_emax 53 1024 := eq_refl.
(** cos (2 pi / n) for n = 1, 2, 3 and 4. *)
Definition cos4 (n : N) : binary_float 53 1024 :=
  let z z := binary_normalize 53 1024 P53 E1024 mode_NE z 0 false in
  match n with 1 => z 1%Z | 2 => z (-1)%Z | 3 => @Bdiv 53 1024 P53 E1024 mode_NE (z (-1)%Z) (z 2%Z) | _ => z 0%Z end.
Notation B64 := (BO 53 1024 P53 E1024 cos4 3).
Definition fmesh (m : mesh Q3 N) : mesh B64 N :=
  Mesh (O := B64) (map (fun kv => (fst kv, map (fun x : Q => kZ B64 (Qnum x)) (snd kv))) (pts m)) (rings m) (cells m) (ecells m) (cdata m).
Definition small_ints (m : mesh Q3 N) : bool :=
  forallb (fun kv => forallb (fun x : Q => Pos.eqb (Qden x) 1 && Z.ltb (Z.abs (Qnum x)) 256) (snd kv)) (pts m).
Lemma fmesh_coordinate x : small_ints x = true -> forall id p i y, In (id, p) (pts (fmesh x)) -> nth_error p i = Some y ->
  exists q z, In (id, q) (pts x) /\ nth_error q i = Some (inject_Z z) /\ is_finite y = true /\ B2R y = IZR z /\ (Z.abs z < 256)%Z.
Proof.
  intros H id p i y Hin Hy. cbn [fmesh pts] in Hin. apply in_map_iff in Hin. destruct Hin as [[j q] [E Hin]]. cbn [fst snd] in E. injection E as -> <-.
  rewrite nth_error_map in Hy. destruct (nth_error q i) as [r|] eqn:Er; [|discriminate]. injection Hy as <-.
  unfold small_ints in H. rewrite forallb_forall in H. specialize (H _ Hin). cbn [snd] in H. rewrite forallb_forall in H.
  specialize (H r (nth_error_In _ _ Er)). apply andb_true_iff in H. destruct H as [H1 H2]. apply Pos.eqb_eq in H1. apply Z.ltb_lt in H2.
  destruct (kz_exact 53 1024 P53 E1024 ltac:(lia) (Qnum r) H2) as [K1 K2].
  exists q, (Qnum r). split; [exact Hin|]. split; [etransitivity; [exact Er|]; f_equal; destruct r; cbn in *; subst; reflexivity|]. split; [exact K2|]. split; [exact K1|exact H2].
Qed.
Lemma fmesh_near m : small_ints m = true -> near 53 1024 P53 E1024 0 (fmesh m) (rmesh m).
Proof.
  intros H. split; [split; [unfold okeys, fmesh, rmesh; cbn [pts]; rewrite !map_map; reflexivity|split; [reflexivity|split; reflexivity]]|].
  unfold small_ints in H. unfold fmesh, rmesh. cbn [pts]. induction (pts m) as [|[i p] l IH]; cbn [map]; [constructor|]. cbn [forallb snd] in H.
  apply andb_true_iff in H. destruct H as [H1 H2]. constructor; [|apply IH; exact H2]. cbn [snd]. clear -H1.
  induction p as [|r p IH]; cbn [map]; constructor; cbn [forallb] in H1; apply andb_true_iff in H1; destruct H1 as [H H1]; [|apply IH; exact H1].
  apply andb_true_iff in H. destruct H as [Hd H]. apply Pos.eqb_eq in Hd. apply Z.ltb_lt in H.
  destruct (kz_exact 53 1024 P53 E1024 ltac:(lia) (Qnum r) H) as [K1 K2]. split; [exact K2|].
  cbn [kZ BO]. cbn beta in K1. rewrite K1. unfold Q2R. rewrite Hd. replace (IZR (Qnum r) - IZR (Qnum r) * / 1)%R with 0%R by field. rewrite Rabs_R0. apply Rle_refl.
Qed.
Lemma rmesh_bounded m : small_ints m = true -> bounded 256 (rmesh m).
Proof.
  intros H id p Hin. unfold small_ints in H. cbn [rmesh pts] in Hin. apply in_map_iff in Hin. destruct Hin as [[j q] [E Hin]].
  cbn [fst snd] in E. injection E as -> <-. rewrite forallb_forall in H. specialize (H _ Hin). cbn [snd] in H.
  apply Forall_forall. intros y Hy. apply in_map_iff in Hy. destruct Hy as [r [<- Hr]]. rewrite forallb_forall in H. specialize (H _ Hr).
  apply andb_true_iff in H. destruct H as [Hd H]. apply Pos.eqb_eq in Hd. apply Z.ltb_lt in H.
  unfold Q2R. rewrite Hd, Rinv_1, Rmult_1_r, <- abs_IZR. apply IZR_le. lia.
Qed.
Lemma rmesh_same (m : mesh Q3 N) : same_connectivity m (rmesh m).
Proof. unfold same_connectivity, rmesh. cbn. split; [|auto]. unfold okeys. rewrite map_map. reflexivity. Qed.
Lemma fmesh_same (m : mesh Q3 N) : same_connectivity m (fmesh m).
Proof. unfold same_connectivity, fmesh. cbn. split; [|auto]. unfold okeys. rewrite map_map. reflexivity. Qed.
Lemma run_as k fuel f (m : mesh Q3 N) {O D} (m2 : mesh O D) : NoDup (okeys (pts m)) -> same_connectivity m m2 ->
  match update k fuel f m with Ok _ => True | _ => False end -> exists f' out, update k fuel f m2 = Ok (f', out).
Proof.
  intros Hn Hs H. pose proof (C48_any_pf Q3 O N D k f m m2 fuel Hs (fun _ => Hn)) as G.
  destruct (update k fuel f m) as [[f1 o1]| | |]; try tauto.
  destruct (update k fuel f m2) as [[f2 o2]| | |]; try tauto. eauto.
Qed.

(** C89.  Linear filters, whole mesh or any selection, in any binary floating-point format: no output
    coordinate leaves the box spanned by the input coordinates, not even by a rounding error. *)
Theorem C89_update : forall prec emax Hp Hm cosf d D (lo hi : nat -> R) k fuel f (inp : mesh (BO prec emax Hp Hm cosf d) D) f' out,
  (8 <= prec)%Z -> (forall i, - bpow radix2 (emax - 2) <= lo i)%R -> (forall i, hi i <= bpow radix2 (emax - 2))%R ->
  k = CellF CLinear \/ k = EdgeF ELinear -> in_box prec emax Hp Hm lo hi inp -> update k fuel f inp = Ok (f', out) ->
  in_box prec emax Hp Hm lo hi out.
Proof. exact C89_update_pf. Qed.
Print Assumptions C89_update.

Theorem C89_iterative : forall prec emax Hp Hm cosf d D (lo hi : nat -> R) levels fuel sel (inp : mesh (BO prec emax Hp Hm cosf d) D) f' out,
  (8 <= prec)%Z -> (forall i, - bpow radix2 (emax - 2) <= lo i)%R -> (forall i, hi i <= bpow radix2 (emax - 2))%R ->
  in_box prec emax Hp Hm lo hi inp -> iterative_update CLinear levels fuel sel inp = Ok (f', out) ->
  in_box prec emax Hp Hm lo hi out.
Proof. exact C89_iterative_pf. Qed.
Print Assumptions C89_iterative.

Theorem C89_conditional : forall prec emax Hp Hm cosf d D (lo hi : nat -> R) k fuel crit old f (inp : mesh (BO prec emax Hp Hm cosf d) D) f' out,
  (8 <= prec)%Z -> (forall i, - bpow radix2 (emax - 2) <= lo i)%R -> (forall i, hi i <= bpow radix2 (emax - 2))%R ->
  k = CellF CLinear \/ k = EdgeF ELinear -> in_box prec emax Hp Hm lo hi inp -> conditional_update fuel k crit old f inp = Ok (f', out) ->
  in_box prec emax Hp Hm lo hi out.
Proof. exact C89_conditional_pf. Qed.
Print Assumptions C89_conditional.

Example C89_ex :
  (forall i : nat, - bpow radix2 (1024 - 2) <= (fun _ => - 256) i)%R /\ (forall i : nat, (fun _ => 256) i <= bpow radix2 (1024 - 2))%R /\
  in_box 53 1024 P53 E1024 (fun _ => -256)%R (fun _ => 256)%R (fmesh torus7) /\
  (exists f' out, update (CellF CLinear) 100 (sel [0; 3]) (fmesh torus7) = Ok (f', out)) /\
  (exists f' out, update (EdgeF ELinear) 100 new_filter (fmesh torus7) = Ok (f', out)).
Proof.
  assert (L : (256 <= bpow radix2 (1024 - 2))%R) by (replace 256%R with (bpow radix2 8) by (cbn; lra); apply bpow_le; lia).
  split; [intros; lra|]. split; [intros; lra|]. split.
  - intros id p i x Hin Hx. destruct (fmesh_coordinate torus7 ltac:(vm_compute; reflexivity) _ _ _ _ Hin Hx) as [q [z [_ [_ [H1 [H2 H3]]]]]].
    split; [exact H1|]. rewrite H2. split; apply IZR_le; lia.
  - split; (eapply run_as; [apply (valid_keys torus7); ex_valid|apply fmesh_same|vm_compute; exact I]).
Qed.

(** C90.  Linear filters: a coordinate that all input points share, bit for bit, is the same in every
    output point.  False of the other schemes (C90_refuted in Refuted4.v). *)
Theorem C90_linear_partial : forall prec emax Hp Hm cosf d D i (c : R) k fuel f (inp : mesh (BO prec emax Hp Hm cosf d) D) f' out,
  (8 <= prec)%Z -> (Rabs c <= bpow radix2 (emax - 2))%R -> k = CellF CLinear \/ k = EdgeF ELinear ->
  (forall id p x, In (id, p) (pts inp) -> nth_error p i = Some x -> is_finite x = true /\ B2R x = c) ->
  (forall id p j x, In (id, p) (pts inp) -> nth_error p j = Some x -> is_finite x = true /\ (Rabs (B2R x) <= bpow radix2 (emax - 2))%R) ->
  update k fuel f inp = Ok (f', out) ->
  forall id p x, In (id, p) (pts out) -> nth_error p i = Some x -> is_finite x = true /\ B2R x = c.
Proof. exact C90_linear_pf. Qed.
Print Assumptions C90_linear_partial.

Example C90_ex : (Rabs 0 <= bpow radix2 (1024 - 2))%R /\
  (forall id p x, In (id, p) (pts (fmesh tri3)) -> nth_error p 2 = Some x -> is_finite x = true /\ B2R x = 0%R) /\
  (forall id p j x, In (id, p) (pts (fmesh tri3)) -> nth_error p j = Some x -> is_finite x = true /\ (Rabs (B2R x) <= bpow radix2 (1024 - 2))%R) /\
  exists f' out, update (CellF CLinear) 100 (sel [1]) (fmesh tri3) = Ok (f', out).
Proof.
  assert (L : (256 <= bpow radix2 (1024 - 2))%R) by (replace 256%R with (bpow radix2 8) by (cbn; lra); apply bpow_le; lia).
  split; [rewrite Rabs_R0; lra|]. split; [|split].
  - intros id p x Hin Hx. destruct (fmesh_coordinate tri3 ltac:(vm_compute; reflexivity) _ _ _ _ Hin Hx) as [q [z [Hq [Hz [H1 [H2 H3]]]]]].
    split; [exact H1|]. rewrite H2. f_equal. vm_compute in Hq.
    repeat (destruct Hq as [Hq|Hq]; [injection Hq as _ <-; cbn in Hz; injection Hz as <-; reflexivity|]). destruct Hq.
  - intros id p j x Hin Hx. destruct (fmesh_coordinate tri3 ltac:(vm_compute; reflexivity) _ _ _ _ Hin Hx) as [q [z [_ [_ [H1 [H2 H3]]]]]].
    split; [exact H1|]. rewrite H2, <- abs_IZR. apply Rle_trans with 256%R; [apply IZR_le; lia|exact L].
  - eapply run_as; [apply (valid_keys tri3); ex_valid|apply fmesh_same|vm_compute; exact I].
Qed.

(** C91.  A floating-point run ends exactly like the run in exact arithmetic, with the same output faces
    and ids, and every output coordinate is within [amplification k * e + 40 (u (M + e) + eta)] of the
    exact one when the input coordinates are within [e] of the exact ones, which are at most [M].
    Every filter but the Loop cell filter, for which see C91_loop. *)
Theorem C91_points : forall prec emax Hp Hm cosf d D1 D2 k fuel f (inp1 : mesh (BO prec emax Hp Hm cosf d) D1) (inp2 : mesh (RO d) D2) (M e : R),
  (8 <= prec)%Z -> k <> CellF CLoop -> (k = CellF CLinear -> valid inp1 /\ dense inp1) ->
  (0 <= M)%R -> (0 <= e)%R -> (2 * (M + e) <= bpow radix2 (emax - 2))%R -> near prec emax Hp Hm e inp1 inp2 -> bounded M inp2 ->
  match update k fuel f inp1, update k fuel f inp2 with
  | Ok (f1, out1), Ok (f2, out2) =>
      f1 = f2 /\ near prec emax Hp Hm (amplification k * e + 40 * (unit_roundoff prec * (M + e) + half_smallest prec emax)) out1 out2
  | Throw x, Throw y => x = y
  | Undef x, Undef y => x = y
  | OutOfFuel, OutOfFuel => True
  | _, _ => False
  end.
Proof. exact C91_pf. Qed.
Print Assumptions C91_points.

Example C91_ex : valid (fmesh octa) /\ dense (fmesh octa) /\ near 53 1024 P53 E1024 0 (fmesh octa) (rmesh octa) /\ bounded 256 (rmesh octa) /\
  (2 * (256 + 0) <= bpow radix2 (1024 - 2))%R /\
  (exists f' out, update (CellF CButterfly) 100 new_filter (fmesh octa) = Ok (f', out)) /\
  (exists f' out, update (CellF CLinear) 100 (sel [1; 4]) (rmesh octa) = Ok (f', out)).
Proof.
  assert (V : valid octa) by ex_valid.
  assert (L : (512 <= bpow radix2 (1024 - 2))%R) by (replace 512%R with (bpow radix2 9) by (cbn; lra); apply bpow_le; lia).
  split; [ex_valid|]. split; [ex_dense|]. split; [apply fmesh_near; vm_compute; reflexivity|]. split; [apply rmesh_bounded; vm_compute; reflexivity|].
  split; [lra|].
  split; (eapply run_as; [apply (valid_keys octa V)|first [apply fmesh_same|apply rmesh_same]|vm_compute; exact I]).
Qed.

(** The Loop cell filter: [V] bounds the number of neighbours of a point, [eps] the error of the cosine
    that the vertex rule uses. *)
Theorem C91_loop : forall prec emax Hp Hm cosf d D1 D2 fuel f (inp1 : mesh (BO prec emax Hp Hm cosf d) D1) (inp2 : mesh (RO d) D2) (V : N) (M e eps : R),
  (8 <= prec)%Z -> valid inp1 -> (forall v, one_fan inp1 v) ->
  (1 <= V)%N -> (forall v, N.of_nat (length (ring inp1 v)) <= V)%N -> (64 * IZR (Z.of_N V) * unit_roundoff prec <= 1)%R ->
  (0 <= eps <= / 16)%R ->
  (forall n, (1 <= n <= V)%N -> is_finite (cosf n) = true /\ (Rabs (B2R (cosf n) - cos (2 * PI / IZR (Z.of_N n))) <= eps)%R) ->
  (0 <= M)%R -> (0 <= e)%R -> (2 * IZR (Z.of_N V) * (M + e) <= bpow radix2 (emax - 2))%R ->
  near prec emax Hp Hm e inp1 inp2 -> bounded M inp2 ->
  match update (CellF CLoop) fuel f inp1, update (CellF CLoop) fuel f inp2 with
  | Ok (f1, out1), Ok (f2, out2) =>
      f1 = f2 /\ near prec emax Hp Hm (e + 40 * ((IZR (Z.of_N V) * unit_roundoff prec + eps) * (M + e) + half_smallest prec emax)) out1 out2
  | Throw x, Throw y => x = y
  | Undef x, Undef y => x = y
  | OutOfFuel, OutOfFuel => True
  | _, _ => False
  end.
Proof. exact C91_loop_pf. Qed.
Print Assumptions C91_loop.

Lemma cos4_ok n : (1 <= n <= 4)%N -> is_finite (cos4 n) = true /\ (Rabs (B2R (cos4 n) - cos (2 * PI / IZR (Z.of_N n))) <= 0)%R.
Proof.
  intros Hn.
  assert (G : forall (x : binary_float 53 1024) z y, B2R x = IZR z -> IZR z = y -> (Rabs (B2R x - y) <= 0)%R).
  { intros x z y -> ->. rewrite Rminus_diag_eq, Rabs_R0 by reflexivity. lra. }
  assert (C : n = 1 \/ n = 2 \/ n = 3 \/ n = 4) by lia.
  destruct C as [->|[->|[->| ->]]]; cbn [cos4 Z.of_N].
  - destruct (kz_exact 53 1024 P53 E1024 ltac:(lia) 1) as [K1 K2]; [lia|]. split; [exact K2|]. apply (G _ _ _ K1).
    replace (2 * PI / 1)%R with (2 * PI)%R by field. rewrite cos_2PI. reflexivity.
  - destruct (kz_exact 53 1024 P53 E1024 ltac:(lia) (-1)) as [K1 K2]; [lia|]. split; [exact K2|]. apply (G _ _ _ K1).
    replace (2 * PI / 2)%R with PI by field. rewrite cos_PI. reflexivity.
  - destruct (frac_exact 53 1024 P53 E1024 ltac:(lia) (-1) 2 1 ltac:(lia) ltac:(lia) eq_refl) as [K2 K1]. split; [exact K2|].
    replace (cos (2 * PI / 3))%R with (-1 / 2)%R; [exact K1|].
    replace (2 * PI / 3)%R with (2 * (PI / 3))%R by field. rewrite cos_2PI3. lra.
  - destruct (kz_exact 53 1024 P53 E1024 ltac:(lia) 0) as [K1 K2]; [lia|]. split; [exact K2|]. apply (G _ _ _ K1).
    replace (2 * PI / 4)%R with (PI / 2)%R by field. rewrite cos_PI2. reflexivity.
Qed.
Example C91_loop_ex : valid (fmesh octa) /\ (forall v, one_fan (fmesh octa) v) /\ (forall v, N.of_nat (length (ring (fmesh octa) v)) <= 4)%N /\
  (64 * IZR (Z.of_N 4) * unit_roundoff 53 <= 1)%R /\
  (forall n, (1 <= n <= 4)%N -> is_finite (cos4 n) = true /\ (Rabs (B2R (cos4 n) - cos (2 * PI / IZR (Z.of_N n))) <= 0)%R) /\
  (2 * IZR (Z.of_N 4) * (256 + 0) <= bpow radix2 (1024 - 2))%R /\
  near 53 1024 P53 E1024 0 (fmesh octa) (rmesh octa) /\ bounded 256 (rmesh octa) /\
  (exists f' out, update (CellF CLoop) 100 new_filter (fmesh octa) = Ok (f', out)).
Proof.
  assert (V : valid (fmesh octa)) by ex_valid. assert (V' : valid octa) by ex_valid.
  split; [exact V|]. split; [apply one_fansb_ok; [exact V|vm_compute; reflexivity]|]. split.
  { intros v. destruct (ring_In octa v) as [Hr|Hr].
    - change (ring (fmesh octa) v) with (ring octa v). rewrite Hr. cbn. lia.
    - change (ring (fmesh octa) v) with (ring octa v). revert Hr. generalize (ring octa v). intros r Hr. vm_compute in Hr.
      repeat (destruct Hr as [Hr|Hr]; [injection Hr as _ <-; cbn; lia|]). destruct Hr. }
  split; [unfold unit_roundoff; replace (64 * IZR (Z.of_N 4))%R with (bpow radix2 8) by (cbn; lra); rewrite <- bpow_plus; apply Rle_trans with (bpow radix2 0); [apply bpow_le; lia|cbn; lra]|].
  split; [exact cos4_ok|].
  split; [replace (2 * IZR (Z.of_N 4) * (256 + 0))%R with (bpow radix2 11) by (cbn; lra); apply bpow_le; lia|].
  split; [apply fmesh_near; vm_compute; reflexivity|]. split; [apply rmesh_bounded; vm_compute; reflexivity|].
  eapply run_as; [apply (valid_keys octa V')|apply fmesh_same|vm_compute; exact I].
Qed.

(** C92.  The iterative filter with the Linear or the sqrt(3) scheme: rounding errors add up at most
    linearly in the number of levels. *)
Theorem C92 : forall prec emax Hp Hm cosf d D1 D2 s levels fuel sel (inp1 : mesh (BO prec emax Hp Hm cosf d) D1) (inp2 : mesh (RO d) D2) (M e : R),
  (8 <= prec)%Z -> s = CLinear \/ s = CSqrt3 ->
  (s = CLinear -> valid inp1 /\ dense inp1 /\ tris inp1 <> [] /\ existing inp1 sel) ->
  (0 <= M)%R -> (0 <= e)%R -> (80 * INR (Nat.max 1 levels) * unit_roundoff prec <= 1)%R -> (4 * (M + e) + 2 <= bpow radix2 (emax - 2))%R ->
  near prec emax Hp Hm e inp1 inp2 -> bounded M inp2 ->
  match iterative_update s levels fuel sel inp1, iterative_update s levels fuel sel inp2 with
  | Ok (f1, out1), Ok (f2, out2) =>
      f1 = f2 /\ near prec emax Hp Hm (e + 80 * INR (Nat.max 1 levels) * (unit_roundoff prec * (M + e) + half_smallest prec emax)) out1 out2
  | Throw x, Throw y => x = y
  | Undef x, Undef y => x = y
  | OutOfFuel, OutOfFuel => True
  | _, _ => False
  end.
Proof. exact C92_pf. Qed.
Print Assumptions C92.

Example C92_ex : valid (fmesh strip4) /\ dense (fmesh strip4) /\ tris (fmesh strip4) <> [] /\ existing (fmesh strip4) [0; 2] /\
  (80 * INR (Nat.max 1 3) * unit_roundoff 53 <= 1)%R /\ (4 * (256 + 0) + 2 <= bpow radix2 (1024 - 2))%R /\
  near 53 1024 P53 E1024 0 (fmesh strip4) (rmesh strip4) /\ bounded 256 (rmesh strip4) /\
  match iterative_update CLinear 3 200 [0; 2] strip4 with Ok (_, out) => (20 < nF out)%Z | _ => False end.
Proof.
  split; [ex_valid|]. split; [ex_dense|]. split; [vm_compute; discriminate|]. split; [apply existingb_ok; vm_compute; reflexivity|].
  split.
  { unfold unit_roundoff. replace (80 * INR (Nat.max 1 3))%R with 240%R by (cbn; lra).
    apply Rle_trans with (bpow radix2 8 * bpow radix2 (- (53)))%R; [apply Rmult_le_compat_r; [apply bpow_ge_0|cbn; lra]|].
    rewrite <- bpow_plus. apply Rle_trans with (bpow radix2 0); [apply bpow_le; lia|cbn; lra]. }
  split; [apply Rle_trans with (bpow radix2 11); [cbn; lra|apply bpow_le; lia]|].
  split; [apply fmesh_near; vm_compute; reflexivity|]. split; [apply rmesh_bounded; vm_compute; reflexivity|]. vm_compute. reflexivity.
Qed.
