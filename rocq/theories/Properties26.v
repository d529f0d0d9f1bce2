(** * Properties26: the conditional filter around the Loop edge filter ends in floating point (C113).

    Theorem only; the proof is in FltTermLoop.v. *)
From Coq Require Import Reals Lra Psatz.
From Flocq Require Import Core BinarySingleNaN.
From Verif Require Import Base Mesh Filters Drivers Samples Spec SpecSub SpecGeo SpecFlt SpecDrive Lists Check CheckGeo CheckDrive Drive Stuck64 FltTerm FltTermLoop Properties12.

Open Scope R_scope.

(** C113.  Edge-length criterion around the Loop edge filter in floating point.  The coordinates of the input are at
    most A in size; [n] rounds of the contraction 7/8 bring the square of the largest possible distance below that of the threshold T, and
    the rounding errors of [n] rounds do not carry the points out of [-M, M].  Then the run ends, all points stay in
    that box, and every edge of the result is at most 3 per cent longer than T. *)
Theorem C113 : forall prec emax Hp Hm cosf d D (A M : R) (n : nat) (t : binary_float prec emax) old f (inp : mesh (BO prec emax Hp Hm cosf d) D),
  let u := unit_roundoff prec in let eta := half_smallest prec emax in let T := B2R t in let err := 40 * (u * M + eta) in
  (8 <= prec)%Z -> valid inp -> dense inp -> tris inp <> [] -> no_isolated inp -> no_wire inp ->
  0 <= A <= M -> in_box prec emax Hp Hm (fun _ => - A) (fun _ => A) inp ->
  is_finite t = true -> 0 < T ->
  4 * INR d * (A * A) <= 95 / 100 * (T * T) * (8 / 7) ^ n -> A + INR n * err <= M ->
  200 * (INR d + 3) * u <= 1 -> 1000 * (INR d + 1) * eta <= T * T ->
  10000 * (INR d + 1) * (err * err) <= T * T ->
  5 * (INR d + 1) * (M * M + 1) <= bpow radix2 (emax - 2) ->
  exists f' out, completes (fun fuel => conditional_update fuel (EdgeF ELoop) (Some (edge_length_criterion (O := BO prec emax Hp Hm cosf d) t)) old f inp) (Ok (f', out)) /\
    valid out /\ (forall a b, joined out a b -> seg_length (exact_mesh prec emax Hp Hm out) a b <= 103 / 100 * T) /\
    in_box prec emax Hp Hm (fun _ => - M) (fun _ => M) out.
Proof. exact C113_pf. Qed.
Print Assumptions C113.

(** The torus with coordinates up to 256 and the threshold 2^-30, with A = 256, M = 512 and n = 420. *)
Example C113_ex : let u := unit_roundoff 53 in let eta := half_smallest 53 1024 in let T := B2R (b64 1 (-30)) in let A := 256 in let M := 512 in
  let err := 40 * (u * M + eta) in let inp := fmesh torus7 in
  valid inp /\ dense inp /\ tris inp <> [] /\ no_isolated inp /\ no_wire inp /\ 0 <= A <= M /\ in_box 53 1024 P53 E1024 (fun _ => - A) (fun _ => A) inp /\
  is_finite (b64 1 (-30)) = true /\ 0 < T /\
  4 * INR 3 * (A * A) <= 95 / 100 * (T * T) * (8 / 7) ^ (21 * 20) /\ A + INR (21 * 20) * err <= M /\
  200 * (INR 3 + 3) * u <= 1 /\ 1000 * (INR 3 + 1) * eta <= T * T /\
  10000 * (INR 3 + 1) * (err * err) <= T * T /\
  5 * (INR 3 + 1) * (M * M + 1) <= bpow radix2 (1024 - 2).
Proof.
  intros u eta T A M err inp. split; [ex_valid|]. split; [ex_dense|]. split; [vm_compute; discriminate|].
  split; [apply no_isolatedb_ok; vm_compute; reflexivity|]. split; [apply no_wireb_ok; vm_compute; reflexivity|]. split; [unfold A, M; lra|].
  split.
  { intros id p i x Hin Hx. destruct (fmesh_coordinate torus7 ltac:(vm_compute; reflexivity) _ _ _ _ Hin Hx) as [q [z [_ [_ [H1 [H2 H3]]]]]].
    split; [exact H1|]. rewrite H2. unfold A. split; [rewrite <- opp_IZR|]; apply IZR_le; lia. }
  destruct (b64_value 1 (-30)) as [X Y]; [reflexivity|lia|]. rewrite Rmult_1_l in Y. split; [exact X|].
  assert (T0 : 0 < T) by (unfold T; rewrite Y; apply bpow_gt_0). split; [exact T0|].
  assert (UT : u * bpow radix2 23 = T) by (unfold u, unit_roundoff, T; rewrite Y, <- bpow_plus; reflexivity).
  assert (U2 : u * bpow radix2 53 = 1) by (unfold u, unit_roundoff; rewrite <- bpow_plus; reflexivity).
  assert (EU : eta <= u * u * bpow radix2 (-10)) by (unfold eta, u, half_smallest, unit_roundoff; rewrite <- !bpow_plus; apply bpow_le; lia).
  assert (E0 : 0 < eta) by apply bpow_gt_0. assert (U0 : 0 < u) by apply bpow_gt_0.
  assert (B : bpow radix2 40 <= bpow radix2 (1024 - 2)) by (apply bpow_le; lia).
  assert (W : 16 ^ 20 <= (8 / 7) ^ (21 * 20)).
  { rewrite pow_mult. apply pow_incr. split; [lra|]. replace 21%nat with (3 * 7)%nat by lia. rewrite pow_mult. replace ((8 / 7) ^ 3) with (512 / 343) by (cbn; field). cbn; lra. }
  assert (TT : T * T * 16 ^ 20 = 1048576).
  { rewrite <- UT. replace (u * bpow radix2 23 * (u * bpow radix2 23) * 16 ^ 20) with (u * bpow radix2 53 * (u * bpow radix2 53) * 1048576); [rewrite U2; ring|].
    change (bpow radix2 23) with 8388608. change (bpow radix2 53) with 9007199254740992. replace (16 ^ 20) with 1208925819614629174706176 by (cbn; lra). ring. }
  set (P := (8 / 7) ^ (21 * 20)) in *. set (S := 16 ^ 20) in *. clearbody P S.
  unfold err. clear err. clearbody eta u T. replace (INR 3) with 3 by (cbn; lra). replace (INR (21 * 20)) with 420 by (rewrite INR_IZR_INZ; reflexivity). set (B2 := bpow radix2 (1024 - 2)) in *. clearbody B2. unfold A, M.
  change (bpow radix2 23) with 8388608 in UT. change (bpow radix2 53) with 9007199254740992 in U2. change (bpow radix2 (-10)) with (/ 1024) in EU. change (bpow radix2 40) with 1099511627776 in B.
  assert (u <= / 100000000) by lra. assert (eta <= u) by nra.
  split; [assert (0 <= T * T) by nra; assert (T * T * S <= T * T * P) by (apply Rmult_le_compat_l; assumption); lra|].
  split; [lra|]. split; [lra|]. split; [nra|]. split; [|lra].
  assert (40 * (u * 512 + eta) <= 20520 * u) by lra. assert (0 <= 40 * (u * 512 + eta)) by lra.
  assert ((40 * (u * 512 + eta)) * (40 * (u * 512 + eta)) <= 20520 * u * (20520 * u)) by (apply Rmult_le_compat; lra). rewrite <- UT. nra.
Qed.
