(** * Properties15: thresholds above the resolution of floating point (C100).

    Theorems only; proofs are in FltLen.v and FltTerm.v. *)
From Coq Require Import Reals Lra Psatz.
From Flocq Require Import Core BinarySingleNaN.
From Verif Require Import Base Mesh Filters Drivers Samples Spec SpecSub SpecGeo SpecFlt SpecDrive Lists Check CheckGeo Drive Stuck64 FltTerm Properties12.

Open Scope R_scope.

(** C100.  Edge length criterion around the Linear edge filter, any binary floating-point format with at least 8
    digits and any dimension [d]: if the threshold T is not tiny compared with the coordinates (and neither overflow
    nor underflow of squared lengths is near), the run ends, and every edge of the result is at most 3 per cent
    longer than T, in exact arithmetic on the computed coordinates.  Compare C99: tiny thresholds never end. *)
Theorem C100 : forall prec emax Hp Hm cosf d D (M : R) (t : binary_float prec emax) old f (inp : mesh (BO prec emax Hp Hm cosf d) D),
  let u := unit_roundoff prec in let eta := half_smallest prec emax in let T := B2R t in
  (8 <= prec)%Z -> valid inp -> dense inp -> tris inp <> [] ->
  0 <= M -> in_box prec emax Hp Hm (fun _ => - M) (fun _ => M) inp ->
  is_finite t = true -> 0 < T ->
  200 * (INR d + 3) * u <= 1 -> 1000 * (INR d + 1) * eta <= T * T ->
  10000 * (INR d + 1) * ((40 * (u * M + eta)) * (40 * (u * M + eta))) <= T * T ->
  5 * (INR d + 1) * (M * M + 1) <= bpow radix2 (emax - 2) ->
  exists f' out, completes (fun fuel => conditional_update fuel (EdgeF ELinear) (Some (edge_length_criterion (O := BO prec emax Hp Hm cosf d) t)) old f inp) (Ok (f', out)) /\
    valid out /\ (forall a b, joined out a b -> seg_length (exact_mesh prec emax Hp Hm out) a b <= 103 / 100 * T) /\
    in_box prec emax Hp Hm (fun _ => - M) (fun _ => M) out.
Proof. exact C100_pf. Qed.
Print Assumptions C100.

(** The torus with coordinates up to 256 and the threshold 2^-30: the run would take about 38 rounds. *)
Example C100_ex : let u := unit_roundoff 53 in let eta := half_smallest 53 1024 in let T := B2R (b64 1 (-30)) in let M := 256 in let inp := fmesh torus7 in
  valid inp /\ dense inp /\ tris inp <> [] /\ in_box 53 1024 P53 E1024 (fun _ => - M) (fun _ => M) inp /\
  is_finite (b64 1 (-30)) = true /\ 0 < T /\
  200 * (INR 3 + 3) * u <= 1 /\ 1000 * (INR 3 + 1) * eta <= T * T /\
  10000 * (INR 3 + 1) * ((40 * (u * M + eta)) * (40 * (u * M + eta))) <= T * T /\
  5 * (INR 3 + 1) * (M * M + 1) <= bpow radix2 (1024 - 2).
Proof.
  intros u eta T M inp. split; [ex_valid|]. split; [ex_dense|]. split; [vm_compute; discriminate|].
  split.
  { intros id p i x Hin Hx. destruct (fmesh_coordinate torus7 ltac:(vm_compute; reflexivity) _ _ _ _ Hin Hx) as [q [z [_ [_ [H1 [H2 H3]]]]]].
    split; [exact H1|]. rewrite H2. unfold M. split; [rewrite <- opp_IZR|]; apply IZR_le; lia. }
  destruct (b64_value 1 (-30)) as [X Y]; [reflexivity|lia|]. rewrite Rmult_1_l in Y. split; [exact X|].
  assert (T0 : 0 < T) by (unfold T; rewrite Y; apply bpow_gt_0). split; [exact T0|].
  assert (UT : u * bpow radix2 23 = T) by (unfold u, unit_roundoff, T; rewrite Y, <- bpow_plus; reflexivity).
  assert (U2 : u * bpow radix2 53 = 1) by (unfold u, unit_roundoff; rewrite <- bpow_plus; reflexivity).
  assert (EU : eta <= u * u * bpow radix2 (-10)) by (unfold eta, u, half_smallest, unit_roundoff; rewrite <- !bpow_plus; apply bpow_le; lia).
  assert (E0 : 0 < eta) by apply bpow_gt_0. assert (U0 : 0 < u) by apply bpow_gt_0.
  assert (B : bpow radix2 40 <= bpow radix2 (1024 - 2)) by (apply bpow_le; lia).
  clearbody eta u T. replace (INR 3) with 3 by (cbn; lra). set (B2 := bpow radix2 (1024 - 2)) in *. clearbody B2. unfold M. 
  change (bpow radix2 23) with 8388608 in UT. change (bpow radix2 53) with 9007199254740992 in U2. change (bpow radix2 (-10)) with (/ 1024) in EU. change (bpow radix2 40) with 1099511627776 in B.
  assert (u <= / 1000000) by lra. assert (eta <= u) by nra. 
  split; [lra|]. split; [nra|]. split; [|lra].
  assert (40 * (u * 256 + eta) <= 10280 * u) by lra. assert (0 <= 40 * (u * 256 + eta)) by lra.
  assert ((40 * (u * 256 + eta)) * (40 * (u * 256 + eta)) <= 10280 * u * (10280 * u)) by (apply Rmult_le_compat; lra). rewrite <- UT. nra.
Qed.
