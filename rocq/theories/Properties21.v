(** * Properties21: area thresholds above the resolution of floating point (C108).

    Theorems only; proofs are in FltHeron.v and FltArea.v. *)
From Coq Require Import Reals Lra Psatz.
From Flocq Require Import Core BinarySingleNaN.
From Verif Require Import Base Mesh Filters Drivers Samples Spec SpecSub SpecGeo SpecFlt SpecDrive Lists Check CheckGeo Drive Stuck64 FltArea Properties12.

Open Scope R_scope.

(** C108.  Area criterion around the Linear cell filter, any binary floating-point format with at least 8 digits and
    any dimension [d]: if the maximal area T is not tiny compared with the square of the coordinates (and neither
    overflow nor underflow is near), the run ends, and every triangle of the result is at most 2 per cent larger than
    T, in exact arithmetic on the computed coordinates.  Compare C99: tiny thresholds need not end. *)
Theorem C108 : forall prec emax Hp Hm cosf d D (M : R) (t : binary_float prec emax) old f (inp : mesh (BO prec emax Hp Hm cosf d) D),
  let u := unit_roundoff prec in let eta := half_smallest prec emax in let T := B2R t in let S := 4 * INR d * (M * M) in
  (8 <= prec)%Z -> valid inp -> dense inp -> tris inp <> [] ->
  0 <= M -> in_box prec emax Hp Hm (fun _ => - M) (fun _ => M) inp ->
  is_finite t = true -> 0 < T ->
  1000 * ((INR d + 7) * u) <= 1 -> 21000 * ((INR d + 7) * u) * (S * S) <= T * T ->
  4 * (INR d + 1) * eta <= u * u * S -> eta <= u * (S * S) ->
  5 * (INR d + 1) * (M * M + 1) <= bpow radix2 (emax - 2) -> 8 * (S * S + 1) <= bpow radix2 (emax - 2) ->
  exists f' out, completes (fun fuel => conditional_update fuel (CellF CLinear) (Some (cell_area_criterion (O := BO prec emax Hp Hm cosf d) t)) old f inp) (Ok (f', out)) /\
    valid out /\ (forall v, In v (tris out) -> tri_area (exact_mesh prec emax Hp Hm out) v <= 102 / 100 * T) /\
    in_box prec emax Hp Hm (fun _ => - M) (fun _ => M) out.
Proof. exact C108_pf. Qed.
Print Assumptions C108.

(** The torus with coordinates up to 16 and the maximal area 1/64; all its triangles are selected at first. *)
Example C108_ex : let u := unit_roundoff 53 in let eta := half_smallest 53 1024 in let T := B2R (b64 1 (-6)) in let M := 16 in let S := 4 * INR 3 * (M * M) in let inp := fmesh torus7 in
  valid inp /\ dense inp /\ tris inp <> [] /\ in_box 53 1024 P53 E1024 (fun _ => - M) (fun _ => M) inp /\
  is_finite (b64 1 (-6)) = true /\ 0 < T /\
  1000 * ((INR 3 + 7) * u) <= 1 /\ 21000 * ((INR 3 + 7) * u) * (S * S) <= T * T /\
  4 * (INR 3 + 1) * eta <= u * u * S /\ eta <= u * (S * S) /\
  5 * (INR 3 + 1) * (M * M + 1) <= bpow radix2 (1024 - 2) /\ 8 * (S * S + 1) <= bpow radix2 (1024 - 2) /\
  long_cells (O := B64) (b64 1 (-6)) inp = [0; 1; 2; 3; 4; 5; 6; 7; 8; 9; 10; 11; 12; 13]%N.
Proof.
  intros u eta T M S inp. split; [ex_valid|]. split; [ex_dense|]. split; [vm_compute; discriminate|].
  split.
  { intros id p i x Hin Hx. destruct (fmesh_coordinate torus7 ltac:(vm_compute; reflexivity) _ _ _ _ Hin Hx) as [q [z [Hq [Hz [H1 [H2 H3]]]]]].
    assert (B : forallb (fun e => forallb (fun r => Z.leb (Z.abs (QArith_base.Qnum r)) 16) (snd e)) (pts torus7) = true) by (vm_compute; reflexivity).
    rewrite forallb_forall in B. specialize (B _ Hq). cbn [snd] in B. rewrite forallb_forall in B. specialize (B _ (nth_error_In _ _ Hz)). cbn [QArith_base.Qnum QArith_base.inject_Z] in B. apply Z.leb_le in B.
    split; [exact H1|]. rewrite H2. unfold M. split; [rewrite <- opp_IZR|]; apply IZR_le; lia. }
  destruct (b64_value 1 (-6)) as [X Y]; [reflexivity|lia|]. rewrite Rmult_1_l in Y. split; [exact X|].
  assert (T0 : 0 < T) by (unfold T; rewrite Y; apply bpow_gt_0). split; [exact T0|].
  assert (TV : T = / 64) by (unfold T; rewrite Y; reflexivity).
  assert (U2 : u * bpow radix2 53 = 1) by (unfold u, unit_roundoff; rewrite <- bpow_plus; reflexivity).
  assert (EU : eta <= u * u * bpow radix2 (-10)) by (unfold eta, u, half_smallest, unit_roundoff; rewrite <- !bpow_plus; apply bpow_le; lia).
  assert (E0 : 0 < eta) by apply bpow_gt_0. assert (U0 : 0 < u) by apply bpow_gt_0.
  assert (B : bpow radix2 40 <= bpow radix2 (1024 - 2)) by (apply bpow_le; lia).
  assert (SV : S = 3072) by (unfold S, M; cbn [INR]; lra). clearbody S.
  assert (LC : long_cells (O := B64) (b64 1 (-6)) inp = [0; 1; 2; 3; 4; 5; 6; 7; 8; 9; 10; 11; 12; 13]%N) by (vm_compute; reflexivity).
  clearbody inp.
  clearbody eta u T. replace (INR 3) with 3 by (cbn; lra). set (B2 := bpow radix2 (1024 - 2)) in *. clearbody B2. unfold M. subst S T.
  change (bpow radix2 53) with 9007199254740992 in U2. change (bpow radix2 (-10)) with (/ 1024) in EU. change (bpow radix2 40) with 1099511627776 in B.
  assert (u <= / 1000000) by lra. assert (u * u <= u) by nra.
  split; [lra|]. split; [lra|]. split; [nra|]. split; [nra|]. split; [lra|]. split; [lra|exact LC].
Qed.
