(** * Properties14: thresholds below the resolution of floating point (C99).

    Theorems only; proofs are in Stuck.v and Stuck64.v. *)
From Coq Require Import Reals Lra Psatz.
From Flocq Require Import Core BinarySingleNaN.
From Verif Require Import Base Mesh Filters Drivers Samples Spec SpecSub SpecGeo SpecFlt SpecDrive Lists Check CheckGeo Drive Stuck Stuck64 Properties12.

Open Scope R_scope.

(** C99.  Edge length criterion around the Linear edge filter, any binary floating-point format: as soon as a face
    has an edge whose end points differ in one coordinate only, and there by neighbouring numbers [r] and [succ r],
    every threshold below the length of this edge, positive ones included, makes the run endless. *)
Theorem C99_length : forall prec emax Hp Hm cosf d D (t : binary_float prec emax) old f (inp : mesh (BO prec emax Hp Hm cosf d) D) a b p q (A B : list R) (r : R),
  (8 <= prec)%Z -> valid inp -> dense inp -> In (a, b) (dirs (tris inp)) \/ In (b, a) (dirs (tris inp)) ->
  oget a (pts inp) = Some p -> oget b (pts inp) = Some q ->
  has_coordinates prec emax p (A ++ r :: B) -> has_coordinates prec emax q (A ++ succ radix2 (SpecFloat.fexp prec emax) r :: B) ->
  let h := succ radix2 (SpecFloat.fexp prec emax) r - r in
  0 <= r -> succ radix2 (SpecFloat.fexp prec emax) r <= bpow radix2 (emax - 2) -> Forall (fun c => Rabs c <= bpow radix2 (emax - 2)) (A ++ B) ->
  bpow radix2 (3 - emax - prec) <= h * h <= bpow radix2 (emax - 2) ->
  is_finite t = true -> B2R t < h ->
  diverges (fun fuel => conditional_update fuel (EdgeF ELinear) (Some (edge_length_criterion (O := BO prec emax Hp Hm cosf d) t)) old f inp).
Proof. exact C99_length_pf. Qed.
Print Assumptions C99_length.

(** C99.  Area criterion around the Linear cell filter in binary64: a face with these three corners has itself
    among its four children, so every threshold up to 2^-106 (its area is 2^-105) makes the run endless. *)
Theorem C99_area : forall D (t : binary_float 53 1024) old f (inp : mesh B64 D) id a b c p q r,
  let u := bpow radix2 (-52) in
  valid inp -> dense inp -> In (id, (a, b, c)) (faces inp) ->
  oget a (pts inp) = Some p -> oget b (pts inp) = Some q -> oget c (pts inp) = Some r ->
  has_coordinates 53 1024 p [1 + u; 1 + u; 1] -> has_coordinates 53 1024 q [1 + 2 * u; 1 + u; 1] -> has_coordinates 53 1024 r [1 + u; 1 + 2 * u; 1] ->
  is_finite t = true -> B2R t <= bpow radix2 (-106) ->
  diverges (fun fuel => conditional_update fuel (CellF CLinear) (Some (cell_area_criterion (O := B64) t)) old f inp).
Proof. exact C99_area_pf. Qed.
Print Assumptions C99_area.

Example C99_ex : let u := bpow radix2 (-52) in
  valid tiny /\ dense tiny /\ In (0, (0, 1, 2))%N (faces tiny) /\ In (0, 1)%N (dirs (tris tiny)) /\
  (exists p q r, oget 0%N (pts tiny) = Some p /\ oget 1%N (pts tiny) = Some q /\ oget 2%N (pts tiny) = Some r /\
     has_coordinates 53 1024 p ([] ++ (1 + u) :: [1 + u; 1]) /\
     has_coordinates 53 1024 q ([] ++ succ radix2 (SpecFloat.fexp 53 1024) (1 + u) :: [1 + u; 1]) /\
     has_coordinates 53 1024 r [1 + u; 1 + 2 * u; 1]) /\
  0 <= 1 + u /\ succ radix2 (SpecFloat.fexp 53 1024) (1 + u) <= bpow radix2 (1024 - 2) /\
  Forall (fun c => Rabs c <= bpow radix2 (1024 - 2)) ([] ++ [1 + u; 1]) /\
  (let h := succ radix2 (SpecFloat.fexp 53 1024) (1 + u) - (1 + u) in
   bpow radix2 (3 - 1024 - 53) <= h * h <= bpow radix2 (1024 - 2) /\
   is_finite (b64 1 (-53)) = true /\ 0 < B2R (b64 1 (-53)) < h) /\
  is_finite (b64 1 (-106)) = true /\ 0 < B2R (b64 1 (-106)) <= bpow radix2 (-106).
Proof.
  intros u. assert (Nx : succ radix2 (SpecFloat.fexp 53 1024) (1 + u) = 1 + 2 * u) by apply u_next. rewrite !Nx. clear Nx. assert (U : 0 < u) by apply bpow_gt_0. assert (U1 : u < 1) by (change 1 with (bpow radix2 0); apply bpow_lt; reflexivity).
  assert (L : 4 <= bpow radix2 (1024 - 2)) by (change 4 with (bpow radix2 2); apply bpow_le; lia).
  split; [ex_valid|]. split; [ex_dense|]. split; [vm_compute; auto|]. split; [vm_compute; auto|].
  split; [exact tiny_coordinates|]. split; [lra|]. split; [lra|].
  split; [repeat constructor; rewrite Rabs_pos_eq; lra|].
  split.
  - intros h. replace h with u by (unfold h; ring). split; [split; [unfold u; rewrite <- bpow_plus; apply bpow_le; lia|nra]|].
    destruct (b64_value 1 (-53)) as [X Y]; [reflexivity|lia|]. rewrite Y, Rmult_1_l. split; [exact X|]. split; [apply bpow_gt_0|apply bpow_lt; reflexivity].
  - destruct (b64_value 1 (-106)) as [X Y]; [reflexivity|lia|]. rewrite Y, Rmult_1_l. split; [exact X|]. split; [apply bpow_gt_0|lra].
Qed.
