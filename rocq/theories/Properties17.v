(** * Properties17: the conditional filter around the Loop edge filter ends; number of rounds (C103, C104).

    Theorems only; proofs are in CondLoop.v and Rounds.v. *)
From Coq Require Import Reals Lra QArith.
From Verif Require Import Base Mesh Filters Drivers Samples Spec SpecSub SpecGeo SpecDrive Lists Check Geo GeoProps CheckGeo Drive DriveProps Iter Never CheckDrive CheckRenum CondLoop Rounds.

Open Scope R_scope.

Ltac ex_valid := apply validb_ok; vm_compute; reflexivity.
Ltac ex_dense := apply denseb_ok; vm_compute; reflexivity.

(** C103.  Loop edge filter with the edge-length criterion: for every positive MaximumLength the run completes,
    with all lengths within the bound. *)
Theorem C103 : forall (d : nat) (D : Type) (maxlen : R) old f (inp : mesh (RO d) D),
  valid inp -> dense inp -> tris inp <> [] -> no_isolated inp -> no_wire inp -> 0 < maxlen ->
  exists f' out, completes (fun fuel => conditional_update fuel (EdgeF ELoop)
      (Some (edge_length_criterion (O := RO d) maxlen)) old f inp) (Ok (f', out)) /\
    (forall a b, joined out a b -> seg_length out a b <= maxlen) /\ valid out.
Proof. exact C103_pf. Qed.
Print Assumptions C103.

(** The seven-point torus with a threshold far below its edge lengths. *)
Example C103_ex : let m := rmesh torus7 in valid m /\ dense m /\ tris m <> [] /\ no_isolated m /\ no_wire m /\ 0 < 1 / 1000 /\
  joined m 0 1 /\ 1 / 1000 < seg_length m 0 1.
Proof.
  intros m. split; [ex_valid|]. split; [ex_dense|]. split; [vm_compute; discriminate|].
  split; [apply no_isolatedb_ok; vm_compute; reflexivity|]. split; [apply no_wireb_ok; vm_compute; reflexivity|].
  split; [lra|]. split; [vm_compute; auto|].
  apply (Rle_lt_trans _ (Q2R (1#1))); [unfold Q2R; cbn; lra|apply length_gt; vm_compute; reflexivity].
Qed.

(** C104.  Linear cell filter with the area criterion: if no area exceeds t 4^n there are at most n rounds; a
    triangle larger than t 4^j costs more than j.  So the largest area fixes the number of rounds. *)
Theorem C104_area : forall (d : nat) (D : Type) (t : R) old f (inp : mesh (RO d) D) fuel f' out n,
  valid inp -> dense inp -> tris inp <> [] -> 0 < t -> (forall u, In u (tris inp) -> tri_area inp u <= t * 4 ^ n) ->
  conditional_update fuel (CellF CLinear) (Some (cell_area_criterion (O := RO d) t)) old f inp = Ok (f', out) ->
  exists m0 r, same_shape inp m0 /\ chained m0 r out /\ (r <= n)%nat /\
    (forall u j, In u (tris inp) -> t * 4 ^ j < tri_area inp u -> (j < r)%nat) /\
    (length (tris out) <= 4 ^ r * length (tris inp))%nat.
Proof. exact C104_area_pf. Qed.
Print Assumptions C104_area.

(** C104.  Linear edge filter with the edge-length criterion: at most n rounds if the longest edge M has
    2 M^2 <= T^2 (1 + 2^n); a side of a triangle longer than T 2^j costs more than j. *)
Theorem C104_length : forall (d : nat) (D : Type) (T M : R) old f (inp : mesh (RO d) D) fuel f' out n,
  valid inp -> dense inp -> tris inp <> [] -> 0 < T ->
  (forall a b, joined inp a b -> seg_length inp a b <= M) -> 2 * (M * M) <= T * T * (1 + 2 ^ n) ->
  conditional_update fuel (EdgeF ELinear) (Some (edge_length_criterion (O := RO d) T)) old f inp = Ok (f', out) ->
  exists m0 r, same_shape inp m0 /\ chained m0 r out /\ (r <= n)%nat /\
    (forall a b j, In (a, b) (dirs (tris inp)) -> T * 2 ^ j < seg_length inp a b -> (j < r)%nat) /\
    (length (tris out) <= 4 ^ r * length (tris inp))%nat.
Proof. exact C104_length_linear_pf. Qed.
Print Assumptions C104_length.

(** C104.  Loop edge filter with the edge-length criterion: the same with 3/2 in place of 2. *)
Theorem C104_length_loop : forall (d : nat) (D : Type) (T M : R) old f (inp : mesh (RO d) D) fuel f' out n,
  valid inp -> dense inp -> tris inp <> [] -> no_isolated inp -> no_wire inp -> 0 < T ->
  (forall a b, joined inp a b -> seg_length inp a b <= M) -> 2 * (M * M) <= T * T * (1 + (3 / 2) ^ n) ->
  conditional_update fuel (EdgeF ELoop) (Some (edge_length_criterion (O := RO d) T)) old f inp = Ok (f', out) ->
  exists m0 r, same_shape inp m0 /\ chained m0 r out /\ (r <= n)%nat /\
    (length (tris out) <= 4 ^ r * length (tris inp))%nat.
Proof. exact C104_length_loop_pf. Qed.
Print Assumptions C104_length_loop.

(** The strip of four triangles, areas 128 to 136, with the threshold 10: exactly two rounds. *)
Example C104_area_ex : let m := rmesh strip4 in valid m /\ dense m /\ tris m <> [] /\
  (forall u, In u (tris m) -> tri_area m u <= 10 * 4 ^ 2) /\ (exists u, In u (tris m) /\ 10 * 4 ^ 1 < tri_area m u) /\
  exists fuel f' out, conditional_update fuel (CellF CLinear) (Some (cell_area_criterion (O := RO 3) 10)) (SelCells [7%N])
    new_filter m = Ok (f', out).
Proof.
  intros m. assert (V : valid m) by ex_valid. assert (Dn : dense m) by ex_dense. assert (T : tris m <> []) by (vm_compute; discriminate).
  split; [exact V|]. split; [exact Dn|]. split; [exact T|]. split; [|split].
  - intros u Hu. apply (Rle_trans _ (Q2R (160 # 1))); [|unfold Q2R; cbn; lra].
    exact (areas_le strip4 (160 # 1)%Q ltac:(vm_compute; reflexivity) u Hu).
  - exists (0, 1, 2)%N. split; [vm_compute; auto|]. apply (Rle_lt_trans _ (Q2R (40 # 1))); [unfold Q2R; cbn; lra|].
    apply area_gt. vm_compute. reflexivity.
  - destruct (C36_terminates_pf 3 N 10%R (SelCells [7%N]) new_filter m V Dn T ltac:(lra)) as [f' [out [[_ [n Hn]] _]]].
    exists n, f', out. apply Hn. apply le_n.
Qed.

(** The same strip, edges up to 23 long, threshold 5: three to six rounds (Linear), at most ten (Loop). *)
Example C104_length_ex : let m := rmesh strip4 in valid m /\ dense m /\ tris m <> [] /\ no_isolated m /\ no_wire m /\
  (forall a b, joined m a b -> seg_length m a b <= 23) /\ 2 * (23 * 23) <= 5 * 5 * (1 + 2 ^ 6) /\ 2 * (23 * 23) <= 5 * 5 * (1 + (3 / 2) ^ 10) /\
  (exists a b, In (a, b) (dirs (tris m)) /\ 5 * 2 ^ 2 < seg_length m a b) /\
  forall s, s <> EButterfly -> exists fuel f' out, conditional_update fuel (EdgeF s) (Some (edge_length_criterion (O := RO 3) 5)) (SelEdges [None])
    new_filter m = Ok (f', out).
Proof.
  intros m. assert (V : valid m) by ex_valid. assert (Dn : dense m) by ex_dense. assert (T : tris m <> []) by (vm_compute; discriminate).
  assert (I : no_isolated m) by (apply no_isolatedb_ok; vm_compute; reflexivity).
  assert (W : no_wire m) by (apply no_wireb_ok; vm_compute; reflexivity).
  split; [exact V|]. split; [exact Dn|]. split; [exact T|]. split; [exact I|]. split; [exact W|]. split; [|split; [lra|split; [lra|split]]].
  - intros a b Hj. apply (Rle_trans _ (Q2R (23 # 1))); [|unfold Q2R; cbn; lra].
    exact (lengths_le strip4 (23 # 1)%Q ltac:(vm_compute; reflexivity) a b Hj).
  - exists 1%N, 2%N. split; [vm_compute; auto|]. apply (Rle_lt_trans _ (Q2R (20 # 1))); [unfold Q2R; cbn; lra|].
    apply length_gt. vm_compute. reflexivity.
  - intros [| |] Hs; [| |congruence].
    + destruct (C37_terminates_pf 3 N 5%R (SelEdges [None]) new_filter m V Dn T ltac:(lra)) as [f' [out [[_ [n Hn]] _]]].
      exists n, f', out. apply Hn. apply le_n.
    + destruct (C103_pf 3 N 5%R (SelEdges [None]) new_filter m V Dn T I W ltac:(lra)) as [f' [out [[_ [n Hn]] _]]].
      exists n, f', out. apply Hn. apply le_n.
Qed.
