(** * Properties19: the conditional filter around the sqrt(3) filter (C106).

    Theorems only; proofs are in CondRoot3.v. *)
From Coq Require Import Reals Lra QArith Qreals.
From Verif Require Import Base Mesh Filters Drivers Samples Spec SpecSub SpecGeo SpecDrive SpecRoot3 Lists Check CheckGeo CheckDrive CondRoot3.
Open Scope R_scope.

Ltac ex_valid := apply validb_ok; vm_compute; reflexivity.
Ltac ex_dense := apply denseb_ok; vm_compute; reflexivity.

(** C106.  The conditional filter around the sqrt(3) filter with the area criterion ends for every positive maximal
    area, after at most p q rounds, p and q being logarithms of M^2 / (2 maxarea) to the bases 9/4 and 3. *)
Theorem C106 : forall (d : nat) (D : Type) (maxarea M : R) (p q : nat) old f (inp : mesh (RO d) D),
  valid inp -> dense inp -> tris inp <> [] -> 0 < maxarea ->
  (forall u a b, In u (tris inp) -> In (a, b) (tdirs u) -> seg_length inp a b <= M) ->
  M * M / 2 <= maxarea * (9 / 4) ^ p -> M * M / 2 <= maxarea * 3 ^ q ->
  (nV inp + 2 * nF inp * 3 ^ Z.of_nat (p * q) < 2 ^ 64)%Z ->
  exists f' out, completes (fun fuel => conditional_update fuel (CellF CSqrt3)
      (Some (cell_area_criterion (O := RO d) maxarea)) old f inp) (Ok (f', out)) /\
    valid out /\ dense out /\ (forall u, In u (tris out) -> tri_area out u <= maxarea) /\
    (forall u a b, In u (tris out) -> In (a, b) (tdirs u) -> seg_length out a b <= M) /\
    (forall id x, oget id (pts inp) = Some x -> oget id (pts out) = Some x) /\
    exists m0 r, same_shape inp m0 /\ (r <= p * q)%nat /\ chained_any m0 r out.
Proof. exact C106_pf. Qed.
Print Assumptions C106.

(** The strip of four triangles, edges up to 23 long, areas about 130, with the threshold 10. *)
Example C106_ex : let m := rmesh strip4 in valid m /\ dense m /\ tris m <> [] /\
  (forall u a b, In u (tris m) -> In (a, b) (tdirs u) -> seg_length m a b <= 23) /\
  23 * 23 / 2 <= 10 * (9 / 4) ^ 5 /\ 23 * 23 / 2 <= 10 * 3 ^ 3 /\ (nV m + 2 * nF m * 3 ^ Z.of_nat (5 * 3) < 2 ^ 64)%Z /\
  exists u, In u (tris m) /\ 10 < tri_area m u.
Proof.
  intros m. assert (V : valid m) by ex_valid. assert (Dn : dense m) by ex_dense. assert (T : tris m <> []) by (vm_compute; discriminate).
  split; [exact V|]. split; [exact Dn|]. split; [exact T|]. split; [|split; [lra|split; [lra|split; [vm_compute; reflexivity|]]]].
  - intros u a b Hu Hab. pose proof (side_joined m V u a b Hu Hab) as Hj.
    apply (Rle_trans _ (Q2R (23 # 1))); [|unfold Q2R; cbn; lra].
    exact (lengths_le strip4 (23 # 1)%Q ltac:(vm_compute; reflexivity) a b Hj).
  - exists (0, 1, 2)%N. split; [vm_compute; auto|]. apply (Rle_lt_trans _ (Q2R (10 # 1))); [unfold Q2R; cbn; lra|].
    apply area_gt. vm_compute. reflexivity.
Qed.
