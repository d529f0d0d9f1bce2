(** * Refuted6: wire edges beside isolated points (C47). *)
From Verif Require Import Base Mesh Filters Drivers Samples Spec SpecSub Check Refuted.
Open Scope N_scope.

(** C47, as stated, fails: with an isolated point the uniform Loop edge filter does not raise an exception for the
    wire edge, because undefined behaviour at the isolated point comes first; so it is for the Loop cell filter. *)
Theorem C47_refuted : exists m : mesh Q3 N, valid m /\ dense m /\ wire_edge m 3 5 /\
  (forall fuel, exists u, update (EdgeF ELoop) fuel new_filter m = Undef u) /\
  (forall fuel, exists u, update (CellF CLoop) fuel new_filter m = Undef u).
Proof.
  exists mixed. split; [by_valid|]. split; [by_dense|]. split.
  { assert (E : dirs (tris mixed) = [(0, 1); (1, 2); (2, 0); (2, 1); (1, 3); (3, 2)]) by (vm_compute; reflexivity).
    split; [vm_compute; auto|]. rewrite E. cbn. split; intuition discriminate. }
  split; intros fuel; eexists; vm_compute; reflexivity.
Qed.
Print Assumptions C47_refuted.
