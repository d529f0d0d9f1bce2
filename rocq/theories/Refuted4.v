(** * Refuted4: a property of floating-point runs that only the Linear filters have (C90). *)
From Coq Require Import Floats QArith.
From Verif Require Import Base Mesh Filters Drivers Samples Spec SpecSub SpecRenum SpecRoot3 Check CheckRoot3 CheckRenum Refuted Refuted2.
Open Scope N_scope.

(** ** C90: a coordinate that all points of the input share *)

(** A tetrahedron squeezed into the plane z = 0.01. *)
Definition flat : mesh F3 N :=
  build (O := F3) (number [fpt 0 0 0x1.47ae147ae147bp-7; fpt 16 0 0x1.47ae147ae147bp-7; fpt 0 16 0x1.47ae147ae147bp-7; fpt 16 16 0x1.47ae147ae147bp-7])
        [[0; 2; 1]; [0; 1; 3]; [1; 2; 3]; [2; 0; 3]].
Definition leaves (c : float) (m : mesh F3 N) : bool :=
  existsb (fun kv => negb (PrimFloat.eqb (nth 2 (snd kv) c) c)) (pts m).
Lemma leaves_ok c m : leaves c m = true -> exists id p, In (id, p) (pts m) /\ PrimFloat.eqb (nth 2 p c) c = false.
Proof.
  intros H. apply existsb_exists in H. destruct H as [[id p] [Hin H]]. exists id, p. split; [exact Hin|].
  apply negb_true_iff. exact H.
Qed.
Theorem C90_refuted :
  exists (m : mesh F3 N) (c : float), valid m /\ dense m /\ closed m /\ (forall id p, In (id, p) (pts m) -> nth 2 p 0%float = c) /\
    forall k, In k [CellF CLoop; CellF CButterfly; CellF CSqrt3; EdgeF ELoop; EdgeF EButterfly] ->
      ready_any k new_filter m /\
      exists f out, update k 100 new_filter m = Ok (f, out) /\ exists id p, In (id, p) (pts out) /\ PrimFloat.eqb (nth 2 p c) c = false.
Proof.
  exists flat, 0x1.47ae147ae147bp-7%float. split; [by_valid|]. split; [by_dense|]. split; [apply closedb_ok; vm_compute; reflexivity|].
  split; [intros id p H; vm_compute in H; repeat (destruct H as [H|H]; [injection H as _ <-; reflexivity|]); destruct H|].
  intros k Hk. repeat (destruct Hk as [<-|Hk]; [split; [apply ready_anyb_ok; vm_compute; reflexivity|];
    match goal with |- exists f out, update ?k _ _ _ = _ /\ _ => exists (fst (out_of k new_filter flat)), (snd (out_of k new_filter flat)) end;
    split; [by_run|apply leaves_ok; vm_compute; reflexivity]|]). destruct Hk.
Qed.
Print Assumptions C90_refuted.
