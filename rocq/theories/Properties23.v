(** * Properties23: the conditional filter around the Butterfly edge filter ends on closed meshes (C110).

    Theorem only; the proof is in CondButterfly.v. *)
From Coq Require Import Reals Lra QArith.
From Verif Require Import Base Mesh Filters Drivers Samples Spec SpecSub SpecGeo SpecDrive Lists Check Geo GeoProps CheckGeo Drive DriveProps Iter Never CheckDrive CheckRenum CondButterfly.

Open Scope R_scope.

(** C110.  Butterfly edge filter with the edge-length criterion on a closed mesh: for every positive MaximumLength the
    run completes, with all lengths within the bound. *)
Theorem C110 : forall (d : nat) (D : Type) (maxlen : R) old f (inp : mesh (RO d) D),
  valid inp -> dense inp -> tris inp <> [] -> closed inp -> 0 < maxlen ->
  exists f' out, completes (fun fuel => conditional_update fuel (EdgeF EButterfly)
      (Some (edge_length_criterion (O := RO d) maxlen)) old f inp) (Ok (f', out)) /\
    (forall a b, joined out a b -> seg_length out a b <= maxlen) /\ valid out.
Proof. exact C110_pf. Qed.
Print Assumptions C110.

(** The seven-point torus with a threshold far below its edge lengths. *)
Example C110_ex : let m := rmesh torus7 in valid m /\ dense m /\ tris m <> [] /\ closed m /\ 0 < 1 / 1000 /\
  joined m 0 1 /\ 1 / 1000 < seg_length m 0 1.
Proof.
  intros m. split; [apply validb_ok; vm_compute; reflexivity|]. split; [apply denseb_ok; vm_compute; reflexivity|].
  split; [vm_compute; discriminate|]. split; [apply closedb_ok; vm_compute; reflexivity|].
  split; [lra|]. split; [vm_compute; auto|].
  apply (Rle_lt_trans _ (Q2R (1#1))); [unfold Q2R; cbn; lra|apply length_gt; vm_compute; reflexivity].
Qed.
