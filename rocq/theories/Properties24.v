(** * Properties24: limit positions of repeated Loop subdivision (C111).

    Theorem only; the proof is in LoopLimit.v. *)
From Coq Require Import Reals Lra QArith.
From Verif Require Import Base Mesh Filters Drivers Samples Spec SpecSub SpecGeo SpecDrive SpecConv SpecLimit Lists Check Geo GeoProps CheckGeo Drive DriveProps Iter Never CheckDrive CheckRenum Root3Props Conv LoopLimit Properties16.

Open Scope R_scope.

(** C111.  Let [m1] be the mesh after [j] uniform levels of Loop and [v] one of its points.  The limit formula gives
    exactly one position [x] for [v], evaluated on any later level it gives the same position, and after [k] levels
    [v] is at most [5/8 (7/8)^k L] away from it. *)
Theorem C111 : forall (d : nat) (D : Type) (j : nat) (inp m1 : mesh (RO d) D) L v,
  valid inp -> dense inp -> tris inp <> [] -> no_isolated inp -> no_wire inp -> (forall w, one_fan inp w) -> edges_within L inp ->
  after CLoop j inp m1 -> oget v (pts m1) <> None ->
  (exists x, loop_limit m1 v x /\ forall y, loop_limit m1 v y -> forall i, y i = x i) /\
  forall x, loop_limit m1 v x -> forall k m2, (j <= k)%nat -> after CLoop k inp m2 ->
    loop_limit m2 v x /\ off m2 v x <= 5 / 8 * (7 / 8) ^ k * L.
Proof. exact C111_pf. Qed.
Print Assumptions C111.

(** A strip with border points, the limit taken after two levels and compared with five. *)
Example C111_ex : let m := rmesh strip4 in
  valid m /\ dense m /\ tris m <> [] /\ no_isolated m /\ no_wire m /\ (forall w, one_fan m w) /\ edges_within (Q2R (25 # 1)) m /\
  exists m1 m2, after CLoop 2 m m1 /\ after CLoop 5 m m2 /\ oget 3 (pts m1) <> None.
Proof.
  intros m. destruct C102_ex as [V [Dn [T [[T1 [T2 T3]] [_ [E X]]]]]]. auto 10.
Qed.
(** The octahedron, all of whose points are interior ones, after four levels. *)
Example C111_closed_ex : let m := rmesh octa in
  valid m /\ dense m /\ tris m <> [] /\ no_isolated m /\ no_wire m /\ (forall w, one_fan m w) /\ edges_within (Q2R (25 # 1)) m /\
  after CLoop 0 m m /\ interior_vertex m 0 /\ oget 0 (pts m) <> None /\ exists m2, after CLoop 4 m m2.
Proof.
  intros m. destruct C101_closed_ex as [V [Dn [T [E X]]]]. destruct (X CLoop) as [[T1 [T2 T3]] [_ Y]].
  repeat (split; [assumption|]). split; [reflexivity|]. split.
  - split; [vm_compute; discriminate|]. assert (C : closed m) by (apply closedb_ok; vm_compute; reflexivity). intros w [_ [[H1 H2]|[H1 H2]]]; apply H2, C, H1.
  - split; [vm_compute; discriminate|exact Y].
Qed.
