(** * Properties16: uniform levels converge (C101, C102).

    Theorems only; proofs are in Conv.v. *)
From Coq Require Import Reals Lra QArith.
From Verif Require Import Base Mesh Filters Drivers Samples Spec SpecSub SpecGeo SpecDrive SpecConv Lists Check Geo GeoProps CheckGeo Drive DriveProps Iter Never CheckDrive CheckRenum Root3Props Conv.

Open Scope R_scope.

Ltac ex_valid := apply validb_ok; vm_compute; reflexivity.
Ltac ex_dense := apply denseb_ok; vm_compute; reflexivity.
Ltac ex_tame V := cbn [tame]; try exact I; try (apply closedb_ok; vm_compute; reflexivity);
  try (split; [apply no_isolatedb_ok; vm_compute; reflexivity|]; split; [apply no_wireb_ok; vm_compute; reflexivity|]; apply one_fansb_ok; [exact V|vm_compute; reflexivity]).

(** C101.  Every uniform level shortens every edge at least by the factor [shrink]: 1/2 for Linear, 7/8 for Loop,
    3/4 for Butterfly, 2/3 for sqrt(3). *)
Theorem C101 : forall (d : nat) (D : Type) (s : cscheme) (n : nat) (inp out : mesh (RO d) D) L,
  valid inp -> dense inp -> tris inp <> [] -> tame s inp -> fits s n inp -> edges_within L inp -> after s n inp out ->
  edges_within (shrink s ^ n * L) out.
Proof. exact C101_pf. Qed.
Print Assumptions C101.

(** C101.  Hence enough levels make all edges as short as wanted. *)
Theorem C101_vanish : forall (d : nat) (D : Type) (s : cscheme) (inp : mesh (RO d) D) L eps,
  valid inp -> dense inp -> tris inp <> [] -> tame s inp -> edges_within L inp -> 0 < eps ->
  exists n0, forall n out, (n0 <= n)%nat -> fits s n inp -> after s n inp out -> edges_within eps out.
Proof. exact C101_vanish_pf. Qed.
Print Assumptions C101_vanish.

(** C102.  Let [m1] be the mesh after [j] levels and [m2] the one after [k >= j] levels.  The points of [m1] are
    still there in [m2] and have moved at most [settle * shrink^j * L]; every point of [m2] is that close to a
    point of [m1]. *)
Theorem C102 : forall (d : nat) (D : Type) (s : cscheme) (j k : nat) (inp m1 m2 : mesh (RO d) D) L,
  valid inp -> dense inp -> tris inp <> [] -> tame s inp -> fits s k inp -> edges_within L inp ->
  (j <= k)%nat -> after s j inp m1 -> after s k inp m2 ->
  (forall id, oget id (pts m1) <> None -> oget id (pts m2) <> None /\ apart m1 id m2 id <= settle s * shrink s ^ j * L) /\
  (forall id, oget id (pts m2) <> None -> exists id', oget id' (pts m1) <> None /\ apart m1 id' m2 id <= settle s * shrink s ^ j * L).
Proof. exact C102_pf. Qed.
Print Assumptions C102.

(** C102.  Every point converges: it has a limit position, from which it is at most [settle * shrink^k * L] away,
    in every coordinate, after [k] levels. *)
Theorem C102_limit : forall (d : nat) (D : Type) (s : cscheme) (j : nat) (inp m1 : mesh (RO d) D) L id,
  valid inp -> dense inp -> tris inp <> [] -> tame s inp -> edges_within L inp -> after s j inp m1 -> oget id (pts m1) <> None ->
  fits s j inp ->
  exists x : nat -> R, forall k m2 i, (j <= k)%nat -> fits s k inp -> after s k inp m2 -> (i < d)%nat ->
    Rabs (crd m2 i id - x i) <= settle s * shrink s ^ k * L.
Proof. exact C102_limit_pf. Qed.
Print Assumptions C102_limit.

(** A strip with a border for Loop and Linear, the octahedron for all four schemes, five and four levels. *)
Example C101_ex : let m := rmesh strip4 in
  valid m /\ dense m /\ tris m <> [] /\ tame CLoop m /\ tame CLinear m /\ fits CLoop 5 m /\ edges_within (Q2R (25 # 1)) m /\
  exists out, after CLoop 5 m out.
Proof.
  intros m. assert (V : valid m) by ex_valid. assert (Dn : dense m) by ex_dense. assert (T : tris m <> []) by (vm_compute; discriminate).
  assert (TL : tame CLoop m) by ex_tame V.
  split; [exact V|]. split; [exact Dn|]. split; [exact T|]. split; [exact TL|]. split; [exact I|]. split; [discriminate|].
  split; [exact (lengths_le strip4 (25 # 1)%Q ltac:(vm_compute; reflexivity))|].
  destruct (C32_uniform_pf (RO 3) N CLoop 5 m V Dn T ltac:(discriminate)) as [f [out [[_ [q Hq]] _]]]; [intros _; split; [apply TL|intros _; apply TL]|].
  exists out, q, f. apply Hq. apply le_n.
Qed.
Example C101_closed_ex : let m := rmesh octa in
  valid m /\ dense m /\ tris m <> [] /\ edges_within (Q2R (25 # 1)) m /\
  forall s, tame s m /\ fits s 4 m /\ exists out, after s 4 m out.
Proof.
  intros m. assert (V : valid m) by ex_valid. assert (Dn : dense m) by ex_dense. assert (T : tris m <> []) by (vm_compute; discriminate).
  split; [exact V|]. split; [exact Dn|]. split; [exact T|]. split; [exact (lengths_le octa (25 # 1)%Q ltac:(vm_compute; reflexivity))|].
  assert (TL : forall s, tame s m) by (intros []; ex_tame V). assert (Fi : fits CSqrt3 4 m) by (intros _; vm_compute; reflexivity).
  intros s. split; [apply TL|]. split; [intros E; exact (Fi eq_refl)|].
  assert (Hs : s = CSqrt3 \/ s <> CSqrt3) by (destruct s; auto; right; discriminate). destruct Hs as [->|Hs].
  - destruct (C58_iterative_uniform_pf (RO 3) N 4 m V Dn T (Fi eq_refl)) as [f [out [[_ [q Hq]] _]]]. exists out, q, f. apply Hq. apply le_n.
  - destruct (C32_uniform_pf (RO 3) N s 4 m V Dn T Hs) as [f [out [[_ [q Hq]] _]]]; [intros _; pose proof (TL CLoop) as X; split; [apply X|intros _; apply X]|].
    exists out, q, f. apply Hq. apply le_n.
Qed.

(** C102 between two and five levels of Loop on the strip, whose points are at most 25 apart. *)
Example C102_ex : let m := rmesh strip4 in
  valid m /\ dense m /\ tris m <> [] /\ tame CLoop m /\ fits CLoop 5 m /\ edges_within (Q2R (25 # 1)) m /\
  exists m1 m2, after CLoop 2 m m1 /\ after CLoop 5 m m2 /\ oget 3 (pts m1) <> None.
Proof.
  intros m. destruct C101_ex as [V [Dn [T [TL [_ [Fi [E [m2 H2]]]]]]]].
  split; [exact V|]. split; [exact Dn|]. split; [exact T|]. split; [exact TL|]. split; [exact Fi|]. split; [exact E|].
  destruct (C32_uniform_pf (RO 3) N CLoop 2 m V Dn T ltac:(discriminate)) as [f [m1 [[_ [q Hq]] _]]]; [intros _; split; [apply TL|intros _; apply TL]|].
  assert (H1 : after CLoop 2 m m1) by (exists q, f; apply Hq; apply le_n).
  exists m1, m2. split; [exact H1|]. split; [exact H2|].
  apply (C102 3 N CLoop 0 2 m m m1 (Q2R (25 # 1)) V Dn T TL ltac:(discriminate) E ltac:(lia) eq_refl H1). vm_compute. discriminate.
Qed.
