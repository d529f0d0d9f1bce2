(** * Properties34: the conditional filters' result is a function of the surface (C122).

    Theorems only; the proofs are in CondSame.v and CondSame3.v. *)
From Coq Require Import Reals QArith Lra.
From Verif Require Import Base Mesh Filters Drivers Samples Spec SpecSub SpecGeo SpecRenum SpecRoot3 SpecDrive SpecConv SpecSame Lists Check CheckGeo CheckDrive CheckRenum CheckRoot3 Drive DriveProps CondRoot3 CondLoop CheckSame CondSame CondSame3 Properties11 Properties19.

Open Scope R_scope.

(** C122.  The conditional filter around the linear or the Butterfly cell filter, with the area criterion, exact coordinates.  The
    two inputs are the same surface with other ids, corresponding cells start with corresponding points.  If the run on one of them
    ends, so does the run on the other, whatever the filters were used for before, and the results are again the same surface. *)
Theorem C122 : forall (d : nat) (D : Type) s (maxarea : R) (inp1 inp2 : mesh (RO d) D) old1 old2 f1 f2 fuel f1' out1 r r',
  s = CLinear \/ s = CButterfly ->
  valid inp1 -> valid inp2 -> dense inp1 -> dense inp2 -> tris inp1 <> [] -> tris inp2 <> [] ->
  unambiguous s inp1 -> unambiguous s inp2 -> same_surface r r' inp1 inp2 -> same_corners r inp1 inp2 ->
  conditional_update fuel (CellF s) (Some (cell_area_criterion (O := RO d) maxarea)) old1 f1 inp1 = Ok (f1', out1) ->
  exists f2' out2 q q',
    completes (fun n => conditional_update n (CellF s) (Some (cell_area_criterion (O := RO d) maxarea)) old2 f2 inp2) (Ok (f2', out2)) /\
    same_surface q q' out1 out2 /\ same_corners q out1 out2 /\ (forall x, oget x (pts inp1) <> None -> q x = r x).
Proof. exact C122_cells_pf. Qed.
Print Assumptions C122.

(** The strip in two numberings; its first cell is larger than the threshold. *)
Example C122_ex : let m1 := rmesh strip4 in let m2 := rmesh strip4' in
  valid m1 /\ valid m2 /\ dense m1 /\ dense m2 /\ tris m1 <> [] /\ tris m2 <> [] /\ same_surface flip5 flip5 m1 m2 /\ same_corners flip5 m1 m2 /\
  (exists u, In u (tris m1) /\ 10 < tri_area m1 u) /\
  exists fuel f1' out1, conditional_update fuel (CellF CLinear) (Some (cell_area_criterion (O := RO 3) 10)) (SelCells []) new_filter m1 = Ok (f1', out1).
Proof.
  intros m1 m2. assert (V1 : valid m1) by ex_valid. assert (V2 : valid m2) by ex_valid. assert (D1 : dense m1) by ex_dense. assert (D2 : dense m2) by ex_dense.
  assert (T1 : tris m1 <> []) by (vm_compute; discriminate). assert (T2 : tris m2 <> []) by (vm_compute; discriminate).
  repeat (split; [assumption|]). split; [exact (rmesh_surface _ _ _ _ strip_same)|].
  split; [intros a b c H; each_case H; vm_compute; tauto|]. split; [exact (proj2 (proj2 (proj2 (proj2 (proj2 (proj2 (proj2 C106_ex)))))))|].
  destruct (c36_terminates_sec 10 (SelCells []) new_filter m1 V1 D1 T1 ltac:(lra)) as [f' [out [_ [n H]]]]. exists n, f', out. apply H. apply le_n.
Qed.

(** C122 for the three edge filters with the length criterion. *)
Theorem C122_edges : forall (d : nat) (D : Type) s (maxlen : R) (inp1 inp2 : mesh (RO d) D) old1 old2 f1 f2 fuel f1' out1 r r',
  valid inp1 -> valid inp2 -> dense inp1 -> dense inp2 -> tris inp1 <> [] -> tris inp2 <> [] -> no_wire inp1 -> no_wire inp2 ->
  unambiguous (scheme_of (EdgeF s)) inp1 -> unambiguous (scheme_of (EdgeF s)) inp2 -> same_surface r r' inp1 inp2 -> same_corners r inp1 inp2 ->
  conditional_update fuel (EdgeF s) (Some (edge_length_criterion (O := RO d) maxlen)) old1 f1 inp1 = Ok (f1', out1) ->
  exists f2' out2 q q',
    completes (fun n => conditional_update n (EdgeF s) (Some (edge_length_criterion (O := RO d) maxlen)) old2 f2 inp2) (Ok (f2', out2)) /\
    same_surface q q' out1 out2 /\ same_corners q out1 out2 /\ (forall x, oget x (pts inp1) <> None -> q x = r x).
Proof. exact C122_edges_pf. Qed.
Print Assumptions C122_edges.

(** The strip again, the Loop edge filter; one of its edges is longer than the threshold. *)
Example C122_edges_ex : let m1 := rmesh strip4 in let m2 := rmesh strip4' in
  valid m1 /\ valid m2 /\ dense m1 /\ dense m2 /\ tris m1 <> [] /\ tris m2 <> [] /\ no_wire m1 /\ no_wire m2 /\
  unambiguous (scheme_of (EdgeF ELoop)) m1 /\ unambiguous (scheme_of (EdgeF ELoop)) m2 /\
  same_surface flip5 flip5 m1 m2 /\ same_corners flip5 m1 m2 /\ joined m1 0 1 /\ 10 < seg_length m1 0 1 /\
  exists fuel f1' out1, conditional_update fuel (EdgeF ELoop) (Some (edge_length_criterion (O := RO 3) 10)) (SelEdges []) new_filter m1 = Ok (f1', out1).
Proof.
  intros m1 m2. destruct C122_ex as [V1 [V2 [D1 [D2 [T1 [T2 [HS [HC _]]]]]]]]. repeat (split; [assumption|]).
  assert (W1 : no_wire m1) by (apply no_wireb_ok; vm_compute; reflexivity). assert (W2 : no_wire m2) by (apply no_wireb_ok; vm_compute; reflexivity).
  assert (I1 : no_isolated m1) by (apply no_isolatedb_ok; vm_compute; reflexivity). assert (I2 : no_isolated m2) by (apply no_isolatedb_ok; vm_compute; reflexivity).
  split; [exact W1|]. split; [exact W2|]. split; [split; assumption|]. split; [split; assumption|]. split; [exact HS|]. split; [exact HC|].
  split; [vm_compute; auto|]. split; [apply (Rle_lt_trans _ (Q2R (10#1))); [unfold Q2R; cbn; lra|apply length_gt; vm_compute; reflexivity]|].
  destruct (C103_pf 3 N 10 (SelEdges []) new_filter m1 V1 D1 T1 I1 W1 ltac:(lra)) as [f' [out [[_ [n H]] _]]]. exists n, f', out. apply H. apply le_n.
Qed.

(** C122 for the sqrt(3) filter with the area criterion, where the points the cells start with do not matter.  Both runs end, with
    the same surface.  The bound on the sizes is the one of C106: the ids of at most p q rounds fit into 64 bits. *)
Theorem C122_sqrt3 : forall (d : nat) (D : Type) (maxarea M : R) (p q : nat) old1 old2 f1 f2 (inp1 inp2 : mesh (RO d) D) r r',
  valid inp1 -> valid inp2 -> dense inp1 -> dense inp2 -> tris inp1 <> [] -> tris inp2 <> [] -> same_surface r r' inp1 inp2 -> 0 < maxarea ->
  (forall u a b, In u (tris inp1) -> In (a, b) (tdirs u) -> seg_length inp1 a b <= M) ->
  M * M / 2 <= maxarea * (9 / 4) ^ p -> M * M / 2 <= maxarea * 3 ^ q ->
  (nV inp1 + 2 * nF inp1 * 3 ^ Z.of_nat (p * q) < 2 ^ 64)%Z -> (nV inp2 + 2 * nF inp2 * 3 ^ Z.of_nat (p * q) < 2 ^ 64)%Z ->
  exists f1' f2' out1 out2 s s',
    completes (fun fuel => conditional_update fuel (CellF CSqrt3) (Some (cell_area_criterion (O := RO d) maxarea)) old1 f1 inp1) (Ok (f1', out1)) /\
    completes (fun fuel => conditional_update fuel (CellF CSqrt3) (Some (cell_area_criterion (O := RO d) maxarea)) old2 f2 inp2) (Ok (f2', out2)) /\
    same_surface s s' out1 out2 /\ (forall x, oget x (pts inp1) <> None -> s x = r x).
Proof. exact C122_sqrt3_pf. Qed.
Print Assumptions C122_sqrt3.

Example C122_sqrt3_ex : let m1 := rmesh strip4 in let m2 := rmesh strip4' in
  valid m1 /\ valid m2 /\ dense m1 /\ dense m2 /\ tris m1 <> [] /\ tris m2 <> [] /\ same_surface flip5 flip5 m1 m2 /\
  (forall u a b, In u (tris m1) -> In (a, b) (tdirs u) -> seg_length m1 a b <= 23) /\
  23 * 23 / 2 <= 10 * (9 / 4) ^ 5 /\ 23 * 23 / 2 <= 10 * 3 ^ 3 /\
  (nV m1 + 2 * nF m1 * 3 ^ Z.of_nat (5 * 3) < 2 ^ 64)%Z /\ (nV m2 + 2 * nF m2 * 3 ^ Z.of_nat (5 * 3) < 2 ^ 64)%Z /\
  exists u, In u (tris m1) /\ 10 < tri_area m1 u.
Proof.
  intros m1 m2. destruct C122_ex as [V1 [V2 [D1 [D2 [T1 [T2 [HS [_ [HU _]]]]]]]]]. repeat (split; [assumption|]).
  destruct C106_ex as [_ [_ [_ [H1 [H2 [H3 [H4 _]]]]]]]. split; [exact H1|]. split; [exact H2|]. split; [exact H3|]. split; [exact H4|].
  split; [vm_compute; reflexivity|exact HU].
Qed.
