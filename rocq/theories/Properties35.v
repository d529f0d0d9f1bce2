(** * Properties35: the conditional filters treat a separate piece of a mesh as if it were alone (C123).

    Theorems only; the proofs are in CondPiece.v and CondPiece3.v. *)
From Coq Require Import Reals QArith Lra.
From Verif Require Import Base Mesh Filters Drivers Samples Spec SpecSub SpecGeo SpecRenum SpecRoot3 SpecDrive SpecConv SpecSame Lists Check CheckGeo CheckDrive CheckRenum CheckRoot3 Drive DriveProps CondLoop CondRoot3 Root3Props CheckSame CheckPiece CondPiece CondPiece3 Properties11.

Open Scope R_scope.

(** C123.  The conditional filter around the linear or the Butterfly cell filter, with the area criterion, exact coordinates.  [inp1]
    is a piece of [inp2]: its points and triangles are there under other ids, and no other triangle of [inp2] touches it.  If the
    run on [inp2] ends, so does the run on the piece alone, whatever the filters were used for before, and the result of the piece
    is a piece of the result of the whole; the points of the input keep their correspondence.  Only the piece has to be
    unambiguous for the scheme, the rest of [inp2] may be as it likes. *)
Theorem C123 : forall (d : nat) (D : Type) s (maxarea : R) (inp1 inp2 : mesh (RO d) D) old1 old2 f1 f2 fuel f2' out2 r,
  s = CLinear \/ s = CButterfly ->
  valid inp1 -> valid inp2 -> dense inp1 -> dense inp2 -> tris inp1 <> [] -> unambiguous s inp1 -> piece r inp1 inp2 -> same_corners r inp1 inp2 ->
  conditional_update fuel (CellF s) (Some (cell_area_criterion (O := RO d) maxarea)) old2 f2 inp2 = Ok (f2', out2) ->
  exists f1' out1 q,
    completes (fun n => conditional_update n (CellF s) (Some (cell_area_criterion (O := RO d) maxarea)) old1 f1 inp1) (Ok (f1', out1)) /\
    piece q out1 out2 /\ same_corners q out1 out2 /\ (forall x, oget x (pts inp1) <> None -> q x = r x).
Proof. exact C123_cells_pf. Qed.
Print Assumptions C123.

(** The strip inside the mesh of the strip and the octahedron; the criterion selects cells of both. *)
Example C123_ex : let m1 := rmesh strip4 in let m2 := rmesh both in
  valid m1 /\ valid m2 /\ dense m1 /\ dense m2 /\ tris m1 <> [] /\ unambiguous CLinear m1 /\ piece (fun x => x + 0)%N m1 m2 /\ same_corners (fun x => x + 0)%N m1 m2 /\
  (exists u, In u (tris m1) /\ 10 < tri_area m1 u) /\ (exists u, In u (tris m2) /\ ~ In u (tris m1) /\ 10 < tri_area m2 u) /\
  exists fuel f2' out2, conditional_update fuel (CellF CLinear) (Some (cell_area_criterion (O := RO 3) 10)) (SelCells []) new_filter m2 = Ok (f2', out2).
Proof.
  intros m1 m2. assert (V1 : valid m1) by ex_valid. assert (V2 : valid m2) by ex_valid. assert (D1 : dense m1) by ex_dense. assert (D2 : dense m2) by ex_dense.
  assert (T1 : tris m1 <> []) by (vm_compute; discriminate). assert (T2 : tris m2 <> []) by (vm_compute; discriminate).
  repeat (split; [assumption|]). split; [exact I|]. split; [exact (rmesh_piece _ _ _ strip_piece)|].
  split; [intros a b c H; each_case H; vm_compute; tauto|].
  split; [exists (0, 1, 2)%N; split; [vm_compute; tauto|apply (Rle_lt_trans _ (Q2R (10#1))); [unfold Q2R; cbn; lra|apply area_gt; vm_compute; reflexivity]]|].
  split; [exists (7, 8, 6)%N; split; [vm_compute; tauto|split; [vm_compute; intuition discriminate|apply (Rle_lt_trans _ (Q2R (10#1))); [unfold Q2R; cbn; lra|apply area_gt; vm_compute; reflexivity]]]|].
  destruct (c36_terminates_sec 10 (SelCells []) new_filter m2 V2 D2 T2 ltac:(lra)) as [f' [out [_ [n H]]]]. exists n, f', out. apply H. apply le_n.
Qed.

(** C123 for the three edge filters with the length criterion. *)
Theorem C123_edges : forall (d : nat) (D : Type) s (maxlen : R) (inp1 inp2 : mesh (RO d) D) old1 old2 f1 f2 fuel f2' out2 r,
  valid inp1 -> valid inp2 -> dense inp1 -> dense inp2 -> tris inp1 <> [] -> no_wire inp1 -> no_wire inp2 -> (s = ELoop -> no_isolated inp2) ->
  unambiguous (scheme_of (EdgeF s)) inp1 -> piece r inp1 inp2 -> same_corners r inp1 inp2 ->
  conditional_update fuel (EdgeF s) (Some (edge_length_criterion (O := RO d) maxlen)) old2 f2 inp2 = Ok (f2', out2) ->
  exists f1' out1 q,
    completes (fun n => conditional_update n (EdgeF s) (Some (edge_length_criterion (O := RO d) maxlen)) old1 f1 inp1) (Ok (f1', out1)) /\
    piece q out1 out2 /\ same_corners q out1 out2 /\ (forall x, oget x (pts inp1) <> None -> q x = r x).
Proof. exact C123_edges_pf. Qed.
Print Assumptions C123_edges.

(** The strip again, the Loop edge filter. *)
Example C123_edges_ex : let m1 := rmesh strip4 in let m2 := rmesh both in
  valid m1 /\ valid m2 /\ dense m1 /\ dense m2 /\ tris m1 <> [] /\ no_wire m1 /\ no_wire m2 /\ no_isolated m2 /\
  unambiguous (scheme_of (EdgeF ELoop)) m1 /\ piece (fun x => x + 0)%N m1 m2 /\ same_corners (fun x => x + 0)%N m1 m2 /\ joined m1 0 1 /\ 10 < seg_length m1 0 1 /\
  exists fuel f2' out2, conditional_update fuel (EdgeF ELoop) (Some (edge_length_criterion (O := RO 3) 10)) (SelEdges []) new_filter m2 = Ok (f2', out2).
Proof.
  intros m1 m2. destruct C123_ex as [V1 [V2 [D1 [D2 [T1 [_ [HS [HC _]]]]]]]]. repeat (split; [assumption|]).
  assert (T2 : tris m2 <> []) by (vm_compute; discriminate).
  assert (W1 : no_wire m1) by (apply no_wireb_ok; vm_compute; reflexivity). assert (W2 : no_wire m2) by (apply no_wireb_ok; vm_compute; reflexivity).
  assert (I1 : no_isolated m1) by (apply no_isolatedb_ok; vm_compute; reflexivity). assert (I2 : no_isolated m2) by (apply no_isolatedb_ok; vm_compute; reflexivity).
  split; [exact W1|]. split; [exact W2|]. split; [exact I2|]. split; [split; assumption|]. split; [exact HS|]. split; [exact HC|].
  split; [vm_compute; auto|]. split; [apply (Rle_lt_trans _ (Q2R (10#1))); [unfold Q2R; cbn; lra|apply length_gt; vm_compute; reflexivity]|].
  destruct (C103_pf 3 N 10 (SelEdges []) new_filter m2 V2 D2 T2 I2 W2 ltac:(lra)) as [f' [out [[_ [n H]] _]]]. exists n, f', out. apply H. apply le_n.
Qed.

(** C123 for the sqrt(3) filter with the area criterion, where the points the cells start with do not matter.  Both runs end, and
    the result of the piece is a piece of the result of the whole.  The bound on the sizes is the one of C106. *)
Theorem C123_sqrt3 : forall (d : nat) (D : Type) (maxarea M : R) (p q : nat) old1 old2 f1 f2 (inp1 inp2 : mesh (RO d) D) r,
  valid inp1 -> valid inp2 -> dense inp1 -> dense inp2 -> tris inp1 <> [] -> piece r inp1 inp2 -> 0 < maxarea ->
  (forall u a b, In u (tris inp2) -> In (a, b) (tdirs u) -> seg_length inp2 a b <= M) ->
  M * M / 2 <= maxarea * (9 / 4) ^ p -> M * M / 2 <= maxarea * 3 ^ q ->
  (nV inp1 + 2 * nF inp1 * 3 ^ Z.of_nat (p * q) < 2 ^ 64)%Z -> (nV inp2 + 2 * nF inp2 * 3 ^ Z.of_nat (p * q) < 2 ^ 64)%Z ->
  exists f1' f2' out1 out2 s,
    completes (fun fuel => conditional_update fuel (CellF CSqrt3) (Some (cell_area_criterion (O := RO d) maxarea)) old1 f1 inp1) (Ok (f1', out1)) /\
    completes (fun fuel => conditional_update fuel (CellF CSqrt3) (Some (cell_area_criterion (O := RO d) maxarea)) old2 f2 inp2) (Ok (f2', out2)) /\
    piece s out1 out2 /\ (forall x, oget x (pts inp1) <> None -> s x = r x).
Proof. exact C123_sqrt3_pf. Qed.
Print Assumptions C123_sqrt3.

(** The octahedron inside the mesh of the strip and the octahedron. *)
Example C123_sqrt3_ex : let m1 := rmesh octa in let m2 := rmesh both in
  valid m1 /\ valid m2 /\ dense m1 /\ dense m2 /\ tris m1 <> [] /\ piece (fun x => x + 6)%N m1 m2 /\
  (forall u a b, In u (tris m2) -> In (a, b) (tdirs u) -> seg_length m2 a b <= 23) /\
  23 * 23 / 2 <= 10 * (9 / 4) ^ 5 /\ 23 * 23 / 2 <= 10 * 3 ^ 3 /\
  (nV m1 + 2 * nF m1 * 3 ^ Z.of_nat (5 * 3) < 2 ^ 64)%Z /\ (nV m2 + 2 * nF m2 * 3 ^ Z.of_nat (5 * 3) < 2 ^ 64)%Z /\
  exists u, In u (tris m1) /\ 10 < tri_area m1 u.
Proof.
  intros m1 m2. assert (V1 : valid m1) by ex_valid. assert (V2 : valid m2) by ex_valid. assert (D1 : dense m1) by ex_dense. assert (D2 : dense m2) by ex_dense.
  assert (T1 : tris m1 <> []) by (vm_compute; discriminate). repeat (split; [assumption|]). split; [exact (rmesh_piece _ _ _ octa_piece)|].
  split; [|split; [lra|split; [lra|split; [vm_compute; reflexivity|split; [vm_compute; reflexivity|]]]]].
  - intros u a b Hu Hab. pose proof (side_joined m2 V2 u a b Hu Hab) as Hj.
    apply (Rle_trans _ (Q2R (23 # 1))); [|unfold Q2R; cbn; lra].
    exact (lengths_le both (23 # 1)%Q ltac:(vm_compute; reflexivity) a b Hj).
  - exists (0, 1, 2)%N. split; [vm_compute; auto|]. apply (Rle_lt_trans _ (Q2R (10 # 1))); [unfold Q2R; cbn; lra|].
    apply area_gt. vm_compute. reflexivity.
Qed.
