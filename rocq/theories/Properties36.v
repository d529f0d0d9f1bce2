(** * Properties36: in floating point the result of the linear filters is a function of the surface, bit for bit (C124).

    Theorems only; the proofs are in SameAny.v, CondAny.v and AnyFlt.v.  [BO prec emax Hp Hm cosf d] is IEEE-754 arithmetic in
    dimension [d] in any binary format; coordinates may be infinities and NaNs, whose bits are not distinguished. *)
From Coq Require Import QArith.
From Flocq Require Import Core BinarySingleNaN.
From Verif Require Import Base Mesh Filters Drivers Samples Spec SpecSub SpecGeo SpecRenum SpecRoot3 SpecFlt SpecDrive SpecConv SpecSame Lists Check CheckGeo CheckDrive CheckRenum Drive Iter CheckSame
  SameAny CondAny AnyFlt Properties12 Stuck64 CheckAny.

Open Scope N_scope.

(** C124.  [n] levels of the iterative filter around the linear filter, without a selection.  The inputs have the same points, bit
    for bit, under other ids, and the same cells, under other ids and started with other points.  So have the outputs. *)
Theorem C124 : forall prec emax Hp Hm cosf d D n (m1 m2 : mesh (BO prec emax Hp Hm cosf d) D) n1 n2 f1 f2 out1 out2 r r',
  valid m1 -> valid m2 -> dense m1 -> dense m2 -> tris m1 <> [] -> same_surface r r' m1 m2 ->
  iterative_update CLinear n n1 [] m1 = Ok (f1, out1) -> iterative_update CLinear n n2 [] m2 = Ok (f2, out2) ->
  exists q q', same_surface q q' out1 out2 /\ (forall x, oget x (pts m1) <> None -> q x = r x).
Proof. exact (fun prec emax Hp Hm cosf d D => any_levels (O := BO prec emax Hp Hm cosf d) (D := D) (flt_comm prec emax Hp Hm cosf d)). Qed.
Print Assumptions C124.

(** Two numberings of the octahedron in binary64, three levels. *)
Example C124_ex : let m1 := fmesh octa in let m2 := fmesh octa' in
  valid m1 /\ valid m2 /\ dense m1 /\ dense m2 /\ tris m1 <> [] /\ same_surface flip5 flip5 m1 m2 /\
  (exists n1 f1 out1, iterative_update CLinear 3 n1 [] m1 = Ok (f1, out1)) /\ (exists n2 f2 out2, iterative_update CLinear 3 n2 [] m2 = Ok (f2, out2)) /\
  tris m1 <> map (fun t => match t with (a, b, c) => (flip5 a, flip5 b, flip5 c) end) (tris m2).
Proof.
  intros m1 m2. assert (V1 : valid m1) by ex_valid. assert (V2 : valid m2) by ex_valid. assert (D1 : dense m1) by ex_dense. assert (D2 : dense m2) by ex_dense.
  assert (T1 : tris m1 <> []) by (vm_compute; discriminate). assert (T2 : tris m2 <> []) by (vm_compute; discriminate).
  repeat (split; [assumption|]). split; [exact (fmesh_surface _ _ _ _ octa_same)|].
  assert (R : forall m : mesh B64 N, valid m -> dense m -> tris m <> [] -> exists n f out, iterative_update CLinear 3 n [] m = Ok (f, out)).
  { intros m Hv Hd Hn. destruct (C32_uniform_pf B64 N CLinear 3 m Hv Hd Hn) as [f [out [[_ [q Hq]] _]]]; try discriminate. exists q, f, out. apply Hq. apply le_n. }
  split; [apply R; assumption|]. split; [apply R; assumption|]. vm_compute. discriminate.
Qed.

(** C124, one run of the linear edge filter without a selection. *)
Theorem C124_edges : forall prec emax Hp Hm cosf d D (m1 m2 : mesh (BO prec emax Hp Hm cosf d) D) f1 f2 g1 g2 out1 out2 r r' n1 n2,
  valid m1 -> valid m2 -> dense m1 -> dense m2 -> ready (EdgeF ELinear) f1 m1 -> ready (EdgeF ELinear) f2 m2 -> no_wire m1 -> no_wire m2 ->
  same_surface r r' m1 m2 -> esel f1 = [] -> esel f2 = [] ->
  update (EdgeF ELinear) n1 f1 m1 = Ok (g1, out1) -> update (EdgeF ELinear) n2 f2 m2 = Ok (g2, out2) ->
  exists q q', same_surface q q' out1 out2 /\ (forall x, oget x (pts m1) <> None -> q x = r x).
Proof. exact (fun prec emax Hp Hm cosf d D => any_edges (O := BO prec emax Hp Hm cosf d) (D := D) (flt_comm prec emax Hp Hm cosf d)). Qed.
Print Assumptions C124_edges.

Example C124_edges_ex : let m1 := fmesh octa in let m2 := fmesh octa' in let f := new_filter in
  valid m1 /\ valid m2 /\ dense m1 /\ dense m2 /\ ready (EdgeF ELinear) f m1 /\ ready (EdgeF ELinear) f m2 /\ no_wire m1 /\ no_wire m2 /\
  same_surface flip5 flip5 m1 m2 /\ esel f = [] /\
  (exists g1 out1, update (EdgeF ELinear) 100 f m1 = Ok (g1, out1)) /\ exists g2 out2, update (EdgeF ELinear) 100 f m2 = Ok (g2, out2).
Proof.
  intros m1 m2 f. destruct C124_ex as [V1 [V2 [D1 [D2 [_ [HS _]]]]]]. repeat (split; [assumption|]).
  split; [apply readyb_ok; vm_compute; reflexivity|]. split; [apply readyb_ok; vm_compute; reflexivity|].
  split; [apply no_wireb_ok; vm_compute; reflexivity|]. split; [apply no_wireb_ok; vm_compute; reflexivity|]. split; [exact HS|]. split; [reflexivity|].
  split; apply ended_ok; vm_compute; reflexivity.
Qed.

(** C124, adaptive runs: corresponding cells start with corresponding points and corresponding edges are split. *)
Theorem C124_adaptive : forall prec emax Hp Hm cosf d D k (m1 m2 : mesh (BO prec emax Hp Hm cosf d) D) f1 f2 g1 g2 out1 out2 r r' n1 n2,
  k = CellF CLinear \/ k = EdgeF ELinear ->
  valid m1 -> valid m2 -> dense m1 -> dense m2 -> ready k f1 m1 -> ready k f2 m2 ->
  same_surface r r' m1 m2 -> same_corners r m1 m2 -> same_edges_split r k f1 m1 f2 m2 ->
  update k n1 f1 m1 = Ok (g1, out1) -> update k n2 f2 m2 = Ok (g2, out2) ->
  exists q q', same_surface q q' out1 out2 /\ (forall x, oget x (pts m1) <> None -> q x = r x) /\ same_corners q out1 out2.
Proof. exact flt_adaptive. Qed.
Print Assumptions C124_adaptive.

(** The strip in two numberings; cell 0 of one and cell 3 of the other are the same cell. *)
Example C124_adaptive_ex : let m1 := fmesh strip4 in let m2 := fmesh strip4' in let k := EdgeF ELinear in
  let f1 := esl [Some (0, 1)] in let f2 := esl [Some (5, 4)] in
  valid m1 /\ valid m2 /\ dense m1 /\ dense m2 /\ ready k f1 m1 /\ ready k f2 m2 /\ same_surface flip5 flip5 m1 m2 /\ same_corners flip5 m1 m2 /\
  same_edges_split flip5 k f1 m1 f2 m2 /\ to_split k f1 m1 0 1 /\ ~ to_split k f1 m1 1 2 /\
  (exists g1 out1, update k 100 f1 m1 = Ok (g1, out1)) /\ exists g2 out2, update k 100 f2 m2 = Ok (g2, out2).
Proof.
  intros m1 m2 k f1 f2. assert (V1 : valid m1) by ex_valid. assert (V2 : valid m2) by ex_valid. assert (D1 : dense m1) by ex_dense. assert (D2 : dense m2) by ex_dense.
  repeat (split; [assumption|]). split; [apply readyb_ok; vm_compute; reflexivity|]. split; [apply readyb_ok; vm_compute; reflexivity|].
  split; [exact (fmesh_surface _ _ _ _ strip_same)|]. split; [intros a b c H; each_case H; vm_compute; tauto|].
  assert (B : forall a, oget a (pts m1) <> None -> a < 6) by (intros a Ha; exact (proj1 (D1 a) Ha)). split.
  { intros a b Pa Pb. apply B in Pa. apply B in Pb. unfold k. cbn [to_split]. change (esel f1) with [Some (0, 1)]. change (esel f2) with [Some (5, 4)]. cbn [In]. unfold flip5.
    split; (intros [[X _]|X]; [discriminate X|right]);
      repeat match goal with H : _ \/ _ |- _ => destruct H as [H|H] | H : False |- _ => destruct H end;
      (assert (XX : forall u v : N * N, Some u = Some v -> u = v) by (intros u v Y; congruence)); apply XX in X; apply pair_equal_spec in X; destruct X as [X1 X2]; first [assert (a = 0) by lia; assert (b = 1) by lia; subst a b; vm_compute; auto|assert (a = 1) by lia; assert (b = 0) by lia; subst a b; vm_compute; auto]. }
  split; [right; left; left; reflexivity|]. split; [intros [[X _]|[[X|[]]|[X|[]]]]; discriminate X|].
  split; apply ended_ok; vm_compute; reflexivity.
Qed.

(** C124, the conditional filter around the linear filter with the area criterion: if the run on one of the inputs ends, so does the
    run on the other, whatever the filters were used for before, with the same result. *)
Theorem C124_area : forall prec emax Hp Hm cosf d D t (inp1 inp2 : mesh (BO prec emax Hp Hm cosf d) D) old1 old2 f1 f2 fuel f1' out1 r r',
  valid inp1 -> valid inp2 -> dense inp1 -> dense inp2 -> tris inp1 <> [] -> tris inp2 <> [] -> same_surface r r' inp1 inp2 -> same_corners r inp1 inp2 ->
  conditional_update fuel (CellF CLinear) (Some (cell_area_criterion t)) old1 f1 inp1 = Ok (f1', out1) ->
  exists f2' out2 q q',
    completes (fun n => conditional_update n (CellF CLinear) (Some (cell_area_criterion t)) old2 f2 inp2) (Ok (f2', out2)) /\
    same_surface q q' out1 out2 /\ same_corners q out1 out2 /\ (forall x, oget x (pts inp1) <> None -> q x = r x).
Proof. exact (fun prec emax Hp Hm cosf d D => cells_any (O := BO prec emax Hp Hm cosf d) (D := D) (flt_comm prec emax Hp Hm cosf d)). Qed.
Print Assumptions C124_area.

Example C124_area_ex : let m1 := fmesh strip4 in let m2 := fmesh strip4' in let t := b64 10 0 in
  valid m1 /\ valid m2 /\ dense m1 /\ dense m2 /\ tris m1 <> [] /\ tris m2 <> [] /\ same_surface flip5 flip5 m1 m2 /\ same_corners flip5 m1 m2 /\
  long_cells (O := B64) t m1 <> [] /\
  exists f1' out1, conditional_update 200 (CellF CLinear) (Some (cell_area_criterion (O := B64) t)) (SelCells []) new_filter m1 = Ok (f1', out1).
Proof.
  intros m1 m2 t. destruct C124_adaptive_ex as [V1 [V2 [D1 [D2 [_ [_ [HS [HC _]]]]]]]]. repeat (split; [assumption|]).
  split; [vm_compute; discriminate|]. split; [vm_compute; discriminate|]. split; [exact HS|]. split; [exact HC|].
  split; [vm_compute; discriminate|]. apply ended_ok. vm_compute. reflexivity.
Qed.

(** C124, the conditional filter around the linear edge filter with the length criterion. *)
Theorem C124_length : forall prec emax Hp Hm cosf d D t (inp1 inp2 : mesh (BO prec emax Hp Hm cosf d) D) old1 old2 f1 f2 fuel f1' out1 r r',
  valid inp1 -> valid inp2 -> dense inp1 -> dense inp2 -> tris inp1 <> [] -> tris inp2 <> [] -> no_wire inp1 -> no_wire inp2 ->
  same_surface r r' inp1 inp2 -> same_corners r inp1 inp2 ->
  conditional_update fuel (EdgeF ELinear) (Some (edge_length_criterion t)) old1 f1 inp1 = Ok (f1', out1) ->
  exists f2' out2 q q',
    completes (fun n => conditional_update n (EdgeF ELinear) (Some (edge_length_criterion t)) old2 f2 inp2) (Ok (f2', out2)) /\
    same_surface q q' out1 out2 /\ same_corners q out1 out2 /\ (forall x, oget x (pts inp1) <> None -> q x = r x).
Proof. exact (fun prec emax Hp Hm cosf d D => edges_any (O := BO prec emax Hp Hm cosf d) (D := D) (flt_comm prec emax Hp Hm cosf d) (flt_anti prec emax Hp Hm cosf d)). Qed.
Print Assumptions C124_length.

Example C124_length_ex : let m1 := fmesh strip4 in let m2 := fmesh strip4' in let t := b64 10 0 in
  valid m1 /\ valid m2 /\ dense m1 /\ dense m2 /\ tris m1 <> [] /\ tris m2 <> [] /\ no_wire m1 /\ no_wire m2 /\ same_surface flip5 flip5 m1 m2 /\ same_corners flip5 m1 m2 /\
  long_edges (O := B64) t m1 <> [] /\
  exists f1' out1, conditional_update 60 (EdgeF ELinear) (Some (edge_length_criterion (O := B64) t)) (SelEdges []) new_filter m1 = Ok (f1', out1).
Proof.
  intros m1 m2 t. destruct C124_area_ex as [V1 [V2 [D1 [D2 [T1 [T2 [HS [HC _]]]]]]]]. repeat (split; [assumption|]).
  split; [apply no_wireb_ok; vm_compute; reflexivity|]. split; [apply no_wireb_ok; vm_compute; reflexivity|]. split; [exact HS|]. split; [exact HC|].
  split; [vm_compute; discriminate|]. apply ended_ok. vm_compute. reflexivity.
Qed.

(** C124 for the sqrt(3) filter: the new point is the sum of the corners in the order of the cell, and in binary64 the last bit of it
    depends on the point the cell starts with. *)
Theorem C124_sqrt3_refuted : exists (m1 m2 : mesh B64 N) g1 g2 out1 out2,
  valid m1 /\ valid m2 /\ dense m1 /\ dense m2 /\ same_surface (fun x => x) (fun x => x) m1 m2 /\
  iterative_update CSqrt3 1 100 [] m1 = Ok (g1, out1) /\ iterative_update CSqrt3 1 100 [] m2 = Ok (g2, out2) /\
  ~ exists q q', same_surface q q' out1 out2.
Proof.
  exists (tri64 [0; 1; 2]), (tri64 [1; 2; 0]).
  destruct (missing_ok (iterative_update CSqrt3 1 100 [] (tri64 [0; 1; 2])) (iterative_update CSqrt3 1 100 [] (tri64 [1; 2; 0])) 3) as [g1 [g2 [o1 [o2 [R1 [R2 R3]]]]]]; [vm_compute; reflexivity|].
  exists g1, g2, o1, o2. split; [ex_valid|]. split; [ex_valid|]. split; [ex_dense|]. split; [ex_dense|]. split; [exact tri64_same|]. auto.
Qed.
Print Assumptions C124_sqrt3_refuted.

(** C124 for the Loop filter: the last bit of the point put on an inner edge depends on the order of the two cells there. *)
Theorem C124_loop_refuted : exists (m1 m2 : mesh B64 N) g1 g2 out1 out2,
  valid m1 /\ valid m2 /\ dense m1 /\ dense m2 /\ no_isolated m1 /\ no_wire m1 /\ no_isolated m2 /\ no_wire m2 /\
  same_surface (fun x => x) (fun x => x) m1 m2 /\ same_corners (fun x => x) m1 m2 /\
  iterative_update CLoop 1 100 [] m1 = Ok (g1, out1) /\ iterative_update CLoop 1 100 [] m2 = Ok (g2, out2) /\
  ~ exists q q', same_surface q q' out1 out2.
Proof.
  exists (two64 [[1; 2; 0]; [2; 1; 3]]), (two64 [[2; 1; 3]; [1; 2; 0]]).
  destruct (missing_ok (iterative_update CLoop 1 100 [] (two64 [[1; 2; 0]; [2; 1; 3]])) (iterative_update CLoop 1 100 [] (two64 [[2; 1; 3]; [1; 2; 0]])) 4) as [g1 [g2 [o1 [o2 [R1 [R2 R3]]]]]]; [vm_compute; reflexivity|].
  exists g1, g2, o1, o2. split; [ex_valid|]. split; [ex_valid|]. split; [ex_dense|]. split; [ex_dense|].
  split; [apply no_isolatedb_ok; vm_compute; reflexivity|]. split; [apply no_wireb_ok; vm_compute; reflexivity|].
  split; [apply no_isolatedb_ok; vm_compute; reflexivity|]. split; [apply no_wireb_ok; vm_compute; reflexivity|].
  split; [exact two64_same|]. split; [intros a b c H; each_case H; vm_compute; tauto|]. auto.
Qed.
Print Assumptions C124_loop_refuted.

(** C124 for the Butterfly filter on a closed mesh: the last bit of the new points depends on the order of the cells. *)
Theorem C124_butterfly_refuted : exists (m1 m2 : mesh B64 N) g1 g2 out1 out2,
  valid m1 /\ valid m2 /\ dense m1 /\ dense m2 /\ closed m1 /\ no_wire m1 /\ closed m2 /\ no_wire m2 /\
  same_surface (fun x => x) (fun x => x) m1 m2 /\ same_corners (fun x => x) m1 m2 /\
  iterative_update CButterfly 1 200 [] m1 = Ok (g1, out1) /\ iterative_update CButterfly 1 200 [] m2 = Ok (g2, out2) /\
  ~ exists q q', same_surface q q' out1 out2.
Proof.
  exists (oct64 oct_cells), (oct64 (rev oct_cells)).
  destruct (missing_ok (iterative_update CButterfly 1 200 [] (oct64 oct_cells)) (iterative_update CButterfly 1 200 [] (oct64 (rev oct_cells))) 6) as [g1 [g2 [o1 [o2 [R1 [R2 R3]]]]]]; [vm_compute; reflexivity|].
  exists g1, g2, o1, o2. split; [ex_valid|]. split; [ex_valid|]. split; [ex_dense|]. split; [ex_dense|].
  split; [apply closedb_ok; vm_compute; reflexivity|]. split; [apply no_wireb_ok; vm_compute; reflexivity|].
  split; [apply closedb_ok; vm_compute; reflexivity|]. split; [apply no_wireb_ok; vm_compute; reflexivity|].
  split; [exact oct64_same|]. split; [intros a b c H; each_case H; vm_compute; tauto|]. auto.
Qed.
Print Assumptions C124_butterfly_refuted.
