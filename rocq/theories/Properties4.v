(** * Properties4: refinement criteria, conditional and iterative filter, areas.

    Theorems only; proofs are in DriveProps.v, Iter.v and Never.v. *)
From Coq Require Import Reals Lra QArith Sorted.
From Verif Require Import Base Mesh Filters Drivers Samples Spec SpecSub SpecGeo SpecDrive Lists Check Geo GeoProps CheckGeo Drive DriveProps Iter Never CheckDrive.

Open Scope N_scope.

Arguments seg_length {d D} m (a b)%N_scope.

Ltac ex_valid := apply validb_ok; vm_compute; reflexivity.
Ltac ex_dense := apply denseb_ok; vm_compute; reflexivity.
Ltac ex_lt_area q := apply (Rle_lt_trans _ (Q2R q)); [unfold Q2R; cbn; lra|apply area_gt; vm_compute; reflexivity].

(** C32.  The iterative filter with ResolutionLevels = k completes with a mesh exactly if a chain of
    max(1, k) new filter objects gives that mesh (any scheme, any mesh, any selection). *)
Theorem C32_pipeline : forall (O : Ops) (D : Type) (s : cscheme) (levels : nat) (sel : list N) (inp : mesh O D) f out,
  completes (fun fuel => iterative_update s levels fuel sel inp) (Ok (f, out)) <-> pipeline s (Nat.max 1 levels) sel inp f out.
Proof. exact C32_pipeline_pf. Qed.
Print Assumptions C32_pipeline.

Example C32_pipeline_ex :
  match update (CellF CLinear) 100 (fresh [0]) tri2 with
  | Ok (f1, m) => nF m = 6%Z /\ csel f1 = [0; 1; 2; 3] | _ => False end /\
  match iterative_update CLinear 2 100 [0] tri2 with Ok (f, out) => nF out = 20%Z | _ => False end.
Proof. vm_compute. repeat split. Qed.

(** C32, counting: without a selection the run completes for every number of levels and the cells
    are multiplied by 4^max(1, k).  Loop needs every point to have an edge, from two levels on every
    edge to have a face. *)
Theorem C32_uniform : forall (O : Ops) (D : Type) (s : cscheme) (levels : nat) (inp : mesh O D),
  valid inp -> dense inp -> tris inp <> [] -> s <> CSqrt3 ->
  (s = CLoop -> no_isolated inp /\ ((2 <= levels)%nat -> no_wire inp)) ->
  exists f out, completes (fun fuel => iterative_update s levels fuel [] inp) (Ok (f, out)) /\
    nF out = (4 ^ Z.of_nat (Nat.max 1 levels) * nF inp)%Z /\ valid out /\ dense out /\ csel f = [].
Proof. exact C32_uniform_pf. Qed.
Print Assumptions C32_uniform.

Example C32_uniform_ex : valid (strip4) /\ dense strip4 /\ tris strip4 <> [] /\ no_isolated strip4 /\ no_wire strip4 /\
  match iterative_update CLoop 2 300 [] strip4 with Ok (f, out) => nF out = (4 ^ 2 * 4)%Z | _ => False end.
Proof.
  split; [ex_valid|]. split; [ex_dense|]. split; [vm_compute; discriminate|]. split; [apply no_isolatedb_ok; vm_compute; reflexivity|].
  split; [apply no_wireb_ok; vm_compute; reflexivity|]. vm_compute. reflexivity.
Qed.

(** C33.  With a non-empty selection of existing cells the iterative filter completes for every number
    of levels, its output is valid, and each level subdivides exactly the children of the triangles
    that the level before cut along all three edges. *)
Theorem C33_adaptive_levels : forall (O : Ops) (D : Type) (s : cscheme) (k : nat) (sel : list N) (inp : mesh O D),
  valid inp -> dense inp -> s <> CSqrt3 -> (s = CLoop -> no_isolated inp /\ ((2 <= k)%nat -> no_wire inp)) ->
  sel <> [] -> existing inp sel ->
  exists f out, completes (fun fuel => iterative_update s k fuel sel inp) (Ok (f, out)) /\
    valid out /\ dense out /\ csel f <> [] /\ levels (Nat.max 1 k) sel inp (csel f) out.
Proof. exact C33_adaptive_levels_pf. Qed.
Print Assumptions C33_adaptive_levels.

Example C33_adaptive_levels_ex : valid strip4 /\ dense strip4 /\ existing strip4 [1] /\
  match iterative_update CLinear 2 100 [1] strip4 with Ok (f, out) => nF out = 25%Z /\ length (csel f) = 16%nat | _ => False end.
Proof.
  split; [ex_valid|]. split; [ex_dense|]. split; [intros i [<-|[]]; eexists; vm_compute; auto|].
  vm_compute. split; reflexivity.
Qed.

(** C34, any arithmetic, any criterion, any filter, any mesh: when the conditional filter completes,
    the criterion has just returned an empty list for its output. *)
Theorem C34_criterion_satisfied : forall (O : Ops) (D : Type) k (cr : @criterion O D) old f (inp : mesh O D) fuel f' out,
  conditional_update fuel k (Some cr) old f inp = Ok (f', out) ->
  exists fuel' s s', cr fuel' out s = Ok s' /\ sel_empty s' = true.
Proof. exact C34_criterion_satisfied_pf. Qed.
Print Assumptions C34_criterion_satisfied.

Example C34_criterion_satisfied_ex :
  match conditional_update (O := Q3) 100 (CellF CLoop)
    (Some (fun fuel m s => Ok (SelCells (if (nF m <? 10)%Z then [0] else [])))) (SelCells []) new_filter strip4 with
  | Ok (f, out) => (10 <=? nF out)%Z = true | _ => False end.
Proof. vm_compute. reflexivity. Qed.

(** C34.  Cell-area criterion, any filter, any mesh with points of the right dimension: no triangle of
    the output exceeds MaximumArea. *)
Theorem C34_area : forall (d : nat) (D : Type) k (maxarea : R) old f (inp : mesh (RO d) D) fuel f' out, wf_points inp ->
  conditional_update fuel k (Some (cell_area_criterion (O := RO d) maxarea)) old f inp = Ok (f', out) ->
  forall u, In u (tris out) -> (tri_area out u <= maxarea)%R.
Proof. exact C34_area_pf. Qed.
Print Assumptions C34_area.

Example C34_area_ex : wf_points (rmesh strip4) /\
  exists fuel f' out, conditional_update fuel (CellF CLinear) (Some (cell_area_criterion (O := RO 3) 10%R)) (SelCells [7])
    new_filter (rmesh strip4) = Ok (f', out).
Proof.
  assert (V : valid (rmesh strip4)) by ex_valid. split; [apply valid_wf; exact V|].
  destruct (C36_terminates_pf 3 N 10%R (SelCells [7]) new_filter (rmesh strip4) V ltac:(ex_dense) ltac:(vm_compute; discriminate) ltac:(lra))
    as [f' [out [[_ [n Hn]] _]]]. exists n, f', out. apply Hn. lia.
Qed.

(** C34.  Edge-length criterion: no edge of the output is longer than MaximumLength. *)
Theorem C34_length : forall (d : nat) (D : Type) k (maxlen : R) old f (inp : mesh (RO d) D) fuel f' out, wf_points inp ->
  conditional_update fuel k (Some (edge_length_criterion (O := RO d) maxlen)) old f inp = Ok (f', out) ->
  forall id a b, In (id, Some (a, b)) (edges_of out) -> (seg_length out a b <= maxlen)%R.
Proof. exact C34_length_pf. Qed.
Print Assumptions C34_length.

Example C34_length_ex : wf_points (rmesh strip4) /\
  exists fuel f' out, conditional_update fuel (EdgeF ELinear) (Some (edge_length_criterion (O := RO 3) 5%R)) (SelEdges [None])
    new_filter (rmesh strip4) = Ok (f', out).
Proof.
  assert (V : valid (rmesh strip4)) by ex_valid. split; [apply valid_wf; exact V|].
  destruct (C37_terminates_pf 3 N 5%R (SelEdges [None]) new_filter (rmesh strip4) V ltac:(ex_dense) ltac:(vm_compute; discriminate) ltac:(lra))
    as [f' [out [[_ [n Hn]] _]]]. exists n, f', out. apply Hn. lia.
Qed.

(** C34 on valid meshes: the output is valid, satisfies the bound, and is the result of some number of
    ordinary Update() calls on a copy of the input. *)
Theorem C34_area_valid : forall (d : nat) (D : Type) s (maxarea : R) old f (inp : mesh (RO d) D) fuel f' out,
  valid inp -> dense inp -> tris inp <> [] -> s <> CSqrt3 -> (s = CLoop -> no_isolated inp /\ no_wire inp) ->
  conditional_update fuel (CellF s) (Some (cell_area_criterion (O := RO d) maxarea)) old f inp = Ok (f', out) ->
  valid out /\ dense out /\ (forall u, In u (tris out) -> (tri_area out u <= maxarea)%R) /\
  exists m0 n, same_shape inp m0 /\ chained m0 n out.
Proof. exact C34_area_valid_pf. Qed.
Print Assumptions C34_area_valid.

Example C34_area_valid_ex : valid (rmesh strip4) /\ dense (rmesh strip4) /\ tris (rmesh strip4) <> [] /\
  (exists u, In u (tris (rmesh strip4)) /\ (10 < tri_area (rmesh strip4) u)%R) /\
  exists fuel f' out, conditional_update fuel (CellF CLinear) (Some (cell_area_criterion (O := RO 3) 10%R)) (SelCells [7])
    new_filter (rmesh strip4) = Ok (f', out).
Proof.
  split; [ex_valid|]. split; [ex_dense|]. split; [vm_compute; discriminate|]. split; [exists (0, 1, 2); split; [vm_compute; auto|ex_lt_area (10#1)%Q]|].
  apply C34_area_ex.
Qed.

(** C34 on valid meshes, edge-length criterion. *)
Theorem C34_length_valid : forall (d : nat) (D : Type) s (maxlen : R) old f (inp : mesh (RO d) D) fuel f' out,
  valid inp -> dense inp -> tris inp <> [] -> (s = ELoop -> no_isolated inp /\ no_wire inp) ->
  conditional_update fuel (EdgeF s) (Some (edge_length_criterion (O := RO d) maxlen)) old f inp = Ok (f', out) ->
  valid out /\ dense out /\ (forall a b, joined out a b -> (seg_length out a b <= maxlen)%R) /\
  exists m0 n, same_shape inp m0 /\ chained m0 n out.
Proof. exact C34_length_valid_pf. Qed.
Print Assumptions C34_length_valid.

Example C34_length_valid_ex : valid (rmesh strip4) /\ dense (rmesh strip4) /\ tris (rmesh strip4) <> [] /\
  exists fuel f' out, conditional_update fuel (EdgeF ELinear) (Some (edge_length_criterion (O := RO 3) 5%R)) (SelEdges [None])
    new_filter (rmesh strip4) = Ok (f', out).
Proof. split; [ex_valid|]. split; [ex_dense|]. split; [vm_compute; discriminate|]. apply C34_length_ex. Qed.

(** C35 for any criterion: if it selects nothing on meshes of the input's shape, the filter completes
    at once with the input's points, triangles and edges. *)
Theorem C35_any_criterion : forall (O : Ops) (D : Type) k (cr : @criterion O D) old f (inp : mesh O D), valid inp ->
  (forall m, same_shape inp m -> exists n s, sel_empty s = true /\ forall fuel, (n <= fuel)%nat -> cr fuel m old = Ok s) ->
  exists out, completes (fun fuel => conditional_update fuel k (Some cr) old f inp) (Ok (f, out)) /\ same_shape inp out.
Proof. exact C35_any_criterion_pf. Qed.
Print Assumptions C35_any_criterion.

Example C35_any_criterion_ex : valid strip4 /\
  forall m : mesh Q3 N, same_shape strip4 m -> exists n s, sel_empty s = true /\ forall fuel, (n <= fuel)%nat ->
    (fun (fuel : nat) m s => Ok (SelCells (if (length (tris m) <? 4)%nat then [0] else []))) fuel m (SelCells []) = Ok s.
Proof.
  split; [ex_valid|]. intros m [_ [Ht _]]. exists 0%nat, (SelCells []). split; [reflexivity|]. intros fuel _. rewrite Ht. reflexivity.
Qed.

(** C35.  If no triangle exceeds MaximumArea the output is the input. *)
Theorem C35_area : forall (d : nat) (D : Type) k (maxarea : R) old f (inp : mesh (RO d) D), valid inp -> tris inp <> [] ->
  (forall u, In u (tris inp) -> (tri_area inp u <= maxarea)%R) ->
  exists out, completes (fun fuel => conditional_update fuel k (Some (cell_area_criterion (O := RO d) maxarea)) old f inp) (Ok (f, out)) /\
    same_shape inp out.
Proof. exact C35_area_pf. Qed.
Print Assumptions C35_area.

Example C35_area_ex : valid (rmesh strip4) /\ tris (rmesh strip4) <> [] /\
  (forall u, In u (tris (rmesh strip4)) -> (tri_area (rmesh strip4) u <= Q2R (200#1))%R).
Proof. split; [ex_valid|]. split; [vm_compute; discriminate|]. apply areas_le. vm_compute. reflexivity. Qed.

(** C35.  If no edge exceeds MaximumLength the output is the input. *)
Theorem C35_length : forall (d : nat) (D : Type) k (maxlen : R) old f (inp : mesh (RO d) D), valid inp -> tris inp <> [] ->
  (forall a b, joined inp a b -> (seg_length inp a b <= maxlen)%R) ->
  exists out, completes (fun fuel => conditional_update fuel k (Some (edge_length_criterion (O := RO d) maxlen)) old f inp) (Ok (f, out)) /\
    same_shape inp out.
Proof. exact C35_length_pf. Qed.
Print Assumptions C35_length.

Example C35_length_ex : valid (rmesh strip4) /\ tris (rmesh strip4) <> [] /\
  (forall a b, joined (rmesh strip4) a b -> (seg_length (rmesh strip4) a b <= Q2R (25#1))%R).
Proof. split; [ex_valid|]. split; [vm_compute; discriminate|]. apply lengths_le. vm_compute. reflexivity. Qed.

(** C36.  Linear cell filter with the cell-area criterion: for every positive MaximumArea the run
    completes, with all areas within the bound and the total area unchanged. *)
Theorem C36_terminates : forall (d : nat) (D : Type) (maxarea : R) old f (inp : mesh (RO d) D),
  valid inp -> dense inp -> tris inp <> [] -> (0 < maxarea)%R ->
  exists f' out, completes (fun fuel => conditional_update fuel (CellF CLinear)
      (Some (cell_area_criterion (O := RO d) maxarea)) old f inp) (Ok (f', out)) /\
    (forall u, In u (tris out) -> (tri_area out u <= maxarea)%R) /\ valid out /\
    total_area out = total_area inp.
Proof. exact C36_terminates_pf. Qed.
Print Assumptions C36_terminates.

Example C36_terminates_ex : valid (rmesh torus7) /\ dense (rmesh torus7) /\ tris (rmesh torus7) <> [] /\ (0 < 1 / 1000)%R /\
  exists u, In u (tris (rmesh torus7)) /\ (1 / 1000 < tri_area (rmesh torus7) u)%R.
Proof.
  split; [ex_valid|]. split; [ex_dense|]. split; [vm_compute; discriminate|]. split; [lra|]. exists (0, 1, 3). split; [vm_compute; auto|].
  ex_lt_area (1#1)%Q.
Qed.

(** C37.  Linear edge filter with the edge-length criterion: for every positive MaximumLength the run
    completes, with all lengths within the bound. *)
Theorem C37_terminates : forall (d : nat) (D : Type) (maxlen : R) old f (inp : mesh (RO d) D),
  valid inp -> dense inp -> tris inp <> [] -> (0 < maxlen)%R ->
  exists f' out, completes (fun fuel => conditional_update fuel (EdgeF ELinear)
      (Some (edge_length_criterion (O := RO d) maxlen)) old f inp) (Ok (f', out)) /\
    (forall a b, joined out a b -> (seg_length out a b <= maxlen)%R) /\ valid out.
Proof. exact C37_terminates_pf. Qed.
Print Assumptions C37_terminates.

Example C37_terminates_ex : valid (rmesh torus7) /\ dense (rmesh torus7) /\ tris (rmesh torus7) <> [] /\ (0 < 1 / 1000)%R /\
  joined (rmesh torus7) 0 1 /\ (1 / 1000 < seg_length (rmesh torus7) 0 1)%R.
Proof.
  split; [ex_valid|]. split; [ex_dense|]. split; [vm_compute; discriminate|]. split; [lra|]. split; [vm_compute; auto|].
  apply (Rle_lt_trans _ (Q2R (1#1))); [unfold Q2R; cbn; lra|apply length_gt; vm_compute; reflexivity].
Qed.

(** C38.  Whatever the list held, the cell-area criterion fills it with the ids of exactly the triangles
    above MaximumArea, in container order (any mesh of triangles on existing points). *)
Theorem C38_cell_area : forall (d : nat) (D : Type) (maxarea : R) (m : mesh (RO d) D) old,
  wf_points m -> all_triangles m -> (forall u x, In u (tris m) -> In x (tverts u) -> oget x (pts m) <> None) ->
  exists l, completes (fun fuel => cell_area_criterion (O := RO d) maxarea fuel m old) (Ok (SelCells l)) /\
    l = map fst (filter (fun iu => if Rlt_dec maxarea (tri_area m (snd iu)) then true else false) (faces m)).
Proof. exact C38_cell_area_pf. Qed.
Print Assumptions C38_cell_area.

Example C38_cell_area_ex : wf_points (rmesh mixed) /\ all_triangles (rmesh mixed) /\
  (forall u x, In u (tris (rmesh mixed)) -> In x (tverts u) -> oget x (pts (rmesh mixed)) <> None) /\
  exists u, In u (tris (rmesh mixed)) /\ (10 < tri_area (rmesh mixed) u)%R.
Proof.
  assert (V : valid (rmesh mixed)) by ex_valid. split; [apply valid_wf; exact V|]. split; [apply V|]. split; [apply V|].
  exists (0, 1, 2). split; [vm_compute; auto|ex_lt_area (10#1)%Q].
Qed.

(** C38 on valid meshes: ascending ids, exactly the triangles above the bound. *)
Theorem C38_cell_area_valid : forall (d : nat) (D : Type) (maxarea : R) (m : mesh (RO d) D) old, valid m ->
  exists l, completes (fun fuel => cell_area_criterion (O := RO d) maxarea fuel m old) (Ok (SelCells l)) /\
    StronglySorted N.lt l /\
    forall id, In id l <-> exists u, In (id, u) (faces m) /\ (maxarea < tri_area m u)%R.
Proof. exact C38_cell_area_valid_pf. Qed.
Print Assumptions C38_cell_area_valid.

Example C38_cell_area_valid_ex : valid (rmesh strip4) /\
  (exists u, In (3, u) (faces (rmesh strip4)) /\ (129 < tri_area (rmesh strip4) u)%R) /\
  (exists u, In (0, u) (faces (rmesh strip4)) /\ (tri_area (rmesh strip4) u <= 129)%R).
Proof.
  split; [ex_valid|]. split.
  - exists (3, 4, 5). split; [vm_compute; auto|ex_lt_area (129#1)%Q].
  - exists (0, 1, 2). split; [vm_compute; auto|]. apply (Rle_trans _ (Q2R (129#1))); [apply area_le; vm_compute; reflexivity|unfold Q2R; cbn; lra].
Qed.

(** C38.  The edge-length criterion: ascending edge ids, each edge once, exactly the edges above
    MaximumLength; it never runs out of fuel. *)
Theorem C38_edge_length : forall (d : nat) (D : Type) (maxlen : R) (m : mesh (RO d) D) old fuel, valid m ->
  exists l, edge_length_criterion (O := RO d) maxlen fuel m old = Ok (SelEdges l) /\
    (exists ids, StronglySorted N.lt ids /\ Forall2 (fun id o => In (id, o) (edges_of m)) ids l) /\
    listed_once l /\ ~ In None l /\
    (forall a b, In (Some (a, b)) l \/ In (Some (b, a)) l <-> joined m a b /\ (maxlen < seg_length m a b)%R).
Proof. exact C38_edge_length_pf. Qed.
Print Assumptions C38_edge_length.

Example C38_edge_length_ex : valid (rmesh strip4) /\
  joined (rmesh strip4) 1 2 /\ (20 < seg_length (rmesh strip4) 1 2)%R /\
  joined (rmesh strip4) 0 1 /\ (seg_length (rmesh strip4) 0 1 <= 20)%R.
Proof.
  split; [ex_valid|]. split; [vm_compute; auto|]. split.
  { apply (Rle_lt_trans _ (Q2R (20#1))); [unfold Q2R; cbn; lra|apply length_gt; vm_compute; reflexivity]. }
  split; [vm_compute; auto|]. apply (Rle_trans _ (Q2R (20#1))); [apply length_le; vm_compute; reflexivity|unfold Q2R; cbn; lra].
Qed.

(** C45.  Linear filters, any split pattern, any dimension: the children of a triangle have its area in
    total, a quarter of it each if all three edges are split; the total area of the mesh is kept. *)
Theorem C45_area_preserved : forall (d : nat) (D : Type) k f (inp : mesh (RO d) D) fuel f' out,
  k = CellF CLinear \/ k = EdgeF ELinear -> valid inp -> dense inp -> ready k f inp ->
  update k fuel f inp = Ok (f', out) ->
  total_area out = total_area inp /\
  exists mid Ls, subdivision inp out (to_split k f inp) mid Ls /\
    forall t L, In (t, L) (combine (tris inp) Ls) -> rsum (tri_area out) L = tri_area inp t /\
      (nsplit mid t = 3%nat -> forall u, In u L -> tri_area out u = (tri_area inp t / 4)%R).
Proof. exact C45_area_preserved_pf. Qed.
Print Assumptions C45_area_preserved.

Example C45_area_preserved_ex :
  valid (rmesh strip4) /\ dense (rmesh strip4) /\ ready (CellF CLinear) (sel [1]) (rmesh strip4) /\ tris (rmesh strip4) <> [] /\
  (exists fuel f' out, update (CellF CLinear) fuel (sel [1]) (rmesh strip4) = Ok (f', out)) /\
  (100 < tri_area (rmesh strip4) (0, 1, 2)%N)%R.
Proof.
  ex_good. split; [apply run_exists; [apply validb_ok|apply denseb_ok|apply readyb_ok]; vm_compute; reflexivity|].
  ex_lt_area (100#1)%Q.
Qed.

(** C50.  A negative MaximumArea: the conditional filter never completes (any face-split cell filter). *)
Theorem C50_negative_area : forall (d : nat) (D : Type) s (maxarea : R) old f (inp : mesh (RO d) D),
  valid inp -> dense inp -> tris inp <> [] -> s <> CSqrt3 -> (s = CLoop -> no_isolated inp /\ no_wire inp) -> (maxarea < 0)%R ->
  diverges (fun fuel => conditional_update fuel (CellF s) (Some (cell_area_criterion (O := RO d) maxarea)) old f inp).
Proof. exact C50_negative_area_pf. Qed.
Print Assumptions C50_negative_area.

Example C50_negative_area_ex : valid (rmesh strip4) /\ dense (rmesh strip4) /\ tris (rmesh strip4) <> [] /\
  no_isolated (rmesh strip4) /\ no_wire (rmesh strip4).
Proof.
  split; [ex_valid|]. split; [ex_dense|]. split; [vm_compute; discriminate|]. split; [apply no_isolatedb_ok|apply no_wireb_ok]; vm_compute; reflexivity.
Qed.

(** C50.  MaximumArea = 0 and one triangle of positive area: the Linear filter never completes. *)
Theorem C50_zero_area : forall (d : nat) (D : Type) old f (inp : mesh (RO d) D) t,
  valid inp -> dense inp -> In t (tris inp) -> (0 < tri_area inp t)%R ->
  diverges (fun fuel => conditional_update fuel (CellF CLinear) (Some (cell_area_criterion (O := RO d) 0%R)) old f inp).
Proof. exact C50_zero_area_pf. Qed.
Print Assumptions C50_zero_area.

Example C50_zero_area_ex : valid (rmesh tri1) /\ dense (rmesh tri1) /\ In (0, 1, 2) (tris (rmesh tri1)) /\ (0 < tri_area (rmesh tri1) (0, 1, 2)%N)%R.
Proof. split; [ex_valid|]. split; [ex_dense|]. split; [vm_compute; auto|]. ex_lt_area (1#1)%Q. Qed.

(** C50.  A negative MaximumLength: never completes (any edge filter). *)
Theorem C50_negative_length : forall (d : nat) (D : Type) s (maxlen : R) old f (inp : mesh (RO d) D),
  valid inp -> dense inp -> tris inp <> [] -> (s = ELoop -> no_isolated inp /\ no_wire inp) -> (maxlen < 0)%R ->
  diverges (fun fuel => conditional_update fuel (EdgeF s) (Some (edge_length_criterion (O := RO d) maxlen)) old f inp).
Proof. exact C50_negative_length_pf. Qed.
Print Assumptions C50_negative_length.

Example C50_negative_length_ex : valid (rmesh tetra) /\ dense (rmesh tetra) /\ tris (rmesh tetra) <> [] /\
  no_isolated (rmesh tetra) /\ no_wire (rmesh tetra).
Proof.
  split; [ex_valid|]. split; [ex_dense|]. split; [vm_compute; discriminate|]. split; [apply no_isolatedb_ok|apply no_wireb_ok]; vm_compute; reflexivity.
Qed.

(** C50.  MaximumLength = 0 and one edge of a face of positive length: the Linear filter never completes. *)
Theorem C50_zero_length : forall (d : nat) (D : Type) old f (inp : mesh (RO d) D) a b,
  valid inp -> dense inp -> In (a, b) (dirs (tris inp)) -> (0 < seg_length inp a b)%R ->
  diverges (fun fuel => conditional_update fuel (EdgeF ELinear) (Some (edge_length_criterion (O := RO d) 0%R)) old f inp).
Proof. exact C50_zero_length_pf. Qed.
Print Assumptions C50_zero_length.

Example C50_zero_length_ex : valid (rmesh tri1) /\ dense (rmesh tri1) /\ In (0, 1) (dirs (tris (rmesh tri1))) /\ (0 < seg_length (rmesh tri1) 0 1)%R.
Proof.
  split; [ex_valid|]. split; [ex_dense|]. split; [vm_compute; auto|].
  apply (Rle_lt_trans _ (Q2R (1#1))); [unfold Q2R; cbn; lra|apply length_gt; vm_compute; reflexivity].
Qed.
