(** * Properties7: what the code does where a natural expectation about it fails.

    Theorems only; proofs are in Truth.v.  The failing expectations themselves are the theorems
    [..._refuted] of Refuted.v and Refuted2.v. *)
From Coq Require Import Sorted Reals Lra QArith.
From Verif Require Import Base Mesh Filters Drivers Samples Spec SpecSub SpecGeo SpecDrive Lists Check CheckGeo Geo GeoProps Truth.

Open Scope N_scope.

Ltac ex_valid := apply validb_ok; vm_compute; reflexivity.
Ltac ex_dense := apply denseb_ok; vm_compute; reflexivity.
Ltac ex_ready := apply readyb_ok; vm_compute; reflexivity.
Ltac ex_real := apply run_exists; [ex_valid|ex_dense|ex_ready].

(** A used filter object: the last selection was not empty. *)
Definition used (l : list N) : fstate := set_uniform (sel l) false.
(** Two triangles, the ids not contiguous: 0, 1, 2, 100. *)
Definition gap4 : mesh Q3 N :=
  build [(0, zpt [0; 0; 0]%Z); (1, zpt [16; 0; 0]%Z); (2, zpt [0; 16; 0]%Z); (100, zpt [16; 16; 0]%Z)] [[0; 1; 2]; [2; 1; 100]].
(** A triangle with the ids 0, 1, 3: the id 3 equals the number of points. *)
Definition clash3 : mesh Q3 N :=
  build [(0, zpt [0; 0; 0]%Z); (1, zpt [16; 0; 0]%Z); (3, zpt [0; 16; 0]%Z)] [[0; 1; 3]].
(** Points only, no containers. *)
Definition points_only : mesh Q3 N :=
  Mesh (O := Q3) (number [zpt [0; 0; 0]%Z; zpt [16; 0; 0]%Z; zpt [0; 16; 0]%Z]) [] None None None.
(** A triangle without an edge-cell container. *)
Definition no_edge_cells : mesh Q3 N := Mesh (O := Q3) (pts tri1) (rings tri1) (cells tri1) None None.

(** C24.  Butterfly filters on every split edge, interior or on the border: the eight points are the
    neighbours in the rings of the end points, taken cyclically; across the border the ring wraps
    around.  The cell filter uses the direction (x, y) in which a face contains the edge. *)
Theorem C24_stencil : forall (d : nat) (D : Type) k f (inp : mesh (RO d) D) fuel f' out,
  k = CellF CButterfly \/ k = EdgeF EButterfly ->
  valid inp -> dense inp -> ready k f inp -> update k fuel f inp = Ok (f', out) ->
  exists mid Ls, subdivision inp out (to_split k f inp) mid Ls /\
    forall a b m, mid a b = Some m ->
    exists x y c e p q w1 w2 w3 w4, undirected_eq (x, y) (a, b) /\
      (k = CellF CButterfly -> is_face inp x y c) /\
      cyc (ring inp y) c x /\ cyc (ring inp y) x e /\ cyc (ring inp x) y p /\ cyc (ring inp x) q y /\
      cyc (ring inp c) y w1 /\ cyc (ring inp x) p w2 /\ cyc (ring inp e) w3 y /\ cyc (ring inp x) w4 q /\
      forall i, crd out i m = (1 / 2 * (crd inp i a + crd inp i b) + 1 / 8 * (crd inp i c + crd inp i e)
                     - 1 / 16 * (crd inp i w1 + crd inp i w2 + crd inp i w3 + crd inp i w4))%R.
Proof. exact C24_stencil_pf. Qed.
Print Assumptions C24_stencil.

Example C24_stencil_ex :
  (CellF CButterfly = CellF CButterfly \/ CellF CButterfly = EdgeF EButterfly) /\
  valid (rmesh strip4) /\ dense (rmesh strip4) /\ ready (CellF CButterfly) (sel [1]) (rmesh strip4) /\
  (exists fuel f' out, update (CellF CButterfly) fuel (sel [1]) (rmesh strip4) = Ok (f', out)) /\
  border_edge (rmesh strip4) 2 3.
Proof.
  split; [left; reflexivity|]. split; [ex_valid|]. split; [ex_dense|]. split; [ex_ready|]. split; [ex_real|].
  apply borderb_edge; [ex_valid|]. vm_compute. reflexivity.
Qed.

(** C26.  Loop cell filter: an original point moves, by the rule of C18, if the previous selection of
    the filter object was empty (or the object is new), or if its id occurs in the list of selected
    *cell* ids. *)
Theorem C26_moved : forall (d : nat) (D : Type) f (inp : mesh (RO d) D) fuel f' out v i,
  valid inp -> dense inp -> no_isolated inp -> existing inp (csel f) ->
  update (CellF CLoop) fuel f inp = Ok (f', out) -> oget v (pts inp) <> None ->
  uniform f = true \/ In v (csel f) ->
  let n := length (ring inp v) in
  let beta := loop_weight (N.of_nat n) in
  (interior_vertex inp v ->
     crd out i v = ((1 - IZR (Z.of_nat n) * beta) * crd inp i v + beta * rsum (crd inp i) (ring inp v))%R) /\
  (forall B, border_neighbours inp v B -> B <> [] ->
     crd out i v = (3 / 4 * crd inp i v + 1 / 8 * rsum (crd inp i) B)%R).
Proof. exact C26_moved_pf. Qed.
Print Assumptions C26_moved.

Example C26_moved_ex :
  valid (rmesh strip4) /\ dense (rmesh strip4) /\ no_isolated (rmesh strip4) /\ existing (rmesh strip4) (csel (used [3])) /\
  (exists fuel f' out, update (CellF CLoop) fuel (used [3]) (rmesh strip4) = Ok (f', out)) /\
  oget 3 (pts (rmesh strip4)) <> None /\ uniform (used [3]) = false /\ In 3 (csel (used [3])) /\
  border_neighbours (rmesh strip4) 3 (borderb (rmesh strip4) 3) /\ borderb (rmesh strip4) 3 = [2; 5].
Proof.
  assert (V : valid (rmesh strip4)) by ex_valid.
  split; [exact V|]. split; [ex_dense|]. split; [apply no_isolatedb_ok; vm_compute; reflexivity|].
  split; [apply existingb_ok; vm_compute; reflexivity|]. split; [ex_real|]. split; [vm_compute; discriminate|].
  split; [reflexivity|]. split; [left; reflexivity|]. split; [apply borderb_ok; exact V|vm_compute; reflexivity].
Qed.

(** C26, other direction: otherwise it keeps its coordinates, also inside the selected region. *)
Theorem C26_unmoved : forall (O : Ops) (D : Type) f (inp : mesh O D) fuel f' out v p,
  valid inp -> dense inp -> no_isolated inp -> existing inp (csel f) ->
  update (CellF CLoop) fuel f inp = Ok (f', out) -> oget v (pts inp) = Some p ->
  uniform f = false -> ~ In v (csel f) -> oget v (pts out) = Some p.
Proof. exact C26_unmoved_pf. Qed.
Print Assumptions C26_unmoved.

Example C26_unmoved_ex :
  valid strip4 /\ dense strip4 /\ no_isolated strip4 /\ existing strip4 (csel (used [3])) /\
  uniform (used [3]) = false /\ ~ In 4 (csel (used [3])) /\ In (3, 4, 5) (tris strip4) /\
  match update (CellF CLoop) 100 (used [3]) strip4 with
  | Ok (f', out) => oget 4 (pts out) = oget 4 (pts strip4) /\ oget 3 (pts out) <> oget 3 (pts strip4)
  | _ => False end.
Proof.
  split; [ex_valid|]. split; [ex_dense|]. split; [apply no_isolatedb_ok; vm_compute; reflexivity|].
  split; [apply existingb_ok; vm_compute; reflexivity|]. split; [reflexivity|].
  split; [intros [H|[]]; discriminate|]. split; [vm_compute; auto 10|]. vm_compute. split; [reflexivity|discriminate].
Qed.

(** C26.  What the next run of the same object uses: after a completed Update() the object remembers
    whether that run had an empty selection. *)
Theorem C26_flag : forall (O : Ops) (D : Type) k f (inp : mesh O D) fuel f' out,
  update k fuel f inp = Ok (f', out) ->
  uniform f' = true <-> match k with CellF _ => csel f = [] | EdgeF _ => esel f = [] end.
Proof. exact C26_flag_pf. Qed.
Print Assumptions C26_flag.

Example C26_flag_ex :
  match update (CellF CLoop) 100 (sel [3]) strip4 with
  | Ok (f', out) => uniform f' = false | _ => False end /\
  match update (CellF CLoop) 100 new_filter strip4 with
  | Ok (f', out) => uniform f' = true | _ => False end.
Proof. vm_compute. split; reflexivity. Qed.

(** C30.  Ids that are not contiguous: if no id lies between the old and the new number of points, the
    new points get exactly the ids in between and no original point is overwritten. *)
Theorem C30_gap : forall (O : Ops) (D : Type) k fuel f (inp : mesh O D) f' out,
  valid inp -> update k fuel f inp = Ok (f', out) ->
  (forall id, oget id (pts inp) <> None -> (Z.of_N id < nV inp \/ nV out < Z.of_N id)%Z) ->
  (forall id, oget id (pts out) <> None <->
     oget id (pts inp) <> None \/ (nV inp <= Z.of_N id < nV out)%Z) /\
  (k <> CellF CLoop -> forall id p, oget id (pts inp) = Some p -> oget id (pts out) = Some p).
Proof. exact C30_gap_pf. Qed.
Print Assumptions C30_gap.

Example C30_gap_ex :
  valid gap4 /\ ~ dense gap4 /\
  match update (EdgeF ELinear) 100 new_filter gap4 with
  | Ok (f', out) => nV gap4 = 4%Z /\ nV out = 9%Z /\ okeys (pts out) = [0; 1; 2; 4; 5; 6; 7; 8; 100] | _ => False end /\
  (forall id, oget id (pts gap4) <> None -> (Z.of_N id < 4 \/ 9 < Z.of_N id)%Z).
Proof.
  split; [ex_valid|]. split.
  { intros H. destruct (H 3) as [_ H3]. apply H3; vm_compute; reflexivity. }
  split; [vm_compute; repeat split|].
  intros id H. apply oget_Some_key in H. vm_compute in H. repeat (destruct H as [<-|H]; [lia|]). destruct H.
Qed.

(** C30.  If the id equal to the number of points is taken, the edge filters and the sqrt(3) filter
    write all their new points to this one id: no new id appears and the original point is lost. *)
Theorem C30_overwritten : forall (O : Ops) (D : Type) k fuel f (inp : mesh O D) f' out V,
  k = CellF CSqrt3 \/ (exists s, k = EdgeF s) ->
  valid inp -> nV inp = Z.of_N V -> oget V (pts inp) <> None ->
  update k fuel f inp = Ok (f', out) ->
  nV out = nV inp /\ (forall id, oget id (pts out) <> None <-> oget id (pts inp) <> None) /\
  (forall id, id <> V -> oget id (pts out) = oget id (pts inp)).
Proof. exact C30_overwritten_pf. Qed.
Print Assumptions C30_overwritten.

Example C30_overwritten_ex :
  valid clash3 /\ nV clash3 = Z.of_N 3 /\ oget 3 (pts clash3) <> None /\
  match update (CellF CSqrt3) 100 new_filter clash3 with
  | Ok (f', out) => nV out = 3%Z /\ okeys (pts out) = [0; 1; 3] /\ oget 3 (pts out) <> oget 3 (pts clash3) | _ => False end.
Proof. split; [ex_valid|]. split; [reflexivity|]. split; [vm_compute; discriminate|]. vm_compute. repeat split. discriminate. Qed.

(** C31.  The result of Update() depends only on the two selection lists of the filter object and, for
    the Loop cell filter, on the remembered flag.  In particular for no filter on the point lists the
    previous run left behind. *)
Theorem C31_state : forall (O : Ops) (D : Type) k fuel f g (inp : mesh O D),
  csel f = csel g -> esel f = esel g -> (k = CellF CLoop -> uniform f = uniform g) ->
  update k fuel f inp = update k fuel g inp.
Proof. exact C31_state_pf. Qed.
Print Assumptions C31_state.

Example C31_state_ex : forall (r : list (N * N)),
  let f := sel [2] in let g := FState (uniform f) (csel f) (esel f) (map (fun e => (e, 5)) r) in
  csel f = csel g /\ esel f = esel g /\ uniform f = uniform g /\
  match update (CellF CLoop) 100 f strip4 with Ok (f', out) => nF out = 9%Z | _ => False end.
Proof. intros r f g. split; [reflexivity|]. split; [reflexivity|]. split; [reflexivity|]. vm_compute. reflexivity. Qed.

(** C31.  Running the same Linear, Butterfly or sqrt(3) cell filter again is the same as running a new
    one with the reported list as selection. *)
Theorem C31_rerun_adaptive : forall (O : Ops) (D : Type) s fuel f (inp next : mesh O D) f' out fuel',
  update (CellF s) fuel f inp = Ok (f', out) -> esel f = [] -> s <> CLoop ->
  update (CellF s) fuel' f' next = update (CellF s) fuel' (set_cells_to_be_subdivided new_filter (csel f')) next.
Proof. exact C31_rerun_adaptive_pf. Qed.
Print Assumptions C31_rerun_adaptive.

Example C31_rerun_adaptive_ex :
  match update (CellF CLinear) 100 (sel [3]) strip4 with
  | Ok (f', out) => csel f' = [4; 5; 6; 7] /\ match update (CellF CLinear) 100 f' out with Ok (f2, out2) => nF out2 = 22%Z | _ => False end
  | _ => False end /\ esel (sel [3]) = [] /\ CLinear <> CLoop.
Proof. split; [vm_compute; repeat split|]. split; [reflexivity|discriminate]. Qed.

(** C31, Loop: a second run also inherits whether the first one was uniform. *)
Theorem C31_rerun_loop : forall (O : Ops) (D : Type) fuel f (inp next : mesh O D) f' out fuel',
  update (CellF CLoop) fuel f inp = Ok (f', out) -> esel f = [] ->
  update (CellF CLoop) fuel' f' next =
  update (CellF CLoop) fuel' (set_uniform (set_cells_to_be_subdivided new_filter (csel f')) (is_nil (csel f))) next.
Proof. exact C31_rerun_loop_pf. Qed.
Print Assumptions C31_rerun_loop.

Example C31_rerun_loop_ex :
  match update (CellF CLoop) 100 (sel [3]) strip4 with
  | Ok (f', out) => csel f' <> [] /\ uniform f' = false /\ match update (CellF CLoop) 100 f' out with Ok (f2, out2) => nF out2 = 22%Z | _ => False end
  | _ => False end /\ esel (sel [3]) = [].
Proof. split; [vm_compute; repeat split; discriminate|reflexivity]. Qed.

(** C46.  The output of the conditional filter never has cell data, whatever the input has. *)
Theorem C46_no_data : forall (O : Ops) (D : Type) fuel k crit old f (inp : mesh O D) f' out id,
  conditional_update fuel k crit old f inp = Ok (f', out) -> cell_datum out id = None.
Proof. exact C46_no_data_pf. Qed.
Print Assumptions C46_no_data.

Example C46_no_data_ex :
  cell_datum strip4 0 = Some 10 /\
  match conditional_update 100 (CellF CLinear) (Some (cell_area_criterion (O := Q3) 100%Q)) (SelCells []) new_filter strip4 with
  | Ok (f', out) => cell_datum out 0 = None /\ nF out = 16%Z | _ => False end.
Proof. vm_compute. repeat split. Qed.

(** C49.  A mesh without a cell container: no filter completes; the cell filters dereference a null
    pointer; the area criterion throws. *)
Theorem C49_no_cells : forall (O : Ops) (D : Type) (inp : mesh O D), cells inp = None ->
  (forall s fuel f, s <> CLoop -> update (CellF s) fuel f inp = Undef NullDeref) /\
  (forall fuel f, exists u, update (CellF CLoop) fuel f inp = Undef u) /\
  (forall s fuel f st, update (EdgeF s) fuel f inp <> Ok st) /\
  (forall maxarea fuel old, cell_area_criterion maxarea fuel inp old = Throw NoCells).
Proof. exact C49_no_cells_pf. Qed.
Print Assumptions C49_no_cells.

Example C49_no_cells_ex :
  cells points_only = None /\ nV points_only = 3%Z.
Proof. split; reflexivity. Qed.

(** C49.  A mesh without an edge-cell container: a uniform edge filter and the length criterion throw. *)
Theorem C49_no_edges : forall (O : Ops) (D : Type) (inp : mesh O D), ecells inp = None ->
  (forall s fuel f, esel f = [] -> s <> ELoop -> update (EdgeF s) fuel f inp = Throw NoEdges) /\
  (forall fuel f, esel f = [] -> (forall id, oget id (pts inp) <> None -> ring inp id <> []) ->
     update (EdgeF ELoop) fuel f inp = Throw NoEdges) /\
  (forall maxlen fuel old, edge_length_criterion maxlen fuel inp old = Throw NoEdges).
Proof. exact C49_no_edges_pf. Qed.
Print Assumptions C49_no_edges.

Example C49_no_edges_ex :
  ecells no_edge_cells = None /\ nF no_edge_cells = 1%Z /\ esel new_filter = [] /\
  (forall id, oget id (pts no_edge_cells) <> None -> ring no_edge_cells id <> []).
Proof.
  split; [reflexivity|]. split; [reflexivity|]. split; [reflexivity|].
  intros id H. apply oget_Some_key in H. vm_compute in H. repeat (destruct H as [<-|H]; [vm_compute; discriminate|]). destruct H.
Qed.
