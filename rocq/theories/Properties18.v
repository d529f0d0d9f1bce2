(** * Properties18: what is left of earlier calls on the same object (C105).

    Theorems only; proofs are in Session.v. *)
From Coq Require Import QArith.
From Verif Require Import Base Mesh Filters Drivers Samples Spec SpecSub SpecSession Lists Check Session Refuted.
Open Scope N_scope.

(** C105.  Cell-based filters: after any sequence of calls GetCellsToBeSubdivided() is the list last set or
    reported, with what was added since; and Update() does what it does on a new object with that list (the
    Loop filter also remembers whether its last run was without a selection). *)
Theorem C105_cells : forall (O : Ops) (D : Type) (s : cscheme) c f, cells_session (O := O) (D := D) s c f ->
  csel f = chosen c /\
  forall fuel (inp : mesh O D), update (CellF s) fuel f inp =
    update (CellF s) fuel (set_cells_to_be_subdivided (match s with CLoop => set_uniform new_filter (last_uniform c) | _ => new_filter end) (chosen c)) inp.
Proof. exact C105_cells_pf. Qed.
Print Assumptions C105_cells.

(** C105.  Edge-based filters: the same, and a run leaves the list alone. *)
Theorem C105_edges : forall (O : Ops) (D : Type) (s : escheme) c f, edges_session (O := O) (D := D) s c f ->
  esel f = chosen_edges c /\
  forall fuel (inp : mesh O D), update (EdgeF s) fuel f inp = update (EdgeF s) fuel (set_edges_to_be_subdivided new_filter (chosen_edges c)) inp.
Proof. exact C105_edges_pf. Qed.
Print Assumptions C105_edges.

(** C105.  Iterative filter: only the number of levels and the list count, runs leave nothing behind. *)
Theorem C105_iterative : forall (O : Ops) (D : Type) (s : cscheme) c i, iter_session (O := O) (D := D) s c i ->
  i_levels i = chosen_levels c /\ i_cells i = chosen_iter c /\
  forall fuel (inp : mesh O D), outcome (iterative_run s fuel i inp) = outcome (iterative_update s (chosen_levels c) fuel (chosen_iter c) inp).
Proof. exact C105_iterative_pf. Qed.
Print Assumptions C105_iterative.

(** C105.  Conditional filter with the area criterion: neither the calls on the inner filter nor the list left by
    an earlier run matter, except for Loop's flag. *)
Theorem C105_area : forall (O : Ops) (D : Type) s (t : K O) c1 c2 f1 f2 l1 l2 fuel (inp : mesh O D),
  cells_session (O := O) (D := D) s c1 f1 -> cells_session (O := O) (D := D) s c2 f2 -> (s = CLoop -> last_uniform c1 = last_uniform c2) ->
  outcome (conditional_update fuel (CellF s) (Some (cell_area_criterion t)) (SelCells l1) f1 inp) =
  outcome (conditional_update fuel (CellF s) (Some (cell_area_criterion t)) (SelCells l2) f2 inp).
Proof. exact C105_area_pf. Qed.
Print Assumptions C105_area.

(** C105.  Conditional filter with the edge-length criterion: nothing matters. *)
Theorem C105_length : forall (O : Ops) (D : Type) s (t : K O) f1 f2 l1 l2 fuel (inp : mesh O D),
  outcome (conditional_update fuel (EdgeF s) (Some (edge_length_criterion t)) (SelEdges l1) f1 inp) =
  outcome (conditional_update fuel (EdgeF s) (Some (edge_length_criterion t)) (SelEdges l2) f2 inp).
Proof. exact C105_length_pf. Qed.
Print Assumptions C105_length.

(** The exception for Loop is needed: the conditional filter run twice on the same input gives two outputs,
    because the inner Loop filter remembers that its last run had a selection. *)
Theorem C105_loop_refuted : exists (m : mesh Q3 N) f1 out1 f2 out2,
  valid m /\ dense m /\ no_isolated m /\
  conditional_update 100 (CellF CLoop) (Some (cell_area_criterion (O := Q3) 100%Q)) (SelCells []) new_filter m = Ok (f1, out1) /\
  conditional_update 100 (CellF CLoop) (Some (cell_area_criterion (O := Q3) 100%Q)) (SelCells []) f1 m = Ok (f2, out2) /\
  oget 5 (pts out1) <> oget 5 (pts out2).
Proof.
  set (u f := conditional_update 100 (CellF CLoop) (Some (cell_area_criterion (O := Q3) 100%Q)) (SelCells []) f strip4).
  exists strip4, (fst (the (u new_filter))), (snd (the (u new_filter))), (fst (the (u (fst (the (u new_filter)))))), (snd (the (u (fst (the (u new_filter)))))).
  split; [apply validb_ok; vm_compute; reflexivity|]. split; [apply denseb_ok; vm_compute; reflexivity|].
  split; [apply no_isolatedb_ok; vm_compute; reflexivity|].
  split; [vm_compute; reflexivity|]. split; [vm_compute; reflexivity|]. vm_compute. discriminate.
Qed.
Print Assumptions C105_loop_refuted.

(** Two ids added one after the other, a run, a third id added: the list in effect are the ids of the children
    of the first two and the third one. *)
Example C105_cells_ex : exists f1 out f2,
  update (CellF CLinear) 100 (add_subdivided_cell_id (add_subdivided_cell_id new_filter 0) 3) strip4 = Ok (f1, out) /\
  cells_session CLinear [CAdd 1; CRun strip4 out (csel f1); CAdd 3; CAdd 0] f2 /\
  length (csel f1) = 8%nat /\ csel f2 = csel f1 ++ [1] /\ last_uniform [CAdd 1; CRun strip4 out (csel f1); CAdd 3; CAdd 0] = false /\
  exists f3 out3, update (CellF CLinear) 100 f2 out = Ok (f3, out3).
Proof.
  set (f0 := add_subdivided_cell_id (add_subdivided_cell_id new_filter 0) 3). set (u := update (CellF CLinear) 100 f0 strip4).
  assert (E : u = Ok (fst (the u), snd (the u))) by (vm_compute; reflexivity).
  exists (fst (the u)), (snd (the u)), (add_subdivided_cell_id (fst (the u)) 1).
  split; [exact E|]. split; [|split; [vm_compute; reflexivity|split; [vm_compute; reflexivity|split; [reflexivity|]]]].
  - apply cs_add. apply (cs_run _ _ f0 100). { apply cs_add, cs_add, cs_new. } exact E.
  - set (v := update (CellF CLinear) 100 (add_subdivided_cell_id (fst (the u)) 1) (snd (the u))).
    exists (fst (the v)), (snd (the v)). vm_compute. reflexivity.
Qed.

(** Edges added before and after a run: both are in effect. *)
Example C105_edges_ex : exists f1 out f2,
  update (EdgeF ELinear) 100 (add_subdivided_edge new_filter (Some (1, 2))) strip4 = Ok (f1, out) /\
  edges_session ELinear [EAdd (Some (1, 3)); ERun strip4 out; EAdd (Some (1, 2))] f2 /\
  esel f2 = [Some (1, 2); Some (1, 3)] /\
  match update (EdgeF ELinear) 100 f2 strip4 with Ok (_, out2) => nV out2 = 8%Z | _ => False end.
Proof.
  set (f0 := add_subdivided_edge new_filter (Some (1, 2))). set (u := update (EdgeF ELinear) 100 f0 strip4).
  assert (E : u = Ok (fst (the u), snd (the u))) by (vm_compute; reflexivity).
  exists (fst (the u)), (snd (the u)), (add_subdivided_edge (fst (the u)) (Some (1, 3))).
  split; [exact E|]. split; [|split; vm_compute; reflexivity].
  apply es_add. apply (es_run _ _ f0 100). { apply es_add, es_new. } exact E.
Qed.

(** An iterative filter: levels set, a cell added, run, another cell added. *)
Example C105_iterative_ex : exists i1 out i2,
  iterative_run CButterfly 300 (iterative_add_cell (iterative_set_levels new_iterative 2) 0) strip4 = Ok (i1, out) /\
  iter_session CButterfly [IAdd 2; IRun strip4 out; IAdd 0; ILevels 2] i2 /\ i_cells i2 = [0; 2] /\ i_levels i2 = 2%nat /\
  exists i3 out3, iterative_run CButterfly 300 i2 strip4 = Ok (i3, out3) /\ nF out3 <> nF out.
Proof.
  set (i0 := iterative_add_cell (iterative_set_levels new_iterative 2) 0). set (u := iterative_run CButterfly 300 i0 strip4).
  assert (E : u = Ok (i0, match u with Ok (_, o) => o | _ => strip4 end)) by (vm_compute; reflexivity).
  exists i0, (match u with Ok (_, o) => o | _ => strip4 end), (iterative_add_cell i0 2).
  split; [exact E|]. split; [|split; [reflexivity|split; [reflexivity|]]].
  - apply is_add. apply (is_run _ _ i0 300). { apply is_add, is_levels, is_new. } exact E.
  - set (v := iterative_run CButterfly 300 (iterative_add_cell i0 2) strip4).
    exists (iterative_add_cell i0 2), (match v with Ok (_, o) => o | _ => strip4 end). split; [vm_compute; reflexivity|vm_compute; discriminate].
Qed.

(** A new inner filter and one with ids added to it, a new conditional filter and one with a list left over: both
    runs complete, with 16 triangles. *)
Example C105_area_ex : cells_session (O := Q3) (D := N) CLinear [CAdd 2; CSet [7]] (add_subdivided_cell_id (set_cells_to_be_subdivided new_filter [7]) 2) /\
  cells_session (O := Q3) (D := N) CLinear [] new_filter /\
  outcome (conditional_update 100 (CellF CLinear) (Some (cell_area_criterion (O := Q3) 100%Q)) (SelCells [1; 9])
    (add_subdivided_cell_id (set_cells_to_be_subdivided new_filter [7]) 2) strip4) =
  outcome (conditional_update 100 (CellF CLinear) (Some (cell_area_criterion (O := Q3) 100%Q)) (SelCells []) new_filter strip4) /\
  match conditional_update 100 (CellF CLinear) (Some (cell_area_criterion (O := Q3) 100%Q)) (SelCells []) new_filter strip4 with
  | Ok (_, out) => nF out = 16%Z | _ => False end.
Proof.
  assert (S1 : cells_session (O := Q3) (D := N) CLinear [CAdd 2; CSet [7]] (add_subdivided_cell_id (set_cells_to_be_subdivided new_filter [7]) 2)) by apply cs_add, cs_set, cs_new.
  assert (S2 : cells_session (O := Q3) (D := N) CLinear [] new_filter) by apply cs_new.
  split; [exact S1|]. split; [exact S2|]. split; [|vm_compute; reflexivity].
  refine (C105_area Q3 N CLinear _ _ _ _ _ _ _ 100 strip4 S1 S2 _). discriminate.
Qed.

(** The same for edges, with the Butterfly filter. *)
Example C105_length_ex :
  outcome (conditional_update 100 (EdgeF EButterfly) (Some (edge_length_criterion (O := Q3) 20%Q)) (SelEdges [Some (4, 5)])
    (add_subdivided_edge new_filter (Some (0, 1))) strip4) =
  outcome (conditional_update 100 (EdgeF EButterfly) (Some (edge_length_criterion (O := Q3) 20%Q)) (SelEdges []) new_filter strip4) /\
  match conditional_update 100 (EdgeF EButterfly) (Some (edge_length_criterion (O := Q3) 20%Q)) (SelEdges []) new_filter strip4 with
  | Ok (_, out) => (nF out > nF strip4)%Z | _ => False end.
Proof. split; [apply (C105_length Q3 N)|vm_compute; reflexivity]. Qed.
