(** * Filters: the subdivision filters of /repo/include, function by function. *)
From Verif Require Import Base Mesh.

(** ** The filter object

    Members that survive between Update() calls:
    m_Uniform, m_CellsToBeSubdivided (itkTriangleCellSubdivisionQuadEdgeMeshFilter.h:133-134),
    m_EdgesToBeSubdivided (itkTriangleEdgeCellSubdivisionQuadEdgeMeshFilter.h),
    m_EdgesPointIdentifier (itkSubdivisionQuadEdgeMeshFilter.h:112; a std::map
    keyed by InputQEType*, of which only lookups matter, so an association list
    with shadowing).  A list entry [None] of [esel] is a null pointer. *)
Record fstate := FState {
  uniform : bool;
  csel : list N;
  esel : list (option dedge);
  epid : list (dedge * N)
}.

(** itkTriangleCellSubdivisionQuadEdgeMeshFilter.hxx:25-29 (constructor) and
    itkSubdivisionQuadEdgeMeshFilter.hxx:25-29. *)
Definition new_filter : fstate := FState true [] [] [].

(** itkTriangleCellSubdivisionQuadEdgeMeshFilter.hxx:31-38 SetCellsToBeSubdivided *)
Definition set_cells_to_be_subdivided (f : fstate) (l : list N) : fstate :=
  FState (uniform f) l (esel f) (epid f).
(** itkTriangleCellSubdivisionQuadEdgeMeshFilter.hxx:40-46 AddSubdividedCellId *)
Definition add_subdivided_cell_id (f : fstate) (i : N) : fstate :=
  FState (uniform f) (csel f ++ [i]) (esel f) (epid f).
(** itkTriangleEdgeCellSubdivisionQuadEdgeMeshFilter.hxx:29-36 SetCellsToBeSubdivided *)
Definition set_edges_to_be_subdivided (f : fstate) (l : list (option dedge)) : fstate :=
  FState (uniform f) (csel f) l (epid f).
(** itkTriangleEdgeCellSubdivisionQuadEdgeMeshFilter.hxx:38-44 AddSubdividedEdge *)
Definition add_subdivided_edge (f : fstate) (e : option dedge) : fstate :=
  FState (uniform f) (csel f) (esel f ++ [e]) (epid f).

(** m_Uniform = … (itkTriangleCellSubdivisionQuadEdgeMeshFilter.hxx:56,
    itkTriangleEdgeCellSubdivisionQuadEdgeMeshFilter.hxx:56). *)
Definition set_uniform (f : fstate) (u : bool) : fstate := FState u (csel f) (esel f) (epid f).
(** New content of m_EdgesPointIdentifier; Initialize() gives the empty map
    (itkTriangleCellSubdivisionQuadEdgeMeshFilter.hxx:54). *)
Definition set_epid (f : fstate) (m : list (dedge * N)) : fstate :=
  FState (uniform f) (csel f) (esel f) m.

(** Lookup in m_EdgesPointIdentifier (itkSubdivisionQuadEdgeMeshFilter.h:112): the newest entry. *)
Fixpoint eget (e : dedge) (m : list (dedge * N)) : option N :=
  match m with
  | [] => None
  | (k, v) :: t => if eqb_dedge k e then Some v else eget e t
  end.

(** m_EdgesPointIdentifier->IndexExists / GetElement applied to the result of
    FindEdge; a null pointer is never a key. *)
Definition eget_opt (e : option dedge) (m : list (dedge * N)) : option N :=
  match e with Some e => eget e m | None => None end.

(** The four cell-based filters: itk{Linear,Loop,ModifiedButterfly,SquareThree}TriangleCell
    SubdivisionQuadEdgeMeshFilter.h. *)
Inductive cscheme := CLinear | CLoop | CButterfly | CSqrt3.
(** The three edge-based filters: itk{Linear,Loop,ModifiedButterfly}TriangleEdgeCell
    SubdivisionQuadEdgeMeshFilter.h. *)
Inductive escheme := ELinear | ELoop | EButterfly.

Section FILTERS.
Context {O : Ops} {D : Type}.
Notation mesh := (mesh O D).
Notation point := (list (K O)).

(** The pair (filter members, output mesh) while GenerateData runs. *)
Definition state : Type := (fstate * mesh)%type.

(** A point copied out with GetPoint(id, &p): garbage when [id] is absent. *)
Definition get_pt (m : mesh) (id : N) : res point :=
  match oget id (pts m) with Some p => Ok p | None => Undef Uninit end.

(** points->ElementAt(id): dereference of end() when [id] is absent. *)
Definition elem_pt (m : mesh) (id : N) : res point :=
  match oget id (pts m) with Some p => Ok p | None => Undef MissingKey end.

(** GetPoint(e->GetDestination(), &p), or Fill(0) when the operator returned null:
    the pattern of itkLoopTriangleCellSubdivisionQuadEdgeMeshFilter.hxx:69-85. *)
Definition dest_or_zero (m : mesh) (e : option dedge) : res point :=
  match e with Some f => get_pt m (snd f) | None => Ok pzero end.

(** Null test before following a pointer. *)
Definition obind {A B} (x : option A) (f : A -> option B) : option B :=
  match x with Some a => f a | None => None end.

(** *** New points on edges *)

(** itkLinearTriangleEdgeCellSubdivisionQuadEdgeMeshFilter.hxx:30-33 *)
Definition linear_point (inp : mesh) (e : dedge) : res point :=
  rbind (get_pt inp (fst e)) (fun p0 =>
  rbind (get_pt inp (snd e)) (fun p1 => Ok (midpoint p0 p1))).

(** pointWeight[4], itkLoopTriangleCellSubdivisionQuadEdgeMeshFilter.hxx:41 and
    itkLoopTriangleEdgeCellSubdivisionQuadEdgeMeshFilter.hxx:35. *)
Definition loop_weights : list (K O) := [kfrac 3 8; kfrac 3 8; kfrac 1 8; kfrac 1 8].

(** itkLoopTriangleCellSubdivisionQuadEdgeMeshFilter.hxx:61-120 and
    itkLoopTriangleEdgeCellSubdivisionQuadEdgeMeshFilter.hxx:33-99 *)
Definition loop_point (inp : mesh) (e : dedge) : res point :=
  if is_internal inp e then
    rbind (get_pt inp (fst e)) (fun p0 =>
    rbind (get_pt inp (snd e)) (fun p1 =>
    rbind (dest_or_zero inp (lnext inp e)) (fun p2 =>
    rbind (dest_or_zero inp (rprev inp e)) (fun p3 =>
    Ok (comb pzero loop_weights [p0; p1; p2; p3])))))
  else if is_at_border inp e then
    rbind (get_pt inp (fst e)) (fun p0 =>
    rbind (get_pt inp (snd e)) (fun p1 => Ok (midpoint p0 p1)))
  else Throw WireEdge.

(** pointWeight[8], itkModifiedButterflyTriangleCellSubdivisionQuadEdgeMeshFilter.hxx:41 and
    itkModifiedButterflyTriangleEdgeCellSubdivisionQuadEdgeMeshFilter.hxx:32. *)
Definition butterfly_weights : list (K O) :=
  [kfrac 1 2; kfrac 1 2; kfrac 1 8; kfrac 1 8;
   kfrac (-1) 16; kfrac (-1) 16; kfrac (-1) 16; kfrac (-1) 16].

(** itkModifiedButterflyTriangleCellSubdivisionQuadEdgeMeshFilter.hxx:61-134 and
    itkModifiedButterflyTriangleEdgeCellSubdivisionQuadEdgeMeshFilter.hxx:32-108.
    [obind] gives the nested null tests their common meaning: zero as soon as
    one operator returns null. *)
Definition butterfly_point (inp : mesh) (e : dedge) : res point :=
  rbind (get_pt inp (fst e)) (fun p0 =>
  rbind (get_pt inp (snd e)) (fun p1 =>
  rbind (dest_or_zero inp (lnext inp e)) (fun p2 =>
  rbind (dest_or_zero inp (obind (lnext inp e) (rprev inp))) (fun p4 =>
  rbind (dest_or_zero inp (rprev inp e)) (fun p3 =>
  rbind (dest_or_zero inp (obind (rprev inp e) (lnext inp))) (fun p5 =>
  rbind (dest_or_zero inp (obind (lprev inp e) (rprev inp))) (fun p6 =>
  rbind (dest_or_zero inp (obind (rnext inp e) (lnext inp))) (fun p7 =>
  Ok (comb pzero butterfly_weights [p0; p1; p2; p3; p4; p5; p6; p7]))))))))).

(** *** AddNewCellPoints *)

(** m_EdgesPointIdentifier->InsertElement(edge, np); InsertElement(edge->GetSym(), np);
    output->SetPoint(np, p)  (e.g. itkLinear…CellSubdivision….hxx:63-65). *)
Definition insert_edge_point (st : state) (e : dedge) (np : N) (p : point) : state :=
  let (f, out) := st in
  (set_epid f ((sym e, np) :: (e, np) :: epid f), set_point out np p).

(** One round of the loop over the three edges of a cell, common to Linear, Loop and
    Butterfly (itkLinear….hxx:50-69, itkLoop….hxx:53-123, itkModifiedButterfly….hxx:53-144):
    [newpt] is the only scheme-specific part, [np] the local variable numberOfPoints.
    A null [edge] is dereferenced by all three (edge->GetSym(), edge->IsInternal(),
    edge->GetLnext()). *)
Definition edge_step (inp : mesh) (newpt : dedge -> res point) (ab : N * N)
           (acc : N * state) : res (N * state) :=
  let (np, st) := acc in
  let edge := find_edge inp (fst ab) (snd ab) in
  match eget_opt edge (epid (fst st)) with
  | Some _ => Ok (np, st)
  | None =>
      match edge with
      | None => Undef NullDeref
      | Some e => rbind (newpt e) (fun p => Ok (np + 1, insert_edge_point st e np p))
      end
  end.

(** The loop `for ii < 3` over the edges of a cell with jj = (ii + 1) % 3; numberOfPoints is read
    once before it (itkLinearTriangleCellSubdivisionQuadEdgeMeshFilter.hxx:40, 50-69,
    itkLoopTriangleCellSubdivisionQuadEdgeMeshFilter.hxx:44, 53-123,
    itkModifiedButterflyTriangleCellSubdivisionQuadEdgeMeshFilter.hxx:44, 53-144). *)
Definition three_edge_steps (inp : mesh) (newpt : dedge -> res point) (a b c : N)
           (st : state) : res state :=
  rbind (edge_step inp newpt (a, b) (num_points (snd st), st)) (fun s1 =>
  rbind (edge_step inp newpt (b, c) s1) (fun s2 =>
  rbind (edge_step inp newpt (c, a) s2) (fun s3 => Ok (snd s3)))).

(** itkLinearTriangleCellSubdivisionQuadEdgeMeshFilter.hxx:24-70.
    The three points are read from the *output* before the loop
    (lines 42-48); an absent one is garbage only if it is used. *)
Definition linear_add_new_cell_points (inp : mesh) (cl : cell) (st : state) : res state :=
  match as_triangle cl with
  | None => Throw NotTriangle
  | Some (a, b, c) =>
      let out := snd st in
      three_edge_steps inp (linear_point out) a b c st
  end.

(** itkLoopTriangleCellSubdivisionQuadEdgeMeshFilter.hxx:26-124 *)
Definition loop_add_new_cell_points (inp : mesh) (cl : cell) (st : state) : res state :=
  match as_triangle cl with
  | None => Throw NotTriangle
  | Some (a, b, c) => three_edge_steps inp (loop_point inp) a b c st
  end.

(** itkModifiedButterflyTriangleCellSubdivisionQuadEdgeMeshFilter.hxx:25-145 *)
Definition butterfly_add_new_cell_points (inp : mesh) (cl : cell) (st : state) : res state :=
  match as_triangle cl with
  | None => Throw NotTriangle
  | Some (a, b, c) => three_edge_steps inp (butterfly_point inp) a b c st
  end.

(** itkSquareThreeTriangleCellSubdivisionQuadEdgeMeshFilter.hxx:70-79: the directed
    edge only (no GetSym), and only if present and not yet there. *)
Definition sqrt3_edge_step (inp : mesh) (newid : N) (ab : N * N)
           (m : list (dedge * N)) : list (dedge * N) :=
  match find_edge inp (fst ab) (snd ab) with
  | None => m
  | Some e => match eget e m with Some _ => m | None => (e, newid) :: m end
  end.

(** itkSquareThreeTriangleCellSubdivisionQuadEdgeMeshFilter.hxx:24-80.
    The branch den < epsilon (lines 55-58, den = 1/3) is dead and left out. *)
Definition sqrt3_add_new_cell_points (inp : mesh) (cl : cell) (st : state) : res state :=
  match as_triangle cl with
  | None => Throw NotTriangle
  | Some (a, b, c) =>
      rbind (elem_pt inp a) (fun pa =>
      rbind (elem_pt inp b) (fun pb =>
      rbind (elem_pt inp c) (fun pc =>
      let den := kdiv O (kZ O 1) (kZ O 3) in
      let p := pscale den (padd (padd (padd pzero pa) pb) pc) in
      let newid := num_points (snd st) in
      let m := sqrt3_edge_step inp newid (c, a)
                 (sqrt3_edge_step inp newid (b, c)
                    (sqrt3_edge_step inp newid (a, b) (epid (fst st)))) in
      Ok (set_epid (fst st) m, set_point (snd st) newid p))))
  end.

(** Dispatch of the virtual AddNewCellPoints
    (itkTriangleCellSubdivisionQuadEdgeMeshFilter.h:103). *)
Definition add_new_cell_points (s : cscheme) : mesh -> cell -> state -> res state :=
  match s with
  | CLinear => linear_add_new_cell_points
  | CLoop => loop_add_new_cell_points
  | CButterfly => butterfly_add_new_cell_points
  | CSqrt3 => sqrt3_add_new_cell_points
  end.

(** *** Vertex rule of the Loop scheme *)

(** The loop of itkLoopTriangleCellSubdivisionQuadEdgeMeshFilter.hxx:250-261 over the
    Onext ring: (sum over border neighbours, their number, sum over all, their number). *)
Fixpoint smooth_sums (inp : mesh) (v : N) (r : list N) (bpt : point) (nb : N) (opt : point) (nn : N)
  : res (point * N * point * N) :=
  match r with
  | [] => Ok (bpt, nb, opt, nn)
  | d :: t =>
      rbind (elem_pt inp d) (fun p =>
      if is_at_border inp (v, d)
      then smooth_sums inp v t (padd bpt p) (nb + 1) (padd opt p) (nn + 1)
      else smooth_sums inp v t bpt nb (padd opt p) (nn + 1))
  end.

(** lines 265-268 *)
Definition border_rule (ipt bpt : point) : point :=
  map2 (fun x b => kadd O (kmul O (kfrac 3 4) x) (kmul O (kfrac 1 8) b)) ipt bpt.

(** lines 272-273 *)
Definition loop_beta (nn : N) : K O :=
  let var := kadd O (kfrac 3 8) (kmul O (kfrac 1 4) (kcos2pi O nn)) in
  kdiv O (ksub O (kfrac 5 8) (kmul O var var)) (kZ O (Z.of_N nn)).

(** lines 274-277 *)
Definition interior_rule (nn : N) (ipt opt : point) : point :=
  let beta := loop_beta nn in
  map2 (fun x o => kadd O (kmul O (ksub O (kZ O 1) (kmul O (kZ O (Z.of_N nn)) beta)) x)
                          (kmul O beta o)) ipt opt.

(** itkLoopTriangleCellSubdivisionQuadEdgeMeshFilter.hxx:234-280 SmoothingPoint;
    ipt.GetEdge() is null for a point without edges (line 248-249). *)
Definition smoothing_point (inp : mesh) (v : N) (ipt : point) : res point :=
  match ring inp v with
  | [] => Undef NullDeref
  | r =>
      rbind (smooth_sums inp v r pzero 0 pzero 0) (fun '(bpt, nb, opt, nn) =>
      if N.eqb nb 0 then Ok (interior_rule nn ipt opt) else Ok (border_rule ipt bpt))
  end.

(** itkLoopTriangleEdgeCellSubdivisionQuadEdgeMeshFilter.hxx:148-199 AverageOriginOfEdge:
    the same computation, written to the output. *)
Definition average_origin_of_edge (inp : mesh) (v : N) (out : mesh) : res mesh :=
  rbind (elem_pt inp v) (fun ipt =>
  rbind (smoothing_point inp v ipt) (fun p => Ok (set_point out v p))).

(** *** CopyInputMeshToOutputMeshPoints *)

(** itkLoopTriangleCellSubdivisionQuadEdgeMeshFilter.hxx:152-166.
    Line 161 inserts *it, the id of the *cell*, once per point of the cell. *)
Fixpoint smoothed_set (inp : mesh) (sel : list N) : res (list N) :=
  match sel with
  | [] => Ok []
  | i :: t =>
      match cells inp with
      | None => Undef NullDeref
      | Some cs =>
          match oget i cs with
          | None => Undef MissingKey
          | Some None => Undef NullDeref
          | Some (Some c) =>
              rbind (smoothed_set inp t) (fun s =>
              Ok (if is_nil (cell_pids c) then s else i :: s))
          end
      end
  end.

(** The loops over the points of the input, itkLoopTriangleCellSubdivisionQuadEdgeMeshFilter.hxx:168-231;
    [smooth] is the test that decides between SmoothingPoint and a plain copy. *)
Fixpoint loop_copy_points (inp : mesh) (smooth : N -> bool) (l : omap point) (out : mesh) : res mesh :=
  match l with
  | [] => Ok out
  | (id, p) :: t =>
      if smooth id
      then rbind (smoothing_point inp id p) (fun q => loop_copy_points inp smooth t (set_point out id q))
      else loop_copy_points inp smooth t (set_point out id p)
  end.

(** itkLoopTriangleCellSubdivisionQuadEdgeMeshFilter.hxx:126-232.  m_Uniform still has the
    value of the previous run: it is assigned only afterwards. *)
Definition loop_copy_input_points (inp : mesh) (st : state) : res state :=
  let (f, out) := st in
  if uniform f
  then rbind (loop_copy_points inp (fun _ => true) (pts inp) out) (fun out' => Ok (f, out'))
  else rbind (smoothed_set inp (csel f)) (fun s =>
       rbind (loop_copy_points inp (fun id => memN id s) (pts inp) out) (fun out' => Ok (f, out'))).

(** std::find in m_EdgesToBeSubdivided
    (itkLoopTriangleEdgeCellSubdivisionQuadEdgeMeshFilter.hxx:120-132). *)
Definition mem_esel (e : dedge) (l : list (option dedge)) : bool :=
  existsb (fun o => match o with Some f => eqb_dedge e f | None => false end) l.

(** itkLoopTriangleEdgeCellSubdivisionQuadEdgeMeshFilter.hxx:120-132: the value of
    copyFlag after walking the ring of [v] from its first edge [q0]; the `break`
    precedes the assignment copyFlag = false. *)
Fixpoint copy_flag (esel : list (option dedge)) (v q0 : N) (rest : list N) : bool :=
  match rest with
  | [] => true
  | q1 :: t => if mem_esel (v, q0) esel then true else copy_flag esel v q1 t
  end.

(** itkLoopTriangleEdgeCellSubdivisionQuadEdgeMeshFilter.hxx:113-145 *)
Fixpoint loop_edge_copy (inp : mesh) (esel : list (option dedge)) (l : omap point) (out : mesh) : res mesh :=
  match l with
  | [] => Ok out
  | (id, p) :: t =>
      match ring inp id with
      | [] => Undef NullDeref                   (* edge->GetOnext(), line 118 *)
      | q0 :: rest =>
          if copy_flag esel id q0 rest
          then loop_edge_copy inp esel t (set_point out id p)
          else rbind (average_origin_of_edge inp id out) (fun out' => loop_edge_copy inp esel t out')
      end
  end.

(** itkLoopTriangleEdgeCellSubdivisionQuadEdgeMeshFilter.hxx:103-146
    CopyInputMeshToOutputMeshPoints. *)
Definition loop_edge_copy_input_points (inp : mesh) (st : state) : res state :=
  let (f, out) := st in
  rbind (loop_edge_copy inp (esel f) (pts inp) out) (fun out' => Ok (f, out')).

(** Base class version: plain copy. *)
Definition plain_copy_input_points (inp : mesh) (st : state) : res state :=
  Ok (fst st, copy_points inp (snd st)).

(** Dispatch of the virtual CopyInputMeshToOutputMeshPoints for cell-based filters
    (itkTriangleCellSubdivisionQuadEdgeMeshFilter.hxx:52; overridden only in
    itkLoopTriangleCellSubdivisionQuadEdgeMeshFilter.h:116). *)
Definition copy_input_points_c (s : cscheme) : mesh -> state -> res state :=
  match s with CLoop => loop_copy_input_points | _ => plain_copy_input_points end.
(** The same for edge-based filters (itkTriangleEdgeCellSubdivisionQuadEdgeMeshFilter.hxx:51;
    overridden only in itkLoopTriangleEdgeCellSubdivisionQuadEdgeMeshFilter.h:92). *)
Definition copy_input_points_e (s : escheme) : mesh -> state -> res state :=
  match s with ELoop => loop_edge_copy_input_points | _ => plain_copy_input_points end.

(** *** GenerateOutputPoints, cell-based *)

(** itkTriangleCellSubdivisionQuadEdgeMeshFilter.hxx:62-67; a null cell is dereferenced by
    AddNewCellPoints. *)
Fixpoint uniform_cells_loop (add : cell -> state -> res state) (cs : omap (option cell)) (st : state)
  : res state :=
  match cs with
  | [] => Ok st
  | (_, None) :: _ => Undef NullDeref
  | (_, Some c) :: t => rbind (add c st) (fun st' => uniform_cells_loop add t st')
  end.

(** itkTriangleCellSubdivisionQuadEdgeMeshFilter.hxx:71-81 *)
Fixpoint selected_cells_loop (add : cell -> state -> res state) (cs : omap (option cell))
         (sel : list N) (st : state) : res state :=
  match sel with
  | [] => Ok st
  | i :: t =>
      match oget i cs with
      | None => Undef MissingKey
      | Some None => selected_cells_loop add cs t st
      | Some (Some c) => rbind (add c st) (fun st' => selected_cells_loop add cs t st')
      end
  end.

(** itkTriangleCellSubdivisionQuadEdgeMeshFilter.hxx:48-83 *)
Definition generate_output_points_c (s : cscheme) (inp : mesh) (st : state) : res state :=
  rbind (copy_input_points_c s inp st) (fun st1 =>
  let f1 := set_epid (fst st1) [] in
  let f2 := set_uniform f1 (is_nil (csel f1)) in
  match cells inp with
  | None => Undef NullDeref
  | Some cs =>
      if uniform f2
      then uniform_cells_loop (add_new_cell_points s inp) cs (f2, snd st1)
      else selected_cells_loop (add_new_cell_points s inp) cs (csel f2) (f2, snd st1)
  end).

(** *** GenerateOutputPoints, edge-based *)

(** AddNewEdgePoints: itkLinearTriangleEdgeCell….hxx:24-45, itkLoopTriangleEdgeCell….hxx:26-101,
    itkModifiedButterflyTriangleEdgeCell….hxx:24-120.  No IndexExists test. *)
Definition edge_point (s : escheme) : mesh -> dedge -> res point :=
  match s with
  | ELinear => linear_point
  | ELoop => loop_point
  | EButterfly => butterfly_point
  end.

(** AddNewEdgePoints of the three edge-based filters (ranges above): the point, the two entries of
    m_EdgesPointIdentifier, SetPoint at numberOfPoints.  A pointer that is no edge of the input
    is a dangling pointer. *)
Definition add_new_edge_points (s : escheme) (inp : mesh) (e : dedge) (st : state) : res state :=
  match find_edge inp (fst e) (snd e) with
  | None => Undef Dangling
  | Some _ => rbind (edge_point s inp e) (fun p =>
              Ok (insert_edge_point st e (num_points (snd st)) p))
  end.

(** itkTriangleEdgeCellSubdivisionQuadEdgeMeshFilter.hxx:66-75 and 82-89 *)
Fixpoint edges_loop (s : escheme) (inp : mesh) (l : list (option dedge)) (st : state) : res state :=
  match l with
  | [] => Ok st
  | None :: t => edges_loop s inp t st
  | Some e :: t => rbind (add_new_edge_points s inp e st) (fun st' => edges_loop s inp t st')
  end.

(** itkTriangleEdgeCellSubdivisionQuadEdgeMeshFilter.hxx:46-91 *)
Definition generate_output_points_e (s : escheme) (inp : mesh) (st : state) : res state :=
  rbind (copy_input_points_e s inp st) (fun st1 =>
  let f1 := set_epid (fst st1) [] in
  let f2 := set_uniform f1 (is_nil (esel f1)) in
  if uniform f2
  then match ecells inp with
       | None => Throw NoEdges
       | Some es => edges_loop s inp (map snd es) (f2, snd st1)
       end
  else edges_loop s inp (esel f2) (f2, snd st1)).

(** *** GenerateOutputCells *)

(** itkTriangleCellSubdivisionQuadEdgeMeshFilter.hxx:266-285 PassCellData *)
Definition pass_cell_data (inp : mesh) (id : N) (e : option dedge) (out : mesh) : mesh :=
  match e with
  | None => out
  | Some e =>
      match cdata inp with
      | None => out
      | Some d =>
          match oget id d with
          | None => out
          | Some v => set_cell_data out (get_left out e) v
          end
      end
  end.

(** AddFaceTriangle + PassCellData, and with [track] also
    m_CellsToBeSubdivided.push_back(newTriangleEdge->GetLeft())
    (itkTriangleCellSubdivisionQuadEdgeMeshFilter.hxx:248-250), which dereferences a null
    edge when the face was rejected. *)
Definition emit (inp : mesh) (id : N) (track : bool) (tri : N * N * N) (st : state) : res state :=
  let '(a, b, c) := tri in
  let (f, out) := st in
  let (out1, e) := add_face out [a; b; c] in
  let out2 := pass_cell_data inp id e out1 in
  if track then
    match e with
    | None => Undef NullDeref
    | Some e => Ok (FState (uniform f) (csel f ++ [get_left out2 e]) (esel f) (epid f), out2)
    end
  else Ok (f, out2).

(** The AddFaceTriangle calls of one cell in order
    (itkTriangleCellSubdivisionQuadEdgeMeshFilter.hxx:163-264). *)
Fixpoint emit_all (inp : mesh) (id : N) (track : bool) (l : list (N * N * N)) (st : state) : res state :=
  match l with
  | [] => Ok st
  | t :: l' => rbind (emit inp id track t st) (fun st' => emit_all inp id track l' st')
  end.

(** itkTriangleCellSubdivisionQuadEdgeMeshFilter.hxx:163-180 SplitTriangleFromOneEdge:
    e = edgePointIds[ii], ti/tj/tk = trianglePointIds[ii/jj/kk]. *)
Definition split_one (e ti tj tk : N) : list (N * N * N) := [(e, tj, tk); (e, tk, ti)].

(** itkTriangleCellSubdivisionQuadEdgeMeshFilter.hxx:182-224 SplitTriangleFromTwoEdges *)
Definition split_two_01 (t0 t1 t2 e0 e1 : N) : list (N * N * N) :=
  [(t2, t0, e0); (t2, e0, e1); (e0, t1, e1)].
(** itkTriangleCellSubdivisionQuadEdgeMeshFilter.hxx:182-224, split edges 0 and 2. *)
Definition split_two_02 (t0 t1 t2 e0 e2 : N) : list (N * N * N) :=
  [(t1, t2, e0); (t2, e2, e0); (e2, t0, e0)].
(** itkTriangleCellSubdivisionQuadEdgeMeshFilter.hxx:182-224, split edges 1 and 2. *)
Definition split_two_12 (t0 t1 t2 e1 e2 : N) : list (N * N * N) :=
  [(t0, t1, e1); (t0, e1, e2); (e1, t2, e2)].

(** itkTriangleCellSubdivisionQuadEdgeMeshFilter.hxx:226-264 SplitTriangleFromThreeEdges *)
Definition split_three (t0 t1 t2 e0 e1 e2 : N) : list (N * N * N) :=
  [(t0, e0, e2); (e0, t1, e1); (e1, t2, e2); (e0, e1, e2)].

(** itkTriangleCellSubdivisionQuadEdgeMeshFilter.hxx:139-157: dispatch on the split edges. *)
Definition split_triangle (t0 t1 t2 : N) (e0 e1 e2 : option N) : list (N * N * N) :=
  match e0, e1, e2 with
  | None, None, None => [(t0, t1, t2)]
  | Some e, None, None => split_one e t0 t1 t2
  | None, Some e, None => split_one e t1 t2 t0
  | None, None, Some e => split_one e t2 t0 t1
  | Some x, Some y, None => split_two_01 t0 t1 t2 x y
  | Some x, None, Some y => split_two_02 t0 t1 t2 x y
  | None, Some x, Some y => split_two_12 t0 t1 t2 x y
  | Some x, Some y, Some z => split_three t0 t1 t2 x y z
  end.

(** The case n == 3 of the dispatch, itkTriangleCellSubdivisionQuadEdgeMeshFilter.hxx:139-157. *)
Definition all_three (e0 e1 e2 : option N) : bool :=
  match e0, e1, e2 with Some _, Some _, Some _ => true | _, _, _ => false end.

(** Body of the loop, itkTriangleCellSubdivisionQuadEdgeMeshFilter.hxx:107-157. *)
Definition split_cell (inp : mesh) (id : N) (tri : N * N * N) (st : state) : res state :=
  let '(t0, t1, t2) := tri in
  let m := epid (fst st) in
  let e0 := eget_opt (find_edge inp t0 t1) m in
  let e1 := eget_opt (find_edge inp t1 t2) m in
  let e2 := eget_opt (find_edge inp t2 t0) m in
  let track := all_three e0 e1 e2 && negb (uniform (fst st)) in
  emit_all inp id track (split_triangle t0 t1 t2 e0 e1 e2) st.

(** itkTriangleCellSubdivisionQuadEdgeMeshFilter.hxx:98-160: `continue` (line 104) does not
    advance the iterator. *)
Fixpoint cells_loop (fuel : nat) (inp : mesh) (cs : omap (option cell)) (st : state) : res state :=
  match fuel with
  | 0%nat => OutOfFuel
  | S fuel' =>
      match cs with
      | [] => Ok st
      | (id, c) :: t =>
          match obind c as_triangle with
          | None => cells_loop fuel' inp cs st
          | Some tri => rbind (split_cell inp id tri st) (fun st' => cells_loop fuel' inp t st')
          end
      end
  end.

(** itkTriangleCellSubdivisionQuadEdgeMeshFilter.hxx:85-161 GenerateOutputCells *)
Definition generate_output_cells (fuel : nat) (inp : mesh) (st : state) : res state :=
  let st1 := (set_cells_to_be_subdivided (fst st) [], snd st) in
  match cells inp with
  | None => Undef NullDeref
  | Some cs => cells_loop fuel inp cs st1
  end.

(** itkSquareThreeTriangleCellSubdivisionQuadEdgeMeshFilter.hxx:119-183: one edge of the
    current cell; the boolean tells whether the loop is left by `break` (line 132). *)
Definition sqrt3_edge (inp : mesh) (id : N) (tri : N * N * N) (ab : N * N) (st : state)
  : res (state * bool) :=
  let track := negb (uniform (fst st)) in
  let edge := find_edge inp (fst ab) (snd ab) in
  match edge, eget_opt edge (epid (fst st)) with
  | Some e, Some c =>
      if N.eqb c id_max then Ok (st, false)
      else
        match is_at_border inp e, eget (sym e) (epid (fst st)) with
        | false, Some d =>
            rbind (emit inp id track (c, d, snd e) st) (fun st1 =>
            rbind (emit inp id track (d, c, fst e) st1) (fun st2 =>
            Ok ((set_epid (fst st2) ((sym e, id_max) :: epid (fst st2)), snd st2), false)))
        | _, _ => rbind (emit inp id track (fst e, snd e, c) st) (fun st1 => Ok (st1, false))
        end
  | _, _ => rbind (emit inp id false tri st) (fun st1 => Ok (st1, true))
  end.

(** itkSquareThreeTriangleCellSubdivisionQuadEdgeMeshFilter.hxx:119-183: the loop over the three
    edges with its `break`. *)
Definition sqrt3_cell (inp : mesh) (id : N) (tri : N * N * N) (st : state) : res state :=
  let '(a, b, c) := tri in
  rbind (sqrt3_edge inp id tri (a, b) st) (fun '(st1, stop1) =>
  if stop1 : bool then Ok st1 else
  rbind (sqrt3_edge inp id tri (b, c) st1) (fun '(st2, stop2) =>
  if stop2 : bool then Ok st2 else
  rbind (sqrt3_edge inp id tri (c, a) st2) (fun '(st3, _) => Ok st3))).

(** itkSquareThreeTriangleCellSubdivisionQuadEdgeMeshFilter.hxx:98-185: no null test, and the
    same non-advancing `continue` (line 104). *)
Fixpoint sqrt3_loop (fuel : nat) (inp : mesh) (cs : omap (option cell)) (st : state) : res state :=
  match fuel with
  | 0%nat => OutOfFuel
  | S fuel' =>
      match cs with
      | [] => Ok st
      | (_, None) :: _ => Undef NullDeref
      | (id, Some c) :: t =>
          match as_triangle c with
          | None => sqrt3_loop fuel' inp cs st
          | Some tri => rbind (sqrt3_cell inp id tri st) (fun st' => sqrt3_loop fuel' inp t st')
          end
      end
  end.

(** itkSquareThreeTriangleCellSubdivisionQuadEdgeMeshFilter.hxx:82-186 *)
Definition sqrt3_generate_output_cells (fuel : nat) (inp : mesh) (st : state) : res state :=
  let st1 := (set_cells_to_be_subdivided (fst st) [], snd st) in
  match cells inp with
  | None => Undef NullDeref
  | Some cs => sqrt3_loop fuel inp cs st1
  end.

(** *** Update() *)

(** Which filter. *)
Inductive kind := CellF (s : cscheme) | EdgeF (s : escheme).

(** Dispatch of the virtual GenerateOutputPoints (itkSubdivisionQuadEdgeMeshFilter.h:101). *)
Definition generate_output_points (k : kind) : mesh -> state -> res state :=
  match k with
  | CellF s => generate_output_points_c s
  | EdgeF s => generate_output_points_e s
  end.
(** Dispatch of the virtual GenerateOutputCells (itkSubdivisionQuadEdgeMeshFilter.h:105; overridden
    in itkSquareThreeTriangleCellSubdivisionQuadEdgeMeshFilter.h:97). *)
Definition generate_cells_of (k : kind) : nat -> mesh -> state -> res state :=
  match k with
  | CellF CSqrt3 => sqrt3_generate_output_cells
  | _ => generate_output_cells
  end.

(** ProcessObject::Update on a modified filter: the output is re-initialised, then
    itkSubdivisionQuadEdgeMeshFilter.hxx:31-39 GenerateData. *)
Definition update (k : kind) (fuel : nat) (f : fstate) (inp : mesh) : res state :=
  rbind (generate_output_points k inp (f, empty_mesh)) (fun st => generate_cells_of k fuel inp st).

End FILTERS.
