(** * Mesh: the part of itk::QuadEdgeMesh the filters of /repo call.

    ITK is a dependency and is not in /repo; this file is the *contract* of the
    ITK classes (itkQuadEdgeMesh, itkGeometricalQuadEdge, itkQuadEdge,
    itkMapContainer, itkTriangleHelper, itkPoint) that the code of /repo is
    written against.  It is part of the trusted base (DESIGN.md).  Each
    definition names the ITK function it stands for and the place in /repo that
    calls it.

    A quad-edge between two points is identified with the ordered pair
    (origin id, destination id): QuadEdgeMesh never holds two edges with the
    same end points.  The Onext rings are stored explicitly: [rings m] maps a
    point to the cyclic list of the destinations of its out-going edges in
    Onext (counter-clockwise) order, starting at the point's own edge
    (QuadEdgeMeshPoint::GetEdge).  A point without edges has the empty ring. *)
From Verif Require Import Base.

(** InputQEType / QEType: an oriented edge (itkSubdivisionQuadEdgeMeshFilter.h, type aliases). *)
Definition dedge : Type := N * N.
(** QuadEdge::GetSym (itkLinearTriangleCellSubdivisionQuadEdgeMeshFilter.hxx:64). *)
Definition sym (e : dedge) : dedge := (snd e, fst e).
(** Equality of quad-edge pointers, as keys of m_EdgesPointIdentifier (itkSubdivisionQuadEdgeMeshFilter.h:87). *)
Definition eqb_dedge (e f : dedge) : bool := N.eqb (fst e) (fst f) && N.eqb (snd e) (snd f).
(** Occurrence of an oriented edge in a list. *)
Definition mem_dedge (e : dedge) (l : list dedge) : bool := existsb (eqb_dedge e) l.

(** A cell of the cells container: GetType() = POLYGON_CELL, or any other type.
    The list is what PointIdsBegin()..PointIdsEnd() enumerates. *)
Inductive cell :=
| Poly (pids : list N)
| OtherCell (pids : list N).

(** PointIdsBegin()..PointIdsEnd()
    (e.g. itkTriangleCellSubdivisionQuadEdgeMeshFilter.hxx:107-118). *)
Definition cell_pids (c : cell) : list N :=
  match c with Poly l => l | OtherCell l => l end.

(** The test `cell->GetType() != POLYGON_CELL || cell->GetNumberOfPoints() != 3`
    (e.g. itkTriangleCellSubdivisionQuadEdgeMeshFilter.hxx:102), negated. *)
Definition as_triangle (c : cell) : option (N * N * N) :=
  match c with
  | Poly [a; b; c] => Some (a, b, c)
  | _ => None
  end.

(** The data of a QuadEdgeMesh the code of /repo reads or writes (GetPoints, FindEdge, GetCells,
    GetEdgeCells, GetCellData: itkTriangleCellSubdivisionQuadEdgeMeshFilter.hxx:58, 94, 130, 274 and
    itkTriangleEdgeCellSubdivisionQuadEdgeMeshFilter.hxx:60). *)
Record mesh (O : Ops) (D : Type) := Mesh {
  pts    : omap (list (K O));            (* GetPoints(): id -> coordinates *)
  rings  : omap (list N);                (* Onext ring of each point *)
  cells  : option (omap (option cell));  (* GetCells(): null container / null cell pointers *)
  ecells : option (omap (option dedge)); (* GetEdgeCells(): null container; None = dynamic_cast fails *)
  cdata  : option (omap D)               (* GetCellData() *)
}.
Arguments Mesh {O D} pts rings cells ecells cdata.
Arguments pts {O D} m.
Arguments rings {O D} m.
Arguments cells {O D} m.
Arguments ecells {O D} m.
Arguments cdata {O D} m.

Section MESH.
Context {O : Ops} {D : Type}.
Notation mesh := (mesh O D).

(** The output mesh after ProcessObject::PrepareOutputs (Initialize()).
    The edge container of a QuadEdgeMesh is created with the mesh. *)
Definition empty_mesh : mesh := Mesh [] [] None (Some []) None.

(** The Onext ring of a point as walked by
    itkLoopTriangleCellSubdivisionQuadEdgeMeshFilter.hxx:248-261. *)
Definition ring (m : mesh) (b : N) : list N :=
  match oget b (rings m) with Some r => r | None => [] end.

(** QuadEdgeMesh::FindEdge(a, b): walks the Onext ring of a. *)
Definition find_edge (m : mesh) (a b : N) : option dedge :=
  if memN b (ring m a) then Some (a, b) else None.

(** Oriented edges of a polygon, in order. *)
Definition poly_dirs (l : list N) : list dedge :=
  match l with
  | [] => []
  | h :: t => combine l (t ++ [h])
  end.

(** (previous, vertex, next) for every vertex of a polygon. *)
Definition poly_corners (l : list N) : list (N * N * N) :=
  match l with
  | a :: b :: t => combine (combine l ((b :: t) ++ [a])) (t ++ [a; b])
  | _ => []
  end.

(** The cell has the oriented edge on its boundary. *)
Definition cell_has_dir (e : dedge) (c : option cell) : bool :=
  match c with Some (Poly l) => mem_dedge e (poly_dirs l) | _ => false end.

(** The cells container, empty when it was never created. *)
Definition cells_list (m : mesh) : list (N * option cell) :=
  match cells m with Some cs => cs | None => [] end.

(** First cell, in id order, with the oriented edge on its boundary. *)
Fixpoint left_in (e : dedge) (cs : list (N * option cell)) : option N :=
  match cs with
  | [] => None
  | (id, c) :: t => if cell_has_dir e c then Some id else left_in e t
  end.

(** GeometricalQuadEdge::GetLeft / IsLeftSet.  ITK stores the face id on the
    dual edges when the face is created; here it is derived: the face whose
    boundary contains the oriented edge. *)
Definition left (m : mesh) (e : dedge) : option N := left_in e (cells_list m).
(** IsLeftSet *)
Definition left_set (m : mesh) (e : dedge) : bool :=
  match left m e with Some _ => true | None => false end.
(** GetLeft() returns m_NoFace = max() when unset. *)
Definition get_left (m : mesh) (e : dedge) : N :=
  match left m e with Some i => i | None => id_max end.
(** GetRight is the left of the reversed edge. *)
Definition right_set (m : mesh) (e : dedge) : bool := left_set m (sym e).

(** GeometricalQuadEdge::IsInternal / IsAtBorder. *)
Definition is_internal (m : mesh) (e : dedge) : bool := left_set m e && right_set m e.
(** IsAtBorder, called in itkLoopTriangleCellSubdivisionQuadEdgeMeshFilter.hxx:102, 252 and
    itkSquareThreeTriangleCellSubdivisionQuadEdgeMeshFilter.hxx:142. *)
Definition is_at_border (m : mesh) (e : dedge) : bool := xorb (left_set m e) (right_set m e).

(** Cyclic successor / predecessor in a ring. *)
Fixpoint next_after (h : N) (r : list N) (x : N) : option N :=
  match r with
  | [] => None
  | y :: t => if N.eqb y x then Some (hd h t) else next_after h t x
  end.
(** Cyclic successor of [x] in the ring [r]. *)
Definition succ_in (r : list N) (x : N) : option N :=
  match r with [] => None | h :: _ => next_after h r x end.
(** Cyclic predecessor of [x] in the ring [r]. *)
Definition pred_in (r : list N) (x : N) : option N := succ_in (rev r) x.

(** The quad-edge algebra (Guibas-Stolfi): Lnext = Oprev o Sym,
    Rprev = Onext o Sym, Lprev = Sym o Onext, Rnext = Sym o Oprev. *)
Definition onext (m : mesh) (e : dedge) : option dedge :=
  option_map (fun c => (fst e, c)) (succ_in (ring m (fst e)) (snd e)).
(** GetOprev *)
Definition oprev (m : mesh) (e : dedge) : option dedge :=
  option_map (fun c => (fst e, c)) (pred_in (ring m (fst e)) (snd e)).
(** GetLnext (itkLoopTriangleCellSubdivisionQuadEdgeMeshFilter.hxx:69). *)
Definition lnext (m : mesh) (e : dedge) : option dedge := oprev m (sym e).
(** GetRprev (itkLoopTriangleCellSubdivisionQuadEdgeMeshFilter.hxx:78). *)
Definition rprev (m : mesh) (e : dedge) : option dedge := onext m (sym e).
(** GetLprev (itkModifiedButterflyTriangleCellSubdivisionQuadEdgeMeshFilter.hxx:61-134). *)
Definition lprev (m : mesh) (e : dedge) : option dedge := option_map sym (onext m e).
(** GetRnext (itkModifiedButterflyTriangleCellSubdivisionQuadEdgeMeshFilter.hxx:61-134). *)
Definition rnext (m : mesh) (e : dedge) : option dedge := option_map sym (oprev m e).

(** ** Building a mesh *)

(** Functional update of one component of the mesh; no counterpart in /repo. *)
Definition set_pts (m : mesh) p : mesh := Mesh p (rings m) (cells m) (ecells m) (cdata m).
(** As [set_pts]. *)
Definition set_rings (m : mesh) r : mesh := Mesh (pts m) r (cells m) (ecells m) (cdata m).
(** As [set_pts]. *)
Definition set_cells (m : mesh) c : mesh := Mesh (pts m) (rings m) c (ecells m) (cdata m).
(** As [set_pts]. *)
Definition set_ecells (m : mesh) e : mesh := Mesh (pts m) (rings m) (cells m) e (cdata m).
(** As [set_pts]. *)
Definition set_cdata (m : mesh) d : mesh := Mesh (pts m) (rings m) (cells m) (ecells m) d.

(** PointSet::SetPoint *)
Definition set_point (m : mesh) (id : N) (p : list (K O)) : mesh := set_pts m (oset id p (pts m)).
(** PointSet::GetNumberOfPoints *)
Definition num_points (m : mesh) : N := osize (pts m).
(** Mesh::GetNumberOfCells *)
Definition num_cells (m : mesh) : N := N.of_nat (length (cells_list m)).
(** Mesh::SetCellData: creates the container on first use. *)
Definition set_cell_data (m : mesh) (id : N) (v : D) : mesh :=
  set_cdata m (Some (oset id v (match cdata m with Some d => d | None => [] end))).

(** Replaces the Onext ring of one point. *)
Definition set_ring (m : mesh) (b : N) (r : list N) : mesh := set_rings m (oset b r (rings m)).

(** New edges are spliced into an Onext ring at an edge whose left is unset
    (GetNextBorderEdgeWithUnsetLeft); there is no room in a closed ring. *)
Fixpoint ins_after (isset : N -> bool) (r : list N) (x : N) : option (list N) :=
  match r with
  | [] => None
  | y :: t => if isset y then option_map (cons y) (ins_after isset t x)
              else Some (y :: x :: t)
  end.
(** As [ins_after]; a point without edges gets its first one. *)
Definition ins_ring (isset : N -> bool) (r : list N) (x : N) : option (list N) :=
  match r with [] => Some [x] | _ => ins_after isset r x end.

(** QuadEdgeMesh::PushOnContainer: an edge cell at the first unused index. *)
Definition push_ecell (m : mesh) (e : dedge) : mesh :=
  let es := match ecells m with Some es => es | None => [] end in
  set_ecells m (Some (oset (onext_key es) (Some e) es)).

(** QuadEdgeMesh::AddEdgeWithSecurePointList *)
Definition add_edge (m : mesh) (a b : N) : option mesh :=
  match ins_ring (fun x => left_set m (a, x)) (ring m a) b,
        ins_ring (fun x => left_set m (b, x)) (ring m b) a with
  | Some ra, Some rb => Some (push_ecell (set_ring (set_ring m a ra) b rb) (a, b))
  | _, _ => None
  end.

(** The edges of a new face that do not exist yet are created in order
    (QuadEdgeMesh::AddFaceWithSecurePointList); stops at the first failure. *)
Fixpoint add_missing_edges (m : mesh) (l : list dedge) : mesh * bool :=
  match l with
  | [] => (m, true)
  | (a, b) :: t =>
      match find_edge m a b with
      | Some _ => add_missing_edges m t
      | None => match add_edge m a b with
                | Some m' => add_missing_edges m' t
                | None => (m, false)
                end
      end
  end.

(** GeometricalQuadEdge::ReorderOnextRingBeforeAddFace: at vertex b of a new
    face a -> b -> c the ring of b is rearranged so that a follows c.  A ring
    is a cyclic sequence of fans (maximal runs whose inner edges have a left
    face); the fan that starts at a is moved behind the fan that ends at c.
    Fails when a fan would be closed while other fans remain. *)
Fixpoint split_at (x : N) (r : list N) : option (list N * list N) :=
  match r with
  | [] => None
  | y :: t => if N.eqb y x then Some ([], t)
              else match split_at x t with
                   | Some (l1, l2) => Some (y :: l1, l2)
                   | None => None
                   end
  end.
(** The fan that starts a ring: up to and including the first edge without left face. *)
Fixpoint take_fan (isset : N -> bool) (r : list N) : list N * list N :=
  match r with
  | [] => ([], [])
  | y :: t => if isset y then let (f, g) := take_fan isset t in (y :: f, g)
              else ([y], t)
  end.
(** Makes [a] the Onext successor of [c] in a ring. *)
Definition link_ring (isset : N -> bool) (r : list N) (c a : N) : option (list N) :=
  match split_at a r with
  | None => None
  | Some (l1, l2) =>
      let (fan, rest) := take_fan isset (a :: l2 ++ l1) in
      match split_at c rest with
      | Some (pre, post) => Some (pre ++ c :: fan ++ post)
      | None => match rest with [] => Some fan | _ => None end
      end
  end.

(** ReorderOnextRingBeforeAddFace at every corner of the new face. *)
Fixpoint link_corners (m : mesh) (l : list (N * N * N)) : option mesh :=
  match l with
  | [] => Some m
  | (a, b, c) :: t =>
      match link_ring (fun x => left_set m (b, x)) (ring m b) c a with
      | Some r => link_corners (set_ring m b r) t
      | None => None
      end
  end.

(** QuadEdgeMesh::AddFace: the cell gets the first unused id. *)
Definition push_cell (m : mesh) (c : cell) : mesh :=
  let cs := cells_list m in
  set_cells m (Some (oset (onext_key cs) (Some c) cs)).

(** QuadEdgeMesh::AddFace(points): null when a point is repeated or absent or
    when an edge already has a face on its left; otherwise the missing edges
    are created, the rings are reordered and the cell gets the first unused
    index.  Returns the mesh and the new face's edge (points[0], points[1]). *)
Definition add_face (m : mesh) (l : list N) : mesh * option dedge :=
  if negb (nodupb l) then (m, None)
  else if negb (forallb (fun p => omem p (pts m)) l) then (m, None)
  else if existsb (left_set m) (poly_dirs l) then (m, None)
  else
    match add_missing_edges m (poly_dirs l) with
    | (m1, false) => (m1, None)
    | (m1, true) =>
        match link_corners m1 (poly_corners l) with
        | None => (m1, None)
        | Some m2 => (push_cell m2 (Poly l), hd_error (poly_dirs l))
        end
    end.

(** QuadEdgeMeshToQuadEdgeMeshFilter::CopyInputMeshToOutputMeshPoints
    (itkTriangleCellSubdivisionQuadEdgeMeshFilter.hxx:52): same ids, same
    coordinates.  CastFrom is the identity: input and output coordinate types
    are taken to be equal. *)
Definition copy_points (inp out : mesh) : mesh :=
  fold_left (fun m kv => set_point m (fst kv) (snd kv)) (pts inp) out.

(** QuadEdgeMeshToQuadEdgeMeshFilter::CopyInputMeshToOutputMeshGeometry
    (itkConditionalSubdivisionQuadEdgeMeshFilter.hxx:44), second part: the edge
    cells. *)
Definition copy_ecells (inp out : mesh) : mesh :=
  match ecells inp with
  | None => out
  | Some es =>
      fold_left (fun m kv => match snd kv with
                             | Some (a, b) => fst (add_missing_edges m [(a, b)])
                             | None => m
                             end) es out
  end.
(** The same (itkConditionalSubdivisionQuadEdgeMeshFilter.hxx:44), third part:
    the polygon cells, with consecutive new ids. *)
Definition copy_cells (inp out : mesh) : mesh :=
  fold_left (fun m kv => match snd kv with
                         | Some (Poly l) => fst (add_face m l)
                         | _ => m
                         end) (cells_list inp) out.
(** CopyInputMeshToOutputMeshGeometry as a whole
    (itkConditionalSubdivisionQuadEdgeMeshFilter.hxx:44): points, edge cells,
    polygon cells; no cell data. *)
Definition copy_geometry (inp : mesh) : mesh :=
  copy_cells inp (copy_ecells inp (copy_points inp empty_mesh)).

(** ** Points and vectors (itk::Point, componentwise) *)

(** A decimal constant of the source as a fraction, e.g. 0.375 = 3/8
    (itkLoopTriangleCellSubdivisionQuadEdgeMeshFilter.hxx:41). *)
Definition kfrac (n d : Z) : K O := kdiv O (kZ O n) (kZ O d).
(** itk::Point as the list of its coordinates. *)
Definition point := list (K O).

(** Componentwise loop over two points. *)
Fixpoint map2 {A B C} (f : A -> B -> C) (l : list A) (l' : list B) : list C :=
  match l, l' with
  | x :: t, y :: t' => f x y :: map2 f t t'
  | _, _ => []
  end.

(** Point::Fill(0), Point += Vector, Point *= scalar. *)
Definition pzero : point := repeat (kZ O 0) (kdim O).
(** Point += Vector (itkSquareThreeTriangleCellSubdivisionQuadEdgeMeshFilter.hxx:48,
    itkLoopTriangleCellSubdivisionQuadEdgeMeshFilter.hxx:255-258). *)
Definition padd (p q : point) : point := map2 (kadd O) p q.
(** Multiplication of every coordinate by a scalar
    (itkSquareThreeTriangleCellSubdivisionQuadEdgeMeshFilter.hxx:60-63). *)
Definition pscale (s : K O) (p : point) : point := map (fun x => kmul O x s) p.

(** Point::SetToMidPoint: (A[i] + B[i]) / 2 *)
Definition midpoint (p q : point) : point :=
  map2 (fun x y => kdiv O (kadd O x y) (kZ O 2)) p q.

(** `for mm: newPoint[kk] += pointWeight[mm] * pointArray[mm][kk]` from zero
    (itkLoopTriangleCellSubdivisionQuadEdgeMeshFilter.hxx:87-93). *)
Fixpoint comb (acc : point) (ws : list (K O)) (ps : list point) : point :=
  match ws, ps with
  | w :: ws', p :: ps' => comb (map2 (fun a x => kadd O a (kmul O w x)) acc p) ws' ps'
  | _, _ => acc
  end.

(** Point::EuclideanDistanceTo / QuadEdgeMesh::ComputeEdgeLength. *)
Fixpoint sqdist (acc : K O) (p q : point) : K O :=
  match p, q with
  | x :: p', y :: q' =>
      let t := ksub O x y in sqdist (kadd O acc (kmul O t t)) p' q'
  | _, _ => acc
  end.
(** The distance, called through ComputeEdgeLength
    (itkEdgeLengthTriangleEdgeCellSubdivisionCriterion.hxx:42). *)
Definition dist (p q : point) : K O := ksqrt O (sqdist (kZ O 0) p q).

(** TriangleHelper::ComputeArea (Heron's formula). *)
Definition area (p1 p2 p3 : point) : K O :=
  let a := dist p2 p3 in
  let b := dist p1 p3 in
  let c := dist p2 p1 in
  let s := kmul O (kfrac 1 2) (kadd O (kadd O a b) c) in
  ksqrt O (kmul O (kmul O (kmul O s (ksub O s a)) (ksub O s b)) (ksub O s c)).

End MESH.
