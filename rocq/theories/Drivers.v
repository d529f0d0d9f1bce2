(** * Drivers: refinement criteria, the conditional and the iterative filter. *)
From Verif Require Import Base Mesh Filters.

Section DRIVERS.
Context {O : Ops} {D : Type}.
Notation mesh := (mesh O D).
Notation state := (@state O D).

(** The list a criterion fills: cell ids for cell-based filters, quad-edges for
    edge-based ones (SubdivisionCellContainer of the filter type). *)
Inductive selection :=
| SelCells (l : list N)
| SelEdges (l : list (option dedge)).

(** m_CellsToBeSubdivided.empty() (itkConditionalSubdivisionQuadEdgeMeshFilter.hxx:47). *)
Definition sel_empty (s : selection) : bool :=
  match s with SelCells l => is_nil l | SelEdges l => is_nil l end.

(** std::list::clear().  The C++ types rule out a criterion that is given the other kind of
    list; the model then starts from the empty list as well. *)
Definition sel_clear (s : selection) : selection :=
  match s with SelCells _ => SelCells [] | SelEdges _ => SelEdges [] end.

(** SetCellsToBeSubdivided of the cell-based / edge-based filter. *)
Definition apply_selection (f : fstate) (s : selection) : fstate :=
  match s with
  | SelCells l => set_cells_to_be_subdivided f l
  | SelEdges l => set_edges_to_be_subdivided f l
  end.

(** itkQuadEdgeMeshSubdivisionCriterion.h:62-63 Compute(mesh, list): the list is passed by
    reference, so the old content is an argument and the new one the result. *)
Definition criterion : Type := nat -> mesh -> selection -> res selection.

(** itkCellAreaTriangleCellSubdivisionCriterion.hxx:38-64; `continue` (line 43) does not
    advance the iterator. *)
Fixpoint cell_area_loop (fuel : nat) (maxarea : K O) (m : mesh) (cs : omap (option cell)) (acc : list N)
  : res (list N) :=
  match fuel with
  | 0%nat => OutOfFuel
  | S fuel' =>
      match cs with
      | [] => Ok acc
      | (id, c) :: t =>
          match obind c as_triangle with
          | None => cell_area_loop fuel' maxarea m cs acc
          | Some (a, b, c) =>
              rbind (get_pt m a) (fun pa =>
              rbind (get_pt m b) (fun pb =>
              rbind (get_pt m c) (fun pc =>
              if kgtb O (area pa pb pc) maxarea
              then cell_area_loop fuel' maxarea m t (acc ++ [id])
              else cell_area_loop fuel' maxarea m t acc)))
          end
      end
  end.

(** itkCellAreaTriangleCellSubdivisionCriterion.hxx:25-65; line 28 is cellIds.clear(). *)
Definition cell_area_criterion (maxarea : K O) : criterion := fun fuel m old =>
  match sel_clear old, cells m with
  | _, None => Throw NoCells
  | SelCells l0, Some cs => rbind (cell_area_loop fuel maxarea m cs l0) (fun l => Ok (SelCells l))
  | SelEdges _, Some cs => rbind (cell_area_loop fuel maxarea m cs []) (fun l => Ok (SelCells l))
  end.

(** itkEdgeLengthTriangleEdgeCellSubdivisionCriterion.hxx:36-48; ComputeEdgeLength reads both end
    points with GetPoint(id). *)
Fixpoint edge_length_loop (maxlen : K O) (m : mesh) (es : list (option dedge)) (acc : list (option dedge))
  : res (list (option dedge)) :=
  match es with
  | [] => Ok acc
  | None :: t => edge_length_loop maxlen m t acc
  | Some e :: t =>
      rbind (get_pt m (fst e)) (fun p =>
      rbind (get_pt m (snd e)) (fun q =>
      if kgtb O (dist p q) maxlen
      then edge_length_loop maxlen m t (acc ++ [Some e])
      else edge_length_loop maxlen m t acc))
  end.

(** itkEdgeLengthTriangleEdgeCellSubdivisionCriterion.hxx:25-49; line 27 is edgeList.clear(). *)
Definition edge_length_criterion (maxlen : K O) : criterion := fun _ m old =>
  match sel_clear old, ecells m with
  | _, None => Throw NoEdges
  | SelEdges l0, Some es => rbind (edge_length_loop maxlen m (map snd es) l0) (fun l => Ok (SelEdges l))
  | SelCells _, Some es => rbind (edge_length_loop maxlen m (map snd es) []) (fun l => Ok (SelEdges l))
  end.

(** itkConditionalSubdivisionQuadEdgeMeshFilter.hxx:47-56.  [f] is the member
    m_SubdivisionFilter, used again in every round; [out] the filter's output. *)
Fixpoint conditional_loop (fuel : nat) (k : kind) (crit : criterion) (s : selection) (f : fstate)
         (out : mesh) : res state :=
  match fuel with
  | 0%nat => OutOfFuel
  | S fuel' =>
      if sel_empty s then Ok (f, out)
      else rbind (update k fuel' (apply_selection f s) out) (fun '(f', out') =>
           rbind (crit fuel' out' s) (fun s' => conditional_loop fuel' k crit s' f' out'))
  end.

(** itkConditionalSubdivisionQuadEdgeMeshFilter.hxx:40-57; a missing criterion is a null
    pointer that is dereferenced (line 45).  [old]: m_CellsToBeSubdivided as the previous run left it
    (the empty list in a new object). *)
Definition conditional_update (fuel : nat) (k : kind) (crit : option criterion) (old : selection)
           (f : fstate) (inp : mesh) : res state :=
  let out := copy_geometry inp in
  match crit with
  | None => Undef NullDeref
  | Some cr => rbind (cr fuel out old) (fun s => conditional_loop fuel k cr s f out)
  end.

(** itkIterativeTriangleCellSubdivisionQuadEdgeMeshFilter.hxx:65-72: level by level, each with
    a fresh filter (lines 57-60), fed with the previous filter's GetCellsToBeSubdivided(). *)
Fixpoint iterative_levels (n : nat) (s : cscheme) (fuel : nat) (sel : list N) (inp : mesh) : res state :=
  match n with
  | 0%nat => Ok (set_cells_to_be_subdivided new_filter sel, inp)
  | S n' =>
      rbind (update (CellF s) fuel (set_cells_to_be_subdivided new_filter sel) inp) (fun '(f, out) =>
      match n' with
      | 0%nat => Ok (f, out)
      | S _ => iterative_levels n' s fuel (csel f) out
      end)
  end.

(** itkIterativeTriangleCellSubdivisionQuadEdgeMeshFilter.hxx:51-73: resolution =
    max(1, m_ResolutionLevels).  The result is the output mesh together with the last
    level's filter. *)
Definition iterative_update (s : cscheme) (levels : nat) (fuel : nat) (sel : list N) (inp : mesh) : res state :=
  iterative_levels (Nat.max 1 levels) s fuel sel inp.

(** ** The iterative filter as an object: m_ResolutionLevels and m_CellsToBeSubdivided
    (itkIterativeTriangleCellSubdivisionQuadEdgeMeshFilter.h:91-93).  The filters of the levels are created
    anew in every run (hxx:54-59) and are not state. *)
Record iobject := IObject { i_levels : nat; i_cells : list N }.
(** itkIterativeTriangleCellSubdivisionQuadEdgeMeshFilter.hxx:27-31, constructor. *)
Definition new_iterative : iobject := IObject 1 [].
(** itkIterativeTriangleCellSubdivisionQuadEdgeMeshFilter.h:71 itkSetMacro(ResolutionLevels, unsigned int);
    unbounded here. *)
Definition iterative_set_levels (i : iobject) (n : nat) : iobject := IObject n (i_cells i).
(** itkIterativeTriangleCellSubdivisionQuadEdgeMeshFilter.hxx:33-40 SetCellsToBeSubdivided *)
Definition iterative_set_cells (i : iobject) (l : list N) : iobject := IObject (i_levels i) l.
(** itkIterativeTriangleCellSubdivisionQuadEdgeMeshFilter.hxx:42-49 AddSubdividedCellId *)
Definition iterative_add_cell (i : iobject) (id : N) : iobject := IObject (i_levels i) (i_cells i ++ [id]).
(** itkIterativeTriangleCellSubdivisionQuadEdgeMeshFilter.hxx:51-73 GenerateData: reads the two members,
    changes neither. *)
Definition iterative_run (s : cscheme) (fuel : nat) (i : iobject) (inp : mesh) : res (iobject * mesh) :=
  rbind (iterative_update s (i_levels i) fuel (i_cells i) inp) (fun st => Ok (i, snd st)).

End DRIVERS.
