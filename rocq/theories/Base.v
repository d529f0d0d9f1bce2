(** * Base: outcomes, ordered maps, scalars.

    Shared vocabulary of the model.  Nothing in this file models a function of
    /repo; it models the C++ run-time notions and the two ITK containers the
    code of /repo is written against. *)
From Coq Require Export List NArith ZArith Lia Bool.
From Coq Require Export ZifyBool ZifyNat ZifyN.
Export ListNotations.
Open Scope N_scope.

(** ** Outcomes of running C++ code *)

(** The exceptions raised with itkExceptionMacro in /repo/include. *)
Inductive exn :=
| NotTriangle     (* "The input cell is not a triangle cell" *)
| WireEdge        (* "Wire edge detected" *)
| NoEdges         (* "Input mesh has no edges" *)
| NoCells.        (* "Input mesh has not cells" *)

(** Undefined behaviour is an outcome of its own, never a normal value. *)
Inductive ub :=
| NullDeref       (* a method is called through a null pointer *)
| MissingKey      (* MapContainer::GetElement/ElementAt on an absent index: dereference of end() *)
| Uninit          (* a point that GetPoint(id, &p) did not find is read uninitialised *)
| Dangling.       (* a quad-edge pointer that does not belong to the current input mesh *)

(** Outcome of a C++ function: what /repo/include reports with itkExceptionMacro (e.g.
    itkLinearTriangleCellSubdivisionQuadEdgeMeshFilter.hxx:30), or undefined behaviour, or a loop
    that does not end (itkTriangleCellSubdivisionQuadEdgeMeshFilter.hxx:104). *)
Inductive res (A : Type) :=
| Ok (a : A)
| Throw (e : exn)
| Undef (u : ub)
| OutOfFuel.      (* the loop has not finished within the given number of iterations *)
Arguments Ok {A} a.
Arguments Throw {A} e.
Arguments Undef {A} u.
Arguments OutOfFuel {A}.

(** Sequencing of statements; the first abnormal outcome ends the function. *)
Definition rbind {A B} (x : res A) (k : A -> res B) : res B :=
  match x with
  | Ok a => k a
  | Throw e => Throw e
  | Undef u => Undef u
  | OutOfFuel => OutOfFuel
  end.

(** A loop that produces one value per element. *)
Fixpoint rmap_list {A B} (f : A -> res B) (l : list A) : res (list B) :=
  match l with
  | [] => Ok []
  | x :: t => rbind (f x) (fun y => rbind (rmap_list f t) (fun ys => Ok (y :: ys)))
  end.

(** ** itk::MapContainer<IdentifierType, A>

    An std::map: iterated in ascending key order.  Modelled as an association
    list with strictly increasing keys ([osorted]); [oset] is
    InsertElement/SetElement, [oget] is find, [osize] is Size. *)
Definition omap (A : Type) := list (N * A).

(** MapContainer::find, used through IndexExists / GetElement / ElementAt / GetPoint(id, &p)
    (e.g. itkTriangleCellSubdivisionQuadEdgeMeshFilter.hxx:131-133). *)
Fixpoint oget {A} (k : N) (m : omap A) : option A :=
  match m with
  | [] => None
  | (k', v) :: t => if N.eqb k' k then Some v else oget k t
  end.

(** MapContainer::InsertElement / SetElement, used through SetPoint, SetCell, SetCellData
    (e.g. itkLinearTriangleCellSubdivisionQuadEdgeMeshFilter.hxx:65). *)
Fixpoint oset {A} (k : N) (v : A) (m : omap A) : omap A :=
  match m with
  | [] => [(k, v)]
  | (k', v') :: t =>
      if N.ltb k k' then (k, v) :: (k', v') :: t
      else if N.eqb k k' then (k, v) :: t
      else (k', v') :: oset k v t
  end.

(** MapContainer::Size, used through GetNumberOfPoints
    (e.g. itkLinearTriangleCellSubdivisionQuadEdgeMeshFilter.hxx:40). *)
Definition osize {A} (m : omap A) : N := N.of_nat (length m).

(** MapContainer::IndexExists. *)
Definition omem {A} (k : N) (m : omap A) : bool :=
  match oget k m with Some _ => true | None => false end.

(** The indices of a container in iteration order. *)
Definition okeys {A} (m : omap A) : list N := map fst m.

(** Largest key + 1, or 0: QuadEdgeMesh::FindFirstUnusedCellIndex on a mesh
    from which nothing was ever deleted. *)
Definition onext_key {A} (m : omap A) : N :=
  match rev m with [] => 0 | (k, _) :: _ => k + 1 end.

(** ** Scalars

    The coordinate type is a template parameter of the code (float or double).
    The model takes its operations as a record, so that everything that does
    not mention a particular record holds for every arithmetic, IEEE
    floating point included. *)
Record Ops := mkOps {
  K : Type;
  kdim : nat;             (* MeshType::PointDimension *)
  kadd : K -> K -> K;
  ksub : K -> K -> K;
  kmul : K -> K -> K;
  kdiv : K -> K -> K;
  kZ : Z -> K;            (* literals; every fraction in the code is dyadic or 1/n *)
  ksqrt : K -> K;
  kcos2pi : N -> K;       (* std::cos(2.0 * itk::Math::pi / n) *)
  kgtb : K -> K -> bool   (* a > b *)
}.

(** Small list helpers. *)
Definition memN (x : N) (l : list N) : bool := existsb (N.eqb x) l.

(** The test of QuadEdgeMesh::AddFace that no point id is repeated. *)
Fixpoint nodupb (l : list N) : bool :=
  match l with
  | [] => true
  | x :: t => negb (memN x t) && nodupb t
  end.

(** std::list::empty (e.g. itkTriangleCellSubdivisionQuadEdgeMeshFilter.hxx:56). *)
Definition is_nil {A} (l : list A) : bool := match l with [] => true | _ => false end.

(** NumericTraits<IdentifierType>::max() for the 64-bit unsigned long. *)
Definition id_max : N := 18446744073709551615.
