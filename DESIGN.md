# DESIGN

Formal model and proofs (Rocq/Coq 8.16.1) for the ITK module
`SubdivisionQuadEdgeMeshFilter` in `/repo` (headers only; the code is read as text).

## 1. Architecture of the development

| File | Content |
|---|---|
| `Base.v` | outcomes (`Ok`/`Throw`/`Undef`/`OutOfFuel`), ordered maps (`itk::MapContainer`), scalar operations record `Ops` |
| `Mesh.v` | contract of the part of `itk::QuadEdgeMesh` the filters call (points, Onext rings, cells, edge cells, cell data, `FindEdge`, `AddFaceTriangle`, `Lnext`/`Rprev`/…, copy) |
| `Filters.v` | the subdivision filters, function by function (cell-based: Linear, Loop, modified Butterfly, sqrt(3); edge-based: Linear, Loop, Butterfly) |
| `Drivers.v` | criteria (cell area, edge length), Conditional and Iterative filters |
| `Samples.v` | concrete meshes over `Q` |
| `Spec.v`, `SpecSub.v`, `SpecGeo.v`, `SpecDrive.v`, `SpecRenum.v`, `SpecRoot3.v` | what a user means: valid mesh, edges, borders, Euler characteristic, subdivision of a mesh, masks, levels, renumbering; written without helpers of the filter model |
| `Lists`, `AddFace`, `SplitTri`, `Split`, `Points`, `Valid`, `Run`, `Update`, `Struct`, `Count`, `Face`, `FaceProps`, `Copy` | lemmas on the six face-split filters |
| `Root3*`, `Repeat*`, `Twins`, `Gaps`, `Any`, `PtsAny`, `Robust`, `Never`, `Conn`, `Renum*` | lemmas on sqrt(3), repeated selections, coincident triangles, unusual inputs, pairs of runs |
| `Geo*`, `Area`, `Drive*`, `Cond`, `Iter` | lemmas on coordinates, criteria, drivers |
| `Sim`, `SimProps`, `Reach`, `More` | simulation of two runs that differ in coordinates; what holds for every input |
| `SpecFlt`, `SimId`, `Flt`, `FltRun`, `FltBox`, `FltLoop`, `FltIter` | IEEE-754 arithmetic (Flocq) as coordinate arithmetic, error bounds, boxes; `SimId` is `Sim` with the relation on points depending on the id |
| `SpecShape`, `Shape`, `SpecLocal`, `Local`, `Valence` | surface as a point set, additive quantities, normals and scaled copies under Linear runs; locality of all schemes; valences |
| `Stuck`, `Stuck64` | floating-point runs of the conditional filter that never end |
| `SpecNum`, `NumProps`, `SpecNum3`, `Num3Props` | ids of new points and cells |
| `SpecSame`, `Same`, `CheckSame` | the same surface with other ids |
| `Piece`, `PieceRun`, `CheckPiece` | a separate piece of a mesh |
| `SpecTurn`, `Turn`, `CheckTurn` | a surface turned inside out |
| `CondSame`, `CondSame3` | conditional filters on the same surface with other ids |
| `CondPiece`, `CondPiece3` | conditional filters on a separate piece of a mesh |
| `SameAny`, `CondAny`, `AnyFlt`, `CheckAny` | two numberings of one surface in any arithmetic with a commutative addition; floating point |
| `TurnAny`, `CheckTurnAny` | a surface turned inside out in such an arithmetic |
| `SimDrive`, `SpecSimil`, `Simil` | pairs of runs of the drivers; similarities |
| `SpecMirror`, `Mirror`, `SpecAxes`, `Axes`, `CheckImage` | mirror images in floating point; other axes |
| `SpecLimit`, `LoopLimit`, `SpecPoly`, `PolyProps` | limit positions of Loop subdivision; polynomials on regular pieces |
| `CondLoop`, `CondButterfly`, `CondRoot3`, `Rounds` | the conditional filter around the Loop and Butterfly edge filters and around the sqrt(3) filter ends; number of rounds |
| `SpecEndless`, `Endless`, `EndlessReal`, `Endless64`, `EndlessLoop`, `EndlessLoopReal`, `EndlessLoop64` | conditional filters around the Butterfly and the Loop filter that never end |
| `SpecSession`, `Session` | sequences of calls on one filter object |
| `SpecConv`, `Conv` | lengths of edges and movement of points over many uniform levels, limits |
| `FltLen`, `FltTerm`, `FltTermLoop`, `FltHeron`, `FltArea` | computed lengths and areas against exact ones; floating-point runs of the conditional filter that end |
| `Check*.v` | boolean checkers with soundness lemmas, used in the examples |
| `Properties*.v` | only `Theorem … Proof. exact lemma. Qed. Print Assumptions …`, each followed by an `Example` that meets the hypotheses |
| `Refuted*.v` | counterexamples (`…_refuted`), computed |

## 2. Modelling decisions

* **Outcomes.** Every run yields `Ok`, `Throw` (an `itkExceptionMacro`), `Undef` (undefined
  behaviour: null dereference, `MapContainer::GetElement` on a missing key, uninitialised point,
  foreign quad-edge pointer) or `OutOfFuel`. Undefined behaviour is never a normal value.
* **Loops.** `for`/iterator loops that advance in every iteration are structural recursion.
  The loops that contain `continue` without advancing the iterator
  (`itkTriangleCellSubdivisionQuadEdgeMeshFilter.hxx:98-160`,
  `itkSquareThree…hxx:98-185`, `itkCellArea…hxx:38-64`) and the conditional `while`
  (`itkConditional…hxx:47-56`) consume fuel per iteration. "Terminates" = there is a fuel bound
  from which on the result is a fixed non-`OutOfFuel` value; "diverges" = `OutOfFuel` for every fuel.
* **Quad-edges.** A quad-edge between two points is the ordered pair (origin, destination). The Onext
  ring of a point is the cyclic list of destinations. All derived operators (Oprev, Lnext, Rprev,
  Lprev, Rnext) are computed from the rings by the Guibas–Stolfi identities. The left face of an
  oriented edge is derived from the cell list.
* **Scalars.** The coordinate type is a record of operations. Theorems on connectivity, ids, cell
  data, interpolation hold for *every* record, hence for IEEE floats. Geometry theorems (affine
  invariance, convexity, areas, termination) are proved for the record over `R`. Executable examples
  use `Q`.
* **State.** A filter object is the record (m_Uniform, m_CellsToBeSubdivided, m_EdgesToBeSubdivided,
  m_EdgesPointIdentifier); it survives between `Update()` calls, so histories are modelled.
* **Validity** (precondition the code relies on, stated once in `Spec.v`): sorted containers, every
  cell a triangle with three different existing points, every oriented edge in at most one cell,
  rings without repetition, symmetric and irreflexive, corners of faces consecutive in the ring,
  edge container listing every undirected edge exactly once, points of the right dimension.
  Wire edges, isolated points, several components, several fans at one point (bow-ties), borders
  are allowed. Contiguous ids (`dense`) is a separate predicate.

### Glossary for the statements in properties.jsonl

* *Valid (triangle) mesh*: `Spec.valid` together with `Spec.dense`. This is the list spelled out in C08 (triangles, one face
  per oriented edge, consistent rings, every edge listed once, contiguous point ids), and no two triangles on the same three
  points (`v_notwin`), as in C01. Where a theorem does not need contiguous ids it does not ask for them (C04, C21, C22, C38,
  C48, C83). What happens with gaps between the ids is in C30/C72, with two triangles on the same points in C43/C79.
* *Selection*: a list of ids of existing cells, for edge filters a list of edges of the input. Ids that do not exist give
  undefined behaviour (C29/C71). Edge filters: every edge listed once, unless the property speaks of repetitions (C40/C76).
* *Loop*: no isolated points, because Loop dereferences a null pointer there (C28/C70).

## 3. Simplifications (each also noted at the definition)

* Input and output coordinate types are equal; `CastFrom` is the identity.
* Identifiers are unbounded `N` (no wrap at 2^64); the sentinel `max()` of sqrt(3) is 2^64-1. Theorems on sqrt(3) therefore
  ask for fewer than 2^64 points and cells in all. Every mesh in a 64-bit address space satisfies this, because each point and
  each cell occupies at least one byte.
* The start position of an Onext ring (which edge `GetEdge` returns) is the first list element;
  ITK may choose another one. Only the summation order in `SmoothingPoint` depends on it.
* `MapContainer::Reserve` only resets the iteration state in ITK (nothing is allocated in a `std::map`); modelled as a no-op. This is part of the trusted contract.
* A quad-edge pointer in the edge list that is not an edge of the input is `Undef Dangling`
  (in C++ it is either dangling or belongs to a foreign mesh).
* A point looked up with `GetPoint(id,&p)` that does not exist is `Undef Uninit`.
* sqrt(3): the test `den < epsilon` (den = 1/3) is dead code and omitted.
* Floating point (C89 to C92, C99, C100, C107 to C109): every operation rounds to nearest even in one format. This is what the code does with `double`
  coordinates. With `float` coordinates expressions such as `0.75 * ipt[kk]` are evaluated in `double` and rounded once more on
  assignment; this mixture is not modelled
  (the midpoint rule is not affected: `(A + B) / 2.0` halves in `double`, which is exact). Fused multiply-add and excess precision are not modelled. Statements speak of
  real values, so +0 and -0 are not told apart.
* `IterativeTriangleCellSubdivisionQuadEdgeMeshFilter::PrintSelf` (line 81) writes to `std::cout` instead of the given stream; seen
  while reading, not modelled.
* Memory management, smart pointers, printing, the pipeline's time stamps and the recursion guard of
  `Update()` are not modelled (except where a property says so).

## 4. Trusted base

* Coq 8.16.1 kernel (and `vm_compute` for examples/witnesses).
* The axioms printed by `Print Assumptions` under each theorem; only those of the standard library's
  real numbers and classical logic occur (list in section 6). No axiom is declared here.
* Faithfulness of `Filters.v`/`Drivers.v` to the cited lines (checked by reading; the code is not run).
* The ITK contract in `Mesh.v` (ITK itself is not in the sandbox): containers are `std::map`s iterated
  in ascending order; `AddFace` rejects repeated/absent points and occupied edges, otherwise creates
  missing edges, splices rings, assigns last id + 1; `FindEdge` walks the ring; `IsAtBorder` = exactly
  one side has a face, `IsInternal` = both; `ComputeArea` = Heron; output is empty before GenerateData;
  `CopyInputMeshToOutputMeshGeometry` copies points, edge cells and cells but no cell data.

## How statuses are assigned

- The first sixty statements in `properties.jsonl` stay as first written, also where the code turned out to violate them.
- `partial` covers two cases, told apart by the note in `MANIFEST.json`. "As stated this is FALSE of the code" means that a theorem, usually one named `_refuted`, contradicts the statement. "Proved only under extra hypotheses" means that the theorem is narrower than the quantifier.
- C61 to C82 and C84 to C88 were appended after the proofs and say what does hold in those cases. They were worded with the theorems at hand, so they show what the code does and are no evidence that the first statements hold. Each clause was read against a listed theorem before the status was set to `proved`.
- Correction: manifests up to commit 005e97c listed C04, C06 to C09, C18, C20, C27, C35 to C38, C42 and C47 as proved. C08, C18, C27 and C35 to C37 are false of the code as stated. C06, C07 and C09 have since been proved in full. The others carry hypotheses that their wording does not mention.


## 5. Properties one by one

Status and exact theorem names are those of `MANIFEST.json`. "Axioms: reals" means the three axioms of the standard library's real numbers listed in section 6; "none" means that `Print Assumptions` answers "Closed under the global context".

### C01 Uniform subdivision completes and quadruples the faces (proved)

Model: `update (CellF s)` with an empty selection, any `Ops`. Proof: invariant of the point phase (the edge map is injective on undirected edges, values V, V+1, …); then folding `add_face` over the computed triangle list succeeds because the list is coherently oriented and the corners at every point form chains or one cycle (`AddFace`, `Split`, `Run`, `Face`).

Theorems in `Properties1.v`. Axioms: none.

### C02 One new point per triangle edge, shared by both sides (proved)

Same run; the edge map of the point phase is described by `inserted` (`Points`) and `subdivision` (`SpecSub`) says what it means in terms of the two meshes.

Theorems in `Properties1.v`. Axioms: none.

### C03 Original point ids survive; new ids are fresh and contiguous (proved)

Point container of the output = input points followed by the new ones (`Points`); for edge filters the same with the listed edges.

Theorems in `Properties1.v`, `Properties6.v`. Axioms: none.

### C04 Every output face is a proper triangle on existing points (proved)

`C04_any` needs no hypothesis: the cell container of the output is only ever extended by `add_face` with three ids, which checks distinctness and existence, and points are never removed (`Reach`). The older theorems give the same with the conditions of the other properties.
Note: C04_any has no hypothesis on the input or the selection.

Theorems in `Properties1.v`, `Properties10.v`, `Properties11.v`. Axioms: none.

### C05 The output is an oriented edge-manifold and no face is lost (proved)

Oriented edges of the children of a triangle are classified for the eight split patterns (`SplitTri`); NoDup of all oriented edges and the number of cells follow.
Note: valid mesh taken with contiguous ids, as defined in C08; ids that do not exist and isolated points under Loop give no output (C28, C29)

Theorems in `Properties1.v`. Axioms: none.

### C06 Borders are preserved: closed stays closed, border edges are only bisected (proved)

Border edges of the output are the halves of split border edges and the unsplit ones (`Struct`, `Face`).
Note: with and without triangles (C06_all); valid mesh taken with contiguous ids, as defined in C08; preconditions of the filter as in C28, C29.

Theorems in `Properties1.v`, `Properties10.v`. Axioms: none.

### C07 Topology is preserved: the Euler characteristic does not change (proved)

Counting: V' - V and E' - E and F' - F from the numbers of split edges and split oriented edges (`Count`).
Note: with and without triangles (C07_all); valid mesh taken with contiguous ids, as defined in C08; preconditions of the filter as in C28, C29.

Theorems in `Properties1.v`, `Properties10.v`. Axioms: none.

### C08 The output is again a valid input (filters compose) (partial)

Validity of the output from the invariant `built` of `add_face`; chains by induction. Without triangles the output has no cell container: witness `bare`.
Note: As stated this is FALSE of the code: without triangles the output has no cell container (C08_refuted). Proved for every input with at least one triangle.

Theorems in `Properties1.v`, `Properties10.v`, `Refuted3.v`. Axioms: none.

### C09 Adaptive subdivision leaves no T-junction (proved)

No output edge joins the end points of a split edge and no new point lies on an unsplit one, from `refines` for each triangle.
Note: with and without triangles (C09_all); valid mesh taken with contiguous ids, as defined in C08; preconditions of the filter as in C28, C29.

Theorems in `Properties1.v`, `Properties10.v`. Axioms: none.

### C10 A triangle with k split edges becomes k+1 triangles; selected triangles become 4 (proved)

The output cell list is the concatenation of the children lists, in the order of the input cells (`sd_refines`).
Note: 'valid mesh' as in the glossary of DESIGN.md (contiguous ids as spelled out in C08, no two triangles on the same points; for other meshes see C30/C72 and C43/C79); cells and edges in the selection exist and, for Loop, no isolated points (otherwise no output: C28, C29)

Theorems in `Properties1.v`. Axioms: none.

### C11 Untouched triangles are copied verbatim (proved)

`rf_copy` for a triangle without split edges, uniqueness from NoDup of oriented edges.
Note: 'valid mesh' as in the glossary of DESIGN.md (contiguous ids as spelled out in C08, no two triangles on the same points; for other meshes see C30/C72 and C43/C79); cells and edges in the selection exist and, for Loop, no isolated points (otherwise no output: C28, C29)

Theorems in `Properties1.v`. Axioms: none.

### C12 The reported refinement list is exactly the set of four-way children (proved)

Cell ids of the children are consecutive; the list reported by the filter is read off the emit loop (`Face`, `Copy`).
Note: 'valid mesh' as in the glossary of DESIGN.md (contiguous ids as spelled out in C08, no two triangles on the same points; for other meshes see C30/C72 and C43/C79); cells and edges in the selection exist and, for Loop, no isolated points (otherwise no output: C28, C29)

Theorems in `Properties1.v`. Axioms: none.

### C13 Selection order and repetitions do not change the result (partial)

Both runs build bijections from the same set of split edges to the same id range; the renaming is their composition. Refuted part: bits of Butterfly in binary64 and order dependence near the border.
Note: As stated this is FALSE of the code: coordinates of Butterfly differ near borders (C13_butterfly_refuted) and in binary64 (C13_binary64_refuted). Proved: connectivity for all three schemes, coordinates for Linear, Loop over the reals, Butterfly away from the border.

Theorems in `Properties5.v`, `Refuted2.v`. Axioms: ClassicalDedekindReals.sig_forall_dec, ClassicalDedekindReals.sig_not_dec, FunctionalExtensionality.functional_extensionality_dep, PrimFloat.add, PrimFloat.div, PrimFloat.eqb, PrimFloat.float, PrimFloat.ltb, PrimFloat.mul, PrimFloat.of_uint63, PrimFloat.opp, PrimFloat.sqrt, PrimFloat.sub, PrimInt63.int, PrimInt63.lor, PrimInt63.lsl, PrimInt63.sub.

### C14 Cell data is inherited from the parent triangle (proved)

Ids consecutive + `set_cell_data` at every emit; parent of each child from `child_of`.
Note: 'valid mesh' as in the glossary of DESIGN.md (contiguous ids as spelled out in C08, no two triangles on the same points; for other meshes see C30/C72 and C43/C79); cells and edges in the selection exist and, for Loop, no isolated points (otherwise no output: C28, C29)

Theorems in `Properties1.v`. Axioms: none.

### C15 Interpolating schemes never move an original point (proved)

Point phase never writes below V for these filters.

Theorems in `Properties1.v`, `Properties6.v`. Axioms: none.

### C16 Linear scheme: each new point is the midpoint of its edge (proved)

The value written for an edge is `midpoint`; symmetric by commutativity of the reals.
Note: 'valid mesh' as in the glossary of DESIGN.md (contiguous ids as spelled out in C08, no two triangles on the same points; for other meshes see C30/C72 and C43/C79); cells and edges in the selection exist and, for Loop, no isolated points (otherwise no output: C28, C29)

Theorems in `Properties3.v`. Axioms: reals.

### C17 Loop scheme: edge points use the 3/8-3/8-1/8-1/8 mask, border edges the midpoint (proved)

The mask read from the rings is identified with the two adjacent faces through validity (`Geo`).
Note: 'valid mesh' as in the glossary of DESIGN.md (contiguous ids as spelled out in C08, no two triangles on the same points; for other meshes see C30/C72 and C43/C79); cells and edges in the selection exist and, for Loop, no isolated points (otherwise no output: C28, C29)

Theorems in `Properties3.v`. Axioms: reals.

### C18 Loop scheme: vertex rule (partial)

Vertex rule summed over the ring; false for an object last used adaptively (m_Uniform is not reset), witness in `Refuted3`.
Note: As stated this is FALSE of the code: a filter object last used adaptively smooths nothing (C18_used_filter_refuted). Proved for an object that is new or was last used uniformly.

Theorems in `Properties3.v`, `Refuted3.v`. Axioms: reals.

### C19 Butterfly scheme: the eight-point stencil (proved)

Eight-point stencil identified through the faces around the edge.
Note: 'valid mesh' as in the glossary of DESIGN.md (contiguous ids as spelled out in C08, no two triangles on the same points; for other meshes see C30/C72 and C43/C79); cells and edges in the selection exist and, for Loop, no isolated points (otherwise no output: C28, C29)

Theorems in `Properties3.v`. Axioms: reals.

### C20 sqrt(3) scheme: one centroid per subdivided triangle (proved)

`sqrt3_add_new_cell_points`, any arithmetic and over the reals (`Root3Run`, `Root3Main`).
Note: C20 theorems ask for fewer than 2^64 points and cells in all, which holds in any 64-bit address space (every point and cell occupies at least one byte). 'Valid' is meant as in the glossary of DESIGN.md: contiguous ids and no two triangles on the same points (for these see C30, C43).

Theorems in `Properties6.v`. Axioms: reals.

### C21 Affine invariance (proved)

Simulation of two runs that differ in coordinates only (`Sim`): every step keeps the relation "q = M p + t"; each mask is a partition of unity.
Note: C21_all: every valid mesh, gaps between ids or not, every selection. C21_several_fans_refuted shows that the two-border-edges condition of the quantifier is needed; it does not refute the property.

Theorems in `Properties11.v`, `Properties3.v`, `Properties6.v`. Axioms: reals.

### C22 Loop masks are convex combinations for every valence (proved)

Simulation with the relation "in the half-space"; bounds on the Loop weight from bounds on cosine.
Note: C22_all: every valid mesh, gaps between ids or not, every selection; C22_weight_bounds: the weights. C22_several_fans_refuted shows that the two-border-edges condition of the quantifier is needed; it does not refute the property.

Theorems in `Properties11.v`, `Properties3.v`, `Properties6.v`. Axioms: reals.

### C23 Loop: the refined border depends on the border only (proved)

Two runs; border masks mention border points only.
Note: 'valid mesh' as in the glossary of DESIGN.md (contiguous ids as spelled out in C08, no two triangles on the same points; for other meshes see C30/C72 and C43/C79); cells and edges in the selection exist and, for Loop, no isolated points (otherwise no output: C28, C29)

Theorems in `Properties3.v`. Axioms: none.

### C24 Butterfly: the refined border depends on the border only (partial)

False of the code: the Butterfly filters have no border rule; the ring is taken cyclically. Exact mask proved for every edge.
Note: As stated this is FALSE of the code: (border points depend on the border only) is refuted (C24_refuted)

Theorems in `Properties7.v`, `Refuted.v`. Axioms: reals.

### C25 The documented Loop weight is the implemented one (partial)

False of the code: formula in the class documentation and implemented formula differ; the documented one is too small for every number of neighbours.
Note: As stated this is FALSE of the code: (documented weight is the implemented one) is refuted (C25_refuted)

Theorems in `Properties3.v`. Axioms: reals.

### C26 Adaptive Loop subdivision smooths exactly the vertices of the selected triangles (partial)

False of the code: the smoothed set is read with point ids but filled with cell ids as well. The smoothed set is characterised exactly.
Note: As stated this is FALSE of the code: (exactly the vertices of the selected cells move, no dependence on earlier runs) is refuted three ways.

Theorems in `Properties7.v`, `Refuted.v`. Axioms: reals.

### C27 Update() always ends: a mesh with a non-triangle cell is reported (partial)

False of the code: cell iterators are not advanced before `continue`, so adaptive and edge filters never end on a non-triangle; the uniform cell filters throw.
Note: As stated this is FALSE of the code (C27_hangs, C27_area_criterion_hangs: Update/Compute never returns); only the uniform cell filters report the cell (C27_uniform_throws). Earlier manifests listed it as proved by mistake.

Theorems in `Properties2.v`. Axioms: none.

### C28 Isolated points are harmless (partial)

Isolated points are kept by the filters without Loop masks, Loop dereferences null.
Note: As stated this is FALSE of the code: (harmless for every filter) is refuted for Loop (C28_refuted)

Theorems in `Properties2.v`, `Refuted.v`. Axioms: none.

### C29 Selecting a cell id that does not exist is reported or ignored (partial)

False of the code: unknown id gives undefined behaviour (`GetElement` of a missing key).
Note: As stated this is FALSE of the code: (reported or ignored) is refuted (C29_refuted)

Theorems in `Properties2.v`, `Refuted.v`. Axioms: none.

### C30 Arbitrary point ids are supported (partial)

False of the code: new ids start at the number of points and overwrite points. Exact behaviour with gaps in `C30_*`.
Note: As stated this is FALSE of the code: (arbitrary ids are supported) is refuted (C30_refuted)

Theorems in `Properties7.v`, `Refuted.v`. Axioms: none.

### C31 Re-running a filter on the same input is idempotent (partial)

Uniform runs are idempotent, adaptive runs are not, because the selection is replaced by the output list.
Note: As stated this is FALSE of the code: (always idempotent) is refuted (C31_refuted, C31_unknown_refuted)

Theorems in `Properties2.v`, `Properties7.v`, `Refuted.v`. Axioms: none.

### C32 Iterative filter: k levels are the k-fold composition (proved)

Iterative driver unfolded to a pipeline of new filters; 4^k by induction.

Theorems in `Properties4.v`. Axioms: none.

### C33 Iterative filter: adaptive refinement stays inside the selection (proved)

Induction over levels with `level`; `C33_outside`: children of a fully split triangle have a new point on every edge, so a triangle apart from the selection stays apart.

Theorems in `Properties11.v`, `Properties4.v`. Axioms: none.

### C34 Conditional filter: on completion no element violates the criterion (proved)

Induction on fuel of the conditional driver.

Theorems in `Properties4.v`. Axioms: reals.

### C35 Conditional filter: nothing to do means an unchanged mesh (partial)

A run in which the criterion selects nothing returns the copied mesh; false without triangles, where the area criterion throws.
Note: As stated this is FALSE of the code: without triangles the area criterion throws (C35_no_triangles_refuted). Proved with at least one triangle.

Theorems in `Properties4.v`, `Refuted3.v`. Axioms: reals.

### C36 Conditional refinement by cell area terminates (partial)

Area measure: children of fully split triangles have a quarter of the area, others are bounded by halves; finite multiset argument (`Cond`, `Area`).
Note: As stated this is FALSE of the code: without triangles it ends with an exception (C36_no_triangles_refuted, rational coordinates). Proved with at least one triangle.

Theorems in `Properties4.v`, `Refuted3.v`. Axioms: reals.

### C37 Conditional refinement by edge length terminates (partial)

Length measure with medians; false without triangles.
Note: As stated this is FALSE of the code: a long wire edge and no triangle gives undefined behaviour (C37_no_triangles_refuted, rational coordinates). Proved with at least one triangle.

Theorems in `Properties4.v`, `Refuted3.v`. Axioms: reals.

### C38 Criteria select exactly the violating elements (proved)

Induction over the containers; Heron = half the root of the Gram determinant.
Note: C38_cell_area and C38_edge_any: any mesh of triangles whose corners and listed edge end points exist; that the mesh is not modified holds by the type of the model function (the C++ argument is const)

Theorems in `Properties11.v`, `Properties4.v`. Axioms: reals.

### C39 Edge filters split exactly the listed edges (proved)

Edge filters with a list: set of split edges = listed edges.
Note: valid mesh taken with contiguous ids, as defined in C08; for Loop, face edges and no isolated points (otherwise no output: C28, C47)

Theorems in `Properties1.v`. Axioms: none.

### C40 Edge filters tolerate repeated edges (partial)

Repeated edges: each repetition inserts an orphan point; exact effect in the theorems.
Note: As stated this is FALSE of the code: (no effect at all) is refuted (C40_refuted)

Theorems in `Properties8.v`, `Refuted.v`. Axioms: none.

### C41 Uniform edge-based and cell-based subdivision agree (partial)

Uniform runs of both families, renaming as in C13; coordinates of Butterfly differ near borders.
Note: As stated this is FALSE of the code: (Butterfly agrees with borders as well) is refuted (C41_butterfly_refuted)

Theorems in `Properties5.v`, `Refuted2.v`. Axioms: reals.

### C42 Uniform sqrt(3) subdivision: 3F cells, V+F points, still a manifold (proved)

sqrt(3) run: invariant over the visited cells for the consumed-edge sentinel (`Root3Run`).
Note: asks for fewer than 2^64 points and cells in all, which holds in any 64-bit address space. 'Valid' is meant as in the glossary of DESIGN.md: contiguous ids and no two triangles on the same points (for these see C30, C43).

Theorems in `Properties6.v`. Axioms: none.

### C43 sqrt(3) subdivision loses no triangle on any closed mesh (partial)

False of the code: two triangles on the same points lose faces, for every such input.
Note: As stated this is FALSE of the code: (3F cells on every mesh) is refuted (C43_refuted)

Theorems in `Properties9.v`, `Refuted.v`. Axioms: none.

### C44 sqrt(3) tolerates a repeated cell id (partial)

sqrt(3) with repeated ids: exact description of the output (`Repeat3`).
Note: As stated this is FALSE of the code: (no effect at all) is refuted (C44_refuted)

Theorems in `Properties8.v`, `Refuted.v`. Axioms: none.

### C45 Linear subdivision preserves surface area (proved)

Gram determinants of the children for each pattern.
Note: 'valid mesh' as in the glossary of DESIGN.md (contiguous ids as spelled out in C08, no two triangles on the same points; for other meshes see C30/C72 and C43/C79); cells and edges in the selection exist and, for Loop, no isolated points (otherwise no output: C28, C29)

Theorems in `Properties4.v`. Axioms: reals.

### C46 The conditional filter keeps cell data (partial)

False of the code: the conditional filter copies geometry without cell data.
Note: As stated this is FALSE of the code: (cell data is kept) is refuted (C46_refuted)

Theorems in `Properties7.v`, `Refuted.v`. Axioms: none.

### C47 Wire edges (partial)

Wire edges are allowed by validity; exception branch of the Loop edge filter.
Note: As stated this is FALSE of the code: with an isolated point, undefined behaviour comes first (C47_refuted). Proved with contiguous ids and, for Loop, without isolated points. Exact form: C88.

Theorems in `Properties10.v`, `Properties11.v`, `Properties2.v`, `Refuted6.v`. Axioms: none.

### C48 Connectivity does not depend on coordinates or scheme (proved)

Relational proof over two runs; `C48_any` by the simulation of C21 with the trivial relation on points.
Note: 'valid mesh' as in the glossary of DESIGN.md (contiguous ids as spelled out in C08, no two triangles on the same points; for other meshes see C30/C72 and C43/C79); cells and edges in the selection exist and, for Loop, no isolated points (otherwise no output: C28, C29). C48_any: same scheme, any inputs at all, the outcomes agree also when the run does not complete.

Theorems in `Properties11.v`, `Properties2.v`, `Properties6.v`. Axioms: none.

### C49 A null criterion or a mesh without containers is rejected cleanly (partial)

Outcome of the drivers for a null criterion and for missing containers, computed for all inputs.
Note: As stated this is FALSE of the code: (an exception in every case) is refuted (C49_refuted)

Theorems in `Properties7.v`, `Refuted.v`. Axioms: none.

### C50 Unreachable thresholds never end (proved)

Below or at zero the criterion selects something on every mesh with a triangle, hence OutOfFuel for every fuel.

Theorems in `Properties4.v`. Axioms: reals.

### C51 Selecting cells equals listing their edges (proved)

Runs of the two families related by a renaming of new ids (`Renum`).

Theorems in `Properties5.v`. Axioms: reals.

### C52 Order and direction of listed edges do not matter (proved)

As C51 for two edge lists.

Theorems in `Properties5.v`. Axioms: reals.

### C53 Adaptive sqrt(3) subdivision (proved)

Explicit list of output triangles `root3` and count (`Root3`).

Theorems in `Properties6.v`. Axioms: none.

### C54 sqrt(3): the reported refinement list (proved)

Ids of the emitted triangles, with the flags of the emit loop.

Theorems in `Properties6.v`. Axioms: none.

### C55 sqrt(3): inherited cell data (proved)

Data of emitted triangles.

Theorems in `Properties6.v`. Axioms: none.

### C56 sqrt(3): border and topology are preserved (proved)

Oriented edges of `root3`.

Theorems in `Properties6.v`. Axioms: none.

### C57 Any mix of the seven filters can be chained (proved)

Induction over `chained`, seven filters.

Theorems in `Properties6.v`. Axioms: none.

### C58 Iterative filter over sqrt(3) (proved)

Induction over levels.

Theorems in `Properties6.v`. Axioms: none.

### C59 sqrt(3): valences (proved)

Neighbours in `root3`, counting.

Theorems in `Properties6.v`. Axioms: none.

### C60 Two sqrt(3) steps trisect the edges (proved)

Two applications of C20/C53.

Theorems in `Properties6.v`. Axioms: reals.

### C61 The output is an oriented edge-manifold and no face is lost (exact conditions) (proved)

Exact form of C05; same theorems.
Note: what holds where C05 as first stated does not; worded after the proofs, clauses read one by one against the theorems listed.

Theorems in `Properties1.v`. Axioms: none.

### C62 Selection order and repetitions do not change the result (exact conditions) (proved)

Exact form of C13; same theorems.
Note: what holds where C13 as first stated does not; worded after the proofs, clauses read one by one against the theorems listed.

Theorems in `Properties5.v`, `Refuted2.v`. Axioms: ClassicalDedekindReals.sig_forall_dec, ClassicalDedekindReals.sig_not_dec, FunctionalExtensionality.functional_extensionality_dep, PrimFloat.add, PrimFloat.div, PrimFloat.eqb, PrimFloat.float, PrimFloat.ltb, PrimFloat.mul, PrimFloat.of_uint63, PrimFloat.opp, PrimFloat.sqrt, PrimFloat.sub, PrimInt63.int, PrimInt63.lor, PrimInt63.lsl, PrimInt63.sub.

### C63 sqrt(3) scheme: one centroid per subdivided triangle (exact conditions) (proved)

Exact form of C20; same theorems.
Note: what holds where C20 as first stated does not; worded after the proofs, clauses read one by one against the theorems listed.

Theorems in `Properties6.v`. Axioms: reals.

### C64 Affine invariance (exact conditions) (proved)

Exact form of C21; same theorems.
Note: what holds where C21 as first stated does not; worded after the proofs, clauses read one by one against the theorems listed.

Theorems in `Properties11.v`, `Properties3.v`, `Properties6.v`. Axioms: reals.

### C65 Loop masks are convex combinations for every valence (exact conditions) (proved)

Exact form of C22; same theorems.
Note: what holds where C22 as first stated does not; worded after the proofs, clauses read one by one against the theorems listed.

Theorems in `Properties11.v`, `Properties3.v`, `Properties6.v`. Axioms: reals.

### C66 Butterfly: the border is refined with the interior mask (proved)

Exact form of C24; same theorems.
Note: what holds where C24 as first stated does not; worded after the proofs, clauses read one by one against the theorems listed.

Theorems in `Properties7.v`, `Refuted.v`. Axioms: reals.

### C67 The documented Loop weight is not the implemented one (proved)

Exact form of C25; same theorems.
Note: what holds where C25 as first stated does not; worded after the proofs, clauses read one by one against the theorems listed.

Theorems in `Properties3.v`. Axioms: reals.

### C68 Which points adaptive Loop subdivision smooths (proved)

Exact form of C26; same theorems.
Note: what holds where C26 as first stated does not; worded after the proofs, clauses read one by one against the theorems listed.

Theorems in `Properties7.v`, `Refuted.v`. Axioms: reals.

### C69 Non-triangle cells: exception, or Update() never ends (proved)

Exact form of C27; same theorems.
Note: what holds where C27 as first stated does not; worded after the proofs, clauses read one by one against the theorems listed.

Theorems in `Properties2.v`. Axioms: none.

### C70 Isolated points are carried over, except by Loop (proved)

Exact form of C28; same theorems.
Note: what holds where C28 as first stated does not; worded after the proofs, clauses read one by one against the theorems listed.

Theorems in `Properties2.v`, `Refuted.v`. Axioms: none.

### C71 Selecting a cell id that does not exist is undefined behaviour (proved)

Exact form of C29; same theorems.
Note: what holds where C29 as first stated does not; worded after the proofs, clauses read one by one against the theorems listed.

Theorems in `Properties2.v`, `Refuted.v`. Axioms: none.

### C72 Non-contiguous point ids (proved)

Exact form of C30; same theorems.
Note: what holds where C30 as first stated does not; worded after the proofs, clauses read one by one against the theorems listed.

Theorems in `Properties7.v`, `Refuted.v`. Axioms: none.

### C73 When re-running a filter on the same input is idempotent (proved)

Exact form of C31; same theorems.
Note: what holds where C31 as first stated does not; worded after the proofs, clauses read one by one against the theorems listed.

Theorems in `Properties2.v`, `Properties7.v`, `Refuted.v`. Axioms: none.

### C74 Conditional filter: nothing to do means an unchanged mesh (exact conditions) (proved)

Exact form of C35; same theorems.
Note: what holds where C35 as first stated does not; worded after the proofs, clauses read one by one against the theorems listed.

Theorems in `Properties4.v`, `Refuted3.v`. Axioms: reals.

### C75 Edge filters split exactly the listed edges (exact conditions) (proved)

Exact form of C39; same theorems.
Note: what holds where C39 as first stated does not; worded after the proofs, clauses read one by one against the theorems listed.

Theorems in `Properties1.v`. Axioms: none.

### C76 Edge filters with repeated edges (proved)

Exact form of C40; same theorems.
Note: what holds where C40 as first stated does not; worded after the proofs, clauses read one by one against the theorems listed.

Theorems in `Properties8.v`, `Refuted.v`. Axioms: none.

### C77 Uniform edge-based and cell-based subdivision agree (exact conditions) (proved)

Exact form of C41; same theorems.
Note: what holds where C41 as first stated does not; worded after the proofs, clauses read one by one against the theorems listed.

Theorems in `Properties5.v`, `Refuted2.v`. Axioms: reals.

### C78 Uniform sqrt(3) subdivision: 3F cells, V+F points, still a manifold (exact conditions) (proved)

Exact form of C42; same theorems.
Note: what holds where C42 as first stated does not; worded after the proofs, clauses read one by one against the theorems listed.

Theorems in `Properties6.v`. Axioms: none.

### C79 Two triangles on the same three points make every filter lose triangles (proved)

Exact form of C43; same theorems.
Note: what holds where C43 as first stated does not; worded after the proofs, clauses read one by one against the theorems listed.

Theorems in `Properties9.v`, `Refuted.v`. Axioms: none.

### C80 sqrt(3) with a repeated cell id (proved)

Exact form of C44; same theorems.
Note: what holds where C44 as first stated does not; worded after the proofs, clauses read one by one against the theorems listed.

Theorems in `Properties8.v`, `Refuted.v`. Axioms: none.

### C81 The conditional filter drops cell data (proved)

Exact form of C46; same theorems.
Note: what holds where C46 as first stated does not; worded after the proofs, clauses read one by one against the theorems listed.

Theorems in `Properties7.v`, `Refuted.v`. Axioms: none.

### C82 Null criterion and missing containers (proved)

Exact form of C49; same theorems.
Note: what holds where C49 as first stated does not; worded after the proofs, clauses read one by one against the theorems listed.

Theorems in `Properties7.v`, `Refuted.v`. Axioms: none.

### C83 Output cells are numbered 0, 1, 2, ... and every oriented edge has one owner (proved)

As C04: the cell container is extended by `add_face` only, which gives the next id and refuses occupied oriented edges.

Theorems in `Properties11.v`. Axioms: none.

### C84 The output is again a valid input (exact conditions) (proved)

Exact form of C08; same theorems.
Note: exact form of C08.

Theorems in `Properties1.v`, `Properties10.v`, `Refuted3.v`. Axioms: none.

### C85 Loop scheme: vertex rule (exact conditions) (proved)

Exact form of C18; same theorems.
Note: exact form of C18.

Theorems in `Properties3.v`, `Refuted3.v`. Axioms: reals.

### C86 Conditional refinement by cell area terminates (exact conditions) (proved)

Exact form of C36; same theorems.
Note: exact form of C36; the counterexample without triangles has rational coordinates.

Theorems in `Properties4.v`, `Refuted3.v`. Axioms: reals.

### C87 Conditional refinement by edge length terminates (exact conditions) (proved)

Exact form of C37; same theorems.
Note: exact form of C37; the counterexample without triangles has rational coordinates.

Theorems in `Properties4.v`, `Refuted3.v`. Axioms: reals.

### C88 Wire edges (exact conditions) (proved)

Exact form of C47; same theorems.
Note: exact form of C47.

Theorems in `Properties10.v`, `Properties11.v`, `Properties2.v`, `Refuted6.v`. Axioms: none.

### C89 Linear filters never leave the bounding box, rounding included (proved)

`(x + y) / 2` rounded lies between x and y: the rounding of x + y is monotone and 2x, 2y are floating-point numbers (`Flt`). The invariant "every coordinate in the box" goes through a run by the simulation `SimId` (`FltBox`), and through the drivers by induction.
Note: every operation is rounded in one format; for float coordinates this is also what the code does, because halving in double is exact.

Theorems in `Properties12.v`. Axioms: reals, classic.

### C90 A coordinate that all points share is preserved exactly (partial)

C89 with a box of width zero. Counterexample for the other schemes computed in binary64 (`Refuted4`).
Note: As stated this is FALSE of the code for the Loop, Butterfly and sqrt(3) schemes: C90_refuted moves points off the plane z = 0.01 in binary64. Proved for the two Linear filters (C90_linear_partial)

Theorems in `Properties12.v`, `Refuted4.v`. Axioms: ClassicalDedekindReals.sig_forall_dec, ClassicalDedekindReals.sig_not_dec, Classical_Prop.classic, FunctionalExtensionality.functional_extensionality_dep, PrimFloat.add, PrimFloat.div, PrimFloat.eqb, PrimFloat.float, PrimFloat.ltb, PrimFloat.mul, PrimFloat.of_uint63, PrimFloat.opp, PrimFloat.sqrt, PrimFloat.sub, PrimInt63.int, PrimInt63.lor, PrimInt63.lsl, PrimInt63.sub.

### C91 Rounding errors of one run are bounded and do not change the topology (proved)

Two runs related by the simulation `SimId`: same control flow for any two coordinate arithmetics, because no filter looks at a coordinate to decide anything. Each mask is then bounded operation by operation with the error of one rounding (`Flt`, `FltRun`), the Loop vertex rule by induction over the ring (`FltLoop`).
Note: every operation is rounded in one format: exact for double coordinates; with float coordinates the C++ code evaluates parts in double (DESIGN.md section 3)

Theorems in `Properties12.v`. Axioms: reals, classic.

### C92 Rounding errors of the iterative filter grow at most linearly with the levels (proved)

Induction over levels with C91; exact Linear and sqrt(3) masks are convex, so M does not grow (`FltIter`).
Note: every operation is rounded in one format: exact for double coordinates; with float coordinates the C++ code evaluates parts in double (DESIGN.md section 3)

Theorems in `Properties12.v`. Axioms: reals, classic.

### C93 Linear subdivision does not change the surface as a set of points (proved)

The children of a triangle with 0 to 3 split edges cover it: barycentric coordinates, case by case (`Shape`); then induction over the chain, the levels or the rounds, with "same surface" as transitive relation (`run_rel`).
Note: real arithmetic.

Theorems in `Properties13.v`. Axioms: reals.

### C94 Linear subdivision preserves every additive quantity of the surface, such as the enclosed volume (proved)

A split triangle is obtained by repeated cuts from a corner to a midpoint, so the value adds up; induction as in C93.
Note: real arithmetic; C94_volume is the instance for the enclosed volume.

Theorems in `Properties13.v`. Axioms: reals.

### C95 Linear subdivision never turns a triangle over; every other scheme can (proved)

Each child has w = 1/2 or 1/4 times the normal of its parent, case by case; products of such factors along the run. Counterexample by computation (`Refuted5`).
Note: C95 for the Linear filters in real arithmetic; C95_flips is the planar mesh on which the other five filters turn a triangle over (exact rational arithmetic)

Theorems in `Properties13.v`, `Refuted5.v`. Axioms: reals.

### C96 Uniform Linear levels: exact half-size copies (proved)

A four-way child is the parent scaled by 1/2 or -1/2; induction over the levels.
Note: real arithmetic.

Theorems in `Properties13.v`. Axioms: reals.

### C97 Valences after a uniform face-split run (proved)

The oriented edges of the output are described corner by corner (`out_dirs` in `Valence`), the neighbours of a point follow as an explicit list without repetition.

Theorems in `Properties13.v`. Axioms: none.

### C98 Locality: which input points an output point can depend on (proved)

Same numbering of new points in both runs (it depends on the connectivity only), then each mask is read off the two meshes (`Local`).
Note: C98 for the six face-split filters, C98_root3 for sqrt(3)

Theorems in `Properties13.v`. Axioms: none.

### C99 A positive threshold below the floating-point resolution makes the conditional filter run forever (proved)

Edge length: the rounded midpoint of two neighbouring numbers is one of them (`mid_between` of C89), so one half of the split edge again joins the two positions, and the computed length is exact; this is an invariant of the rounds of `edge_never` (`Stuck`). Area: with odd last digits the midpoints round away from the first corner, the corner child is the triangle itself; computed in binary64, invariant of `area_never` (`Stuck64`).
Note: C99_length, C99_area.

Theorems in `Properties14.v`. Axioms: reals, classic.

### C100 Thresholds well above the floating-point resolution do end the conditional edge filter (proved)

The computed length decides `>` T correctly up to 5 per cent of the squared length (`FltLen`). One round is compared with the same round in real arithmetic on the same coordinates (C91), whose child edges are at most M/2 + q1/2 - q0/4 long in square (`child_edge2`); the noise is absorbed in 10 per cent, so the longest splittable edge shrinks by the factor 1.2 in square per round (`FltTerm`).
Note: every operation is rounded in one format: exact for double coordinates; with float coordinates the C++ code evaluates parts in double (DESIGN.md section 3)

Theorems in `Properties15.v`. Axioms: reals, classic.

### C101 Uniform levels shorten every edge geometrically, for all four schemes (proved)

Every edge of a level is a weighted sum of edge vectors of its input; its length is at most the sum of the absolute weights times L (`comb_len`, Cauchy-Schwarz). Loop: the sum |3/8-b| + 2|1/8-b| + (n-3)b is at most 7/8 for every valence n >= 3 (`loop_beta_bounds`, bounds of the cosine for n up to 6, 18, 24 and above). The output of a level satisfies the hypotheses again: one fan per border point (`loop_fans`), closed (C06, C56), no isolated points.

Theorems in `Properties16.v`. Axioms: reals.

### C102 Uniform levels converge: every point has a limit position, and the surface stops moving geometrically fast (proved)

Steps of one level (`level_facts`) summed as a geometric series with the triangle inequality (`lev_pts`); k levels are j levels followed by k-j (`lev_split`, `lev_det`). The limit is the least upper bound of the lower ends of the intervals (`limit_of`), no choice of a sequence.

Theorems in `Properties16.v`. Axioms: reals.

### C103 Loop edge filter with the edge-length criterion ends for every positive threshold (proved)

Loop puts the point of an edge v w with third corners z, b at 3/8 v + 3/8 w + 1/8 z + 1/8 b; on the border b is replaced by v + w - z, which gives the midpoint. With M the longest edge and L the threshold, a child edge is at most L long, or has a square of at most 9/16 M^2 + 3/16 L^2 (`child_good`: half edges by convexity, medians by the parallelogram law and because one of the sides beside a median is not split). Then `rounds_terminate` with the bound (L^2/2)(1 + (3/2)^n). The Butterfly edge filter is C110.

Theorems in `Properties17.v`. Axioms: reals.

### C104 How many rounds the conditional filter makes, and how large its output can get (proved)

`rounds_count` (Cond): an upper and a lower bound that each round lowers by one. Areas: a selected triangle is replaced by four quarters (`child_area`), the others by parts. Lengths: `child_edge`, `child_good` for the upper bound, the half of a split side for the lower. Size: `rf_count`, at most four children per triangle and round.
Note: C104_area, C104_length, C104_length_loop.

Theorems in `Properties17.v`. Axioms: reals.

### C105 What earlier calls on the same filter object leave behind (proved)

Sessions are an inductive relation on objects (`SpecSession`). An update first overwrites every member it reads except the list and Loop's flag: `update_members`, `copy_e_indep`, `edges_loop_csel` (Any), induction over the calls (`Session`). Conditional filter: the selection is overwritten in every round, the criteria ignore the old list.
Note: Five theorems: cell-based filters, edge-based filters, iterative filter, conditional filter with each criterion. The exception for the Loop cell filter is needed: C105_loop_refuted runs the same conditional filter twice on the same mesh and gets two outputs. The model keeps the whole object state (m_Uniform, both lists, m_EdgesPointIdentifier); time stamps of the pipeline are not modelled.

Theorems in `Properties18.v`. Axioms: none.

### C106 The conditional sqrt(3) filter with the area criterion ends for every positive threshold (proved)

Invariant `stage` of the rounds (`CondRoot3`): every triangle over the threshold has sides up to B, and either all its sides are at most 2/3 B, or its area is at most t 3^k. A round lowers k by one: a triangle that keeps an old side has a third of the area (`area_loc`), all new sides are at most 2/3 B (`comb_len`). At k = 0 the bound B is replaced by 2/3 B; when B^2/2 <= t nothing is selected. The size stays below V + F (3^(n+1) - 1)/2.

Theorems in `Properties19.v`. Axioms: reals.

### C107 The conditional Butterfly filter with the area criterion can run for ever, for every positive threshold (proved)

One round by hand for any coordinate arithmetic (`Endless`): if the triangle (v, q, c) is the only one selected, the new triangle (v, q1, c1) has again the neighbours it needs, `stencil_eval` gives the positions of q1, c1 and of the midpoint of q c, and the neighbours are halved (`step`, `endless`). Reals: the affine relations of `recurring` make the new points fall on q and c, all other new triangles have at most half the area or lie inside old ones (`EndlessReal`); scaling the mesh `emesh` gives every t. binary64: all values are small integers or halves, computed exactly, and the computed areas are compared with t by Flocq (`Endless64`).

Theorems in `Properties20.v`. Axioms: reals, classic.

### C108 Area thresholds well above the floating-point resolution do end the conditional Linear filter (proved)

The computed Heron area decides `>` T correctly up to a relative error of the squared area of at most 3 per cent (`heron_apx`, `area_true`, `area_false` in `FltHeron`). One round is compared with the same round in real arithmetic (C91); squared areas are polynomials of the coordinates, the perturbation is at most T^2/100 (`area_near`, `A_noise` in `FltArea`). A selected triangle leaves four quarters, a split one that is not selected halves at most, an unsplit one keeps its coordinates and stays unselected; so the largest area that can still be selected halves in square every round.
Note: every operation is rounded in one format: exact for double coordinates; with float coordinates the C++ code evaluates parts in double (DESIGN.md section 3)

Theorems in `Properties21.v`. Axioms: reals, classic.

### C109 The conditional Loop filter with the area criterion can run for ever, even when no triangle exceeds the threshold (proved)

One round by hand for any coordinate arithmetic and an invariant relation `St` on the three moving points (`EndlessLoop`: `lstep`, `lendless`); the cell number of the selected triangle stays above all point ids, so adaptive Loop smooths nothing (C26/C68). Reals: with v as origin q + c stays fixed and q - c follows h -> h/4 + k/16, which tends to the area t from above; all other new triangles are bounded by products of the parameters (`EndlessLoopReal`). binary64: q, c and x are reproduced exactly and the computed Heron area of (c, v, q) is 56 + 2^-47 or so; for a new object the first, smoothing round is computed (`first_run`) and leads into the same invariant (`two_phases`). Exact areas by integer Gram determinants (`zarea`).
Note: exact arithmetic: for filter states with the uniform flag off; binary64: for all states.

Theorems in `Properties22.v`. Axioms: reals, classic.

### C110 The conditional Butterfly edge filter with the edge-length criterion ends on closed meshes for every positive threshold (proved)

With M the longest edge and L the threshold, the halves of a split edge and the edges between two new points are at most 3/4 M (`wing_half`, `butterfly_edge_facts`); the edge to the third corner is at most 7/8 of the median plus M/4 (`wing_median`), and one of the sides beside the median is at most L. This lowers M by a factor as long as M > 9/8 L. After that, an edge longer than L is a median just made, and in both its triangles one other side is at most 3/4 M and the other at most L (`piece_tri`); so its halves and the medians of the next round are at most L (`near_step`). Closed is needed because on a border the mask reaches across the hole; there nothing is claimed (random searches found no endless run).

Theorems in `Properties23.v`. Axioms: reals.

### C111 Where the points go under repeated Loop subdivision (proved)

`loop_limit` is written from the literature, not from the code. One level leaves the position where it is (`limit_step`): the new neighbours of an old point are its edge points (`old_joined`), their sum is 3/8 n v + 5/8 S by the edge rule and a shift of the ring, and with the vertex rule the combination is unchanged; the same with the two border neighbours. Distance: the position differs from the point by a combination of edges with weights of total at most 5/8 (`limit_near`), and level k has edges at most (7/8)^k L (C101).

Theorems in `Properties24.v`. Axioms: reals.

### C112 Polynomials on regular pieces: Butterfly reproduces cubics, Loop shifts quadratics by a constant (proved)

The stencils of C17/C18/C19, the parameters of the outer points from those of one triangle by the parallelogram rule, then identities between polynomials (`field`). For the vertex rule the ring of an inner point with six neighbours lists its faces in order (`ring6`) and the Loop weight is 1/16 (`weight6`).

Theorems in `Properties25.v`. Axioms: reals.

### C113 Length thresholds well above the floating-point resolution do end the conditional Loop edge filter (proved)

As C100, with the inequalities of C103 for two thresholds: an edge that is split has 0.95 T^2 < length^2, one that is kept has length^2 <= 1.05 T^2, so a new median has length^2 at most 9/16 W + 7/16 1.05 T^2 - 1/4 0.95 T^2 (`child_fine`), and with the rounding error of the round (C91) less than 7/8 W as long as W > 0.95 T^2 (`loop_round`). The box grows by the rounding error in each round, because the exact rule is a convex combination (C22); hence the bound on the number of rounds in the hypotheses (`QB`).
Note: every operation is rounded in one format: exact for double coordinates; with float coordinates the C++ code evaluates parts in double (DESIGN.md section 3)

Theorems in `Properties26.v`. Axioms: reals, classic.

### C114 The ids of new points and new cells follow a fixed order (proved)

The walk of the filter is written down without the edge map (`walk`, `first_at` in `SpecNum`). The inserted edges are the walk with later repetitions left out, in the order of first occurrence (`ins_list_order`); `fr_Ls` gives the list of children of every triangle. Found by a mutant that swapped the two children of a triangle with one split edge and broke no theorem.
Note: the order of the output cells of the sqrt(3) filter is C118.

Theorems in `Properties27.v`. Axioms: none.

### C115 The result does not depend on position, orientation and unit of length (proved)

Two runs in lock step: `update_sim` for one update with the relation "image of" between points, `cond_sim` and `iter_sim` (`SimDrive`) for the drivers, any criterion. Computed lengths are multiplied by s and Heron areas by s^2 (`sim_dist`, `sim_area_eq`), so both criteria select the same. Loop needs one fan at each point in every round: preserved by every run (`fans_step`).

Theorems in `Properties28.v`. Axioms: reals.

### C116 Mirror images in floating point give mirror images, bit for bit (proved)

`update_sim` and `cond_sim` with the relation "mirrored". Every operation of the masks maps opposite operands to opposite results (`plus_opp`, `mult_opp`, `div_opp` from the specification of the IEEE operations in Flocq, all cases of infinities and NaN), and the squares in the lengths are equal (`square_opp`).
Note: every operation is rounded in one format: exact for double coordinates; with float coordinates the C++ code evaluates parts in double (DESIGN.md section 3)

Theorems in `Properties29.v`. Axioms: reals, classic.

### C117 Every coordinate axis is treated alone and alike (proved)

`update_sim` and `iter_sim` with the relation "has the coordinates ax(i)": all rules are `map` or `map2` over coordinates (`x_map2`, `x_comb`).
Note: the conditional filter is left out: lengths and areas do depend on all axes.

Theorems in `Properties29.v`. Axioms: none.

### C118 The sqrt(3) filter numbers its cells in a fixed order (proved)

Induction over the input cells in the plan of the run (`plan3`), with the invariant that the edges already done are those of the earlier subdivided cells (`order3`); an edge has at most one cell beyond it, at one position, so the marker test is a comparison of positions (`made3_ok`).

Theorems in `Properties30.v`. Axioms: none.

### C119 The result is a function of the surface, not of its numbering (proved)

`same_run`: the correspondence is extended to the new points by sending the point of an edge to the point of the corresponding edge (`carry`, `q_mid`); triangles correspond because the split of a triangle is a function of its starting point and its three midpoints (`split_tri`), and does not depend on the starting point if all three edges are split (`tri_face`); coordinates by comparing weighted masks: neighbour rings are permutations of each other (`ring_same`, `vertex_same`), edge masks are symmetric (`mask_same`, `mask_sym`). sqrt(3): centres of corresponding triangles (`carry3`, `partner`). Levels by induction (`same_lev`). `C119_corner_refuted` and `C119_border_refuted` are computed.

Theorems in `Properties31.v`. Axioms: reals.

### C120 A separate piece of a mesh is subdivided as if it were alone (proved)

`piece_run`, with the tools of C119 from one side only. The points of the part are sent into the result for the whole by `carry`; this is one-to-one (`q_inj`), and a triangle of the result with a corner in the image comes from a triangle with a corner in the part (`source_tri`, by cases over the ways to split a triangle), which belongs to the part (`touch`), so all its children are images (`q_child`, `q_whole`). Coordinates: a mask only reads triangles that share a corner with the part. sqrt(3): `piece_run3` (`q3_inj`, `touch_new`, `q3_child`). Levels by induction (`piece_lev`).

Theorems in `Properties32.v`. Axioms: reals.

### C121 Turning a surface inside out turns the result inside out (proved)

As C119, with the orientation exchanged throughout (Turn.v): a directed edge (a, b) of a triangle corresponds to (r b, r a) (`ss_dir`), so left and right neighbours, next and previous edges change places and the masks are compared by `ring` (`mask_same`); the four children of a fully split triangle are turned one by one (`tri_face`); the two triangles of a swapped edge in sqrt(3) change places (`q3_tri`). Levels by induction (`same_lev`). `C121_adaptive_refuted` is computed.

Theorems in `Properties33.v`. Axioms: reals.

### C122 The conditional filters' result is a function of the surface, not of its numbering (proved)

What the criteria select is put in terms of areas and lengths (`area_split`, `len_split`), which corresponding triangles and edges share; so every round splits corresponding edges, and the one-run lemma of C119, extended by the starting points of the new cells (`same_run_c`, `tri_corner`), carries the correspondence to the next round (`loop_same`). That the second run ends follows by induction on the fuel of the first (`loop_ends`). sqrt(3): both runs side by side with the measure of C106 (`rounds3_same`); the area does not depend on the starting point (`area_turn`).

Theorems in `Properties34.v`. Axioms: reals.

### C123 The conditional filters treat a separate piece of a mesh as if it were alone (proved)

Induction on the rounds of the run on the whole (`loop_part`). Areas and lengths of the part are those in the whole (`area_part`, `seg_part`), so what is selected in the part is selected in the whole (`area_big`, `len_long`). If the part alone still selects something, the one-run lemma of C120 is used, extended by the starting points of the new cells (`part_run`); if it selects nothing but the whole does, no edge of the part is split and the part stays as it is (`part_idle`). sqrt(3): the same with `piece_run3`, `idle3` and the measure of C106 on the whole (`rounds3_piece`).

Theorems in `Properties35.v`. Axioms: reals.

### C124 In floating point the linear filters' result is a function of the surface, bit for bit (proved)

The proofs of C119 and C122 use of the arithmetic, for the linear filters, only that the sum of two numbers does not depend on their order (`any_run`, `any_levels`, `cells_any`), and for the length criterion that the square of a difference does not (`sq_sym`, `edges_any`); they are repeated for any arithmetic with these two laws (SameAny.v, CondAny.v). Floating-point addition and subtraction obey them (`flt_comm`, `flt_anti`). `C124_sqrt3_refuted`, `C124_loop_refuted` and `C124_butterfly_refuted` are computed in binary64.

Theorems in `Properties36.v`. Axioms: reals, classic.

### C125 In floating point, turning the surface inside out changes no bit of the linear filters' result (proved)

The proof of C121 uses of the arithmetic, for the linear filters, only that the sum of two numbers does not depend on their order; it is repeated for any arithmetic with this law (`turn_run`, `turn_levels`, `turn_edges` in TurnAny.v) and applied with `flt_comm`. `C125_sqrt3_refuted` is computed in binary64.

Theorems in `Properties37.v`. Axioms: reals, classic.

## 6. Axioms

`Print Assumptions` follows every theorem in the `Properties*.v` and `Refuted*.v` files. Theorems over an arbitrary coordinate
arithmetic are closed under the global context. Theorems over `R` use the axioms of the standard library's real numbers:
`ClassicalDedekindReals.sig_not_dec`, `ClassicalDedekindReals.sig_forall_dec`,
`FunctionalExtensionality.functional_extensionality_dep`. Theorems on floating-point arithmetic (C89 to C92, C99, C100, C107 to C109, C113, C116)
also use `Classical_Prop.classic`, on which Flocq's rounding theory rests. The two counterexamples in binary64
(`C13_binary64_refuted`, `C90_refuted`) compute with the primitive floats and integers of the kernel, which `Print Assumptions` lists as primitives.

## 7. Mutation tests

`seeded/LOG.jsonl` has one line per wrong program: the definition of the model that was edited, the edit, the claim it breaks,
the theorems that stopped compiling, and theorems tightened afterwards.

## 8. Behaviour of the code a user may not expect

Each item is proved for the model; the theorem names are under the property in section 5.

* Runs that never end: the conditional filter with a threshold that cannot be reached (C50), with a positive threshold below
  the resolution of the coordinates (C99), around the Butterfly filter with any area threshold for some meshes (C107),
  and around the Loop filter, in binary64 even when no triangle is larger than the threshold (C109);
  a cell that is no triangle (C27/C69).
* Undefined behaviour: an isolated point with Loop (C28/C70), a selected id that does not exist (C29/C71).
* Wrong output: ids with gaps (C30/C72), two triangles on the same three points (C43/C79), a repeated id with sqrt(3) (C44/C80).
* Runs on a used object can differ: Loop remembers whether its last run was without a selection, selections persist (C31/C73, C105).
* Positions: the Loop edge filter does not move the old points (C41/C77), adaptive Loop smooths by cell id (C26/C68), the documented
  Loop weight is not the implemented one (C25/C67), every scheme except Linear can turn triangles of a planar mesh over (C95),
  Butterfly uses the interior mask on the border (C24/C66), in binary64 every scheme except Linear can leave a plane (C90),
  Butterfly near a border depends on the order of the cells, and adaptive runs on the point a cell starts with (C119) and on the orientation (C121).
* Lost content: edges without triangles (C47/C88), cell data in the conditional filter (C46/C81).
