{"id": "C01", "title": "Uniform subdivision completes and quadruples the faces", "statement": "When no cell has been selected, Update() of the Linear, Loop and modified Butterfly cell filters on a valid triangle mesh terminates, raises no exception, meets no undefined behaviour, and its output has exactly four cells for every input cell.", "quantifier": "for every valid triangle mesh (no two triangles on the same three points) with contiguous point ids, of any size, genus and number of borders, every coordinate arithmetic, and each of the three schemes; for Loop every point has an edge", "why_tests_cant": "A test fixes a handful of meshes; whether some valence/border/component pattern makes one insertion of a face fail (and the face silently disappear) can only be excluded for all meshes at once.", "anchors": [{"file": "include/itkTriangleCellSubdivisionQuadEdgeMeshFilter.hxx", "symbols": ["GenerateOutputPoints"]}, {"file": "include/itkTriangleCellSubdivisionQuadEdgeMeshFilter.hxx", "symbols": ["GenerateOutputCells"]}, {"file": "include/itkTriangleCellSubdivisionQuadEdgeMeshFilter.hxx", "symbols": ["SplitTriangleFromThreeEdges"]}, {"file": "include/itkLinearTriangleCellSubdivisionQuadEdgeMeshFilter.hxx", "symbols": ["AddNewCellPoints"]}, {"file": "include/itkLoopTriangleCellSubdivisionQuadEdgeMeshFilter.hxx", "symbols": ["AddNewCellPoints"]}, {"file": "include/itkModifiedButterflyTriangleCellSubdivisionQuadEdgeMeshFilter.hxx", "symbols": ["AddNewCellPoints"]}]}
{"id": "C02", "title": "One new point per triangle edge, shared by both sides", "statement": "Uniform Linear/Loop/Butterfly subdivision adds exactly one point per undirected edge that borders a triangle; two triangles sharing an edge refer to the same new point id, and distinct edges get distinct new points.", "quantifier": "for every valid triangle mesh with contiguous point ids", "why_tests_cant": "Cracks show up only when two specific neighbours disagree on one id; tests compare counts on a few meshes.", "anchors": [{"file": "include/itkTriangleCellSubdivisionQuadEdgeMeshFilter.hxx", "symbols": ["GenerateOutputPoints"]}, {"file": "include/itkLinearTriangleCellSubdivisionQuadEdgeMeshFilter.hxx", "symbols": ["AddNewCellPoints"]}, {"file": "include/itkLoopTriangleCellSubdivisionQuadEdgeMeshFilter.hxx", "symbols": ["AddNewCellPoints"]}, {"file": "include/itkModifiedButterflyTriangleCellSubdivisionQuadEdgeMeshFilter.hxx", "symbols": ["AddNewCellPoints"]}]}
{"id": "C03", "title": "Original point ids survive; new ids are fresh and contiguous", "statement": "After any Update() of a cell or edge filter the output contains every input point id, and the new points occupy exactly the ids V, V+1, ...; no output point is overwritten by another.", "quantifier": "for every valid mesh whose V point ids are 0..V-1 and every selection", "why_tests_cant": "Depends on the interplay of a locally incremented counter and the container size for every history of insertions.", "anchors": [{"file": "include/itkTriangleCellSubdivisionQuadEdgeMeshFilter.hxx", "symbols": ["GenerateOutputPoints"]}, {"file": "include/itkLinearTriangleCellSubdivisionQuadEdgeMeshFilter.hxx", "symbols": ["AddNewCellPoints"]}, {"file": "include/itkLoopTriangleCellSubdivisionQuadEdgeMeshFilter.hxx", "symbols": ["AddNewCellPoints"]}, {"file": "include/itkModifiedButterflyTriangleCellSubdivisionQuadEdgeMeshFilter.hxx", "symbols": ["AddNewCellPoints"]}, {"file": "include/itkSquareThreeTriangleCellSubdivisionQuadEdgeMeshFilter.hxx", "symbols": ["AddNewCellPoints"]}, {"file": "include/itkTriangleEdgeCellSubdivisionQuadEdgeMeshFilter.hxx", "symbols": ["GenerateOutputPoints"]}]}
{"id": "C04", "title": "Every output face is a proper triangle on existing points", "statement": "Every cell of the output is a polygon with three pairwise different point ids, all of them present in the output's point container.", "quantifier": "for every valid triangle mesh, every scheme, every selection of cells or edges, including triangles with 0, 1, 2 or 3 split edges", "why_tests_cant": "There are 8 split patterns per triangle times arbitrary neighbourhoods; degenerate triangles appear only in particular combinations.", "anchors": [{"file": "include/itkTriangleCellSubdivisionQuadEdgeMeshFilter.hxx", "symbols": ["GenerateOutputCells"]}, {"file": "include/itkTriangleCellSubdivisionQuadEdgeMeshFilter.hxx", "symbols": ["SplitTriangleFromOneEdge", "SplitTriangleFromTwoEdges", "SplitTriangleFromThreeEdges"]}, {"file": "include/itkSquareThreeTriangleCellSubdivisionQuadEdgeMeshFilter.hxx", "symbols": ["GenerateOutputCells"]}]}
{"id": "C05", "title": "The output is an oriented edge-manifold and no face is lost", "statement": "In the output of the Linear/Loop/Butterfly cell filters every oriented edge belongs to at most one cell (so every edge has at most two faces with opposite orientation), and every triangle the subdivision rule prescribes is present: the mesh never rejects a face.", "quantifier": "for every valid triangle mesh and every list of selected cell ids", "why_tests_cant": "Rejected faces are dropped silently (null quad-edge), so a passing count test on one mesh says nothing about the next.", "anchors": [{"file": "include/itkTriangleCellSubdivisionQuadEdgeMeshFilter.hxx", "symbols": ["GenerateOutputCells"]}, {"file": "include/itkTriangleCellSubdivisionQuadEdgeMeshFilter.hxx", "symbols": ["SplitTriangleFromOneEdge", "SplitTriangleFromTwoEdges", "SplitTriangleFromThreeEdges"]}]}
{"id": "C06", "title": "Borders are preserved: closed stays closed, border edges are only bisected", "statement": "An output edge is a border edge exactly if it is an unsplit border edge of the input or one half of a split border edge; hence a closed mesh stays closed and uniform subdivision doubles the number of border edges.", "quantifier": "for every valid triangle mesh and every selection, face-split cell schemes", "why_tests_cant": "Holes (cracks) can open at any of unboundedly many edges; visual or count tests miss them.", "anchors": [{"file": "include/itkTriangleCellSubdivisionQuadEdgeMeshFilter.hxx", "symbols": ["GenerateOutputCells"]}, {"file": "include/itkLinearTriangleCellSubdivisionQuadEdgeMeshFilter.hxx", "symbols": ["AddNewCellPoints"]}, {"file": "include/itkLoopTriangleCellSubdivisionQuadEdgeMeshFilter.hxx", "symbols": ["AddNewCellPoints"]}, {"file": "include/itkModifiedButterflyTriangleCellSubdivisionQuadEdgeMeshFilter.hxx", "symbols": ["AddNewCellPoints"]}]}
{"id": "C07", "title": "Topology is preserved: the Euler characteristic does not change", "statement": "V - E + F of the output equals V - E + F of the input, where V counts points, E undirected edges and F cells.", "quantifier": "for every valid triangle mesh without wire edges and every selection, cell-based Linear/Loop/Butterfly filters", "why_tests_cant": "The class documentation promises to 'maintain surface genus' for arbitrary neighbourhoods of arbitrary selections.", "anchors": [{"file": "include/itkTriangleCellSubdivisionQuadEdgeMeshFilter.h", "symbols": ["TriangleCellSubdivisionQuadEdgeMeshFilter"]}, {"file": "include/itkTriangleCellSubdivisionQuadEdgeMeshFilter.hxx", "symbols": ["GenerateOutputCells"]}]}
{"id": "C08", "title": "The output is again a valid input (filters compose)", "statement": "If the input mesh is valid (triangles, one face per oriented edge, consistent edge rings around every point, every edge listed once in the edge container, contiguous point ids) then so is the output, so filters can be chained any number of times.", "quantifier": "for every valid mesh, every selection and every number of chained applications of the face-split cell filters", "why_tests_cant": "Chaining depth is unbounded and each level multiplies the mesh size by four.", "anchors": [{"file": "include/itkTriangleCellSubdivisionQuadEdgeMeshFilter.hxx", "symbols": ["GenerateOutputCells"]}, {"file": "include/itkTriangleCellSubdivisionQuadEdgeMeshFilter.hxx", "symbols": ["GenerateOutputPoints"]}, {"file": "include/itkIterativeTriangleCellSubdivisionQuadEdgeMeshFilter.hxx", "symbols": ["GenerateData"]}]}
{"id": "C09", "title": "Adaptive subdivision leaves no T-junction", "statement": "If a point was inserted on an input edge {a,b}, no output edge joins a and b directly, and every input triangle at that edge is replaced by triangles that use the two halves; edges on which nothing was inserted remain edges of the output.", "quantifier": "for every valid triangle mesh and every list of selected cells", "why_tests_cant": "T-junctions depend on which of the unboundedly many neighbours are selected.", "anchors": [{"file": "include/itkTriangleCellSubdivisionQuadEdgeMeshFilter.hxx", "symbols": ["GenerateOutputCells"]}, {"file": "include/itkTriangleCellSubdivisionQuadEdgeMeshFilter.hxx", "symbols": ["SplitTriangleFromOneEdge", "SplitTriangleFromTwoEdges", "SplitTriangleFromThreeEdges"]}]}
{"id": "C10", "title": "A triangle with k split edges becomes k+1 triangles; selected triangles become 4", "statement": "Exactly the edges of the selected triangles are split; each input triangle yields 1 + (number of its split edges) output cells, consecutive in the order of the input cells; in particular each selected triangle yields four.", "quantifier": "for every valid triangle mesh and every non-empty list of valid cell ids (repetitions allowed)", "why_tests_cant": "Number of selection patterns is exponential in the number of cells.", "anchors": [{"file": "include/itkTriangleCellSubdivisionQuadEdgeMeshFilter.hxx", "symbols": ["GenerateOutputPoints"]}, {"file": "include/itkTriangleCellSubdivisionQuadEdgeMeshFilter.hxx", "symbols": ["GenerateOutputCells"]}]}
{"id": "C11", "title": "Untouched triangles are copied verbatim", "statement": "A triangle none of whose edges belongs to a selected triangle appears in the output with the same three point ids in the same order, exactly once.", "quantifier": "for every valid triangle mesh, every selection", "why_tests_cant": "Locality has to hold for every cell far from the selection in every mesh.", "anchors": [{"file": "include/itkTriangleCellSubdivisionQuadEdgeMeshFilter.hxx", "symbols": ["GenerateOutputCells"]}]}
{"id": "C12", "title": "The reported refinement list is exactly the set of four-way children", "statement": "After an adaptive Update(), GetCellsToBeSubdivided() lists, in ascending order and without repetition, exactly the ids of output cells whose parent had all three edges split; each listed id exists in the output. After a uniform Update() the list is empty.", "quantifier": "for every valid triangle mesh, every selection, face-split cell filters", "why_tests_cant": "The iterative driver feeds this list back; a single stale or missing id corrupts every further level.", "anchors": [{"file": "include/itkTriangleCellSubdivisionQuadEdgeMeshFilter.hxx", "symbols": ["GenerateOutputCells", "SplitTriangleFromThreeEdges"]}, {"file": "include/itkIterativeTriangleCellSubdivisionQuadEdgeMeshFilter.hxx", "symbols": ["GenerateData"]}]}
{"id": "C13", "title": "Selection order and repetitions do not change the result", "statement": "Permuting the selected cell ids or repeating some of them gives the same output mesh up to a renumbering of the new points: same number of points and cells, and cell by cell the same triangles under the renumbering, with the same coordinates.", "quantifier": "for every valid triangle mesh and every two selection lists with the same set of ids, Linear/Loop/Butterfly cell filters", "why_tests_cant": "There are n! orders, and shared edges are created by whichever neighbour comes first.", "anchors": [{"file": "include/itkTriangleCellSubdivisionQuadEdgeMeshFilter.hxx", "symbols": ["GenerateOutputPoints", "SetCellsToBeSubdivided", "AddSubdividedCellId"]}, {"file": "include/itkLinearTriangleCellSubdivisionQuadEdgeMeshFilter.hxx", "symbols": ["AddNewCellPoints"]}, {"file": "include/itkLoopTriangleCellSubdivisionQuadEdgeMeshFilter.hxx", "symbols": ["AddNewCellPoints"]}, {"file": "include/itkModifiedButterflyTriangleCellSubdivisionQuadEdgeMeshFilter.hxx", "symbols": ["AddNewCellPoints"]}]}
{"id": "C14", "title": "Cell data is inherited from the parent triangle", "statement": "Every output cell carries the cell data of the input cell it was cut from, and has no cell data if that input cell had none; no other entry appears in the output's cell data.", "quantifier": "for every valid triangle mesh with arbitrary (partial) cell data and every selection, face-split cell filters", "why_tests_cant": "The association is by the id assigned while inserting; an off-by-one shows only for particular mixtures of 1-, 2-, 3- and 4-way splits and missing data.", "anchors": [{"file": "include/itkTriangleCellSubdivisionQuadEdgeMeshFilter.hxx", "symbols": ["PassCellData"]}, {"file": "include/itkTriangleCellSubdivisionQuadEdgeMeshFilter.hxx", "symbols": ["GenerateOutputCells"]}]}
{"id": "C15", "title": "Interpolating schemes never move an original point", "statement": "The Linear, modified Butterfly and sqrt(3) filters (cell-based) and the Linear, Loop and Butterfly edge-based filters leave the coordinates of all original points bit-identical.", "quantifier": "for every mesh with contiguous ids on which Update() completes, every selection, every arithmetic (floating point included)", "why_tests_cant": "Bit-identity over all inputs, including those where a new point could overwrite an old id.", "anchors": [{"file": "include/itkTriangleCellSubdivisionQuadEdgeMeshFilter.hxx", "symbols": ["GenerateOutputPoints"]}, {"file": "include/itkLinearTriangleCellSubdivisionQuadEdgeMeshFilter.hxx", "symbols": ["AddNewCellPoints"]}, {"file": "include/itkModifiedButterflyTriangleCellSubdivisionQuadEdgeMeshFilter.hxx", "symbols": ["AddNewCellPoints"]}, {"file": "include/itkSquareThreeTriangleCellSubdivisionQuadEdgeMeshFilter.hxx", "symbols": ["AddNewCellPoints"]}, {"file": "include/itkLoopTriangleEdgeCellSubdivisionQuadEdgeMeshFilter.hxx", "symbols": ["CopyInputMeshToOutputMeshPoints"]}, {"file": "include/itkTriangleEdgeCellSubdivisionQuadEdgeMeshFilter.hxx", "symbols": ["GenerateOutputPoints"]}]}
{"id": "C16", "title": "Linear scheme: each new point is the midpoint of its edge", "statement": "With the Linear cell or edge filter the point inserted on edge {a,b} has coordinates (A+B)/2, whichever of the two adjacent triangles created it.", "quantifier": "for every valid triangle mesh, every selection, every edge", "why_tests_cant": "Edges are visited once from either side and in any order.", "anchors": [{"file": "include/itkLinearTriangleCellSubdivisionQuadEdgeMeshFilter.hxx", "symbols": ["AddNewCellPoints"]}, {"file": "include/itkLinearTriangleEdgeCellSubdivisionQuadEdgeMeshFilter.hxx", "symbols": ["AddNewEdgePoints"]}]}
{"id": "C17", "title": "Loop scheme: edge points use the 3/8-3/8-1/8-1/8 mask, border edges the midpoint", "statement": "With the Loop cell or edge filter the point inserted on an interior edge {a,b} with adjacent triangles (a,b,c) and (b,a,d) is 3/8 A + 3/8 B + 1/8 C + 1/8 D; on a border edge it is (A+B)/2. The opposite vertices are those of the two adjacent triangles for every edge of a valid mesh.", "quantifier": "for every valid triangle mesh, every edge of every valence and border configuration", "why_tests_cant": "Picking the two opposite vertices relies on the quad-edge ring around each end point, i.e. on arbitrary neighbourhoods.", "anchors": [{"file": "include/itkLoopTriangleCellSubdivisionQuadEdgeMeshFilter.hxx", "symbols": ["AddNewCellPoints"]}, {"file": "include/itkLoopTriangleEdgeCellSubdivisionQuadEdgeMeshFilter.hxx", "symbols": ["AddNewEdgePoints"]}]}
{"id": "C18", "title": "Loop scheme: vertex rule", "statement": "Uniform Loop subdivision moves an interior vertex v of valence n to (1-n*beta) V + beta * (sum of its neighbours) with beta = (5/8 - (3/8 + 1/4 cos(2 pi/n))^2)/n, and a border vertex to 3/4 V + 1/8 (sum of its neighbours along the border).", "quantifier": "for every valid triangle mesh without isolated points and every vertex of every valence", "why_tests_cant": "Valence is unbounded and the ring traversal mixes interior and border neighbours.", "anchors": [{"file": "include/itkLoopTriangleCellSubdivisionQuadEdgeMeshFilter.hxx", "symbols": ["SmoothingPoint", "CopyInputMeshToOutputMeshPoints"]}]}
{"id": "C19", "title": "Butterfly scheme: the eight-point stencil", "statement": "With the modified Butterfly cell or edge filter, the point inserted on an edge {a,b} whose two triangles and whose four further neighbouring triangles exist is 1/2(A+B) + 1/8(C+D) - 1/16 of the sum of the four vertices opposite to the wing edges {b,c},{a,c},{b,d},{a,d}.", "quantifier": "for every valid triangle mesh and every edge whose five surrounding edges are interior", "why_tests_cant": "Stencil lookup walks six quad-edge operators; wrong composition shows only on irregular neighbourhoods.", "anchors": [{"file": "include/itkModifiedButterflyTriangleCellSubdivisionQuadEdgeMeshFilter.hxx", "symbols": ["AddNewCellPoints"]}, {"file": "include/itkModifiedButterflyTriangleEdgeCellSubdivisionQuadEdgeMeshFilter.hxx", "symbols": ["AddNewEdgePoints"]}]}
{"id": "C20", "title": "sqrt(3) scheme: one centroid per subdivided triangle", "statement": "The sqrt(3) filter inserts, for each subdivided triangle, one point: the sum of its three corners times 1/3; original points keep their coordinates.", "quantifier": "for every valid triangle mesh and every duplicate-free selection", "why_tests_cant": "Ids of centroids have to match their cell for every order of selection.", "anchors": [{"file": "include/itkSquareThreeTriangleCellSubdivisionQuadEdgeMeshFilter.hxx", "symbols": ["AddNewCellPoints"]}]}
{"id": "C21", "title": "Affine invariance", "statement": "Subdividing an affinely transformed mesh gives the affine image of the subdivided mesh (same ids, same connectivity), i.e. all masks are partitions of unity.", "quantifier": "for every valid triangle mesh in which each border point has exactly two border edges, every affine map and (over the reals) every scheme, uniform or adaptive", "why_tests_cant": "Quantifies over all affine maps and all masks, including the valence-dependent one.", "anchors": [{"file": "include/itkLoopTriangleCellSubdivisionQuadEdgeMeshFilter.hxx", "symbols": ["SmoothingPoint", "AddNewCellPoints"]}, {"file": "include/itkModifiedButterflyTriangleCellSubdivisionQuadEdgeMeshFilter.hxx", "symbols": ["AddNewCellPoints"]}, {"file": "include/itkSquareThreeTriangleCellSubdivisionQuadEdgeMeshFilter.hxx", "symbols": ["AddNewCellPoints"]}, {"file": "include/itkLinearTriangleCellSubdivisionQuadEdgeMeshFilter.hxx", "symbols": ["AddNewCellPoints"]}]}
{"id": "C22", "title": "Loop masks are convex combinations for every valence", "statement": "Over the reals all Loop weights are non-negative and sum to 1 for every valence n >= 1 (n*beta lies between 15/64 and 39/64), so the subdivided mesh never leaves an axis-aligned box (or any half-space) containing the input.", "quantifier": "for every valence and every valid mesh with two border edges per border point", "why_tests_cant": "Valence is unbounded and the weight involves a cosine.", "anchors": [{"file": "include/itkLoopTriangleCellSubdivisionQuadEdgeMeshFilter.hxx", "symbols": ["SmoothingPoint"]}]}
{"id": "C23", "title": "Loop: the refined border depends on the border only", "statement": "With uniform Loop subdivision, the new positions of border vertices and of border-edge points are functions of the border vertices alone: two meshes with the same connectivity that agree on the border points give identical output border points.", "quantifier": "for every valid triangle mesh with borders and every change of interior points", "why_tests_cant": "Needed to stitch patches without cracks; quantifies over all interior configurations.", "anchors": [{"file": "include/itkLoopTriangleCellSubdivisionQuadEdgeMeshFilter.hxx", "symbols": ["SmoothingPoint", "AddNewCellPoints"]}]}
{"id": "C24", "title": "Butterfly: the refined border depends on the border only", "statement": "With modified Butterfly subdivision, the point inserted on a border edge depends on border points along that border only (as in the published scheme), not on interior points.", "quantifier": "for every valid triangle mesh with borders", "why_tests_cant": "Quantifies over interior configurations; the code has no border case at all.", "anchors": [{"file": "include/itkModifiedButterflyTriangleCellSubdivisionQuadEdgeMeshFilter.hxx", "symbols": ["AddNewCellPoints"]}, {"file": "include/itkModifiedButterflyTriangleEdgeCellSubdivisionQuadEdgeMeshFilter.hxx", "symbols": ["AddNewEdgePoints"]}]}
{"id": "C25", "title": "The documented Loop weight is the implemented one", "statement": "The vertex weight given in the Loop filter's class documentation (beta = 1/N (5/8 - (3/8 + 1/4 cos^2(2 pi/N)))) is the weight the filter applies.", "quantifier": "for every valence N", "why_tests_cant": "A comparison of real-valued functions of an unbounded parameter; no test reads the documentation.", "anchors": [{"file": "include/itkLoopTriangleCellSubdivisionQuadEdgeMeshFilter.h", "symbols": ["LoopTriangleCellSubdivisionQuadEdgeMeshFilter"]}, {"file": "include/itkLoopTriangleCellSubdivisionQuadEdgeMeshFilter.hxx", "symbols": ["SmoothingPoint"]}]}
{"id": "C26", "title": "Adaptive Loop subdivision smooths exactly the vertices of the selected triangles", "statement": "When cells are selected, the Loop cell filter moves the vertices of the selected cells by the vertex rule and leaves every other original point where it was, independently of earlier uses of the filter.", "quantifier": "for every valid triangle mesh, every selection and every earlier use of the same filter object", "why_tests_cant": "Depends on the selection, the id coincidences between cells and points, and the object's history.", "anchors": [{"file": "include/itkLoopTriangleCellSubdivisionQuadEdgeMeshFilter.hxx", "symbols": ["CopyInputMeshToOutputMeshPoints"]}, {"file": "include/itkTriangleCellSubdivisionQuadEdgeMeshFilter.hxx", "symbols": ["GenerateOutputPoints"]}]}
{"id": "C27", "title": "Update() always ends: a mesh with a non-triangle cell is reported", "statement": "On an input that contains a cell which is not a triangle, Update() (of the filters, or Compute of the cell-area criterion) terminates, by an exception or by skipping the cell.", "quantifier": "for every input mesh containing at least one non-triangular or null cell, every filter and selection", "why_tests_cant": "Non-termination cannot be observed by a test, only timed out; and only the uniform cell-based path is exercised.", "anchors": [{"file": "include/itkTriangleCellSubdivisionQuadEdgeMeshFilter.hxx", "symbols": ["GenerateOutputCells"]}, {"file": "include/itkSquareThreeTriangleCellSubdivisionQuadEdgeMeshFilter.hxx", "symbols": ["GenerateOutputCells"]}, {"file": "include/itkCellAreaTriangleCellSubdivisionCriterion.hxx", "symbols": ["Compute"]}, {"file": "include/itkLinearTriangleCellSubdivisionQuadEdgeMeshFilter.hxx", "symbols": ["AddNewCellPoints"]}]}
{"id": "C28", "title": "Isolated points are harmless", "statement": "A point that belongs to no edge is carried to the output unchanged by every filter.", "quantifier": "for every valid mesh with isolated points, every filter", "why_tests_cant": "Undefined behaviour (a null quad-edge dereference) may pass unnoticed in a test.", "anchors": [{"file": "include/itkLoopTriangleCellSubdivisionQuadEdgeMeshFilter.hxx", "symbols": ["SmoothingPoint"]}, {"file": "include/itkLoopTriangleEdgeCellSubdivisionQuadEdgeMeshFilter.hxx", "symbols": ["CopyInputMeshToOutputMeshPoints"]}]}
{"id": "C29", "title": "Selecting a cell id that does not exist is reported or ignored", "statement": "If the selection contains an id that is not in the input's cell container, Update() raises an exception or ignores it.", "quantifier": "for every mesh, every selection containing an unknown id, every cell filter", "why_tests_cant": "Dereferencing end() is undefined behaviour; a test may see any outcome.", "anchors": [{"file": "include/itkTriangleCellSubdivisionQuadEdgeMeshFilter.hxx", "symbols": ["GenerateOutputPoints"]}, {"file": "include/itkLoopTriangleCellSubdivisionQuadEdgeMeshFilter.hxx", "symbols": ["CopyInputMeshToOutputMeshPoints"]}]}
{"id": "C30", "title": "Arbitrary point ids are supported", "statement": "For a valid mesh whose point ids are not contiguous, new points never overwrite original ones.", "quantifier": "for every valid triangle mesh with arbitrary distinct point ids", "why_tests_cant": "Tests read meshes from files, whose ids are always contiguous.", "anchors": [{"file": "include/itkLinearTriangleCellSubdivisionQuadEdgeMeshFilter.hxx", "symbols": ["AddNewCellPoints"]}, {"file": "include/itkTriangleCellSubdivisionQuadEdgeMeshFilter.hxx", "symbols": ["GenerateOutputPoints"]}, {"file": "include/itkLinearTriangleEdgeCellSubdivisionQuadEdgeMeshFilter.hxx", "symbols": ["AddNewEdgePoints"]}]}
{"id": "C31", "title": "Re-running a filter on the same input is idempotent", "statement": "Calling Update() again (after Modified()) on the same filter and the same input without touching the selection gives the same output.", "quantifier": "for every valid mesh, every filter, uniform and adaptive use, any number of re-runs", "why_tests_cant": "Depends on the hidden state left by all earlier runs.", "anchors": [{"file": "include/itkTriangleCellSubdivisionQuadEdgeMeshFilter.hxx", "symbols": ["GenerateOutputPoints", "GenerateOutputCells"]}, {"file": "include/itkTriangleEdgeCellSubdivisionQuadEdgeMeshFilter.hxx", "symbols": ["GenerateOutputPoints"]}, {"file": "include/itkLoopTriangleCellSubdivisionQuadEdgeMeshFilter.hxx", "symbols": ["CopyInputMeshToOutputMeshPoints"]}]}
{"id": "C32", "title": "Iterative filter: k levels are the k-fold composition", "statement": "The iterative filter with ResolutionLevels = k gives exactly the mesh obtained by chaining max(1,k) fresh filters (any scheme); without a selection the Linear, Loop and Butterfly runs complete and the number of cells is 4^max(1,k) times the input's.", "quantifier": "for every mesh, every k including 0, every scheme (first part); for every valid mesh with contiguous ids and at least one triangle, for Loop without isolated points and (k >= 2) wire edges (second part)", "why_tests_cant": "k is unbounded and sizes grow exponentially, so tests stop at 2 or 3.", "anchors": [{"file": "include/itkIterativeTriangleCellSubdivisionQuadEdgeMeshFilter.hxx", "symbols": ["GenerateData"]}]}
{"id": "C33", "title": "Iterative filter: adaptive refinement stays inside the selection", "statement": "With a selection, level i+1 subdivides exactly the four-way children produced at level i; the run completes and the output is valid for every k, and an output cell all of whose ancestors were outside is copied.", "quantifier": "for every valid mesh with contiguous ids, every non-empty selection of existing cells, every number of levels; for Loop no isolated points and (k >= 2) no wire edges", "why_tests_cant": "Unbounded depth; the list handed over between levels has to be right at each of them.", "anchors": [{"file": "include/itkIterativeTriangleCellSubdivisionQuadEdgeMeshFilter.hxx", "symbols": ["GenerateData"]}, {"file": "include/itkTriangleCellSubdivisionQuadEdgeMeshFilter.hxx", "symbols": ["SplitTriangleFromThreeEdges"]}]}
{"id": "C34", "title": "Conditional filter: on completion no element violates the criterion", "statement": "If Update() of the conditional filter completes, then the criterion selects nothing on its output: with the cell-area criterion every cell has area <= MaximumArea, with the edge-length criterion every edge has length <= MaximumLength.", "quantifier": "for every input mesh, every criterion and threshold, every subdivision filter, every number of rounds", "why_tests_cant": "The number of rounds is unbounded and data dependent.", "anchors": [{"file": "include/itkConditionalSubdivisionQuadEdgeMeshFilter.hxx", "symbols": ["GenerateData"]}, {"file": "include/itkCellAreaTriangleCellSubdivisionCriterion.hxx", "symbols": ["Compute"]}, {"file": "include/itkEdgeLengthTriangleEdgeCellSubdivisionCriterion.hxx", "symbols": ["Compute"]}]}
{"id": "C35", "title": "Conditional filter: nothing to do means an unchanged mesh", "statement": "If no element exceeds the threshold, the output has the same points, the same triangles with the same point order, and the same edges as the input.", "quantifier": "for every valid mesh and every criterion that selects nothing", "why_tests_cant": "Copying goes through face-by-face insertion, which could reject faces on some topology.", "anchors": [{"file": "include/itkConditionalSubdivisionQuadEdgeMeshFilter.hxx", "symbols": ["GenerateData"]}]}
{"id": "C36", "title": "Conditional refinement by cell area terminates", "statement": "With the Linear cell filter and the cell-area criterion, the conditional filter terminates for every positive maximum area: after finitely many rounds every area is below the threshold.", "quantifier": "for every valid triangle mesh with real coordinates and every MaximumArea > 0", "why_tests_cant": "Termination over all meshes and thresholds; rounds grow with log(area/threshold).", "anchors": [{"file": "include/itkConditionalSubdivisionQuadEdgeMeshFilter.hxx", "symbols": ["GenerateData"]}, {"file": "include/itkCellAreaTriangleCellSubdivisionCriterion.hxx", "symbols": ["Compute"]}, {"file": "include/itkLinearTriangleCellSubdivisionQuadEdgeMeshFilter.hxx", "symbols": ["AddNewCellPoints"]}]}
{"id": "C37", "title": "Conditional refinement by edge length terminates", "statement": "With the Linear edge filter and the edge-length criterion, the conditional filter terminates for every positive maximum length.", "quantifier": "for every valid triangle mesh with real coordinates and every MaximumLength > 0", "why_tests_cant": "Splitting one edge of a triangle creates new median edges that are not halves of anything; termination needs a global argument.", "anchors": [{"file": "include/itkConditionalSubdivisionQuadEdgeMeshFilter.hxx", "symbols": ["GenerateData"]}, {"file": "include/itkEdgeLengthTriangleEdgeCellSubdivisionCriterion.hxx", "symbols": ["Compute"]}, {"file": "include/itkLinearTriangleEdgeCellSubdivisionQuadEdgeMeshFilter.hxx", "symbols": ["AddNewEdgePoints"]}]}
{"id": "C38", "title": "Criteria select exactly the violating elements", "statement": "Compute() discards the old contents of the list and returns, in ascending id order and once each, exactly the triangles with area > MaximumArea (resp. exactly the edges with length > MaximumLength); it never modifies the mesh.", "quantifier": "for every triangle mesh, every threshold, every previous list content", "why_tests_cant": "Exactness over all meshes and thresholds.", "anchors": [{"file": "include/itkCellAreaTriangleCellSubdivisionCriterion.hxx", "symbols": ["Compute"]}, {"file": "include/itkEdgeLengthTriangleEdgeCellSubdivisionCriterion.hxx", "symbols": ["Compute"]}]}
{"id": "C39", "title": "Edge filters split exactly the listed edges", "statement": "With a non-empty list, an edge-based filter inserts one point on each listed non-null edge and on no other; each triangle with k listed edges becomes k+1 triangles; null entries are ignored. Completes without exception for Linear and Butterfly.", "quantifier": "for every valid triangle mesh in which no two triangles have the same three vertices and every duplicate-free list of edges", "why_tests_cant": "The number of edge subsets is exponential, and every triangle pattern (8 cases) can meet every neighbour pattern.", "anchors": [{"file": "include/itkTriangleEdgeCellSubdivisionQuadEdgeMeshFilter.hxx", "symbols": ["GenerateOutputPoints"]}, {"file": "include/itkTriangleCellSubdivisionQuadEdgeMeshFilter.hxx", "symbols": ["GenerateOutputCells"]}, {"file": "include/itkLinearTriangleEdgeCellSubdivisionQuadEdgeMeshFilter.hxx", "symbols": ["AddNewEdgePoints"]}]}
{"id": "C40", "title": "Edge filters tolerate repeated edges", "statement": "Listing an edge twice, or in both orientations, has the same effect as listing it once.", "quantifier": "for every valid mesh and every list with repetitions", "why_tests_cant": "Lists come from user code; repetition patterns are unbounded.", "anchors": [{"file": "include/itkTriangleEdgeCellSubdivisionQuadEdgeMeshFilter.hxx", "symbols": ["GenerateOutputPoints", "AddSubdividedEdge"]}, {"file": "include/itkLinearTriangleEdgeCellSubdivisionQuadEdgeMeshFilter.hxx", "symbols": ["AddNewEdgePoints"]}]}
{"id": "C41", "title": "Uniform edge-based and cell-based subdivision agree", "statement": "On a valid mesh without wire edges, the uniform Linear (Butterfly) edge filter and the uniform Linear (Butterfly) cell filter produce the same mesh up to a renumbering of the new points.", "quantifier": "for every valid triangle mesh", "why_tests_cant": "Two different traversals must meet on unboundedly many edges.", "anchors": [{"file": "include/itkTriangleEdgeCellSubdivisionQuadEdgeMeshFilter.hxx", "symbols": ["GenerateOutputPoints"]}, {"file": "include/itkTriangleCellSubdivisionQuadEdgeMeshFilter.hxx", "symbols": ["GenerateOutputPoints"]}, {"file": "include/itkTriangleCellSubdivisionQuadEdgeMeshFilter.hxx", "symbols": ["GenerateOutputCells"]}]}
{"id": "C42", "title": "Uniform sqrt(3) subdivision: 3F cells, V+F points, still a manifold", "statement": "Uniform sqrt(3) subdivision of a valid mesh with F triangles, no two on the same three vertices, completes and yields exactly 3F cells and V+F points; every original interior edge disappears and is replaced by the edge between the two centroids; border edges stay; the output is an oriented manifold.", "quantifier": "for every valid triangle mesh without coincident triangles", "why_tests_cant": "Edge flipping depends on the visiting order of both neighbours of each edge.", "anchors": [{"file": "include/itkSquareThreeTriangleCellSubdivisionQuadEdgeMeshFilter.hxx", "symbols": ["AddNewCellPoints", "GenerateOutputCells"]}]}
{"id": "C43", "title": "sqrt(3) subdivision loses no triangle on any closed mesh", "statement": "Uniform sqrt(3) subdivision yields 3F cells on every valid mesh, including those with two triangles on the same three vertices (a doubly covered triangle).", "quantifier": "for every valid triangle mesh", "why_tests_cant": "Rejected faces vanish silently; small closed meshes are never used in tests.", "anchors": [{"file": "include/itkSquareThreeTriangleCellSubdivisionQuadEdgeMeshFilter.hxx", "symbols": ["GenerateOutputCells"]}]}
{"id": "C44", "title": "sqrt(3) tolerates a repeated cell id", "statement": "Selecting the same cell twice has the same effect as selecting it once.", "quantifier": "for every valid mesh and every selection with repetitions", "why_tests_cant": "Selections come from user code or concatenated lists.", "anchors": [{"file": "include/itkSquareThreeTriangleCellSubdivisionQuadEdgeMeshFilter.hxx", "symbols": ["AddNewCellPoints"]}, {"file": "include/itkTriangleCellSubdivisionQuadEdgeMeshFilter.hxx", "symbols": ["AddSubdividedCellId"]}]}
{"id": "C45", "title": "Linear subdivision preserves surface area", "statement": "Each of the four children of a triangle has exactly a quarter of its area; in one-, two- and three-edge splits the children's areas add up to the parent's area, so the total area of the mesh is preserved.", "quantifier": "for every triangle in any dimension (real arithmetic), every split pattern", "why_tests_cant": "Real-number identity over all triangles and eight patterns.", "anchors": [{"file": "include/itkLinearTriangleCellSubdivisionQuadEdgeMeshFilter.hxx", "symbols": ["AddNewCellPoints"]}, {"file": "include/itkTriangleCellSubdivisionQuadEdgeMeshFilter.hxx", "symbols": ["SplitTriangleFromOneEdge", "SplitTriangleFromTwoEdges", "SplitTriangleFromThreeEdges"]}]}
{"id": "C46", "title": "The conditional filter keeps cell data", "statement": "Cell data of the input is inherited by the cells of the conditional filter's output, as with the plain subdivision filters.", "quantifier": "for every mesh with cell data, every criterion", "why_tests_cant": "Only one test covers cell data, and only for the plain filters.", "anchors": [{"file": "include/itkConditionalSubdivisionQuadEdgeMeshFilter.hxx", "symbols": ["GenerateData"]}, {"file": "include/itkTriangleCellSubdivisionQuadEdgeMeshFilter.hxx", "symbols": ["PassCellData"]}]}
{"id": "C47", "title": "Wire edges", "statement": "An edge without any adjacent triangle does not disturb the cell-based filters (it is not subdivided and no exception is raised), and makes the uniform Loop edge filter raise an exception rather than invent a point.", "quantifier": "for every valid mesh with any number of wire edges", "why_tests_cant": "Wire edges never occur in meshes read from the test data.", "anchors": [{"file": "include/itkLoopTriangleCellSubdivisionQuadEdgeMeshFilter.hxx", "symbols": ["AddNewCellPoints"]}, {"file": "include/itkLoopTriangleEdgeCellSubdivisionQuadEdgeMeshFilter.hxx", "symbols": ["AddNewEdgePoints"]}, {"file": "include/itkTriangleEdgeCellSubdivisionQuadEdgeMeshFilter.hxx", "symbols": ["GenerateOutputPoints"]}]}
{"id": "C48", "title": "Connectivity does not depend on coordinates or scheme", "statement": "For the same input connectivity and the same selection, the Linear, Loop and Butterfly cell filters produce identical cells, point ids, edge lists and refinement lists, whatever the coordinates.", "quantifier": "for every pair of valid meshes with the same connectivity, every pair of schemes, every arithmetic", "why_tests_cant": "Relates pairs of runs over all coordinates.", "anchors": [{"file": "include/itkTriangleCellSubdivisionQuadEdgeMeshFilter.hxx", "symbols": ["GenerateOutputPoints"]}, {"file": "include/itkTriangleCellSubdivisionQuadEdgeMeshFilter.hxx", "symbols": ["GenerateOutputCells"]}, {"file": "include/itkLinearTriangleCellSubdivisionQuadEdgeMeshFilter.hxx", "symbols": ["AddNewCellPoints"]}, {"file": "include/itkLoopTriangleCellSubdivisionQuadEdgeMeshFilter.hxx", "symbols": ["AddNewCellPoints"]}, {"file": "include/itkModifiedButterflyTriangleCellSubdivisionQuadEdgeMeshFilter.hxx", "symbols": ["AddNewCellPoints"]}]}
{"id": "C49", "title": "A null criterion or a mesh without containers is rejected cleanly", "statement": "The conditional filter without a criterion, or a subdivision filter on a mesh without a cell container, raises an exception.", "quantifier": "for every mesh and filter", "why_tests_cant": "Null dereference is undefined behaviour.", "anchors": [{"file": "include/itkConditionalSubdivisionQuadEdgeMeshFilter.hxx", "symbols": ["GenerateData", "SetSubdivisionCriterion"]}, {"file": "include/itkTriangleCellSubdivisionQuadEdgeMeshFilter.hxx", "symbols": ["GenerateOutputPoints"]}, {"file": "include/itkCellAreaTriangleCellSubdivisionCriterion.hxx", "symbols": ["Compute"]}, {"file": "include/itkEdgeLengthTriangleEdgeCellSubdivisionCriterion.hxx", "symbols": ["Compute"]}]}
{"id": "C50", "title": "Unreachable thresholds never end", "statement": "With MaximumArea < 0 (any face-split cell filter) or MaximumLength < 0 (any edge filter) the conditional filter never returns; with a threshold of exactly 0 the Linear filters never return as soon as one triangle has positive area (one face edge positive length). So a positive threshold (C36, C37) is not only sufficient but necessary.", "quantifier": "for every valid mesh with contiguous ids and at least one triangle, every earlier state of the filter and the list; for Loop no isolated points and no wire edges; real arithmetic", "why_tests_cant": "A test cannot observe that a loop runs forever.", "anchors": [{"file": "include/itkConditionalSubdivisionQuadEdgeMeshFilter.hxx", "symbols": ["GenerateData"]}, {"file": "include/itkCellAreaTriangleCellSubdivisionCriterion.hxx", "symbols": ["Compute"]}, {"file": "include/itkEdgeLengthTriangleEdgeCellSubdivisionCriterion.hxx", "symbols": ["Compute"]}]}
{"id": "C51", "title": "Selecting cells equals listing their edges", "statement": "A cell filter with a set of selected cells and the edge filter of the same scheme with exactly the edges of those cells listed produce the same mesh up to a renumbering of the new points, cell by cell, with the same inherited cell data and the same cells reported for the next level.", "quantifier": "for every valid triangle mesh with contiguous point ids, every non-empty selection of existing cells, every duplicate-free list of exactly their edges (any order and direction); coordinates of Linear for any arithmetic with commutative addition, of Loop's new points and of Butterfly away from the border over the reals", "why_tests_cant": "Relates pairs of runs of two different classes over all meshes and selections.", "anchors": [{"file": "include/itkTriangleCellSubdivisionQuadEdgeMeshFilter.hxx", "symbols": ["GenerateOutputPoints"]}, {"file": "include/itkTriangleCellSubdivisionQuadEdgeMeshFilter.hxx", "symbols": ["GenerateOutputCells"]}, {"file": "include/itkTriangleEdgeCellSubdivisionQuadEdgeMeshFilter.hxx", "symbols": ["GenerateOutputPoints", "GenerateOutputCells"]}, {"file": "include/itkLinearTriangleCellSubdivisionQuadEdgeMeshFilter.hxx", "symbols": ["AddNewCellPoints"]}, {"file": "include/itkLoopTriangleCellSubdivisionQuadEdgeMeshFilter.hxx", "symbols": ["AddNewCellPoints"]}, {"file": "include/itkModifiedButterflyTriangleCellSubdivisionQuadEdgeMeshFilter.hxx", "symbols": ["AddNewCellPoints"]}]}
{"id": "C52", "title": "Order and direction of listed edges do not matter", "statement": "Permuting the list of edges of an edge-based filter, reversing some of them or inserting null entries gives the same output mesh up to a renumbering of the new points.", "quantifier": "for every valid triangle mesh with contiguous point ids and every two duplicate-free non-empty lists of the same undirected edges; coordinates as in C51", "why_tests_cant": "Quantifies over all permutations and directions of all lists.", "anchors": [{"file": "include/itkTriangleEdgeCellSubdivisionQuadEdgeMeshFilter.hxx", "symbols": ["GenerateOutputPoints", "GenerateOutputCells"]}, {"file": "include/itkLinearTriangleEdgeCellSubdivisionQuadEdgeMeshFilter.hxx", "symbols": ["AddNewEdgePoints"]}, {"file": "include/itkLoopTriangleEdgeCellSubdivisionQuadEdgeMeshFilter.hxx", "symbols": ["AddNewEdgePoints"]}, {"file": "include/itkModifiedButterflyTriangleEdgeCellSubdivisionQuadEdgeMeshFilter.hxx", "symbols": ["AddNewEdgePoints"]}]}
{"id": "C53", "title": "Adaptive sqrt(3) subdivision", "statement": "With a duplicate-free selection of k existing cells the sqrt(3) filter completes and yields k more points and 2k more cells; an edge of the input disappears if and only if the cells on both of its sides are selected, and then it is replaced by the edge between the two new centres; unselected cells are copied with the same point order; the output is again a valid mesh.", "quantifier": "for every valid triangle mesh with contiguous point ids (fewer than 2^64 in all) and every duplicate-free selection of existing cells, every arithmetic", "why_tests_cant": "Whether an edge is flipped depends on the order in which its two neighbours are visited.", "anchors": [{"file": "include/itkSquareThreeTriangleCellSubdivisionQuadEdgeMeshFilter.hxx", "symbols": ["AddNewCellPoints", "GenerateOutputCells"]}]}
{"id": "C54", "title": "sqrt(3): the reported refinement list", "statement": "After an adaptive Update() of the sqrt(3) filter GetCellsToBeSubdivided() lists, in ascending order and once each, exactly the ids of the output cells that have a newly inserted corner; after a uniform Update() it is empty.", "quantifier": "as C53", "why_tests_cant": "Ids are assigned on the fly while cells are added; only the end state shows the rule.", "anchors": [{"file": "include/itkSquareThreeTriangleCellSubdivisionQuadEdgeMeshFilter.hxx", "symbols": ["GenerateOutputCells"]}, {"file": "include/itkTriangleCellSubdivisionQuadEdgeMeshFilter.hxx", "symbols": ["GetCellsToBeSubdivided"]}]}
{"id": "C55", "title": "sqrt(3): inherited cell data", "statement": "Every output cell of the sqrt(3) filter carries the data of a cell it was cut from: a copied cell its own, a triangle on an unflipped edge that of its subdivided cell, the two triangles at a flipped edge that of the adjacent cell with the smaller id; cells without data give cells without data and no other entry appears.", "quantifier": "as C53, every (partial) cell data", "why_tests_cant": "Which neighbour wins at a flipped edge is decided by the visiting order.", "anchors": [{"file": "include/itkSquareThreeTriangleCellSubdivisionQuadEdgeMeshFilter.hxx", "symbols": ["GenerateOutputCells"]}, {"file": "include/itkTriangleCellSubdivisionQuadEdgeMeshFilter.hxx", "symbols": ["PassCellData"]}]}
{"id": "C56", "title": "sqrt(3): border and topology are preserved", "statement": "The oriented border edges of the output of the sqrt(3) filter are exactly those of the input (they are not subdivided); a closed mesh stays closed; without wire edges the Euler characteristic is unchanged.", "quantifier": "as C53, uniform and adaptive", "why_tests_cant": "Relates unboundedly many edges of input and output.", "anchors": [{"file": "include/itkSquareThreeTriangleCellSubdivisionQuadEdgeMeshFilter.hxx", "symbols": ["GenerateOutputCells"]}]}
{"id": "C57", "title": "Any mix of the seven filters can be chained", "statement": "Any number of Update() calls in a row, each of any of the seven filters, uniform or adaptive, starting from a valid mesh: every intermediate mesh is valid with contiguous ids and the next call completes again; closed stays closed and, without wire edges, the Euler characteristic never changes.", "quantifier": "for every valid triangle mesh with contiguous ids and at least one triangle, every number of calls, every choice of filter and selection whose own preconditions hold", "why_tests_cant": "Induction over arbitrary pipelines.", "anchors": [{"file": "include/itkTriangleCellSubdivisionQuadEdgeMeshFilter.hxx", "symbols": ["GenerateOutputPoints"]}, {"file": "include/itkTriangleCellSubdivisionQuadEdgeMeshFilter.hxx", "symbols": ["GenerateOutputCells"]}, {"file": "include/itkSquareThreeTriangleCellSubdivisionQuadEdgeMeshFilter.hxx", "symbols": ["GenerateOutputCells"]}, {"file": "include/itkTriangleEdgeCellSubdivisionQuadEdgeMeshFilter.hxx", "symbols": ["GenerateOutputCells"]}]}
{"id": "C58", "title": "Iterative filter over sqrt(3)", "statement": "Without a selection, k levels of sqrt(3) complete and give 3^max(1,k) times the cells and V + F (3^max(1,k) - 1)/2 points; with a duplicate-free selection every level subdivides exactly the cells with a corner inserted by the level before, and the run completes with a valid mesh.", "quantifier": "for every valid triangle mesh with contiguous ids and at least one triangle, every k for which the point ids stay below 2^64, every duplicate-free selection", "why_tests_cant": "Tests run two levels of one mesh.", "anchors": [{"file": "include/itkIterativeTriangleCellSubdivisionQuadEdgeMeshFilter.hxx", "symbols": ["GenerateData"]}, {"file": "include/itkSquareThreeTriangleCellSubdivisionQuadEdgeMeshFilter.hxx", "symbols": ["GenerateOutputCells"]}]}
{"id": "C59", "title": "sqrt(3): valences", "statement": "Uniform sqrt(3) subdivision keeps the valence of every point that has cells on both sides of all its edges; every new point has a valence between 3 and 6, exactly 6 on a closed mesh. For any selection: an original point is joined to the centres of the selected cells around it and to the neighbours across unflipped edges; a centre to its three corners and to the centres of the selected cells across its edges.", "quantifier": "for every valid triangle mesh with contiguous ids (fewer than 2^64 in all)", "why_tests_cant": "Valence is a property of every vertex of every mesh.", "anchors": [{"file": "include/itkSquareThreeTriangleCellSubdivisionQuadEdgeMeshFilter.hxx", "symbols": ["AddNewCellPoints", "GenerateOutputCells"]}]}
{"id": "C60", "title": "Two sqrt(3) steps trisect the edges", "statement": "Two uniform sqrt(3) steps replace every interior edge {a,b} with opposite corners p, q by a path of three edges over the two points (5A+2B+P+Q)/9 and (2A+5B+P+Q)/9.", "quantifier": "for every valid triangle mesh with contiguous ids (few enough for two steps), every interior edge; connectivity for every arithmetic, coordinates over the reals", "why_tests_cant": "Relates two successive runs on every edge.", "anchors": [{"file": "include/itkSquareThreeTriangleCellSubdivisionQuadEdgeMeshFilter.hxx", "symbols": ["AddNewCellPoints", "GenerateOutputCells"]}]}
{"id": "C61", "title": "The output is an oriented edge-manifold and no face is lost (exact conditions)", "statement": "In the output of the Linear/Loop/Butterfly cell filters every oriented edge belongs to at most one cell (so every edge has at most two faces with opposite orientation), and every triangle the subdivision rule prescribes is present: the mesh never rejects a face.", "quantifier": "for every valid triangle mesh with contiguous point ids and no two triangles on the same three points (C43 treats those), every list of selected cell ids", "why_tests_cant": "Rejected faces are dropped silently (null quad-edge), so a passing count test on one mesh says nothing about the next.", "anchors": [{"file": "include/itkTriangleCellSubdivisionQuadEdgeMeshFilter.hxx", "symbols": ["GenerateOutputCells"]}, {"file": "include/itkTriangleCellSubdivisionQuadEdgeMeshFilter.hxx", "symbols": ["SplitTriangleFromOneEdge", "SplitTriangleFromTwoEdges", "SplitTriangleFromThreeEdges"]}]}
{"id": "C62", "title": "Selection order and repetitions do not change the result (exact conditions)", "statement": "Permuting the selected cell ids or repeating some of them gives the same output mesh up to a renumbering of the new points: same number of points and cells, cell by cell the same triangles under the renumbering, the same cell data and the same refinement list. The coordinates agree too: for Linear in every arithmetic with commutative addition, for Loop over the reals, for Butterfly over the reals when no interior edge lies next to the border. They need not agree for Butterfly next to a border, nor for Butterfly in binary64 arithmetic.", "quantifier": "for every valid triangle mesh with contiguous point ids and every two selection lists of existing cells with the same set of ids, Linear/Loop/Butterfly cell filters (for Loop no isolated points)", "why_tests_cant": "There are n! orders, and shared edges are created by whichever neighbour comes first.", "anchors": [{"file": "include/itkTriangleCellSubdivisionQuadEdgeMeshFilter.hxx", "symbols": ["GenerateOutputPoints", "SetCellsToBeSubdivided", "AddSubdividedCellId"]}, {"file": "include/itkLinearTriangleCellSubdivisionQuadEdgeMeshFilter.hxx", "symbols": ["AddNewCellPoints"]}, {"file": "include/itkLoopTriangleCellSubdivisionQuadEdgeMeshFilter.hxx", "symbols": ["AddNewCellPoints"]}, {"file": "include/itkModifiedButterflyTriangleCellSubdivisionQuadEdgeMeshFilter.hxx", "symbols": ["AddNewCellPoints"]}]}
{"id": "C63", "title": "sqrt(3) scheme: one centroid per subdivided triangle (exact conditions)", "statement": "The sqrt(3) filter inserts, for each subdivided triangle, one point: the sum of its three corners times 1/3; original points keep their coordinates.", "quantifier": "for every valid triangle mesh with contiguous point ids, fewer than 2^64 points and cells in all, and every duplicate-free selection of existing cells (repetitions: C44)", "why_tests_cant": "Ids of centroids have to match their cell for every order of selection.", "anchors": [{"file": "include/itkSquareThreeTriangleCellSubdivisionQuadEdgeMeshFilter.hxx", "symbols": ["AddNewCellPoints"]}]}
{"id": "C64", "title": "Affine invariance (exact conditions)", "statement": "Subdividing an affinely transformed mesh gives the affine image of the subdivided mesh (same ids, same connectivity), i.e. all masks are partitions of unity. For the Loop cell filter this needs every point to have a single fan of triangles; with several fans at a point it fails even for translations.", "quantifier": "for every valid triangle mesh with contiguous point ids, every affine map between spaces of any dimensions, all seven filters, uniform or adaptive (edge lists and sqrt(3) selections without repetitions, fewer than 2^64 points and cells for sqrt(3)), over the reals, runs that complete; for the Loop cell filter one fan per point", "why_tests_cant": "Quantifies over all affine maps and all masks, including the valence-dependent one.", "anchors": [{"file": "include/itkLoopTriangleCellSubdivisionQuadEdgeMeshFilter.hxx", "symbols": ["SmoothingPoint", "AddNewCellPoints"]}, {"file": "include/itkModifiedButterflyTriangleCellSubdivisionQuadEdgeMeshFilter.hxx", "symbols": ["AddNewCellPoints"]}, {"file": "include/itkSquareThreeTriangleCellSubdivisionQuadEdgeMeshFilter.hxx", "symbols": ["AddNewCellPoints"]}, {"file": "include/itkLinearTriangleCellSubdivisionQuadEdgeMeshFilter.hxx", "symbols": ["AddNewCellPoints"]}]}
{"id": "C65", "title": "Loop masks are convex combinations for every valence (exact conditions)", "statement": "Over the reals all Loop weights are positive for every valence n >= 1 and n*beta lies between 15/64 and 39/64, so the meshes subdivided by Linear, Loop and sqrt(3) never leave a half-space (hence a box or closed convex set) containing the input. For the Loop cell filter this needs a single fan of triangles at every point; with several fans a point can leave the bounding box.", "quantifier": "for every valence; for every valid triangle mesh with contiguous point ids, every half-space, all filters but Butterfly, uniform or adaptive (edge lists and sqrt(3) selections without repetitions, fewer than 2^64 points and cells for sqrt(3)), runs that complete; for the Loop cell filter one fan per point", "why_tests_cant": "Valence is unbounded and the weight involves a cosine.", "anchors": [{"file": "include/itkLoopTriangleCellSubdivisionQuadEdgeMeshFilter.hxx", "symbols": ["SmoothingPoint"]}]}
{"id": "C66", "title": "Butterfly: the border is refined with the interior mask", "statement": "Butterfly inserts on every edge, border or not, the eight-point combination 1/2, 1/8, -1/16 of the points found by turning around the end points in the edge rings. Two meshes with the same border with the same connectivity can get different points on the same border edge, unlike the published scheme, whose border rule uses border points only.", "quantifier": "for every valid triangle mesh with contiguous point ids, every edge that is split, cell and edge filter, over the reals", "why_tests_cant": "Quantifies over interior configurations; the code has no border case at all.", "anchors": [{"file": "include/itkModifiedButterflyTriangleCellSubdivisionQuadEdgeMeshFilter.hxx", "symbols": ["AddNewCellPoints"]}, {"file": "include/itkModifiedButterflyTriangleEdgeCellSubdivisionQuadEdgeMeshFilter.hxx", "symbols": ["AddNewEdgePoints"]}]}
{"id": "C67", "title": "The documented Loop weight is not the implemented one", "statement": "The vertex weight given in the Loop filter's class documentation (beta = 1/N (5/8 - (3/8 + 1/4 cos^2(2 pi/N)))) is smaller than the one the filter applies (1/N (5/8 - (3/8 + 1/4 cos(2 pi/N))^2)) for every valence, and the filter's result at an interior point agrees with the documented rule exactly when the point is the mean of its neighbours.", "quantifier": "for every valence N >= 1; for every valid triangle mesh with contiguous point ids without isolated points, every interior point, uniform run of a filter that is new or was last used uniformly, over the reals", "why_tests_cant": "A comparison of real-valued functions of an unbounded parameter; no test reads the documentation.", "anchors": [{"file": "include/itkLoopTriangleCellSubdivisionQuadEdgeMeshFilter.h", "symbols": ["LoopTriangleCellSubdivisionQuadEdgeMeshFilter"]}, {"file": "include/itkLoopTriangleCellSubdivisionQuadEdgeMeshFilter.hxx", "symbols": ["SmoothingPoint"]}]}
{"id": "C68", "title": "Which points adaptive Loop subdivision smooths", "statement": "With cells selected, the Loop cell filter applies the vertex rule to every point if the previous Update() of the object was uniform (or there was none), and otherwise exactly to the points whose own id equals the id of a selected cell; all others keep their coordinates. A uniform run after an adaptive one smooths nothing. So it is neither true that the vertices of the selected cells are the ones that move, nor that earlier uses of the object do not matter.", "quantifier": "for every valid triangle mesh with contiguous point ids without isolated points, every selection of existing cells and every earlier state of the filter object", "why_tests_cant": "Depends on the selection, the id coincidences between cells and points, and the object's history.", "anchors": [{"file": "include/itkLoopTriangleCellSubdivisionQuadEdgeMeshFilter.hxx", "symbols": ["CopyInputMeshToOutputMeshPoints"]}, {"file": "include/itkTriangleCellSubdivisionQuadEdgeMeshFilter.hxx", "symbols": ["GenerateOutputPoints"]}]}
{"id": "C69", "title": "Non-triangle cells: exception, or Update() never ends", "statement": "On an input that contains a cell which is not a triangle, no filter completes. The uniform cell filters raise an exception if no cell is null; the adaptive Linear, Loop and Butterfly cell filters, the edge filters and the cell-area criterion never return. So Update() cannot be relied upon to report such a cell.", "quantifier": "for every input mesh containing at least one non-triangular or null cell, whose triangles form a valid mesh with contiguous ids, every selection of triangles or duplicate-free list of edges (Loop: no isolated points, no wire edges among the edges to split); that no run completes holds for arbitrary meshes and selections, that the criterion hangs for existing corners", "why_tests_cant": "Non-termination cannot be observed by a test, only timed out; and only the uniform cell-based path is exercised.", "anchors": [{"file": "include/itkTriangleCellSubdivisionQuadEdgeMeshFilter.hxx", "symbols": ["GenerateOutputCells"]}, {"file": "include/itkSquareThreeTriangleCellSubdivisionQuadEdgeMeshFilter.hxx", "symbols": ["GenerateOutputCells"]}, {"file": "include/itkCellAreaTriangleCellSubdivisionCriterion.hxx", "symbols": ["Compute"]}, {"file": "include/itkLinearTriangleCellSubdivisionQuadEdgeMeshFilter.hxx", "symbols": ["AddNewCellPoints"]}]}
{"id": "C70", "title": "Isolated points are carried over, except by Loop", "statement": "A point that belongs to no edge is carried to the output unchanged and stays isolated, by the Linear and Butterfly cell and edge filters. The Loop cell filter, if new or last used uniformly, and the Loop edge filter dereference a null edge as soon as there is one.", "quantifier": "for every valid triangle mesh with contiguous point ids with isolated points and at least one triangle, every selection of existing cells or duplicate-free list of edges", "why_tests_cant": "Undefined behaviour (a null quad-edge dereference) may pass unnoticed in a test.", "anchors": [{"file": "include/itkLoopTriangleCellSubdivisionQuadEdgeMeshFilter.hxx", "symbols": ["SmoothingPoint"]}, {"file": "include/itkLoopTriangleEdgeCellSubdivisionQuadEdgeMeshFilter.hxx", "symbols": ["CopyInputMeshToOutputMeshPoints"]}]}
{"id": "C71", "title": "Selecting a cell id that does not exist is undefined behaviour", "statement": "If the selection contains an id that is not in the input's cell container, Update() of every cell filter accesses a map at a missing key: neither an exception nor ignored.", "quantifier": "for every valid triangle mesh with contiguous point ids, every selection containing an unknown id, every cell filter (for Loop no isolated points)", "why_tests_cant": "Dereferencing end() is undefined behaviour; a test may see any outcome.", "anchors": [{"file": "include/itkTriangleCellSubdivisionQuadEdgeMeshFilter.hxx", "symbols": ["GenerateOutputPoints"]}, {"file": "include/itkLoopTriangleCellSubdivisionQuadEdgeMeshFilter.hxx", "symbols": ["CopyInputMeshToOutputMeshPoints"]}]}
{"id": "C72", "title": "Non-contiguous point ids", "statement": "New points get the consecutive ids from the number of points on. If no original id lies in that range or directly after it, all original points survive (and keep their coordinates unless Loop smooths them). If the id equal to the number of points is taken, the edge filters and sqrt(3) write every new point to that one id: no point is added and no other id changes; for every filter but the Loop cell filter and sqrt(3) there is a mesh on which the original is lost and faces are missing.", "quantifier": "for every valid triangle mesh with arbitrary distinct point ids, every filter and selection for which the run completes", "why_tests_cant": "Tests read meshes from files, whose ids are always contiguous.", "anchors": [{"file": "include/itkLinearTriangleCellSubdivisionQuadEdgeMeshFilter.hxx", "symbols": ["AddNewCellPoints"]}, {"file": "include/itkTriangleCellSubdivisionQuadEdgeMeshFilter.hxx", "symbols": ["GenerateOutputPoints"]}, {"file": "include/itkLinearTriangleEdgeCellSubdivisionQuadEdgeMeshFilter.hxx", "symbols": ["AddNewEdgePoints"]}]}
{"id": "C73", "title": "When re-running a filter on the same input is idempotent", "statement": "Update() of an edge filter, or of a cell filter without selection (for Loop: whose previous run, if any, was uniform), repeated on the same input gives the same output. Update() of a cell filter with a selection replaces the selection by the ids of new cells, so repeating it on the same input applies those ids to the old mesh, which can give another result or undefined behaviour. The only state an object carries from one Update() to the next is the selection and, for Loop, whether the last run was uniform.", "quantifier": "for every mesh (valid or not), every filter, every state of the filter object, every completed run", "why_tests_cant": "Depends on the hidden state left by all earlier runs.", "anchors": [{"file": "include/itkTriangleCellSubdivisionQuadEdgeMeshFilter.hxx", "symbols": ["GenerateOutputPoints", "GenerateOutputCells"]}, {"file": "include/itkTriangleEdgeCellSubdivisionQuadEdgeMeshFilter.hxx", "symbols": ["GenerateOutputPoints"]}, {"file": "include/itkLoopTriangleCellSubdivisionQuadEdgeMeshFilter.hxx", "symbols": ["CopyInputMeshToOutputMeshPoints"]}]}
{"id": "C74", "title": "Conditional filter: nothing to do means an unchanged mesh (exact conditions)", "statement": "If no element exceeds the threshold, the output has the same points, the same triangles with the same point order, and the same edges as the input.", "quantifier": "for every valid mesh and every criterion that selects nothing on meshes of that shape; the two shipped criteria on every valid mesh with at least one triangle, over the reals", "why_tests_cant": "Copying goes through face-by-face insertion, which could reject faces on some topology.", "anchors": [{"file": "include/itkConditionalSubdivisionQuadEdgeMeshFilter.hxx", "symbols": ["GenerateData"]}]}
{"id": "C75", "title": "Edge filters split exactly the listed edges (exact conditions)", "statement": "With a non-empty list, an edge-based filter inserts one point on each listed non-null edge and on no other; each triangle with k listed edges becomes k+1 triangles; null entries are ignored. Completes without exception for Linear and Butterfly.", "quantifier": "for every valid triangle mesh with contiguous point ids, no two triangles on the same three points, and every duplicate-free list of edges (for Loop: edges of faces, no isolated points)", "why_tests_cant": "The number of edge subsets is exponential, and every triangle pattern (8 cases) can meet every neighbour pattern.", "anchors": [{"file": "include/itkTriangleEdgeCellSubdivisionQuadEdgeMeshFilter.hxx", "symbols": ["GenerateOutputPoints"]}, {"file": "include/itkTriangleCellSubdivisionQuadEdgeMeshFilter.hxx", "symbols": ["GenerateOutputCells"]}, {"file": "include/itkLinearTriangleEdgeCellSubdivisionQuadEdgeMeshFilter.hxx", "symbols": ["AddNewEdgePoints"]}]}
{"id": "C76", "title": "Edge filters with repeated edges", "statement": "If an edge is listed several times, in either direction, the faces are those of the list without repetitions up to the numbers of the new points, with the same cell data and next selection; every entry inserts a point, the last one is used and the others belong to no edge and no face. So the number of points does depend on repetitions.", "quantifier": "for every valid triangle mesh with contiguous point ids and every non-empty list of its edges, with any repetitions and null entries; for Loop edges of faces and no isolated points", "why_tests_cant": "Lists come from user code; repetition patterns are unbounded.", "anchors": [{"file": "include/itkTriangleEdgeCellSubdivisionQuadEdgeMeshFilter.hxx", "symbols": ["GenerateOutputPoints", "AddSubdividedEdge"]}, {"file": "include/itkLinearTriangleEdgeCellSubdivisionQuadEdgeMeshFilter.hxx", "symbols": ["AddNewEdgePoints"]}]}
{"id": "C77", "title": "Uniform edge-based and cell-based subdivision agree (exact conditions)", "statement": "On a mesh without wire edges, the uniform edge filter and the uniform cell filter of the same scheme produce the same cells up to a renumbering of the new points. The coordinates agree for Linear, for Butterfly on closed meshes, and for the new points of Loop (the Loop edge filter does not smooth the old ones). For Butterfly on meshes with a border they can differ.", "quantifier": "for every valid triangle mesh with contiguous point ids without wire edges, for Loop without isolated points; coordinates over the reals, for Linear in every arithmetic with commutative addition", "why_tests_cant": "Two different traversals must meet on unboundedly many edges.", "anchors": [{"file": "include/itkTriangleEdgeCellSubdivisionQuadEdgeMeshFilter.hxx", "symbols": ["GenerateOutputPoints"]}, {"file": "include/itkTriangleCellSubdivisionQuadEdgeMeshFilter.hxx", "symbols": ["GenerateOutputPoints"]}, {"file": "include/itkTriangleCellSubdivisionQuadEdgeMeshFilter.hxx", "symbols": ["GenerateOutputCells"]}]}
{"id": "C78", "title": "Uniform sqrt(3) subdivision: 3F cells, V+F points, still a manifold (exact conditions)", "statement": "Uniform sqrt(3) subdivision of a valid mesh with F triangles, no two on the same three vertices, completes and yields exactly 3F cells and V+F points; every original interior edge disappears and is replaced by the edge between the two centroids; border edges stay; the output is an oriented manifold.", "quantifier": "for every valid triangle mesh with contiguous point ids (fewer than 2^64 points and cells in all), no two triangles on the same three points", "why_tests_cant": "Edge flipping depends on the visiting order of both neighbours of each edge.", "anchors": [{"file": "include/itkSquareThreeTriangleCellSubdivisionQuadEdgeMeshFilter.hxx", "symbols": ["AddNewCellPoints", "GenerateOutputCells"]}]}
{"id": "C79", "title": "Two triangles on the same three points make every filter lose triangles", "statement": "If two faces have the same three points (a doubly covered triangle), the children of the two compete for oriented edges: a uniform run ends normally with fewer than 4F (sqrt(3): 3F) cells, an adaptive run that splits all edges of the pair (sqrt(3): selects both) dereferences a null pointer. Without such a pair nothing is lost (C05, C42).", "quantifier": "for every mesh that is valid but for such a pair, with contiguous ids, all seven filters with selections of existing cells or duplicate-free lists of edges (Loop: no isolated points, no wire edges among the edges to split; sqrt(3): fewer than 2^64 points and cells)", "why_tests_cant": "Rejected faces vanish silently; small closed meshes are never used in tests.", "anchors": [{"file": "include/itkSquareThreeTriangleCellSubdivisionQuadEdgeMeshFilter.hxx", "symbols": ["GenerateOutputCells"]}]}
{"id": "C80", "title": "sqrt(3) with a repeated cell id", "statement": "Selecting a cell several times gives the faces, cell data and next selection of selecting it once, up to the numbers of the new points; every entry inserts a point, the first one is used and the others belong to no edge and no face. So the number of points does depend on repetitions.", "quantifier": "for every valid triangle mesh with contiguous point ids (point ids below 2^64-1) and every selection of existing cells with any repetitions", "why_tests_cant": "Selections come from user code or concatenated lists.", "anchors": [{"file": "include/itkSquareThreeTriangleCellSubdivisionQuadEdgeMeshFilter.hxx", "symbols": ["AddNewCellPoints"]}, {"file": "include/itkTriangleCellSubdivisionQuadEdgeMeshFilter.hxx", "symbols": ["AddSubdividedCellId"]}]}
{"id": "C81", "title": "The conditional filter drops cell data", "statement": "No cell of the conditional filter's output has cell data, even when nothing is subdivided and the output has the faces of the input; unlike the plain subdivision filters, which pass it on.", "quantifier": "for every mesh with cell data, every filter, criterion and completed run", "why_tests_cant": "Only one test covers cell data, and only for the plain filters.", "anchors": [{"file": "include/itkConditionalSubdivisionQuadEdgeMeshFilter.hxx", "symbols": ["GenerateData"]}, {"file": "include/itkTriangleCellSubdivisionQuadEdgeMeshFilter.hxx", "symbols": ["PassCellData"]}]}
{"id": "C82", "title": "Null criterion and missing containers", "statement": "The conditional filter without a criterion and the Linear, Butterfly and sqrt(3) cell filters on a mesh without a cell container dereference a null pointer instead of raising an exception, the Loop cell filter runs into undefined behaviour; the edge filters do not complete without a cell container; a missing edge container is reported by an exception by the uniform edge filters and the edge-length criterion, a missing cell container by the cell-area criterion.", "quantifier": "for every mesh without the container in question, every filter, selection and criterion; a missing edge container with the Loop edge filter if no point is isolated", "why_tests_cant": "Null dereference is undefined behaviour.", "anchors": [{"file": "include/itkConditionalSubdivisionQuadEdgeMeshFilter.hxx", "symbols": ["GenerateData", "SetSubdivisionCriterion"]}, {"file": "include/itkTriangleCellSubdivisionQuadEdgeMeshFilter.hxx", "symbols": ["GenerateOutputPoints"]}, {"file": "include/itkCellAreaTriangleCellSubdivisionCriterion.hxx", "symbols": ["Compute"]}, {"file": "include/itkEdgeLengthTriangleEdgeCellSubdivisionCriterion.hxx", "symbols": ["Compute"]}]}
{"id": "C83", "title": "Output cells are numbered 0, 1, 2, ... and every oriented edge has one owner", "statement": "If Update() completes, the cells of the output have the ids 0 to F-1 without gaps, where F is the number of cells, and no oriented edge (a, b) belongs to two of them.", "quantifier": "for every input mesh whatsoever (also with gaps between ids, coincident triangles, wire edges, inconsistent containers), each of the seven filters, every selection", "why_tests_cant": "Holds for malformed inputs as well, which no test suite enumerates.", "anchors": [{"file": "include/itkTriangleCellSubdivisionQuadEdgeMeshFilter.hxx", "symbols": ["GenerateOutputCells"]}, {"file": "include/itkTriangleEdgeCellSubdivisionQuadEdgeMeshFilter.hxx", "symbols": ["GenerateOutputCells"]}, {"file": "include/itkSquareThreeTriangleCellSubdivisionQuadEdgeMeshFilter.hxx", "symbols": ["GenerateOutputCells"]}]}
{"id": "C84", "title": "The output is again a valid input (exact conditions)", "statement": "If the input mesh is valid (triangles, one face per oriented edge, consistent edge rings around every point, every edge listed once in the edge container, contiguous point ids) and has at least one triangle, then so has and is the output, so filters can be chained any number of times; the output has no triangles only if the input has none, and then it is not a valid input any more (no cell container).", "quantifier": "for every valid mesh with contiguous ids and no two triangles on the same points; every selection of existing cells or edges (edges without repetition; Loop: no isolated points, and for its edge filter no wire edge to split), every number of chained applications of the six face-split filters", "why_tests_cant": "Chaining depth is unbounded and each level multiplies the mesh size by four.", "anchors": [{"file": "include/itkTriangleCellSubdivisionQuadEdgeMeshFilter.hxx", "symbols": ["GenerateOutputCells"]}, {"file": "include/itkTriangleCellSubdivisionQuadEdgeMeshFilter.hxx", "symbols": ["GenerateOutputPoints"]}, {"file": "include/itkIterativeTriangleCellSubdivisionQuadEdgeMeshFilter.hxx", "symbols": ["GenerateData"]}]}
{"id": "C85", "title": "Loop scheme: vertex rule (exact conditions)", "statement": "Uniform Loop subdivision with a filter object that is new or was last used uniformly moves an interior vertex v of valence n to (1-n*beta) V + beta * (sum of its neighbours) with beta = (5/8 - (3/8 + 1/4 cos(2 pi/n))^2)/n, and a border vertex to 3/4 V + 1/8 (sum of its neighbours along the border). An object that was last used with a selection does not move any vertex in some later uniform run.", "quantifier": "for every valid triangle mesh with contiguous ids and without isolated points and every vertex of every valence; real arithmetic", "why_tests_cant": "Valence is unbounded and the ring traversal mixes interior and border neighbours.", "anchors": [{"file": "include/itkLoopTriangleCellSubdivisionQuadEdgeMeshFilter.hxx", "symbols": ["SmoothingPoint", "CopyInputMeshToOutputMeshPoints"]}]}
{"id": "C86", "title": "Conditional refinement by cell area terminates (exact conditions)", "statement": "With the Linear cell filter and the cell-area criterion, the conditional filter terminates for every positive maximum area: after finitely many rounds every area is at most the threshold, the output is valid and has the same total area. On some mesh without triangles it ends with an exception.", "quantifier": "for every valid triangle mesh with contiguous ids, real coordinates in any dimension and at least one triangle, and every MaximumArea > 0", "why_tests_cant": "Termination over all meshes and thresholds; rounds grow with log(area/threshold).", "anchors": [{"file": "include/itkConditionalSubdivisionQuadEdgeMeshFilter.hxx", "symbols": ["GenerateData"]}, {"file": "include/itkCellAreaTriangleCellSubdivisionCriterion.hxx", "symbols": ["Compute"]}, {"file": "include/itkLinearTriangleCellSubdivisionQuadEdgeMeshFilter.hxx", "symbols": ["AddNewCellPoints"]}]}
{"id": "C87", "title": "Conditional refinement by edge length terminates (exact conditions)", "statement": "With the Linear edge filter and the edge-length criterion, the conditional filter terminates for every positive maximum length: afterwards every edge has at most this length and the output is valid. On some mesh without triangles it runs into undefined behaviour.", "quantifier": "for every valid triangle mesh with contiguous ids, real coordinates in any dimension and at least one triangle, and every MaximumLength > 0", "why_tests_cant": "Splitting one edge of a triangle creates new median edges that are not halves of anything; termination needs a global argument.", "anchors": [{"file": "include/itkConditionalSubdivisionQuadEdgeMeshFilter.hxx", "symbols": ["GenerateData"]}, {"file": "include/itkEdgeLengthTriangleEdgeCellSubdivisionCriterion.hxx", "symbols": ["Compute"]}, {"file": "include/itkLinearTriangleEdgeCellSubdivisionQuadEdgeMeshFilter.hxx", "symbols": ["AddNewEdgePoints"]}]}
{"id": "C88", "title": "Wire edges (exact conditions)", "statement": "An edge without any adjacent triangle does not disturb the cell-based filters: the run completes, no point is inserted on the edge, the edge is absent from the output. It makes the Loop edge filter raise an exception if the filter has to split it.", "quantifier": "for every valid mesh with contiguous ids and any number of wire edges, without isolated points where a Loop filter is used; every selection of existing cells, for sqrt(3) with repetitions; fewer than 2^64 points and cells in all for sqrt(3)", "why_tests_cant": "Wire edges never occur in meshes read from the test data.", "anchors": [{"file": "include/itkLoopTriangleCellSubdivisionQuadEdgeMeshFilter.hxx", "symbols": ["AddNewCellPoints"]}, {"file": "include/itkLoopTriangleEdgeCellSubdivisionQuadEdgeMeshFilter.hxx", "symbols": ["AddNewEdgePoints"]}, {"file": "include/itkTriangleEdgeCellSubdivisionQuadEdgeMeshFilter.hxx", "symbols": ["GenerateOutputPoints"]}]}
{"id": "C89", "title": "Linear filters never leave the bounding box, rounding included", "statement": "If all coordinates of the input are finite and inside a box, then so are all coordinates of the output, in floating-point arithmetic and without any tolerance. This holds for one Update() of the Linear cell filter and of the Linear edge filter, for any number of levels of the iterative filter with the Linear scheme, and for the conditional filter around either of them.", "quantifier": "for every input mesh whatsoever, every selection, every number of levels, every criterion and threshold, every binary floating-point format with at least 8 bits of precision (binary32, binary64) and round to nearest even, every box with limits up to 2^(emax-2), a quarter of the overflow limit; whenever the run completes", "why_tests_cant": "A rounding error of one unit in the last place on one mesh is enough to break it; no set of test meshes covers all pairs of floating-point numbers.", "anchors": [{"file": "include/itkLinearTriangleCellSubdivisionQuadEdgeMeshFilter.hxx", "symbols": ["AddNewCellPoints"]}, {"file": "include/itkLinearTriangleEdgeCellSubdivisionQuadEdgeMeshFilter.hxx", "symbols": ["AddNewEdgePoints"]}, {"file": "include/itkIterativeTriangleCellSubdivisionQuadEdgeMeshFilter.hxx", "symbols": ["GenerateData"]}, {"file": "include/itkConditionalSubdivisionQuadEdgeMeshFilter.hxx", "symbols": ["GenerateData"]}]}
{"id": "C90", "title": "A coordinate that all points share is preserved exactly", "statement": "If all input points have the same finite value as i-th coordinate (a planar mesh in a coordinate plane, for example), then all output points have exactly this value as i-th coordinate, rounding included.", "quantifier": "for every input mesh with finite coordinates up to a quarter of the overflow limit, each of the seven filters, every selection, IEEE binary arithmetic; whenever the run completes", "why_tests_cant": "The weights of the schemes sum to one in exact arithmetic; whether the rounded sum gives back the common value depends on the value.", "anchors": [{"file": "include/itkLinearTriangleCellSubdivisionQuadEdgeMeshFilter.hxx", "symbols": ["AddNewCellPoints"]}, {"file": "include/itkLinearTriangleEdgeCellSubdivisionQuadEdgeMeshFilter.hxx", "symbols": ["AddNewEdgePoints"]}, {"file": "include/itkLoopTriangleCellSubdivisionQuadEdgeMeshFilter.hxx", "symbols": ["AddNewCellPoints", "SmoothingPoint"]}, {"file": "include/itkModifiedButterflyTriangleCellSubdivisionQuadEdgeMeshFilter.hxx", "symbols": ["AddNewCellPoints"]}, {"file": "include/itkSquareThreeTriangleCellSubdivisionQuadEdgeMeshFilter.hxx", "symbols": ["AddNewCellPoints", "GenerateOutputCells"]}]}
{"id": "C91", "title": "Rounding errors of one run are bounded and do not change the topology", "statement": "A run in floating-point arithmetic ends like the run in exact arithmetic on the same mesh, normally or with the same exception or undefined behaviour. If it completes, the output has the same faces, edges and ids, and every coordinate is finite and within a*e + 40 (u (M+e) + eta) of the exact result. Here e is the error of the input coordinates, M the largest exact coordinate, u the unit roundoff, eta half the smallest positive number, and a = 3/2 for the Butterfly schemes and 1 otherwise. For the Loop cell filter the bound is e + 40 ((V u + eps)(M+e) + eta), where V is the largest number of neighbours and eps the error of the cosine.", "quantifier": "for every mesh and every selection, each of the seven filters, every binary format with at least 8 bits of precision, round to nearest even, 2(M+e) up to a quarter of the overflow limit. Linear cell filter: valid mesh with contiguous ids. Loop cell filter: valid mesh with one fan of triangles around every point, 64 V u <= 1, eps <= 1/16, 2V(M+e) up to a quarter of the overflow limit", "why_tests_cant": "Tests compare a few outputs with a tolerance; they give no bound for other coordinates, selections or valences and cannot show that the topology never depends on rounding.", "anchors": [{"file": "include/itkLinearTriangleCellSubdivisionQuadEdgeMeshFilter.hxx", "symbols": ["AddNewCellPoints"]}, {"file": "include/itkLinearTriangleEdgeCellSubdivisionQuadEdgeMeshFilter.hxx", "symbols": ["AddNewEdgePoints"]}, {"file": "include/itkLoopTriangleCellSubdivisionQuadEdgeMeshFilter.hxx", "symbols": ["AddNewCellPoints", "SmoothingPoint"]}, {"file": "include/itkModifiedButterflyTriangleCellSubdivisionQuadEdgeMeshFilter.hxx", "symbols": ["AddNewCellPoints"]}, {"file": "include/itkSquareThreeTriangleCellSubdivisionQuadEdgeMeshFilter.hxx", "symbols": ["AddNewCellPoints", "GenerateOutputCells"]}]}
{"id": "C92", "title": "Rounding errors of the iterative filter grow at most linearly with the levels", "statement": "The iterative filter with the Linear or the sqrt(3) scheme ends in floating-point arithmetic as in exact arithmetic, with the same faces, edges, ids and the same final selection, and after L levels every coordinate is within e + 80 L (u (M+e) + eta) of the exact one, with e, M, u, eta as in C91.", "quantifier": "for every number of levels L with 80 L u <= 1 (L = 0 counts as 1), every selection of existing cells, every binary format with at least 8 bits of precision, 4(M+e)+2 up to a quarter of the overflow limit. Linear: every valid mesh with contiguous ids and at least one triangle. sqrt(3): every mesh whatsoever", "why_tests_cant": "Error growth over an arbitrary number of levels is out of reach of tests, and the number of points grows exponentially.", "anchors": [{"file": "include/itkLinearTriangleCellSubdivisionQuadEdgeMeshFilter.hxx", "symbols": ["AddNewCellPoints"]}, {"file": "include/itkLinearTriangleEdgeCellSubdivisionQuadEdgeMeshFilter.hxx", "symbols": ["AddNewEdgePoints"]}, {"file": "include/itkIterativeTriangleCellSubdivisionQuadEdgeMeshFilter.hxx", "symbols": ["GenerateData"]}, {"file": "include/itkSquareThreeTriangleCellSubdivisionQuadEdgeMeshFilter.hxx", "symbols": ["AddNewCellPoints", "GenerateOutputCells"]}]}
{"id": "C93", "title": "Linear subdivision does not change the surface as a set of points", "statement": "A point of space lies on some triangle of the output of a Linear run exactly if it lies on some triangle of the input: no gap opens, nothing is added, whichever triangles or edges are selected.", "quantifier": "for every valid triangle mesh with contiguous ids and at least one triangle, real coordinates in any dimension d; every chain of Linear cell and Linear edge filters with any selections of existing cells or (without repetition) edges, every number of levels of the iterative filter with the Linear scheme and every selection, the conditional filter with the Linear cell filter and every MaximumArea, or with the Linear edge filter and every MaximumLength; whenever the run completes", "why_tests_cant": "The claim is about all points of the surface, and about all selections and numbers of rounds; tests look at a few vertices of a few meshes.", "anchors": [{"file": "include/itkLinearTriangleCellSubdivisionQuadEdgeMeshFilter.hxx", "symbols": ["AddNewCellPoints"]}, {"file": "include/itkLinearTriangleEdgeCellSubdivisionQuadEdgeMeshFilter.hxx", "symbols": ["AddNewEdgePoints"]}, {"file": "include/itkTriangleCellSubdivisionQuadEdgeMeshFilter.hxx", "symbols": ["GenerateOutputCells", "SplitTriangleFromThreeEdges"]}, {"file": "include/itkTriangleEdgeCellSubdivisionQuadEdgeMeshFilter.hxx", "symbols": ["GenerateOutputCells"]}, {"file": "include/itkIterativeTriangleCellSubdivisionQuadEdgeMeshFilter.hxx", "symbols": ["GenerateData"]}, {"file": "include/itkConditionalSubdivisionQuadEdgeMeshFilter.hxx", "symbols": ["GenerateData"]}]}
{"id": "C94", "title": "Linear subdivision preserves every additive quantity of the surface, such as the enclosed volume", "statement": "Any quantity of oriented triangles that is independent of the starting corner and adds up when a triangle is cut from a corner to the midpoint of the opposite side has the same total over the triangles of the output as over those of the input. In particular the signed volume enclosed by a closed oriented surface (the sum of the signed volumes of the tetrahedra over a fixed origin) is unchanged in dimension 3.", "quantifier": "for every such quantity; for every valid triangle mesh with contiguous ids and at least one triangle, real coordinates in any dimension d; every chain of Linear cell and Linear edge filters with any selections of existing cells or (without repetition) edges, every number of levels of the iterative filter with the Linear scheme and every selection, the conditional filter with the Linear cell filter and every MaximumArea, or with the Linear edge filter and every MaximumLength; whenever the run completes", "why_tests_cant": "The claim is about all points of the surface, and about all selections and numbers of rounds; tests look at a few vertices of a few meshes.", "anchors": [{"file": "include/itkLinearTriangleCellSubdivisionQuadEdgeMeshFilter.hxx", "symbols": ["AddNewCellPoints"]}, {"file": "include/itkLinearTriangleEdgeCellSubdivisionQuadEdgeMeshFilter.hxx", "symbols": ["AddNewEdgePoints"]}, {"file": "include/itkTriangleCellSubdivisionQuadEdgeMeshFilter.hxx", "symbols": ["GenerateOutputCells", "SplitTriangleFromThreeEdges"]}, {"file": "include/itkTriangleEdgeCellSubdivisionQuadEdgeMeshFilter.hxx", "symbols": ["GenerateOutputCells"]}, {"file": "include/itkIterativeTriangleCellSubdivisionQuadEdgeMeshFilter.hxx", "symbols": ["GenerateData"]}, {"file": "include/itkConditionalSubdivisionQuadEdgeMeshFilter.hxx", "symbols": ["GenerateData"]}]}
{"id": "C95", "title": "Linear subdivision never turns a triangle over; every other scheme can", "statement": "Every triangle of the output of a Linear run lies inside a triangle of the input, and its normal (in every coordinate plane) is w times the normal of that triangle with 0 < w <= 1: orientation and planarity survive, no new degenerate triangle appears. This is special to the Linear filters: there is a planar mesh with counterclockwise triangles only on which each of the other five filters (Loop, Butterfly and sqrt(3) cell filters, Loop and Butterfly edge filters) produces a clockwise triangle.", "quantifier": "for every valid triangle mesh with contiguous ids and at least one triangle, real coordinates in any dimension d; every chain of Linear cell and Linear edge filters with any selections of existing cells or (without repetition) edges, every number of levels of the iterative filter with the Linear scheme and every selection, the conditional filter with the Linear cell filter and every MaximumArea, or with the Linear edge filter and every MaximumLength; whenever the run completes", "why_tests_cant": "The claim is about all points of the surface, and about all selections and numbers of rounds; tests look at a few vertices of a few meshes.", "anchors": [{"file": "include/itkLinearTriangleCellSubdivisionQuadEdgeMeshFilter.hxx", "symbols": ["AddNewCellPoints"]}, {"file": "include/itkLinearTriangleEdgeCellSubdivisionQuadEdgeMeshFilter.hxx", "symbols": ["AddNewEdgePoints"]}, {"file": "include/itkLoopTriangleCellSubdivisionQuadEdgeMeshFilter.hxx", "symbols": ["AddNewCellPoints", "SmoothingPoint"]}, {"file": "include/itkModifiedButterflyTriangleCellSubdivisionQuadEdgeMeshFilter.hxx", "symbols": ["AddNewCellPoints"]}, {"file": "include/itkSquareThreeTriangleCellSubdivisionQuadEdgeMeshFilter.hxx", "symbols": ["AddNewCellPoints", "GenerateOutputCells"]}, {"file": "include/itkTriangleCellSubdivisionQuadEdgeMeshFilter.hxx", "symbols": ["GenerateOutputCells", "SplitTriangleFromThreeEdges"]}, {"file": "include/itkTriangleEdgeCellSubdivisionQuadEdgeMeshFilter.hxx", "symbols": ["GenerateOutputCells"]}, {"file": "include/itkIterativeTriangleCellSubdivisionQuadEdgeMeshFilter.hxx", "symbols": ["GenerateData"]}, {"file": "include/itkConditionalSubdivisionQuadEdgeMeshFilter.hxx", "symbols": ["GenerateData"]}]}
{"id": "C96", "title": "Uniform Linear levels: exact half-size copies", "statement": "After n uniform levels of the iterative filter with the Linear scheme, every output triangle is the image of an input triangle under a translation and a scaling by (1/2)^n or -(1/2)^n, so all angles are those of the input, and every output edge is exactly 2^n times shorter than some input edge.", "quantifier": "for every valid triangle mesh with contiguous ids and at least one triangle, real coordinates in any dimension, every ResolutionLevels (0 counts as 1), empty selection; whenever the run completes", "why_tests_cant": "Holds for every level; the number of triangles grows as 4^n, so tests stop at two or three levels.", "anchors": [{"file": "include/itkLinearTriangleCellSubdivisionQuadEdgeMeshFilter.hxx", "symbols": ["AddNewCellPoints"]}, {"file": "include/itkLinearTriangleEdgeCellSubdivisionQuadEdgeMeshFilter.hxx", "symbols": ["AddNewEdgePoints"]}, {"file": "include/itkTriangleCellSubdivisionQuadEdgeMeshFilter.hxx", "symbols": ["GenerateOutputCells", "SplitTriangleFromThreeEdges"]}, {"file": "include/itkTriangleEdgeCellSubdivisionQuadEdgeMeshFilter.hxx", "symbols": ["GenerateOutputCells"]}, {"file": "include/itkIterativeTriangleCellSubdivisionQuadEdgeMeshFilter.hxx", "symbols": ["GenerateData"]}]}
{"id": "C97", "title": "Valences after a uniform face-split run", "statement": "After a uniform run of any of the six face-split filters, every original point whose edges all belong to triangles has as many neighbours as before, every new point inside the surface has exactly 6 neighbours, every new point on the border exactly 4, and a new point on an edge without triangles none. In particular the number of irregular points does not grow with the number of levels.", "quantifier": "for every valid triangle mesh with contiguous ids and at least one triangle; Loop filters: no isolated points, for the Loop edge filter no edges without triangles; empty selection; any coordinate arithmetic", "why_tests_cant": "Valence is checked by tests, if at all, on one sphere; the claim is about every connectivity.", "anchors": [{"file": "include/itkLinearTriangleCellSubdivisionQuadEdgeMeshFilter.hxx", "symbols": ["AddNewCellPoints"]}, {"file": "include/itkLinearTriangleEdgeCellSubdivisionQuadEdgeMeshFilter.hxx", "symbols": ["AddNewEdgePoints"]}, {"file": "include/itkLoopTriangleCellSubdivisionQuadEdgeMeshFilter.hxx", "symbols": ["AddNewCellPoints", "SmoothingPoint"]}, {"file": "include/itkModifiedButterflyTriangleCellSubdivisionQuadEdgeMeshFilter.hxx", "symbols": ["AddNewCellPoints"]}, {"file": "include/itkSquareThreeTriangleCellSubdivisionQuadEdgeMeshFilter.hxx", "symbols": ["AddNewCellPoints", "GenerateOutputCells"]}, {"file": "include/itkTriangleCellSubdivisionQuadEdgeMeshFilter.hxx", "symbols": ["GenerateOutputCells", "SplitTriangleFromThreeEdges"]}, {"file": "include/itkTriangleEdgeCellSubdivisionQuadEdgeMeshFilter.hxx", "symbols": ["GenerateOutputCells"]}]}
{"id": "C98", "title": "Locality: which input points an output point can depend on", "statement": "Run the same filter with the same selection on two meshes that differ in their coordinates only. A new point on the edge {a, b} has the same coordinates in both outputs if the inputs agree at a and b (Linear), at a, b and the third corners of the triangles at the edge (Loop), at all points at most two edges away from a or b (Butterfly); a new sqrt(3) point if they agree at the corners of its triangle. An original point agrees if it did in the inputs, for the Loop cell filter together with its neighbours.", "quantifier": "for all pairs of valid triangle meshes with contiguous ids and equal connectivity, each of the seven filters, every selection of existing cells or (without repetition) edges (no repetitions for sqrt(3) either, and fewer than 2^64 points and cells in all; Loop: no isolated points, no edge without triangles to split), any coordinate arithmetic, also rounded; whenever both runs complete", "why_tests_cant": "A stray dependence on a far point (a wrong stencil operator at the border, a reused buffer) shows only for particular pairs of inputs.", "anchors": [{"file": "include/itkLinearTriangleCellSubdivisionQuadEdgeMeshFilter.hxx", "symbols": ["AddNewCellPoints"]}, {"file": "include/itkLinearTriangleEdgeCellSubdivisionQuadEdgeMeshFilter.hxx", "symbols": ["AddNewEdgePoints"]}, {"file": "include/itkLoopTriangleCellSubdivisionQuadEdgeMeshFilter.hxx", "symbols": ["AddNewCellPoints", "SmoothingPoint"]}, {"file": "include/itkModifiedButterflyTriangleCellSubdivisionQuadEdgeMeshFilter.hxx", "symbols": ["AddNewCellPoints"]}, {"file": "include/itkSquareThreeTriangleCellSubdivisionQuadEdgeMeshFilter.hxx", "symbols": ["AddNewCellPoints", "GenerateOutputCells"]}]}
{"id": "C99", "title": "A positive threshold below the floating-point resolution makes the conditional filter run forever", "statement": "In real arithmetic every positive threshold ends the conditional filter around a Linear filter (C36, C37). In floating point it does not. (Edge length) If a face has an edge whose end points agree in all coordinates but one and there hold neighbouring floating-point numbers r >= 0 and succ r, then with every MaximumLength below succ r - r Update() never returns. (Area) If a face has the corners (1+u, 1+u, 1), (1+2u, 1+u, 1), (1+u, 1+2u, 1) with u = 2^-52 in binary64, then with every MaximumArea up to 2^-106 Update() never returns, although its area is 2^-105.", "quantifier": "for every valid mesh with contiguous ids that contains such an edge or face, every earlier state of the filter and of the criterion. Edge length: every binary format with at least 8 bits of precision, round to nearest even, any dimension, coordinates up to a quarter of the overflow limit, and (succ r - r)^2 between the smallest positive number and a quarter of the overflow limit. Area: binary64, three dimensions", "why_tests_cant": "A test cannot observe that a run never ends, and it would need inputs at the resolution limit.", "anchors": [{"file": "include/itkLinearTriangleCellSubdivisionQuadEdgeMeshFilter.hxx", "symbols": ["AddNewCellPoints"]}, {"file": "include/itkLinearTriangleEdgeCellSubdivisionQuadEdgeMeshFilter.hxx", "symbols": ["AddNewEdgePoints"]}, {"file": "include/itkConditionalSubdivisionQuadEdgeMeshFilter.hxx", "symbols": ["GenerateData"]}]}
{"id": "C100", "title": "Thresholds well above the floating-point resolution do end the conditional edge filter", "statement": "In floating point, the conditional filter around the Linear edge filter with the edge-length criterion ends for every threshold T that is not tiny compared with the coordinates (about 4000 sqrt(d+1) u M, where u is the unit roundoff and M bounds the coordinates); the output is a valid mesh in the bounding box of the input and every one of its edges, measured exactly, is at most 3 per cent longer than T.", "quantifier": "for every valid triangle mesh with contiguous ids and at least one triangle, finite coordinates in [-M, M], every binary format with at least 8 bits of precision and round to nearest even, every dimension d with 200 (d+3) u <= 1, every finite T > 0 with 10000 (d+1) (40 (u M + eta))^2 <= T^2 and 1000 (d+1) eta <= T^2 where eta is half the smallest positive number, 5 (d+1) (M^2+1) at most a quarter of the overflow limit; every earlier state of the filter and of the criterion", "why_tests_cant": "Termination for all inputs, with rounding errors in every midpoint and every computed length; a test that ends shows one input.", "anchors": [{"file": "include/itkLinearTriangleCellSubdivisionQuadEdgeMeshFilter.hxx", "symbols": ["AddNewCellPoints"]}, {"file": "include/itkLinearTriangleEdgeCellSubdivisionQuadEdgeMeshFilter.hxx", "symbols": ["AddNewEdgePoints"]}, {"file": "include/itkConditionalSubdivisionQuadEdgeMeshFilter.hxx", "symbols": ["GenerateData"]}]}
{"id": "C101", "title": "Uniform levels shorten every edge geometrically, for all four schemes", "statement": "If no edge of the input is longer than L, then after n uniform levels of the iterative filter no edge is longer than q^n L, where q = 1/2 for Linear, 7/8 for Loop, 3/4 for Butterfly and 2/3 for sqrt(3); so for every tolerance there is a number of levels from which on all edges are shorter.", "quantifier": "for every valid triangle mesh with contiguous ids and at least one triangle, real coordinates in any dimension, every number of levels; Loop: no isolated point, no edge without triangles, at most one fan of triangles per border point; Butterfly and sqrt(3): closed (every edge of a triangle has two triangles), and for sqrt(3) ids that fit into 64 bits; empty selection; whenever the run completes", "why_tests_cant": "A statement about every level, every valence and every shape: the factor for Loop depends on the weight of each valence n, and the size of the mesh grows as 4^n.", "anchors": [{"file": "include/itkLinearTriangleCellSubdivisionQuadEdgeMeshFilter.hxx", "symbols": ["AddNewCellPoints"]}, {"file": "include/itkLinearTriangleEdgeCellSubdivisionQuadEdgeMeshFilter.hxx", "symbols": ["AddNewEdgePoints"]}, {"file": "include/itkLoopTriangleCellSubdivisionQuadEdgeMeshFilter.hxx", "symbols": ["AddNewCellPoints", "SmoothingPoint"]}, {"file": "include/itkModifiedButterflyTriangleCellSubdivisionQuadEdgeMeshFilter.hxx", "symbols": ["AddNewCellPoints"]}, {"file": "include/itkSquareThreeTriangleCellSubdivisionQuadEdgeMeshFilter.hxx", "symbols": ["AddNewCellPoints", "GenerateOutputCells"]}, {"file": "include/itkIterativeTriangleCellSubdivisionQuadEdgeMeshFilter.hxx", "symbols": ["GenerateData"]}]}
{"id": "C102", "title": "Uniform levels converge: every point has a limit position, and the surface stops moving geometrically fast", "statement": "Compare the mesh after j uniform levels with the one after k >= j levels. Every point of the first is still there and has moved at most c q^j L, and every point of the second is at most c q^j L away from some point of the first, where L bounds the edges of the input, q is the factor of C101 and c = 1 (Linear), 5 (Loop), 3 (Butterfly), 2 (sqrt(3)). Hence the output stays within c L of the input points for every number of levels, and every point has a limit position from which each of its coordinates is at most c q^k L away after k levels.", "quantifier": "as in C101, for all j <= k, j = 0 meaning the input itself; whenever the runs complete", "why_tests_cant": "The bound is uniform in the number of levels, and a limit cannot be observed by running finitely many of them.", "anchors": [{"file": "include/itkLinearTriangleCellSubdivisionQuadEdgeMeshFilter.hxx", "symbols": ["AddNewCellPoints"]}, {"file": "include/itkLinearTriangleEdgeCellSubdivisionQuadEdgeMeshFilter.hxx", "symbols": ["AddNewEdgePoints"]}, {"file": "include/itkLoopTriangleCellSubdivisionQuadEdgeMeshFilter.hxx", "symbols": ["AddNewCellPoints", "SmoothingPoint"]}, {"file": "include/itkModifiedButterflyTriangleCellSubdivisionQuadEdgeMeshFilter.hxx", "symbols": ["AddNewCellPoints"]}, {"file": "include/itkSquareThreeTriangleCellSubdivisionQuadEdgeMeshFilter.hxx", "symbols": ["AddNewCellPoints", "GenerateOutputCells"]}, {"file": "include/itkIterativeTriangleCellSubdivisionQuadEdgeMeshFilter.hxx", "symbols": ["GenerateData"]}]}
{"id": "C103", "title": "Loop edge filter with the edge-length criterion ends for every positive threshold", "statement": "The conditional filter around the Loop edge filter with the edge-length criterion ends for every MaximumLength > 0, and its output is a valid mesh without an edge longer than MaximumLength, although the Loop rule puts the new points off the edges it splits (so the new edges need not be halves of old ones, and a long edge could in principle reappear in every round).", "quantifier": "for every valid triangle mesh with contiguous ids, at least one triangle, no isolated point and no edge without triangles, real coordinates in any dimension, every MaximumLength > 0, every earlier state of the filter and of the criterion", "why_tests_cant": "Termination for all inputs: a test that ends shows one input, one that does not end shows nothing.", "anchors": [{"file": "include/itkLinearTriangleCellSubdivisionQuadEdgeMeshFilter.hxx", "symbols": ["AddNewCellPoints"]}, {"file": "include/itkLinearTriangleEdgeCellSubdivisionQuadEdgeMeshFilter.hxx", "symbols": ["AddNewEdgePoints"]}, {"file": "include/itkLoopTriangleCellSubdivisionQuadEdgeMeshFilter.hxx", "symbols": ["AddNewCellPoints", "SmoothingPoint"]}, {"file": "include/itkModifiedButterflyTriangleCellSubdivisionQuadEdgeMeshFilter.hxx", "symbols": ["AddNewCellPoints"]}, {"file": "include/itkSquareThreeTriangleCellSubdivisionQuadEdgeMeshFilter.hxx", "symbols": ["AddNewCellPoints", "GenerateOutputCells"]}, {"file": "include/itkConditionalSubdivisionQuadEdgeMeshFilter.hxx", "symbols": ["GenerateData"]}]}
{"id": "C104", "title": "How many rounds the conditional filter makes, and how large its output can get", "statement": "A completed run of the conditional filter is a chain of r ordinary Update() calls on a copy of the input, and the output has at most 4^r times as many triangles. Linear cell filter, area criterion t: r <= n if no area exceeds t 4^n, and r > j if some triangle is larger than t 4^j, so r is fixed by the largest triangle alone. Linear edge filter, edge-length criterion T: r <= n if 2 M^2 <= T^2 (1 + 2^n), where M bounds the edges, and r > j if some side of a triangle is longer than T 2^j. Loop edge filter, edge-length criterion: r <= n if 2 M^2 <= T^2 (1 + (3/2)^n).", "quantifier": "for every valid triangle mesh with contiguous ids and at least one triangle (Loop: no isolated point, no edge without triangles), real coordinates in any dimension, every positive threshold, every earlier state; whenever the run completes (it does: C36, C37, C103)", "why_tests_cant": "The cost of a run depends on areas and lengths over many orders of magnitude; a test fixes one ratio.", "anchors": [{"file": "include/itkLinearTriangleCellSubdivisionQuadEdgeMeshFilter.hxx", "symbols": ["AddNewCellPoints"]}, {"file": "include/itkLinearTriangleEdgeCellSubdivisionQuadEdgeMeshFilter.hxx", "symbols": ["AddNewEdgePoints"]}, {"file": "include/itkLoopTriangleCellSubdivisionQuadEdgeMeshFilter.hxx", "symbols": ["AddNewCellPoints", "SmoothingPoint"]}, {"file": "include/itkModifiedButterflyTriangleCellSubdivisionQuadEdgeMeshFilter.hxx", "symbols": ["AddNewCellPoints"]}, {"file": "include/itkSquareThreeTriangleCellSubdivisionQuadEdgeMeshFilter.hxx", "symbols": ["AddNewCellPoints", "GenerateOutputCells"]}, {"file": "include/itkConditionalSubdivisionQuadEdgeMeshFilter.hxx", "symbols": ["GenerateData"]}]}
{"id": "C105", "title": "What earlier calls on the same filter object leave behind", "statement": "After any sequence of SetCellsToBeSubdivided, AddSubdividedCellId and completed Update() calls on a cell-based filter, its list is the one last set or last reported by a run, followed by the ids added since, and the next Update() does exactly what it does on a new object with that list; the Loop filter in addition remembers whether its last run was without a selection, nothing else. For an edge-based filter (SetEdgesToBeSubdivided, AddSubdividedEdge) the same holds, a run leaves the list alone, and nothing else is remembered, not even the edge points of the last run. The iterative filter depends only on the last number of levels and on its list of ids, which runs leave alone. The conditional filter delivers the same output whatever was called before on it, on its inner filter and on its criterion, except that with the Loop cell filter it depends on whether the last run of the inner filter had a selection; so there a second run on the same input can give another output.", "quantifier": "for every sequence of calls of every length, every mesh and every selection (valid or not), all seven filters and both drivers, every coordinate type; completed runs with their outputs, and for the next run every outcome (output, exception, undefined behaviour, no end)", "why_tests_cant": "It is about all call histories on one object; a test fixes one history, and the usual test uses each object once.", "anchors": [{"file": "include/itkLinearTriangleCellSubdivisionQuadEdgeMeshFilter.hxx", "symbols": ["AddNewCellPoints"]}, {"file": "include/itkLinearTriangleEdgeCellSubdivisionQuadEdgeMeshFilter.hxx", "symbols": ["AddNewEdgePoints"]}, {"file": "include/itkLoopTriangleCellSubdivisionQuadEdgeMeshFilter.hxx", "symbols": ["AddNewCellPoints", "SmoothingPoint"]}, {"file": "include/itkModifiedButterflyTriangleCellSubdivisionQuadEdgeMeshFilter.hxx", "symbols": ["AddNewCellPoints"]}, {"file": "include/itkSquareThreeTriangleCellSubdivisionQuadEdgeMeshFilter.hxx", "symbols": ["AddNewCellPoints", "GenerateOutputCells"]}, {"file": "include/itkIterativeTriangleCellSubdivisionQuadEdgeMeshFilter.hxx", "symbols": ["GenerateData"]}, {"file": "include/itkConditionalSubdivisionQuadEdgeMeshFilter.hxx", "symbols": ["GenerateData"]}]}
{"id": "C106", "title": "The conditional sqrt(3) filter with the area criterion ends for every positive threshold", "statement": "The conditional filter around the sqrt(3) filter with the area criterion ends for every MaximumArea t > 0, although flipping the edges between subdivided triangles can make triangles larger than the ones they replace. If no side of a triangle is longer than M, it makes at most p q rounds, where M^2/2 <= t (9/4)^p and M^2/2 <= t 3^q; the output is a valid mesh in which no triangle is larger than t and no side longer than M, and the points of the input keep their ids and positions.", "quantifier": "for every valid triangle mesh with contiguous ids and at least one triangle, with or without border, real coordinates in any dimension, every t > 0, every earlier state of the filter and of the criterion, provided that the ids fit into 64 bits (V + 2 F 3^(p q) < 2^64)", "why_tests_cant": "Termination for all inputs: a test that ends shows one input, one that does not end shows nothing; and the sizes of the triangles do not decrease from round to round.", "anchors": [{"file": "include/itkLinearTriangleCellSubdivisionQuadEdgeMeshFilter.hxx", "symbols": ["AddNewCellPoints"]}, {"file": "include/itkLinearTriangleEdgeCellSubdivisionQuadEdgeMeshFilter.hxx", "symbols": ["AddNewEdgePoints"]}, {"file": "include/itkLoopTriangleCellSubdivisionQuadEdgeMeshFilter.hxx", "symbols": ["AddNewCellPoints", "SmoothingPoint"]}, {"file": "include/itkModifiedButterflyTriangleCellSubdivisionQuadEdgeMeshFilter.hxx", "symbols": ["AddNewCellPoints"]}, {"file": "include/itkSquareThreeTriangleCellSubdivisionQuadEdgeMeshFilter.hxx", "symbols": ["AddNewCellPoints", "GenerateOutputCells"]}, {"file": "include/itkConditionalSubdivisionQuadEdgeMeshFilter.hxx", "symbols": ["GenerateData"]}]}
{"id": "C107", "title": "The conditional Butterfly filter with the area criterion can run for ever, for every positive threshold", "statement": "The conditional filter around the Butterfly cell filter with the area criterion does not end for every input, whatever the positive MaximumArea t: there is a mesh of ten triangles of positive area on which it never ends. The reason is local: whenever a triangle (v, q, c) has neighbours in certain positions relative to it (the new points of the edges v q and v c then fall on q and c), is larger than t but not larger than 2 t, and no other triangle is larger than t, the run does not end. It is no effect of rounding, and it happens in binary64 too: one mesh with integer coordinates up to 28 makes the filter run for ever for all t from 11 to 19.", "quantifier": "for every t > 0 there is a mesh (points in three dimensions, real coordinates); locally: for every valid triangle mesh with contiguous ids, any dimension, with the neighbourhood described, area/2 <= t < area, and all other areas at most t; binary64: every finite t with 11 <= t <= 19; every earlier state of the filter and of the criterion", "why_tests_cant": "Non-termination cannot be observed; and the meshes that do this are ruled out by generic positions of the points, so random tests end.", "anchors": [{"file": "include/itkModifiedButterflyTriangleCellSubdivisionQuadEdgeMeshFilter.hxx", "symbols": ["AddNewCellPoints"]}, {"file": "include/itkCellAreaTriangleCellSubdivisionCriterion.hxx", "symbols": ["Compute"]}, {"file": "include/itkTriangleCellSubdivisionQuadEdgeMeshFilter.hxx", "symbols": ["GenerateOutputCells", "SplitTriangleFromOneEdge"]}, {"file": "include/itkConditionalSubdivisionQuadEdgeMeshFilter.hxx", "symbols": ["GenerateData"]}]}
{"id": "C108", "title": "Area thresholds well above the floating-point resolution do end the conditional Linear filter", "statement": "In floating point, the conditional filter around the Linear cell filter with the area criterion ends for every MaximumArea T that is not tiny compared with the square of the coordinates (about 145 sqrt((d+7) u) * 4 d M^2, where u is the unit roundoff and M bounds the coordinates), although the area is computed with Heron's formula, which loses half the digits on thin triangles; the output is a valid mesh in the bounding box of the input and every one of its triangles, measured exactly, is at most 2 per cent larger than T.", "quantifier": "for every valid triangle mesh with contiguous ids and at least one triangle, finite coordinates in [-M, M], every binary format with at least 8 bits of precision and round to nearest even, every dimension d with 1000 (d+7) u <= 1, every finite T > 0 with 21000 (d+7) u S^2 <= T^2 where S = 4 d M^2, no underflow near (4 (d+1) eta <= u^2 S and eta <= u S^2, eta half the smallest positive number), no overflow near (5 (d+1) (M^2+1) and 8 (S^2+1) at most a quarter of the overflow limit); every earlier state of the filter and of the criterion", "why_tests_cant": "Termination for all inputs, with rounding errors in every midpoint and every computed area; a test that ends shows one input, and C99 shows that small thresholds need not end.", "anchors": [{"file": "include/itkLinearTriangleCellSubdivisionQuadEdgeMeshFilter.hxx", "symbols": ["AddNewCellPoints"]}, {"file": "include/itkCellAreaTriangleCellSubdivisionCriterion.hxx", "symbols": ["Compute"]}, {"file": "include/itkConditionalSubdivisionQuadEdgeMeshFilter.hxx", "symbols": ["GenerateData"]}]}
{"id": "C109", "title": "The conditional Loop filter with the area criterion can run for ever, even when no triangle exceeds the threshold", "statement": "The conditional filter around the Loop cell filter with the area criterion does not end for every input. In exact arithmetic, for every positive MaximumArea t there is a mesh of 28 triangles of positive area on which it never ends, when the Loop filter has last been run with a selection (so that the first round does not smooth all points). The reason is local: a triangle (c, v, q) with neighbours in certain positions, whose cell number is not the identifier of a point, leaves after each round one triangle larger than t, whose area tends to t from above. In binary64 rounding alone is enough: one mesh with integer coordinates up to 69 has no triangle of exact area larger than 56, yet with MaximumArea = 56 the filter runs for ever, for a new filter object as well as for a used one.", "quantifier": "for every t > 0 there is a mesh (points in three dimensions, real coordinates), for every state of the filter with the uniform flag off; locally: for every valid triangle mesh with contiguous ids, without wire edges and isolated points, any dimension, with the neighbourhood described for 4 <= k < 6, 3/7 <= xi <= 5/8, t = k/6 of the area, and all other areas at most t; binary64: every earlier state of the filter and of the criterion, every cosine function", "why_tests_cant": "Non-termination cannot be observed, and the threshold has to be met exactly: random meshes and thresholds will not show it.", "anchors": [{"file": "include/itkLoopTriangleCellSubdivisionQuadEdgeMeshFilter.hxx", "symbols": ["AddNewCellPoints", "CopyInputMeshToOutputMeshPoints"]}, {"file": "include/itkCellAreaTriangleCellSubdivisionCriterion.hxx", "symbols": ["Compute"]}, {"file": "include/itkTriangleCellSubdivisionQuadEdgeMeshFilter.hxx", "symbols": ["GenerateOutputCells", "SplitTriangleFromOneEdge"]}, {"file": "include/itkConditionalSubdivisionQuadEdgeMeshFilter.hxx", "symbols": ["GenerateData"]}]}
{"id": "C110", "title": "The conditional Butterfly edge filter with the edge-length criterion ends on closed meshes for every positive threshold", "statement": "The conditional filter around the Butterfly edge filter with the edge-length criterion ends on every closed mesh for every MaximumLength L > 0, although the Butterfly rule has negative weights, so that new points need not lie between old ones; in the output, a valid mesh, no edge is longer than L. (With the area criterion the Butterfly cell filter need not end, C107.)", "quantifier": "for every valid closed triangle mesh with contiguous ids and at least one triangle, wire edges and isolated points allowed, real coordinates in any dimension, every L > 0, every earlier state of the filter and of the criterion", "why_tests_cant": "Termination for all inputs: a test that ends shows one input; and the lengths made by a round depend on the neighbours of the split triangles.", "anchors": [{"file": "include/itkModifiedButterflyTriangleEdgeCellSubdivisionQuadEdgeMeshFilter.hxx", "symbols": ["AddNewEdgePoints"]}, {"file": "include/itkEdgeLengthTriangleEdgeCellSubdivisionCriterion.hxx", "symbols": ["Compute"]}, {"file": "include/itkTriangleEdgeCellSubdivisionQuadEdgeMeshFilter.hxx", "symbols": ["GenerateOutputCells"]}, {"file": "include/itkConditionalSubdivisionQuadEdgeMeshFilter.hxx", "symbols": ["GenerateData"]}]}
{"id": "C111", "title": "Where the points go under repeated Loop subdivision", "statement": "Every point of every level of uniform Loop subdivision has a limit position, and it can be computed from the current level alone: (3 v + 8 b S) / (3 + 8 n b) for an inner point v with n neighbours, S their sum and b the Loop weight, and 2/3 v + 1/6 (p + q) for a border point with the border neighbours p and q. The formula gives exactly one position, gives the same position on every later level, and after k levels the point is at most 5/8 (7/8)^k L away from it, where L bounds the edges of the input.", "quantifier": "for every valid triangle mesh with contiguous ids and at least one triangle, no isolated point, no edge without triangles, at most one fan of triangles at each point, with or without border, real coordinates in any dimension, every number of levels, every point of every level", "why_tests_cant": "A limit over all levels; a test sees finitely many levels, and the mesh grows by a factor of four with each.", "anchors": [{"file": "include/itkLoopTriangleCellSubdivisionQuadEdgeMeshFilter.hxx", "symbols": ["AddNewCellPoints", "CopyInputMeshToOutputMeshPoints", "SmoothingPoint"]}, {"file": "include/itkIterativeTriangleCellSubdivisionQuadEdgeMeshFilter.hxx", "symbols": ["GenerateData"]}]}
{"id": "C112", "title": "Polynomials on regular pieces: Butterfly reproduces cubics, Loop shifts quadratics by a constant", "statement": "Let the mesh be mapped to a plane with parameters s and t so that any two triangles with a common edge become the two halves of a parallelogram, and let a coordinate of the points be a polynomial P(s, t). Butterfly filters, P of degree at most 3: the new point of an edge whose two triangles have all four further neighbours gets the value of P at the middle of the edge. Loop filters, P of degree at most 2: the new point of an edge with two triangles gets the value of P at the middle plus a constant, and with the uniform cell filter every inner point with six neighbours gets the value of P plus the same constant; the constant is an eighth of the sum of the second-order part of P over the three sides of a triangle, the same for adjacent triangles.", "quantifier": "for every valid triangle mesh with contiguous ids that has such parameters, real coordinates in any dimension, every polynomial, every selection the filter accepts; cell-based and edge-based filters", "why_tests_cant": "A statement about all polynomials and all regular pieces, with real numbers; a test checks one polynomial at a few points, with rounding.", "anchors": [{"file": "include/itkModifiedButterflyTriangleCellSubdivisionQuadEdgeMeshFilter.hxx", "symbols": ["AddNewCellPoints"]}, {"file": "include/itkModifiedButterflyTriangleEdgeCellSubdivisionQuadEdgeMeshFilter.hxx", "symbols": ["AddNewEdgePoints"]}, {"file": "include/itkLoopTriangleCellSubdivisionQuadEdgeMeshFilter.hxx", "symbols": ["AddNewCellPoints", "SmoothingPoint"]}, {"file": "include/itkLoopTriangleEdgeCellSubdivisionQuadEdgeMeshFilter.hxx", "symbols": ["AddNewEdgePoints"]}]}
{"id": "C113", "title": "Length thresholds well above the floating-point resolution do end the conditional Loop edge filter", "statement": "In floating point, the conditional filter around the Loop edge filter with the edge-length criterion ends for every MaximumLength T that is not tiny compared with the resolution of the coordinates, although every new point is rounded (it may leave the convex hull of the input by a little in every round) and every computed length is rounded; the output is a valid mesh, its points stay in a box [-M, M] slightly larger than that of the input, and every one of its edges, measured exactly, is at most 3 per cent longer than T.", "quantifier": "for every valid triangle mesh with contiguous ids, at least one triangle, no isolated point and no edge without triangles, finite coordinates in [-A, A], every binary format with at least 8 bits of precision and round to nearest even, every dimension d with 200 (d+3) u <= 1, every finite T > 0 and every M and n such that 4 d A^2 <= 0.95 T^2 (8/7)^n, A + n err <= M and 10000 (d+1) err^2 <= T^2, where err = 40 (u M + eta), no underflow near (1000 (d+1) eta <= T^2) and no overflow near (5 (d+1) (M^2+1) at most a quarter of the overflow limit); every earlier state of the filter and of the criterion", "why_tests_cant": "Termination for all inputs, with rounding errors in every new point and every computed length; a test that ends shows one input, and C99 shows that small thresholds need not end.", "anchors": [{"file": "include/itkLoopTriangleEdgeCellSubdivisionQuadEdgeMeshFilter.hxx", "symbols": ["AddNewEdgePoints"]}, {"file": "include/itkEdgeLengthTriangleEdgeCellSubdivisionCriterion.hxx", "symbols": ["Compute"]}, {"file": "include/itkTriangleEdgeCellSubdivisionQuadEdgeMeshFilter.hxx", "symbols": ["GenerateOutputCells"]}, {"file": "include/itkConditionalSubdivisionQuadEdgeMeshFilter.hxx", "symbols": ["GenerateData"]}]}
{"id": "C114", "title": "The ids of new points and new cells follow a fixed order", "statement": "Which id a new point or cell gets is determined by the input mesh and the list, independently of scheme and coordinates. Face-split filters: new points are numbered from the number of input points on, without gaps, in the order in which their edges are first met when the listed cells (or all cells by id, or the listed edges, or all edges by id) are visited, the edges of a cell starting from its first point. Output cells are numbered 0, 1, 2, ... triangle by triangle in the order of the input cells, the children of one triangle in a fixed order for each of the eight patterns of split edges; without a selection, cell 4 i + j is child j of the i-th input cell, children 0, 1, 2 have its first, second and third point and child 3 is the middle one. sqrt(3): the centroid of the n-th listed cell (or of the n-th cell) gets the number of input points plus n.", "quantifier": "for every valid triangle mesh with contiguous ids, every coordinate arithmetic (floating point included), all seven filters, every selection the filter accepts and every state of the filter", "why_tests_cant": "Callers that attach data to the output by id depend on the order for all meshes and selections; a test shows it for the meshes it lists, and the order in which edges are met depends on the whole list.", "anchors": [{"file": "include/itkTriangleCellSubdivisionQuadEdgeMeshFilter.hxx", "symbols": ["GenerateOutputPoints", "GenerateOutputCells", "SplitTriangleFromOneEdge", "SplitTriangleFromTwoEdges", "SplitTriangleFromThreeEdges"]}, {"file": "include/itkTriangleEdgeCellSubdivisionQuadEdgeMeshFilter.hxx", "symbols": ["GenerateOutputPoints"]}, {"file": "include/itkSquareThreeTriangleCellSubdivisionQuadEdgeMeshFilter.hxx", "symbols": ["AddNewCellPoints"]}]}
{"id": "C115", "title": "The result does not depend on position, orientation and unit of length", "statement": "Moving, rotating, reflecting and scaling a mesh by s (also placing it in a space of another dimension) commutes with the conditional filter if MaximumArea is multiplied by s^2 and MaximumLength by s: the two runs have the same outcome (both end after the same steps, or both run for ever), leave the filter in the same state, and the outputs have the same ids, edges and faces and are images of each other. The iterative filter commutes with every affine map in the same sense.", "quantifier": "for all valid meshes that are images of each other, real coordinates in any two dimensions, every factor s > 0, every threshold, every number of levels and every selection of existing cells, every earlier state of the filter and of the criterion, all cell filters with the area criterion and all edge filters with the edge-length criterion; Loop and Butterfly: contiguous ids, at least one triangle; Loop: no isolated points and no edges without triangles, the Loop cell filter also at most one fan of triangles at each point", "why_tests_cant": "A statement about pairs of runs over all rotations and scales, also about runs that do not end; a test compares two runs, and with rounding they differ.", "anchors": [{"file": "include/itkCellAreaTriangleCellSubdivisionCriterion.hxx", "symbols": ["Compute"]}, {"file": "include/itkEdgeLengthTriangleEdgeCellSubdivisionCriterion.hxx", "symbols": ["Compute"]}, {"file": "include/itkConditionalSubdivisionQuadEdgeMeshFilter.hxx", "symbols": ["GenerateData"]}, {"file": "include/itkIterativeTriangleCellSubdivisionQuadEdgeMeshFilter.hxx", "symbols": ["GenerateData"]}]}
{"id": "C116", "title": "Mirror images in floating point give mirror images, bit for bit", "statement": "In floating point, if a mesh is mirrored along any of the axes (the signs of the coordinates on these axes are changed), then every filter, the iterative filter and the conditional filter with either criterion and the same threshold have the same outcome and make the mirrored mesh: same ids, edges, faces and filter state, the same bits in the other coordinates and opposite numbers on the mirrored axes, exactly, only the sign of zeros is left open. A symmetric mesh is therefore measured and split symmetrically.", "quantifier": "for every mesh, valid or not, also with infinite and undefined coordinates, every binary format with round to nearest even, every dimension, every set of mirrored axes, all seven filters, every selection, threshold, number of levels and earlier state; the ids of the points are distinct and the points have the dimension of the mesh (for single filters other than the Loop cell filter not even that)", "why_tests_cant": "Equality of all bits for all coordinates, including subnormal numbers, overflow and undefined values; tests sample a few.", "anchors": [{"file": "include/itkLoopTriangleCellSubdivisionQuadEdgeMeshFilter.hxx", "symbols": ["AddNewCellPoints", "SmoothingPoint"]}, {"file": "include/itkModifiedButterflyTriangleCellSubdivisionQuadEdgeMeshFilter.hxx", "symbols": ["AddNewCellPoints"]}, {"file": "include/itkSquareThreeTriangleCellSubdivisionQuadEdgeMeshFilter.hxx", "symbols": ["AddNewCellPoints"]}, {"file": "include/itkLinearTriangleCellSubdivisionQuadEdgeMeshFilter.hxx", "symbols": ["AddNewCellPoints"]}, {"file": "include/itkConditionalSubdivisionQuadEdgeMeshFilter.hxx", "symbols": ["GenerateData"]}, {"file": "include/itkIterativeTriangleCellSubdivisionQuadEdgeMeshFilter.hxx", "symbols": ["GenerateData"]}]}
{"id": "C117", "title": "Every coordinate axis is treated alone and alike", "statement": "A coordinate of an output point is computed from the coordinates of the input points on the same axis alone, and by the same rule on every axis. If one mesh has as its coordinates some of the coordinates of another (in any order, with repetitions or omissions, for example a projection to a plane or an exchange of two axes), then Update() has the same outcome on both and the outputs are related in the same way, bit for bit; so do all levels of the iterative filter.", "quantifier": "for every two meshes so related, valid or not, with distinct point ids and points of the dimension of the mesh, every coordinate arithmetic (floating point included), every two dimensions, all seven filters, every selection, number of levels and state of the filter", "why_tests_cant": "Independence of all other coordinates is a statement about all values they can take.", "anchors": [{"file": "include/itkLoopTriangleCellSubdivisionQuadEdgeMeshFilter.hxx", "symbols": ["AddNewCellPoints", "SmoothingPoint"]}, {"file": "include/itkModifiedButterflyTriangleCellSubdivisionQuadEdgeMeshFilter.hxx", "symbols": ["AddNewCellPoints"]}, {"file": "include/itkSquareThreeTriangleCellSubdivisionQuadEdgeMeshFilter.hxx", "symbols": ["AddNewCellPoints"]}, {"file": "include/itkIterativeTriangleCellSubdivisionQuadEdgeMeshFilter.hxx", "symbols": ["GenerateData"]}]}
{"id": "C118", "title": "The sqrt(3) filter numbers its cells in a fixed order", "statement": "The sqrt(3) filter numbers its output cells 0, 1, 2, ... input cell by input cell in the order of their ids. A cell that is not subdivided gives itself. A subdivided cell gives, edge by edge from its first point on: for an edge with no subdivided cell beyond it, one triangle (the edge and the centroid); for an edge with a subdivided cell beyond it, if that cell comes later, the two triangles of the swapped edge, first the one at the end of the edge, then the one at its start; nothing if that cell comes earlier. Each triangle starts with a fixed corner.", "quantifier": "for every valid triangle mesh with contiguous ids (64-bit ids suffice), every coordinate arithmetic (floating point included), every list of existing cells without repetitions, or none, and every state of the filter", "why_tests_cant": "Callers that attach data to the output by id depend on the order for all meshes and selections; who makes the two triangles of a swapped edge depends on the whole mesh and is decided by a marker left in the edge table.", "anchors": [{"file": "include/itkSquareThreeTriangleCellSubdivisionQuadEdgeMeshFilter.hxx", "symbols": ["GenerateOutputCells", "AddNewCellPoints"]}]}
{"id": "C119", "title": "The result is a function of the surface, not of its numbering", "statement": "Two meshes that are the same surface (the same points and the same oriented triangles) but number their points and cells differently, list the cells in another order and start them with other points give, after any number of uniform levels of any scheme, again the same surface: there is a one-to-one correspondence of the output points that extends the one of the input points, corresponding points have the same coordinates, and the triangles correspond. The same holds for one uniform run of an edge filter; for one adaptive run of the sqrt(3) filter if corresponding cells are selected; and for one adaptive run of the other filters if corresponding edges are split and corresponding cells start with corresponding points. Without the last condition it is false: a triangle with two split edges is cut in a way that depends on the point it starts with. With a border it is false for Butterfly: the new point of the diagonal of a square moves from (7/4, 7/4) to (9/4, 9/4) when its two triangles are listed in the other order.", "quantifier": "for all pairs of valid triangle meshes with contiguous ids and at least one triangle that are the same surface, real coordinates in any dimension, every number of levels, all four schemes and all seven filters; Loop: no isolated points and no edges without triangles; Butterfly: closed meshes without such edges; edge filters without a selection: no such edges; sqrt(3): ids fit into 64 bits; adaptive Loop cell filter: it smooths corresponding points (on a fresh filter object it smooths all)", "why_tests_cant": "A test compares a few numberings of a few meshes; there are factorially many numberings of each mesh, and the masks are evaluated from the edge that the numbering happens to reach first.", "anchors": [{"file": "include/itkTriangleCellSubdivisionQuadEdgeMeshFilter.hxx", "symbols": ["GenerateOutputPoints", "GenerateOutputCells", "SplitTriangleFromTwoEdges"]}, {"file": "include/itkTriangleEdgeCellSubdivisionQuadEdgeMeshFilter.hxx", "symbols": ["GenerateOutputPoints"]}, {"file": "include/itkModifiedButterflyTriangleCellSubdivisionQuadEdgeMeshFilter.hxx", "symbols": ["AddNewCellPoints"]}, {"file": "include/itkLoopTriangleCellSubdivisionQuadEdgeMeshFilter.hxx", "symbols": ["AddNewCellPoints", "SmoothingPoint"]}, {"file": "include/itkSquareThreeTriangleCellSubdivisionQuadEdgeMeshFilter.hxx", "symbols": ["AddNewCellPoints", "GenerateOutputCells"]}, {"file": "include/itkIterativeTriangleCellSubdivisionQuadEdgeMeshFilter.hxx", "symbols": ["GenerateData"]}]}
{"id": "C120", "title": "A separate piece of a mesh is subdivided as if it were alone", "statement": "If a mesh consists of separate pieces (no triangle has corners in two of them), any union of whole pieces is subdivided as if the rest were not there: subdivide that part as a mesh of its own, with its own numbering of points and cells, and the result is, point for point with the same coordinates and triangle for triangle, the part of the result for the whole mesh that grew out of it. No triangle of the result for the whole mesh joins that part to the rest. This holds after any number of uniform levels of any scheme, for one uniform run of an edge filter, and for one adaptive run of any filter whatever is selected in the rest.", "quantifier": "for all valid triangle meshes with contiguous ids, real coordinates in any dimension, and all parts of them with at least one triangle, every number of levels, all four schemes and all seven filters; Loop: no isolated points and no edges without triangles; Butterfly: the part is closed and without such edges (the rest may have a border); edge filters without a selection: no edges without triangles; sqrt(3): ids fit into 64 bits; adaptive runs: in the part corresponding cells are selected (sqrt(3)) or corresponding edges are split and corresponding cells start with corresponding points (the other filters), and the Loop cell filter smooths corresponding points of the part", "why_tests_cant": "A test sees a few pairs of pieces; that no mask, edge table or marker ever reaches from one piece into another must hold for every mesh, every interleaving of the ids of the pieces and every level.", "anchors": [{"file": "include/itkTriangleCellSubdivisionQuadEdgeMeshFilter.hxx", "symbols": ["GenerateOutputPoints", "GenerateOutputCells"]}, {"file": "include/itkTriangleEdgeCellSubdivisionQuadEdgeMeshFilter.hxx", "symbols": ["GenerateOutputPoints"]}, {"file": "include/itkModifiedButterflyTriangleCellSubdivisionQuadEdgeMeshFilter.hxx", "symbols": ["AddNewCellPoints"]}, {"file": "include/itkLoopTriangleCellSubdivisionQuadEdgeMeshFilter.hxx", "symbols": ["AddNewCellPoints", "SmoothingPoint"]}, {"file": "include/itkSquareThreeTriangleCellSubdivisionQuadEdgeMeshFilter.hxx", "symbols": ["AddNewCellPoints", "GenerateOutputCells"]}, {"file": "include/itkIterativeTriangleCellSubdivisionQuadEdgeMeshFilter.hxx", "symbols": ["GenerateData"]}]}
{"id": "C121", "title": "Turning a surface inside out turns the result inside out", "statement": "If one mesh is another with every triangle the other way round (and possibly other ids, order and starting points of the cells), the result for it is, after any number of uniform levels of any scheme, the other result with every triangle the other way round: the points correspond one to one, extending the correspondence of the input points, and corresponding points have the same coordinates. So the shape does not depend on the orientation, and the orientation of the input is carried to the output. The same holds for one uniform run of an edge filter, and for one adaptive run of the sqrt(3) filter if corresponding cells are selected. It is false for adaptive runs of the filters that split edges: a triangle with two split edges and the same triangle the other way round, started with the same point, are cut along different diagonals.", "quantifier": "for all pairs of valid triangle meshes with contiguous ids, at least one triangle (uniform levels) and opposite orientation, real coordinates in any dimension, every number of levels, all four schemes; Loop: no isolated points and no edges without triangles; Butterfly: closed meshes without such edges; edge filters: no such edges; sqrt(3): ids fit into 64 bits", "why_tests_cant": "The masks read the neighbourhood through left and right faces and next and previous edges; a stencil that is not symmetric shows only on meshes with unequal neighbourhoods, and a test checks few of these.", "anchors": [{"file": "include/itkTriangleCellSubdivisionQuadEdgeMeshFilter.hxx", "symbols": ["GenerateOutputCells", "SplitTriangleFromTwoEdges"]}, {"file": "include/itkModifiedButterflyTriangleCellSubdivisionQuadEdgeMeshFilter.hxx", "symbols": ["AddNewCellPoints"]}, {"file": "include/itkLoopTriangleCellSubdivisionQuadEdgeMeshFilter.hxx", "symbols": ["AddNewCellPoints", "SmoothingPoint"]}, {"file": "include/itkSquareThreeTriangleCellSubdivisionQuadEdgeMeshFilter.hxx", "symbols": ["AddNewCellPoints", "GenerateOutputCells"]}, {"file": "include/itkIterativeTriangleCellSubdivisionQuadEdgeMeshFilter.hxx", "symbols": ["GenerateData"]}]}
{"id": "C122", "title": "The conditional filters' result is a function of the surface, not of its numbering", "statement": "Take two meshes that are the same surface with other ids of points and cells and another order of the cells, corresponding cells starting with corresponding points. If the conditional filter, around the linear or the Butterfly cell filter with the area criterion or around any of the three edge filters with the length criterion, ends on one of them, it ends on the other too, whatever the two filter objects were used for before, and the results are again the same surface: their points correspond one to one, extending the correspondence of the input points, corresponding points have the same coordinates, and corresponding cells start with corresponding points. Around the sqrt(3) filter with the area criterion both runs end with the same surface, and the points the cells start with need not correspond.", "quantifier": "for all pairs of valid triangle meshes with contiguous ids and at least one triangle that are the same surface, real coordinates in any dimension, every threshold (positive for sqrt(3)), every number of rounds and every earlier state of the filters; Loop edge filter: no isolated points; Butterfly: closed meshes; edge filters and Butterfly: no edges without triangles; sqrt(3): the ids of as many rounds as C106 allows fit into 64 bits. The Loop cell filter is not included: which points it moves in an adaptive round depends on the ids (see C119).", "why_tests_cant": "Ids decide the order in which cells and edges are visited, in every round anew; that no order leaks into the shape, and that no numbering makes the loop endless, is a claim about all numberings and all numbers of rounds.", "anchors": [{"file": "include/itkConditionalSubdivisionQuadEdgeMeshFilter.hxx", "symbols": ["GenerateData"]}, {"file": "include/itkCellAreaTriangleCellSubdivisionCriterion.hxx", "symbols": ["Compute"]}, {"file": "include/itkEdgeLengthTriangleEdgeCellSubdivisionCriterion.hxx", "symbols": ["Compute"]}]}
{"id": "C123", "title": "The conditional filters treat a separate piece of a mesh as if it were alone", "statement": "Let a mesh consist of separate pieces (no triangle has corners in two of them) and take any union of whole pieces as a mesh of its own, with its own numbering, corresponding cells starting with corresponding points. If the conditional filter, around the linear or the Butterfly cell filter with the area criterion or around any of the three edge filters with the length criterion, ends on the whole mesh, it ends on the part alone too, whatever the two filter objects were used for before. The result for the part is, point for point with the same coordinates and triangle for triangle, a separate part of the result for the whole, and the input points keep their correspondence. So a part that meets the criterion early is left as it is while the rest is still refined. Around the sqrt(3) filter with the area criterion both runs end, with the same conclusion, and the points the cells start with need not correspond.", "quantifier": "for all valid triangle meshes with contiguous ids, real coordinates in any dimension, and all parts of them with at least one triangle, every threshold (positive for sqrt(3)), every number of rounds and every earlier state of the filters; Loop edge filter: no isolated points; Butterfly: the part is closed and without edges without triangles (for the cell filter the rest may be anything valid); edge filters: no edges without triangles; sqrt(3): the ids of as many rounds as C106 allows fit into 64 bits. The Loop cell filter is not included: which points it moves in an adaptive round depends on the ids.", "why_tests_cant": "The two runs may need different numbers of rounds, and an empty selection means \"everything\" to the filters, so a finished part is left alone only because the rest still selects something; that this never goes wrong is a claim about all meshes, all parts and all numbers of rounds.", "anchors": [{"file": "include/itkConditionalSubdivisionQuadEdgeMeshFilter.hxx", "symbols": ["GenerateData"]}, {"file": "include/itkCellAreaTriangleCellSubdivisionCriterion.hxx", "symbols": ["Compute"]}, {"file": "include/itkEdgeLengthTriangleEdgeCellSubdivisionCriterion.hxx", "symbols": ["Compute"]}]}
{"id": "C124", "title": "In floating point the linear filters' result is a function of the surface, bit for bit", "statement": "Take two meshes with floating-point coordinates that are the same surface: the same points bit for bit under other ids, the same triangles under other ids, in another order and started with other points. After any number of uniform levels of the linear filter, and after one uniform run of the linear edge filter, the results are again the same surface in this sense: not a single bit of a coordinate depends on the numbering. The same holds for adaptive runs in which corresponding cells start with corresponding points and corresponding edges are split, and for the conditional filters around the linear cell filter with the area criterion and around the linear edge filter with the length criterion: if the run on one input ends, so does the run on the other. It is false for the other schemes: in double precision one level of the sqrt(3) filter on a single triangle gives another last bit if the triangle starts with another point, one level of the Loop filter on two triangles with a common edge gives another last bit if the two are given in the other order, and so does one level of the Butterfly filter on a closed mesh of eight triangles given in another order.", "quantifier": "for all pairs of valid triangle meshes with contiguous ids that are the same surface, at least one triangle (uniform levels and conditional filters), IEEE-754 coordinates of any binary format, rounding to nearest, including infinities and NaN (one NaN only), any dimension, every number of levels, every selection, every threshold; edge filter without a selection and with the length criterion: no edges without triangles", "why_tests_cant": "Rounding makes sums depend on their order, usually in the last bit and only for some coordinates; a test with a tolerance cannot see it and a test without one sees a few numbers only.", "anchors": [{"file": "include/itkLinearTriangleCellSubdivisionQuadEdgeMeshFilter.hxx", "symbols": ["AddNewCellPoints"]}, {"file": "include/itkLinearTriangleEdgeCellSubdivisionQuadEdgeMeshFilter.hxx", "symbols": ["AddNewEdgePoints"]}, {"file": "include/itkSquareThreeTriangleCellSubdivisionQuadEdgeMeshFilter.hxx", "symbols": ["AddNewCellPoints"]}, {"file": "include/itkLoopTriangleCellSubdivisionQuadEdgeMeshFilter.hxx", "symbols": ["AddNewCellPoints"]}, {"file": "include/itkIterativeTriangleCellSubdivisionQuadEdgeMeshFilter.hxx", "symbols": ["GenerateData"]}, {"file": "include/itkConditionalSubdivisionQuadEdgeMeshFilter.hxx", "symbols": ["GenerateData"]}]}
{"id": "C125", "title": "In floating point, turning the surface inside out changes no bit of the linear filters' result", "statement": "Take two meshes with floating-point coordinates, the second with the points of the first bit for bit under other ids and with its triangles the other way round, in any order and started with any point. After any number of uniform levels of the linear filter, and after one uniform run of the linear edge filter, the second result is the first one turned inside out in the same sense: no bit of a coordinate depends on the orientation, and the input points correspond as before. It is false for the sqrt(3) filter: in double precision the last bit of the new point of a single triangle can change when the triangle is turned.", "quantifier": "for all pairs of valid triangle meshes with contiguous ids, the second the first turned inside out, at least one triangle (uniform levels), IEEE-754 coordinates of any binary format, rounding to nearest, including infinities and NaN (one NaN only), any dimension, every number of levels; edge filter without a selection: no edges without triangles", "why_tests_cant": "The new point of an edge is computed from whichever of its two directions the loop meets first, which changes with the orientation; a rounding difference would show for some coordinates only.", "anchors": [{"file": "include/itkLinearTriangleCellSubdivisionQuadEdgeMeshFilter.hxx", "symbols": ["AddNewCellPoints"]}, {"file": "include/itkLinearTriangleEdgeCellSubdivisionQuadEdgeMeshFilter.hxx", "symbols": ["AddNewEdgePoints"]}, {"file": "include/itkSquareThreeTriangleCellSubdivisionQuadEdgeMeshFilter.hxx", "symbols": ["AddNewCellPoints"]}, {"file": "include/itkIterativeTriangleCellSubdivisionQuadEdgeMeshFilter.hxx", "symbols": ["GenerateData"]}]}
