{
 "claims": [
  {
   "property": "C01",
   "status": "proved",
   "theorems": [
    "C01_uniform_completes",
    "C01_face_split_completes"
   ],
   "note": ""
  },
  {
   "property": "C02",
   "status": "proved",
   "theorems": [
    "C02_one_point_per_edge"
   ],
   "note": ""
  },
  {
   "property": "C03",
   "status": "proved",
   "theorems": [
    "C03_ids_survive",
    "C03_any_filter"
   ],
   "note": ""
  },
  {
   "property": "C04",
   "status": "proved",
   "theorems": [
    "C04_proper_triangles",
    "C04_sqrt3",
    "C04_repeated_edges",
    "C04_repeated_cells",
    "C04_any"
   ],
   "note": "C04_any has no hypothesis on the input or the selection"
  },
  {
   "property": "C05",
   "status": "proved",
   "theorems": [
    "C05_manifold_nothing_lost"
   ],
   "note": "valid mesh taken with contiguous ids, as defined in C08; ids that do not exist and isolated points under Loop give no output (C28, C29)"
  },
  {
   "property": "C06",
   "status": "proved",
   "theorems": [
    "C06_borders",
    "C06_all"
   ],
   "note": "with and without triangles (C06_all); valid mesh taken with contiguous ids, as defined in C08; preconditions of the filter as in C28, C29"
  },
  {
   "property": "C07",
   "status": "proved",
   "theorems": [
    "C07_euler",
    "C07_all"
   ],
   "note": "with and without triangles (C07_all); valid mesh taken with contiguous ids, as defined in C08; preconditions of the filter as in C28, C29"
  },
  {
   "property": "C08",
   "status": "partial",
   "theorems": [
    "C08_output_valid",
    "C08_chains",
    "C08_no_triangles",
    "C08_refuted"
   ],
   "note": "As stated this is FALSE of the code: without triangles the output has no cell container (C08_refuted). Proved for every input with at least one triangle"
  },
  {
   "property": "C09",
   "status": "proved",
   "theorems": [
    "C09_no_T_junction",
    "C09_all"
   ],
   "note": "with and without triangles (C09_all); valid mesh taken with contiguous ids, as defined in C08; preconditions of the filter as in C28, C29"
  },
  {
   "property": "C10",
   "status": "proved",
   "theorems": [
    "C10_children"
   ],
   "note": "'valid mesh' as in the glossary of DESIGN.md (contiguous ids as spelled out in C08, no two triangles on the same points; for other meshes see C30/C72 and C43/C79); cells and edges in the selection exist and, for Loop, no isolated points (otherwise no output: C28, C29)"
  },
  {
   "property": "C11",
   "status": "proved",
   "theorems": [
    "C11_untouched_copied"
   ],
   "note": "'valid mesh' as in the glossary of DESIGN.md (contiguous ids as spelled out in C08, no two triangles on the same points; for other meshes see C30/C72 and C43/C79); cells and edges in the selection exist and, for Loop, no isolated points (otherwise no output: C28, C29)"
  },
  {
   "property": "C12",
   "status": "proved",
   "theorems": [
    "C12_reported_list"
   ],
   "note": "'valid mesh' as in the glossary of DESIGN.md (contiguous ids as spelled out in C08, no two triangles on the same points; for other meshes see C30/C72 and C43/C79); cells and edges in the selection exist and, for Loop, no isolated points (otherwise no output: C28, C29)"
  },
  {
   "property": "C13",
   "status": "partial",
   "theorems": [
    "C13_selection_order",
    "C13_selection_order_coordinates",
    "C13_butterfly_refuted",
    "C13_binary64_refuted"
   ],
   "note": "As stated this is FALSE of the code: coordinates of Butterfly differ near borders (C13_butterfly_refuted) and in binary64 (C13_binary64_refuted). Proved: connectivity for all three schemes, coordinates for Linear, Loop over the reals, Butterfly away from the border"
  },
  {
   "property": "C14",
   "status": "proved",
   "theorems": [
    "C14_cell_data"
   ],
   "note": "'valid mesh' as in the glossary of DESIGN.md (contiguous ids as spelled out in C08, no two triangles on the same points; for other meshes see C30/C72 and C43/C79); cells and edges in the selection exist and, for Loop, no isolated points (otherwise no output: C28, C29)"
  },
  {
   "property": "C15",
   "status": "proved",
   "theorems": [
    "C15_interpolating",
    "C15_any_filter"
   ],
   "note": ""
  },
  {
   "property": "C16",
   "status": "proved",
   "theorems": [
    "C16_midpoint_any",
    "C16_midpoint"
   ],
   "note": "'valid mesh' as in the glossary of DESIGN.md (contiguous ids as spelled out in C08, no two triangles on the same points; for other meshes see C30/C72 and C43/C79); cells and edges in the selection exist and, for Loop, no isolated points (otherwise no output: C28, C29)"
  },
  {
   "property": "C17",
   "status": "proved",
   "theorems": [
    "C17_edge_rule"
   ],
   "note": "'valid mesh' as in the glossary of DESIGN.md (contiguous ids as spelled out in C08, no two triangles on the same points; for other meshes see C30/C72 and C43/C79); cells and edges in the selection exist and, for Loop, no isolated points (otherwise no output: C28, C29)"
  },
  {
   "property": "C18",
   "status": "partial",
   "theorems": [
    "C18_vertex_rule",
    "C18_used_filter_refuted"
   ],
   "note": "As stated this is FALSE of the code: a filter object last used adaptively smooths nothing (C18_used_filter_refuted). Proved for an object that is new or was last used uniformly"
  },
  {
   "property": "C19",
   "status": "proved",
   "theorems": [
    "C19_butterfly_stencil"
   ],
   "note": "'valid mesh' as in the glossary of DESIGN.md (contiguous ids as spelled out in C08, no two triangles on the same points; for other meshes see C30/C72 and C43/C79); cells and edges in the selection exist and, for Loop, no isolated points (otherwise no output: C28, C29)"
  },
  {
   "property": "C20",
   "status": "proved",
   "theorems": [
    "C20_centroid_any",
    "C20_centroid"
   ],
   "note": "C20 theorems ask for fewer than 2^64 points and cells in all, which holds in any 64-bit address space (every point and cell occupies at least one byte). 'Valid' is meant as in the glossary of DESIGN.md: contiguous ids and no two triangles on the same points (for these see C30, C43)."
  },
  {
   "property": "C21",
   "status": "proved",
   "theorems": [
    "C21_all",
    "C21_affine",
    "C21_several_fans_refuted",
    "C21_sqrt3"
   ],
   "note": "C21_all: every valid mesh, gaps between ids or not, every selection. C21_several_fans_refuted shows that the two-border-edges condition of the quantifier is needed; it does not refute the property"
  },
  {
   "property": "C22",
   "status": "proved",
   "theorems": [
    "C22_all",
    "C22_convex",
    "C22_several_fans_refuted",
    "C22_weight_bounds",
    "C22_sqrt3"
   ],
   "note": "C22_all: every valid mesh, gaps between ids or not, every selection; C22_weight_bounds: the weights. C22_several_fans_refuted shows that the two-border-edges condition of the quantifier is needed; it does not refute the property"
  },
  {
   "property": "C23",
   "status": "proved",
   "theorems": [
    "C23_border"
   ],
   "note": "'valid mesh' as in the glossary of DESIGN.md (contiguous ids as spelled out in C08, no two triangles on the same points; for other meshes see C30/C72 and C43/C79); cells and edges in the selection exist and, for Loop, no isolated points (otherwise no output: C28, C29)"
  },
  {
   "property": "C24",
   "status": "partial",
   "theorems": [
    "C24_stencil",
    "C24_refuted"
   ],
   "note": "As stated this is FALSE of the code: (border points depend on the border only) is refuted (C24_refuted)"
  },
  {
   "property": "C25",
   "status": "partial",
   "theorems": [
    "C25_refuted",
    "C25_weights_differ",
    "C25_documented_rule"
   ],
   "note": "As stated this is FALSE of the code: (documented weight is the implemented one) is refuted (C25_refuted)"
  },
  {
   "property": "C26",
   "status": "partial",
   "theorems": [
    "C26_moved",
    "C26_unmoved",
    "C26_flag",
    "C26_refuted",
    "C26_cell_ids_refuted",
    "C26_stale_uniform_refuted"
   ],
   "note": "As stated this is FALSE of the code: (exactly the vertices of the selected cells move, no dependence on earlier runs) is refuted three ways"
  },
  {
   "property": "C27",
   "status": "partial",
   "theorems": [
    "C27_never_completes",
    "C27_area_criterion_hangs",
    "C27_hangs",
    "C27_uniform_throws"
   ],
   "note": "As stated this is FALSE of the code (C27_hangs, C27_area_criterion_hangs: Update/Compute never returns); only the uniform cell filters report the cell (C27_uniform_throws). Earlier manifests listed it as proved by mistake"
  },
  {
   "property": "C28",
   "status": "partial",
   "theorems": [
    "C28_isolated_kept",
    "C28_loop_undefined",
    "C28_refuted"
   ],
   "note": "As stated this is FALSE of the code: (harmless for every filter) is refuted for Loop (C28_refuted)"
  },
  {
   "property": "C29",
   "status": "partial",
   "theorems": [
    "C29_unknown_id_undefined",
    "C29_refuted"
   ],
   "note": "As stated this is FALSE of the code: (reported or ignored) is refuted (C29_refuted)"
  },
  {
   "property": "C30",
   "status": "partial",
   "theorems": [
    "C30_gap",
    "C30_overwritten",
    "C30_refuted"
   ],
   "note": "As stated this is FALSE of the code: (arbitrary ids are supported) is refuted (C30_refuted)"
  },
  {
   "property": "C31",
   "status": "partial",
   "theorems": [
    "C31_rerun",
    "C31_state",
    "C31_rerun_adaptive",
    "C31_rerun_loop",
    "C31_refuted",
    "C31_unknown_refuted"
   ],
   "note": "As stated this is FALSE of the code: (always idempotent) is refuted (C31_refuted, C31_unknown_refuted)"
  },
  {
   "property": "C32",
   "status": "proved",
   "theorems": [
    "C32_pipeline",
    "C32_uniform"
   ],
   "note": ""
  },
  {
   "property": "C33",
   "status": "proved",
   "theorems": [
    "C33_outside",
    "C33_adaptive_levels"
   ],
   "note": ""
  },
  {
   "property": "C34",
   "status": "proved",
   "theorems": [
    "C34_criterion_satisfied",
    "C34_area",
    "C34_length",
    "C34_area_valid",
    "C34_length_valid"
   ],
   "note": ""
  },
  {
   "property": "C35",
   "status": "partial",
   "theorems": [
    "C35_any_criterion",
    "C35_area",
    "C35_length",
    "C35_no_triangles_refuted"
   ],
   "note": "As stated this is FALSE of the code: without triangles the area criterion throws (C35_no_triangles_refuted). Proved with at least one triangle"
  },
  {
   "property": "C36",
   "status": "partial",
   "theorems": [
    "C36_terminates",
    "C36_no_triangles_refuted"
   ],
   "note": "As stated this is FALSE of the code: without triangles it ends with an exception (C36_no_triangles_refuted, rational coordinates). Proved with at least one triangle"
  },
  {
   "property": "C37",
   "status": "partial",
   "theorems": [
    "C37_terminates",
    "C37_no_triangles_refuted"
   ],
   "note": "As stated this is FALSE of the code: a long wire edge and no triangle gives undefined behaviour (C37_no_triangles_refuted, rational coordinates). Proved with at least one triangle"
  },
  {
   "property": "C38",
   "status": "proved",
   "theorems": [
    "C38_edge_any",
    "C38_cell_area",
    "C38_cell_area_valid",
    "C38_edge_length"
   ],
   "note": "C38_cell_area and C38_edge_any: any mesh of triangles whose corners and listed edge end points exist; that the mesh is not modified holds by the type of the model function (the C++ argument is const)"
  },
  {
   "property": "C39",
   "status": "proved",
   "theorems": [
    "C39_edge_filters"
   ],
   "note": "valid mesh taken with contiguous ids, as defined in C08; for Loop, face edges and no isolated points (otherwise no output: C28, C47)"
  },
  {
   "property": "C40",
   "status": "partial",
   "theorems": [
    "C40_repeated",
    "C40_same_edges",
    "C40_refuted"
   ],
   "note": "As stated this is FALSE of the code: (no effect at all) is refuted (C40_refuted)"
  },
  {
   "property": "C41",
   "status": "partial",
   "theorems": [
    "C41_uniform",
    "C41_uniform_coordinates",
    "C41_butterfly_refuted"
   ],
   "note": "As stated this is FALSE of the code: (Butterfly agrees with borders as well) is refuted (C41_butterfly_refuted)"
  },
  {
   "property": "C42",
   "status": "proved",
   "theorems": [
    "C42_uniform"
   ],
   "note": "asks for fewer than 2^64 points and cells in all, which holds in any 64-bit address space. 'Valid' is meant as in the glossary of DESIGN.md: contiguous ids and no two triangles on the same points (for these see C30, C43)."
  },
  {
   "property": "C43",
   "status": "partial",
   "theorems": [
    "C43_twins_uniform",
    "C43_twins_adaptive",
    "C43_twins_sqrt3",
    "C43_twins_sqrt3_adaptive",
    "C43_refuted"
   ],
   "note": "As stated this is FALSE of the code: (3F cells on every mesh) is refuted (C43_refuted)"
  },
  {
   "property": "C44",
   "status": "partial",
   "theorems": [
    "C44_repeated",
    "C44_same_cells",
    "C44_refuted"
   ],
   "note": "As stated this is FALSE of the code: (no effect at all) is refuted (C44_refuted)"
  },
  {
   "property": "C45",
   "status": "proved",
   "theorems": [
    "C45_area_preserved"
   ],
   "note": "'valid mesh' as in the glossary of DESIGN.md (contiguous ids as spelled out in C08, no two triangles on the same points; for other meshes see C30/C72 and C43/C79); cells and edges in the selection exist and, for Loop, no isolated points (otherwise no output: C28, C29)"
  },
  {
   "property": "C46",
   "status": "partial",
   "theorems": [
    "C46_no_data",
    "C46_refuted"
   ],
   "note": "As stated this is FALSE of the code: (cell data is kept) is refuted (C46_refuted)"
  },
  {
   "property": "C47",
   "status": "partial",
   "theorems": [
    "C47_sqrt3",
    "C47_sqrt3_repeated",
    "C47_wire_edges",
    "C47_loop_edge_filter_throws",
    "C47_refuted"
   ],
   "note": "As stated this is FALSE of the code: with an isolated point, undefined behaviour comes first (C47_refuted). Proved with contiguous ids and, for Loop, without isolated points. Exact form: C88"
  },
  {
   "property": "C48",
   "status": "proved",
   "theorems": [
    "C48_any",
    "C48_connectivity",
    "C48_sqrt3"
   ],
   "note": "'valid mesh' as in the glossary of DESIGN.md (contiguous ids as spelled out in C08, no two triangles on the same points; for other meshes see C30/C72 and C43/C79); cells and edges in the selection exist and, for Loop, no isolated points (otherwise no output: C28, C29). C48_any: same scheme, any inputs at all, the outcomes agree also when the run does not complete"
  },
  {
   "property": "C49",
   "status": "partial",
   "theorems": [
    "C49_no_cells",
    "C49_no_edges",
    "C49_null_criterion_undefined",
    "C49_refuted"
   ],
   "note": "As stated this is FALSE of the code: (an exception in every case) is refuted (C49_refuted)"
  },
  {
   "property": "C50",
   "status": "proved",
   "theorems": [
    "C50_negative_area",
    "C50_zero_area",
    "C50_negative_length",
    "C50_zero_length"
   ],
   "note": ""
  },
  {
   "property": "C51",
   "status": "proved",
   "theorems": [
    "C51_edges_of_selection",
    "C51_edges_of_selection_coordinates"
   ],
   "note": ""
  },
  {
   "property": "C52",
   "status": "proved",
   "theorems": [
    "C52_edge_order",
    "C52_edge_order_coordinates"
   ],
   "note": ""
  },
  {
   "property": "C53",
   "status": "proved",
   "theorems": [
    "C53_adaptive"
   ],
   "note": ""
  },
  {
   "property": "C54",
   "status": "proved",
   "theorems": [
    "C54_reported"
   ],
   "note": ""
  },
  {
   "property": "C55",
   "status": "proved",
   "theorems": [
    "C55_cell_data"
   ],
   "note": ""
  },
  {
   "property": "C56",
   "status": "proved",
   "theorems": [
    "C56_border_euler"
   ],
   "note": ""
  },
  {
   "property": "C57",
   "status": "proved",
   "theorems": [
    "C57_chains"
   ],
   "note": ""
  },
  {
   "property": "C58",
   "status": "proved",
   "theorems": [
    "C58_iterative_uniform",
    "C58_iterative_adaptive"
   ],
   "note": ""
  },
  {
   "property": "C59",
   "status": "proved",
   "theorems": [
    "C59_valence",
    "C59_adaptive"
   ],
   "note": ""
  },
  {
   "property": "C60",
   "status": "proved",
   "theorems": [
    "C60_two_steps",
    "C60_stencil"
   ],
   "note": ""
  },
  {
   "property": "C61",
   "status": "proved",
   "theorems": [
    "C05_manifold_nothing_lost"
   ],
   "note": "what holds where C05 as first stated does not; worded after the proofs, clauses read one by one against the theorems listed"
  },
  {
   "property": "C62",
   "status": "proved",
   "theorems": [
    "C13_selection_order",
    "C13_selection_order_coordinates",
    "C13_butterfly_refuted",
    "C13_binary64_refuted"
   ],
   "note": "what holds where C13 as first stated does not; worded after the proofs, clauses read one by one against the theorems listed"
  },
  {
   "property": "C63",
   "status": "proved",
   "theorems": [
    "C20_centroid_any",
    "C20_centroid"
   ],
   "note": "what holds where C20 as first stated does not; worded after the proofs, clauses read one by one against the theorems listed"
  },
  {
   "property": "C64",
   "status": "proved",
   "theorems": [
    "C21_all",
    "C21_affine",
    "C21_several_fans_refuted",
    "C21_sqrt3"
   ],
   "note": "what holds where C21 as first stated does not; worded after the proofs, clauses read one by one against the theorems listed"
  },
  {
   "property": "C65",
   "status": "proved",
   "theorems": [
    "C22_all",
    "C22_convex",
    "C22_several_fans_refuted",
    "C22_weight_bounds",
    "C22_sqrt3"
   ],
   "note": "what holds where C22 as first stated does not; worded after the proofs, clauses read one by one against the theorems listed"
  },
  {
   "property": "C66",
   "status": "proved",
   "theorems": [
    "C24_stencil",
    "C24_refuted"
   ],
   "note": "what holds where C24 as first stated does not; worded after the proofs, clauses read one by one against the theorems listed"
  },
  {
   "property": "C67",
   "status": "proved",
   "theorems": [
    "C25_refuted",
    "C25_weights_differ",
    "C25_documented_rule"
   ],
   "note": "what holds where C25 as first stated does not; worded after the proofs, clauses read one by one against the theorems listed"
  },
  {
   "property": "C68",
   "status": "proved",
   "theorems": [
    "C26_moved",
    "C26_unmoved",
    "C26_flag",
    "C26_refuted",
    "C26_cell_ids_refuted",
    "C26_stale_uniform_refuted"
   ],
   "note": "what holds where C26 as first stated does not; worded after the proofs, clauses read one by one against the theorems listed"
  },
  {
   "property": "C69",
   "status": "proved",
   "theorems": [
    "C27_never_completes",
    "C27_area_criterion_hangs",
    "C27_hangs",
    "C27_uniform_throws"
   ],
   "note": "what holds where C27 as first stated does not; worded after the proofs, clauses read one by one against the theorems listed"
  },
  {
   "property": "C70",
   "status": "proved",
   "theorems": [
    "C28_isolated_kept",
    "C28_loop_undefined",
    "C28_refuted"
   ],
   "note": "what holds where C28 as first stated does not; worded after the proofs, clauses read one by one against the theorems listed"
  },
  {
   "property": "C71",
   "status": "proved",
   "theorems": [
    "C29_unknown_id_undefined",
    "C29_refuted"
   ],
   "note": "what holds where C29 as first stated does not; worded after the proofs, clauses read one by one against the theorems listed"
  },
  {
   "property": "C72",
   "status": "proved",
   "theorems": [
    "C30_gap",
    "C30_overwritten",
    "C30_refuted"
   ],
   "note": "what holds where C30 as first stated does not; worded after the proofs, clauses read one by one against the theorems listed"
  },
  {
   "property": "C73",
   "status": "proved",
   "theorems": [
    "C31_rerun",
    "C31_state",
    "C31_rerun_adaptive",
    "C31_rerun_loop",
    "C31_refuted",
    "C31_unknown_refuted"
   ],
   "note": "what holds where C31 as first stated does not; worded after the proofs, clauses read one by one against the theorems listed"
  },
  {
   "property": "C74",
   "status": "proved",
   "theorems": [
    "C35_any_criterion",
    "C35_area",
    "C35_length",
    "C35_no_triangles_refuted"
   ],
   "note": "what holds where C35 as first stated does not; worded after the proofs, clauses read one by one against the theorems listed"
  },
  {
   "property": "C75",
   "status": "proved",
   "theorems": [
    "C39_edge_filters"
   ],
   "note": "what holds where C39 as first stated does not; worded after the proofs, clauses read one by one against the theorems listed"
  },
  {
   "property": "C76",
   "status": "proved",
   "theorems": [
    "C40_repeated",
    "C40_same_edges",
    "C40_refuted"
   ],
   "note": "what holds where C40 as first stated does not; worded after the proofs, clauses read one by one against the theorems listed"
  },
  {
   "property": "C77",
   "status": "proved",
   "theorems": [
    "C41_uniform",
    "C41_uniform_coordinates",
    "C41_butterfly_refuted"
   ],
   "note": "what holds where C41 as first stated does not; worded after the proofs, clauses read one by one against the theorems listed"
  },
  {
   "property": "C78",
   "status": "proved",
   "theorems": [
    "C42_uniform"
   ],
   "note": "what holds where C42 as first stated does not; worded after the proofs, clauses read one by one against the theorems listed"
  },
  {
   "property": "C79",
   "status": "proved",
   "theorems": [
    "C43_twins_uniform",
    "C43_twins_adaptive",
    "C43_twins_sqrt3",
    "C43_twins_sqrt3_adaptive",
    "C43_refuted"
   ],
   "note": "what holds where C43 as first stated does not; worded after the proofs, clauses read one by one against the theorems listed"
  },
  {
   "property": "C80",
   "status": "proved",
   "theorems": [
    "C44_repeated",
    "C44_same_cells",
    "C44_refuted"
   ],
   "note": "what holds where C44 as first stated does not; worded after the proofs, clauses read one by one against the theorems listed"
  },
  {
   "property": "C81",
   "status": "proved",
   "theorems": [
    "C46_no_data",
    "C46_refuted"
   ],
   "note": "what holds where C46 as first stated does not; worded after the proofs, clauses read one by one against the theorems listed"
  },
  {
   "property": "C82",
   "status": "proved",
   "theorems": [
    "C49_no_cells",
    "C49_no_edges",
    "C49_null_criterion_undefined",
    "C49_refuted"
   ],
   "note": "what holds where C49 as first stated does not; worded after the proofs, clauses read one by one against the theorems listed"
  },
  {
   "property": "C83",
   "status": "proved",
   "theorems": [
    "C83_any"
   ],
   "note": ""
  },
  {
   "property": "C84",
   "status": "proved",
   "theorems": [
    "C08_output_valid",
    "C08_chains",
    "C08_no_triangles",
    "C08_refuted"
   ],
   "note": "exact form of C08"
  },
  {
   "property": "C85",
   "status": "proved",
   "theorems": [
    "C18_vertex_rule",
    "C18_used_filter_refuted"
   ],
   "note": "exact form of C18"
  },
  {
   "property": "C86",
   "status": "proved",
   "theorems": [
    "C36_terminates",
    "C36_no_triangles_refuted"
   ],
   "note": "exact form of C36; the counterexample without triangles has rational coordinates"
  },
  {
   "property": "C87",
   "status": "proved",
   "theorems": [
    "C37_terminates",
    "C37_no_triangles_refuted"
   ],
   "note": "exact form of C37; the counterexample without triangles has rational coordinates"
  },
  {
   "property": "C88",
   "status": "proved",
   "theorems": [
    "C47_sqrt3",
    "C47_sqrt3_repeated",
    "C47_wire_edges",
    "C47_loop_edge_filter_throws",
    "C47_refuted"
   ],
   "note": "exact form of C47"
  },
  {
   "property": "C89",
   "status": "proved",
   "theorems": [
    "C89_update",
    "C89_iterative",
    "C89_conditional"
   ],
   "note": "every operation is rounded in one format; for float coordinates this is also what the code does, because halving in double is exact"
  },
  {
   "property": "C90",
   "status": "partial",
   "theorems": [
    "C90_linear_partial",
    "C90_refuted"
   ],
   "note": "As stated this is FALSE of the code for the Loop, Butterfly and sqrt(3) schemes: C90_refuted moves points off the plane z = 0.01 in binary64. Proved for the two Linear filters (C90_linear_partial)"
  },
  {
   "property": "C91",
   "status": "proved",
   "theorems": [
    "C91_points",
    "C91_loop"
   ],
   "note": "every operation is rounded in one format: exact for double coordinates; with float coordinates the C++ code evaluates parts in double (DESIGN.md section 3)"
  },
  {
   "property": "C92",
   "status": "proved",
   "theorems": [
    "C92"
   ],
   "note": "every operation is rounded in one format: exact for double coordinates; with float coordinates the C++ code evaluates parts in double (DESIGN.md section 3)"
  },
  {
   "property": "C93",
   "status": "proved",
   "theorems": [
    "C93"
   ],
   "note": "real arithmetic"
  },
  {
   "property": "C94",
   "status": "proved",
   "theorems": [
    "C94",
    "C94_volume"
   ],
   "note": "real arithmetic; C94_volume is the instance for the enclosed volume"
  },
  {
   "property": "C95",
   "status": "proved",
   "theorems": [
    "C95",
    "C95_flips"
   ],
   "note": "C95 for the Linear filters in real arithmetic; C95_flips is the planar mesh on which the other five filters turn a triangle over (exact rational arithmetic)"
  },
  {
   "property": "C96",
   "status": "proved",
   "theorems": [
    "C96"
   ],
   "note": "real arithmetic"
  },
  {
   "property": "C97",
   "status": "proved",
   "theorems": [
    "C97"
   ],
   "note": ""
  },
  {
   "property": "C98",
   "status": "proved",
   "theorems": [
    "C98",
    "C98_root3"
   ],
   "note": "C98 for the six face-split filters, C98_root3 for sqrt(3)"
  },
  {
   "property": "C99",
   "status": "proved",
   "theorems": [
    "C99_length",
    "C99_area"
   ],
   "note": "C99_length, C99_area"
  },
  {
   "property": "C100",
   "status": "proved",
   "theorems": [
    "C100"
   ],
   "note": "every operation is rounded in one format: exact for double coordinates; with float coordinates the C++ code evaluates parts in double (DESIGN.md section 3)"
  },
  {
   "property": "C101",
   "status": "proved",
   "theorems": [
    "C101",
    "C101_vanish"
   ],
   "note": ""
  },
  {
   "property": "C102",
   "status": "proved",
   "theorems": [
    "C102",
    "C102_limit"
   ],
   "note": ""
  },
  {
   "property": "C103",
   "status": "proved",
   "theorems": [
    "C103"
   ],
   "note": ""
  },
  {
   "property": "C104",
   "status": "proved",
   "theorems": [
    "C104_area",
    "C104_length",
    "C104_length_loop"
   ],
   "note": "C104_area, C104_length, C104_length_loop"
  },
  {
   "property": "C105",
   "status": "proved",
   "theorems": [
    "C105_cells",
    "C105_edges",
    "C105_iterative",
    "C105_area",
    "C105_length",
    "C105_loop_refuted"
   ],
   "note": "Five theorems: cell-based filters, edge-based filters, iterative filter, conditional filter with each criterion. The exception for the Loop cell filter is needed: C105_loop_refuted runs the same conditional filter twice on the same mesh and gets two outputs. The model keeps the whole object state (m_Uniform, both lists, m_EdgesPointIdentifier); time stamps of the pipeline are not modelled."
  },
  {
   "property": "C106",
   "status": "proved",
   "theorems": [
    "C106"
   ],
   "note": ""
  },
  {
   "property": "C107",
   "status": "proved",
   "theorems": [
    "C107_local",
    "C107_every",
    "C107_binary64"
   ],
   "note": ""
  },
  {
   "property": "C108",
   "status": "proved",
   "theorems": [
    "C108"
   ],
   "note": "every operation is rounded in one format: exact for double coordinates; with float coordinates the C++ code evaluates parts in double (DESIGN.md section 3)"
  },
  {
   "property": "C109",
   "status": "proved",
   "theorems": [
    "C109_local",
    "C109_every",
    "C109_binary64"
   ],
   "note": "exact arithmetic: for filter states with the uniform flag off; binary64: for all states"
  },
  {
   "property": "C110",
   "status": "proved",
   "theorems": [
    "C110"
   ],
   "note": ""
  },
  {
   "property": "C111",
   "status": "proved",
   "theorems": [
    "C111"
   ],
   "note": ""
  },
  {
   "property": "C112",
   "status": "proved",
   "theorems": [
    "C112_butterfly",
    "C112_loop"
   ],
   "note": ""
  },
  {
   "property": "C113",
   "status": "proved",
   "theorems": [
    "C113"
   ],
   "note": "every operation is rounded in one format: exact for double coordinates; with float coordinates the C++ code evaluates parts in double (DESIGN.md section 3)"
  },
  {
   "property": "C114",
   "status": "proved",
   "theorems": [
    "C114",
    "C114_uniform",
    "C114_sqrt3"
   ],
   "note": "the order of the output cells of the sqrt(3) filter is C118"
  },
  {
   "property": "C115",
   "status": "proved",
   "theorems": [
    "C115_area",
    "C115_length",
    "C115_iterative"
   ],
   "note": ""
  },
  {
   "property": "C116",
   "status": "proved",
   "theorems": [
    "C116",
    "C116_conditional",
    "C116_iterative"
   ],
   "note": "every operation is rounded in one format: exact for double coordinates; with float coordinates the C++ code evaluates parts in double (DESIGN.md section 3)"
  },
  {
   "property": "C117",
   "status": "proved",
   "theorems": [
    "C117",
    "C117_iterative"
   ],
   "note": "the conditional filter is left out: lengths and areas do depend on all axes"
  },
  {
   "property": "C118",
   "status": "proved",
   "theorems": [
    "C118"
   ],
   "note": ""
  },
  {
   "property": "C119",
   "status": "proved",
   "theorems": [
    "C119",
    "C119_edges",
    "C119_adaptive",
    "C119_sqrt3",
    "C119_corner_refuted",
    "C119_border_refuted"
   ],
   "note": ""
  },
  {
   "property": "C120",
   "status": "proved",
   "theorems": [
    "C120",
    "C120_edges",
    "C120_adaptive",
    "C120_sqrt3"
   ],
   "note": ""
  },
  {
   "property": "C121",
   "status": "proved",
   "theorems": [
    "C121",
    "C121_edges",
    "C121_sqrt3",
    "C121_adaptive_refuted"
   ],
   "note": ""
  },
  {
   "property": "C122",
   "status": "proved",
   "theorems": [
    "C122",
    "C122_edges",
    "C122_sqrt3"
   ],
   "note": ""
  },
  {
   "property": "C123",
   "status": "proved",
   "theorems": [
    "C123",
    "C123_edges",
    "C123_sqrt3"
   ],
   "note": ""
  },
  {
   "property": "C124",
   "status": "proved",
   "theorems": [
    "C124",
    "C124_edges",
    "C124_adaptive",
    "C124_area",
    "C124_length",
    "C124_sqrt3_refuted",
    "C124_loop_refuted",
    "C124_butterfly_refuted"
   ],
   "note": ""
  },
  {
   "property": "C125",
   "status": "proved",
   "theorems": [
    "C125",
    "C125_edges",
    "C125_sqrt3_refuted"
   ],
   "note": ""
  }
 ]
}