{
 "claims": [
  {
   "property": "C01",
   "status": "proved",
   "theorems": [
    "C01_r2d_clip_linked"
   ],
   "note": "for every arithmetic (no laws on the number type), every buffer size and every list of planes"
  },
  {
   "property": "C02",
   "status": "proved",
   "theorems": [
    "C02_r2d_clip_only_overflow",
    "C02_r2d_clip_room",
    "C02_r2d_clip_safe"
   ],
   "note": "success whenever the buffer has room at each plane; the only failure is the unchecked buffer overflow; termination is part of the statement (the model's loops run on fuel and the result is never OutOfFuel)"
  },
  {
   "property": "C03",
   "status": "proved",
   "theorems": [
    "C03_convex_boxes",
    "C03_convex_triangles",
    "C03_r2d_clip_convex_room",
    "C03_r2d_clip_no_overflow_refuted"
   ],
   "note": "STATEMENT FALSE of the code; 'proved' refers to its negation (the _refuted theorem) and to the theorems beside it. REFUTED: the property is false of the code. A good convex polygon of 256 vertices cut by one plane overflows vertbuffer; the negation is what is proved Companion: for convex polygons (every line crosses the boundary at most twice; proved for triangles and boxes) nverts + #planes + 1 <= MAX_VERTS suffices (C03_r2d_clip_convex_room)."
  },
  {
   "property": "C04",
   "status": "proved",
   "theorems": [
    "C04_r2d_clip_inside"
   ],
   "note": "real arithmetic"
  },
  {
   "property": "C05",
   "status": "proved",
   "theorems": [
    "C05_r2d_clip_inside_unchanged",
    "C05_r2d_clip_outside_any",
    "C05_r2d_clip_outside_empty",
    "C05_r2d_clip_trivial"
   ],
   "note": "real arithmetic for the geometric parts, any arithmetic for the trivial ones"
  },
  {
   "property": "C06",
   "status": "proved",
   "theorems": [
    "C06_r2d_clip_conserves"
   ],
   "note": "real arithmetic, all moments, also after any prefix of earlier clips"
  },
  {
   "property": "C07",
   "status": "proved",
   "theorems": [
    "C07_r2d_split_conserves",
    "C07_r2d_split_linked",
    "C07_r2d_split_safe"
   ],
   "note": "linkage for every arithmetic, conservation over the reals, success when 3*nverts fits in the buffer"
  },
  {
   "property": "C08",
   "status": "proved",
   "theorems": [
    "C08_r2d_split_pos_side_refuted",
    "C08_r2d_split_sides"
   ],
   "note": "STATEMENT FALSE of the code; 'proved' refers to its negation (the _refuted theorem) and to the theorems beside it. REFUTED: r2d_split exchanges the two sides. C08_r2d_split_sides proves the exchanged statement"
  },
  {
   "property": "C09",
   "status": "proved",
   "theorems": [
    "C09_r2d_reduce_exact"
   ],
   "note": "real arithmetic; right-hand side is the sum of Riemann boundary integrals of Green's theorem"
  },
  {
   "property": "C10",
   "status": "proved",
   "theorems": [
    "C10_moment_slots",
    "C10_r2d_reduce_fills"
   ],
   "note": "any arithmetic"
  },
  {
   "property": "C11",
   "status": "proved",
   "theorems": [
    "C11_r2d_reduce_shifted",
    "C11_r2d_shift_moments"
   ],
   "note": "real arithmetic"
  },
  {
   "property": "C12",
   "status": "proved",
   "theorems": [
    "C12_r2d_get_ibox_rasterize",
    "C12_r2d_rasterize_conservative"
   ],
   "note": "Any index box (cells_ok: int ranges and nmom*ni*nj fit int); with r2d_get_ibox also for degenerate boxes. Exact real arithmetic."
  },
  {
   "property": "C13",
   "status": "proved",
   "theorems": [
    "C13_r2d_rasterize_convex_returns",
    "C13_r2d_rasterize_returns"
   ],
   "note": "Termination (fuel 2*ni*nj is never exhausted) and stack bound for any arithmetic; the only failure left is the vertex-buffer overflow of r2d_split_coord, excluded for convex polygons with room."
  },
  {
   "property": "C14",
   "status": "proved",
   "theorems": [
    "C14_r2d_rasterize_bounds",
    "C14_r2d_rasterize_own_cells"
   ],
   "note": "Any arithmetic."
  },
  {
   "property": "C15",
   "status": "proved",
   "theorems": [
    "C15_r2d_rasterize_cell_pieces"
   ],
   "note": "Real arithmetic; also gives hull containment and that pieces' moments add up."
  },
  {
   "property": "C16",
   "status": "proved",
   "theorems": [
    "C16_r2d_get_ibox_empty_undefined",
    "C16_r2d_get_ibox_minimal"
   ],
   "note": "Coordinates bounded by 1e30 (the initial value of rbox). Companion theorem: on an empty polygon the float->int conversion is undefined."
  },
  {
   "property": "C17",
   "status": "proved",
   "theorems": [
    "C17_r2d_clamp_ibox_box",
    "C17_r2d_clamp_ibox_inside",
    "C17_r2d_clamp_ibox_polygon",
    "C17_r2d_clamp_ibox_returns"
   ],
   "note": "Box part for any arithmetic; polygon part over the reals; clampbox[0] > INT_MIN because the code negates it."
  },
  {
   "property": "C18",
   "status": "proved",
   "theorems": [
    "C18_r2d_affine",
    "C18_r2d_scale",
    "C18_r2d_shear",
    "C18_r2d_translate"
   ],
   "note": "real arithmetic; translate and scale for all moments, shear and affine for the area"
  },
  {
   "property": "C19",
   "status": "proved",
   "theorems": [
    "C19_r2d_rotate_actual",
    "C19_r2d_rotate_refuted"
   ],
   "note": "STATEMENT FALSE of the code; 'proved' refers to its negation (the _refuted theorem) and to the theorems beside it. REFUTED: r2d_rotate writes the x coordinate twice. C19_r2d_rotate_actual states what it computes"
  },
  {
   "property": "C20",
   "status": "proved",
   "theorems": [
    "C20_r2d_box_faces_actual",
    "C20_r2d_box_faces_refuted"
   ],
   "note": "STATEMENT FALSE of the code; 'proved' refers to its negation (the _refuted theorem) and to the theorems beside it. REFUTED: wrong sign of d for the lower faces. C20_r2d_box_faces_actual states which box it describes"
  },
  {
   "property": "C21",
   "status": "proved",
   "theorems": [
    "C21_r2d_poly_faces"
   ],
   "note": "real arithmetic; degenerate edges give the zero plane and are covered"
  },
  {
   "property": "C22",
   "status": "proved",
   "theorems": [
    "C22_good_polygons_accepted",
    "C22_r2d_is_good_exact",
    "C22_r2d_is_good_refuted"
   ],
   "note": "STATEMENT FALSE of the code; 'proved' refers to its negation (the _refuted theorem) and to the theorems beside it. REFUTED in the documented reading (self loops are accepted); C22_r2d_is_good_exact is the exact characterisation; negative indices (undefined behaviour) are excluded by hypothesis"
  },
  {
   "property": "C23",
   "status": "proved",
   "theorems": [
    "C23_r2d_init_box",
    "C23_r2d_init_poly"
   ],
   "note": ""
  },
  {
   "property": "C24",
   "status": "proved",
   "theorems": [
    "C24_r2d_orient"
   ],
   "note": "real arithmetic"
  },
  {
   "property": "C25",
   "status": "proved",
   "theorems": [
    "C25_r3d_clip_linked"
   ],
   "note": "any arithmetic; wf3 is the validity predicate of Spec3 (three distinct mutual neighbours in range, faces share at most one edge)"
  },
  {
   "property": "C26",
   "status": "proved",
   "theorems": [
    "C26_r3d_clip_total"
   ],
   "note": "any arithmetic; the model makes out-of-range reads and writes and exhausted fuel errors, none is reachable"
  },
  {
   "property": "C27",
   "status": "proved",
   "theorems": [
    "C27_r3d_clip_room",
    "C27_r3d_clip_status",
    "C27_r3d_clip_succeeds"
   ],
   "note": "status characterised exactly; room criterion 5*nv*2^#planes <= 4*R3D_MAX_VERTS for any arithmetic"
  },
  {
   "property": "C28",
   "status": "proved",
   "theorems": [
    "C28_r3d_clip_failed_state",
    "C28_r3d_clip_failed_valid_refuted"
   ],
   "note": "STATEMENT FALSE of the code; 'proved' refers to its negation (the _refuted theorem) and to the theorems beside it. REFUTED: the property is false of the code. A clip that runs out of room leaves new vertices without two of their links; the negation is proved with 127 disjoint tetrahedra, and C28_r3d_clip_failed_state describes the state left by any failed clip"
  },
  {
   "property": "C29",
   "status": "proved",
   "theorems": [
    "C29_r3d_clip_inside",
    "C29_r3d_clip_inside_unchanged",
    "C29_r3d_clip_outside_empty"
   ],
   "note": "real arithmetic"
  },
  {
   "property": "C30",
   "status": "proved",
   "theorems": [
    "C30_r3d_clip_conserves"
   ],
   "note": "real arithmetic, planar faces, non-zero normal"
  },
  {
   "property": "C31",
   "status": "proved",
   "theorems": [
    "C31_r3d_split_exact",
    "C31_r3d_split_linked",
    "C31_r3d_split_room",
    "C31_r3d_split_total"
   ],
   "note": "validity and totality for any arithmetic; moments and sides over the reals"
  },
  {
   "property": "C32",
   "status": "proved",
   "theorems": [
    "C32_r3d_reduce_visits"
   ],
   "note": "any arithmetic"
  },
  {
   "property": "C33",
   "status": "proved",
   "theorems": [
    "C33_box_moments",
    "C33_moment_order",
    "C33_r3d_reduce_exact",
    "C33_tet_moments"
   ],
   "note": "real arithmetic; moment3 is a sum of Riemann integrals over signed tetrahedra, tied to direct integrals for tetrahedra and boxes"
  },
  {
   "property": "C34",
   "status": "proved",
   "theorems": [
    "C34_r3d_poly_center",
    "C34_r3d_reduce_shift_poly",
    "C34_r3d_shift_moments"
   ],
   "note": "real arithmetic"
  },
  {
   "property": "C35",
   "status": "proved",
   "theorems": [
    "C35_r3d_get_ibox_voxelize",
    "C35_r3d_voxelize_cell_pieces",
    "C35_r3d_voxelize_conservative"
   ],
   "note": "For every valid polyhedron with planar faces, every box of cells whose sizes and grid index fit in int, every spacing and order, both SHIFT_POLY variants: when r3d_voxelize returns, the sums over all voxels of the added values equal the moments. Also for boxes returned by r3d_get_ibox (including degenerate ones), and a per-voxel statement: each voxel receives the moments of a valid piece lying inside it and inside every half-space containing the polyhedron."
  },
  {
   "property": "C36",
   "status": "proved",
   "theorems": [
    "C36_r3d_voxelize_bounds",
    "C36_r3d_voxelize_only_overflow",
    "C36_r3d_voxelize_own_cells",
    "C36_r3d_voxelize_returns"
   ],
   "note": "For every arithmetic: r3d_voxelize returns unless a split needs more than R3D_MAX_VERTS vertices; in particular the explicit stack never overflows, fuel never runs out, indices never overflow, and each written entry belongs to the voxel concerned and lies inside dest_grid. ceil(log2 n) is modelled as the exact integer value."
  },
  {
   "property": "C37",
   "status": "proved",
   "theorems": [
    "C37_r3d_split_coord_overflow_refuted",
    "C37_r3d_voxelize_room"
   ],
   "note": "STATEMENT FALSE of the code; 'proved' refers to its negation (the _refuted theorem) and to the theorems beside it. REFUTED: a convex 256-gon prism (512 vertices, planar faces) makes r3d_split_coord, and r3d_voxelize, write past the vertex buffer (C37_r3d_split_coord_overflow_refuted). C37_r3d_voxelize_room gives a sufficient bound under which nothing overflows, for every arithmetic."
  },
  {
   "property": "C38",
   "status": "proved",
   "theorems": [
    "C38_r3d_clamp_ibox_box",
    "C38_r3d_clamp_ibox_clip_ok",
    "C38_r3d_clamp_ibox_inside",
    "C38_r3d_clamp_ibox_polyhedron",
    "C38_r3d_clamp_ibox_returns",
    "C38_r3d_clamp_ibox_unreported_failure_refuted",
    "C38_r3d_get_ibox_empty_undefined",
    "C38_r3d_get_ibox_minimal"
   ],
   "note": "STATEMENT FALSE of the code in the cases named below; 'proved' refers to the _refuted theorem for those and to the other theorems for the rest. r3d_get_ibox returns the minimal covering box (undefined float-to-int conversion on an empty polyhedron); r3d_clamp_ibox always returns the intersected box, and the polyhedron inside it when the internal clip succeeds. REFUTED in one respect: r3d_clamp_ibox drops the status of r3d_clip, so a failed clip leaves a broken polyhedron with a right-looking box (C38_r3d_clamp_ibox_unreported_failure_refuted)."
  },
  {
   "property": "C39",
   "status": "proved",
   "theorems": [
    "C39_r3d_is_good_room",
    "C39_r3d_is_good_stack_refuted"
   ],
   "note": "STATEMENT FALSE of the code; 'proved' refers to its negation (the _refuted theorem) and to the theorems beside it. REFUTED: on a convex prism with 512 vertices (R3D_MAX_VERTS) the flood fill writes stack[512]. Proved instead: no error whenever 2*nverts+1 <= R3D_MAX_VERTS."
  },
  {
   "property": "C40",
   "status": "proved",
   "theorems": [
    "C40_r3d_is_good_decides",
    "C40_r3d_is_good_decides_any"
   ],
   "note": "Whenever the call returns at all. With mutual links: exactly 3-vertex-connectedness of each component. Without mutual links the code only follows links forward from the least remaining vertex, which is what the second theorem states."
  },
  {
   "property": "C41",
   "status": "proved",
   "theorems": [
    "C41_r3d_is_good_mutual_refuted"
   ],
   "note": "STATEMENT FALSE of the code; 'proved' refers to its negation (the _refuted theorem) and to the theorems beside it. REFUTED: v -> v+1, v+2, v+4 (mod 7) is accepted although no link is returned."
  },
  {
   "property": "C42",
   "status": "proved",
   "theorems": [
    "C42_api_history_good",
    "C42_valid_is_3_connected"
   ],
   "note": "Every arithmetic; the graph-theoretic core (wf3 implies 3-connected components) is a separate theorem. r3d_is_good returns 1 while 2*nverts+1 <= R3D_MAX_VERTS (C39 shows it can overrun beyond that)."
  },
  {
   "property": "C43",
   "status": "proved",
   "theorems": [
    "C43_r3d_affine",
    "C43_r3d_rotate",
    "C43_r3d_scale",
    "C43_r3d_shear",
    "C43_r3d_translate"
   ],
   "note": "real arithmetic"
  },
  {
   "property": "C44",
   "status": "proved",
   "theorems": [
    "C44_r3d_box_faces",
    "C44_r3d_poly_faces",
    "C44_r3d_tet_faces"
   ],
   "note": "real arithmetic"
  },
  {
   "property": "C45",
   "status": "proved",
   "theorems": [
    "C45_r3d_orient"
   ],
   "note": "real arithmetic"
  },
  {
   "property": "C46",
   "status": "proved",
   "theorems": [
    "C46_init_poly_three",
    "C46_init_poly_three_valid",
    "C46_init_poly_too_few_faces",
    "C46_init_poly_too_many"
   ],
   "note": "closed oriented surfaces with three faces per vertex; the correspondence between corners and directed edges is a bijection that carries the given faces to the faces of the graph; both rejections"
  },
  {
   "property": "C47",
   "status": "proved",
   "theorems": [
    "C47_init_brep",
    "C47_init_brep_any_valid_refuted",
    "C47_init_brep_empty",
    "C47_init_brep_full"
   ],
   "note": "STATEMENT FALSE of the code in the cases named below; 'proved' refers to the _refuted theorem for those and to the other theorems for the rest. for every valid polyhedron with 0 < nverts < R3D_MAX_VERTS; REFUTED when the buffer is full (edge_marked[R3D_MAX_VERTS] is read) and for the empty polyhedron (vertex_map has length 0)"
  },
  {
   "property": "C48",
   "status": "proved",
   "theorems": [
    "C48_rNd_det_leibniz",
    "C48_rNd_orient_4",
    "C48_rNd_orient_leibniz"
   ],
   "note": "All dimensions: Leibniz' formula; D=4: cofactor expansion over 24."
  },
  {
   "property": "C49",
   "status": "proved",
   "theorems": [
    "C49_rNd_affine_exact",
    "C49_rNd_affine_refuted"
   ],
   "note": "STATEMENT FALSE of the code; 'proved' refers to its negation (the _refuted theorem) and to the theorems beside it. REFUTED: the inner loop assigns instead of accumulating and w is left out; exact formula proved."
  },
  {
   "property": "C50",
   "status": "proved",
   "theorems": [
    "C50_rNd_init_box",
    "C50_rNd_init_box_face_numbers_refuted",
    "C50_rNd_init_simplex"
   ],
   "note": "Links, positions and face tables in every dimension. The further reading that 2-face numbers identify 2-faces holds for the simplex and is REFUTED for the box (only one number per pair of axes)."
  },
  {
   "property": "C51",
   "status": "proved",
   "theorems": [
    "C51_rNd_rotate",
    "C51_rNd_scale",
    "C51_rNd_shear",
    "C51_rNd_translate"
   ],
   "note": "Every dimension; translate/scale/shear for any arithmetic, rotate over the reals."
  },
  {
   "property": "C52",
   "status": "proved",
   "theorems": [
    "C52_rNd_is_good_decides",
    "C52_rNd_is_good_decides_any"
   ],
   "note": "Also proved without assuming mutual links (walks in link direction from the least vertex)."
  },
  {
   "property": "C53",
   "status": "proved",
   "theorems": [
    "C53_rNd_is_good_mutual_refuted"
   ],
   "note": "STATEMENT FALSE of the code; 'proved' refers to its negation (the _refuted theorem) and to the theorems beside it. REFUTED: a circulant graph with no returned link is accepted."
  },
  {
   "property": "C54",
   "status": "proved",
   "theorems": [
    "C54_rNd_is_good_room",
    "C54_rNd_is_good_stack_refuted"
   ],
   "note": "STATEMENT FALSE of the code; 'proved' refers to its negation (the _refuted theorem) and to the theorems beside it. REFUTED: product of a 341-gon and a triangle (1023 vertices) overflows the stack; no error when (D-1)*nverts+1 <= RND_MAX_VERTS."
  },
  {
   "property": "C55",
   "status": "proved",
   "theorems": [
    "C55_rNd_init_box_is_good",
    "C55_rNd_init_simplex_is_good"
   ],
   "note": "Includes D-connectedness of the hypercube graph for all D."
  },
  {
   "property": "C56",
   "status": "proved",
   "theorems": [
    "C56_rNd_get_ibox"
   ],
   "note": "Every dimension."
  },
  {
   "property": "C57",
   "status": "proved",
   "theorems": [
    "C57_rNd_clamp_ibox_refuted"
   ],
   "note": "STATEMENT FALSE of the code; 'proved' refers to its negation (the _refuted theorem) and to the theorems beside it. REFUTED: boxfaces has 6 entries; in four dimensions any clamp box strictly inside overruns it."
  },
  {
   "property": "C58",
   "status": "proved",
   "theorems": [
    "C58_init_poly_rejected_empty_refuted",
    "C58_init_poly_too_big"
   ],
   "note": "STATEMENT FALSE of the code; 'proved' refers to its negation (the _refuted theorem) and to the theorems beside it. REFUTED: when the duplicates overflow, 0 is returned with nverts = the count reached (bipyramid on an 86-gon, 512 vertices)"
  },
  {
   "property": "C59",
   "status": "proved",
   "theorems": [
    "C59_init_poly_any",
    "C59_init_poly_any_valid"
   ],
   "note": "every closed surface with one ring of at least three faces per vertex; validity if faces meet properly"
  },
  {
   "property": "C60",
   "status": "proved",
   "theorems": [
    "C60_rNd_clip_plane",
    "C60_rNd_init_box_cells",
    "C60_rNd_init_simplex_cells"
   ],
   "note": "one plane, any arithmetic, every D >= 3; boxes and simplices of every dimension are shown to satisfy the hypotheses"
  },
  {
   "property": "C61",
   "status": "proved",
   "theorems": [
    "C61_rNd_clip_overflow_refuted",
    "C61_rNd_clip_safe"
   ],
   "note": "STATEMENT FALSE of the code; 'proved' refers to its negation (the _refuted theorem) and to the theorems beside it. REFUTED: there is no check of the buffer size; a duoprism of 1023 vertices overflows. No error, and termination, whenever the cut edges fit (C61_rNd_clip_safe; C60 says the error occurs exactly otherwise)"
  },
  {
   "property": "C62",
   "status": "proved",
   "theorems": [
    "C62_rNd_clip_box",
    "C62_rNd_clip_hull",
    "C62_rNd_init_box_convex",
    "C62_rNd_init_simplex_convex"
   ],
   "note": "over the reals, for any number of planes; the result may have edges of length zero, so convexity is stated as a limit of strictly convex simple polytopes (`polytope`). The other outcome is a buffer overflow, possible only when nv*(D+1)^planes exceeds the buffer (C61)"
  },
  {
   "property": "C63",
   "status": "proved",
   "theorems": [
    "C63_rNd_reduce_box",
    "C63_rNd_reduce_flags"
   ],
   "note": "in any arithmetic; the box over the reals"
  },
  {
   "property": "C64",
   "status": "proved",
   "theorems": [
    "C64_rNd_init_box_solid",
    "C64_rNd_init_simplex_solid",
    "C64_rNd_split_hull",
    "C64_rNd_split_reduce"
   ],
   "note": "over the reals; the other outcome is a buffer overflow in rNd_clip, possible only when nv*(D+1) exceeds the buffer. Additivity needs a plane through no vertex (see C66)"
  },
  {
   "property": "C65",
   "status": "proved",
   "theorems": [
    "C65_rNd_voxelize_box",
    "C65_rNd_voxelize_cells",
    "C65_rNd_voxelize_only_overflow",
    "C65_rNd_voxelize_room"
   ],
   "note": "over the reals. A cell whose intersection with the polytope has no interior may be skipped. Conservation needs that no grid plane passes through an extreme point of a piece (see C66)"
  },
  {
   "property": "C66",
   "status": "proved",
   "theorems": [
    "C66_rNd_clip_reduce_nan",
    "C66_rNd_reduce_after_clip_refuted"
   ],
   "note": "STATEMENT FALSE of the code; 'proved' refers to its negation (the _refuted theorem) and to the theorems beside it. REFUTED: an edge of length zero gives 0/0 in reduce_helper, and rNd_clip makes such an edge whenever the plane passes exactly through a kept vertex with a clipped neighbour; witness: the unit cube cut along a diagonal, in every dimension. Real numbers with a NaN value (SpecNaN)"
  },
  {
   "property": "C67",
   "status": "proved",
   "theorems": [
    "C67_content_box",
    "C67_content_unique",
    "C67_rNd_clip_volume",
    "C67_rNd_reduce_monotone",
    "C67_rNd_reduce_same_hull",
    "C67_rNd_reduce_volume"
   ],
   "note": "over the reals, D >= 3, for solid polytopes (simple, exact facets, positive edges). Volume is Jordan content: disjoint boxes inside and boxes covering the hull. After rNd_clip the planes must be in general position (a plane through a vertex gives 0/0, see C66)"
  },
  {
   "property": "C68",
   "status": "proved",
   "theorems": [
    "C68_rNd_voxelize_box_volume",
    "C68_rNd_voxelize_volume"
   ],
   "note": "over the reals, D >= 3, for solid polytopes in the region of the index box, when no grid plane passes through an extreme point of a piece (see C66)"
  },
  {
   "property": "C69",
   "status": "proved",
   "theorems": [
    "C69_r3d_clip_intersects",
    "C69_r3d_init_box_convex",
    "C69_r3d_init_tet_convex",
    "C69_r3d_split_intersects",
    "C69_solid_is_convex"
   ],
   "note": "Over the reals. When the planes leave nothing inside, the output may be empty although the intersection is a flat set in one of the planes; the theorem says so."
  },
  {
   "property": "C70",
   "status": "proved",
   "theorems": [
    "C70_content3_unique",
    "C70_r3d_clip_volume",
    "C70_r3d_reduce_volume",
    "C70_r3d_split_volumes"
   ],
   "note": "Over the reals; the planes must have a normal that is not zero. Volume is Jordan content, which is unique (C70_content3_unique)."
  },
  {
   "property": "C71",
   "status": "proved",
   "theorems": [
    "C71_r3d_clamp_volume",
    "C71_r3d_voxelize_volume"
   ],
   "note": "Over the reals, for a polyhedron in the region of the index box; the clamp theorem assumes that the clip inside succeeds, since r3d_clamp_ibox drops its status (see C38)."
  },
  {
   "property": "C72",
   "status": "proved",
   "theorems": [
    "C72_r2d_clip_intersects",
    "C72_r2d_clip_returns",
    "C72_r2d_init_box_convex",
    "C72_r2d_init_poly_convex",
    "C72_r2d_split_intersects"
   ],
   "note": "Over the reals. When the planes leave nothing strictly inside, the output may be empty although the intersection is a set in one of the lines; the theorem says so."
  },
  {
   "property": "C73",
   "status": "proved",
   "theorems": [
    "C73_content2_unique",
    "C73_r2d_clip_area",
    "C73_r2d_reduce_area",
    "C73_r2d_split_areas"
   ],
   "note": "Over the reals; the lines must have a normal that is not zero. Area is Jordan content, which is unique (C73_content2_unique)."
  },
  {
   "property": "C74",
   "status": "proved",
   "theorems": [
    "C74_r2d_clamp_area",
    "C74_r2d_rasterize_area",
    "C74_r2d_rasterize_parts"
   ],
   "note": "Over the reals, for a polygon in the region of the index box."
  },
  {
   "property": "C75",
   "status": "proved",
   "theorems": [
    "C75_integral2_constant",
    "C75_integral2_unique",
    "C75_r2d_clip_integral",
    "C75_r2d_reduce_integral",
    "C75_r2d_split_integrals"
   ],
   "note": "Over the reals; the lines must have a normal that is not zero. The integral is defined through Jordan content in one dimension more, and is unique (C75_integral2_unique)."
  },
  {
   "property": "C76",
   "status": "proved",
   "theorems": [
    "C76_integral3_constant",
    "C76_integral3_unique",
    "C76_r3d_clip_integral",
    "C76_r3d_fan_positive",
    "C76_r3d_reduce_integral",
    "C76_r3d_split_integrals"
   ],
   "note": "Over the reals; the planes must have a normal that is not zero, and r3d_clip and r3d_split must report success."
  },
  {
   "property": "C77",
   "status": "proved",
   "theorems": [
    "C77_r2d_clamp_integral",
    "C77_r2d_rasterize_integral",
    "C77_r3d_clamp_integral",
    "C77_r3d_voxelize_integral",
    "C77_r3d_voxelize_parts"
   ],
   "note": "Over the reals, for a polygon or polyhedron in the region of the index box; r3d_clamp_ibox when the clip in it succeeds."
  },
  {
   "property": "C78",
   "status": "proved",
   "theorems": [
    "C78_convex_has_facets",
    "C78_r3d_box_clip_voxelize",
    "C78_r3d_clamp_voxelize",
    "C78_r3d_clip_room",
    "C78_r3d_clip_voxelize",
    "C78_r3d_init_box_facets",
    "C78_r3d_init_box_hull",
    "C78_r3d_init_tet_facets",
    "C78_r3d_split_room",
    "C78_r3d_voxelize_97_facets",
    "C78_r3d_voxelize_room",
    "C78_vertices_facets"
   ],
   "note": "Over the reals. The counts are sufficient; the refuted form of C37 is about prisms with more facets."
  },
  {
   "property": "C79",
   "status": "proved",
   "theorems": [
    "C79_binary64_rounding",
    "C79_r3d_clip_rounded",
    "C79_r3d_split_coord_rounded",
    "C79_r3d_split_rounded"
   ],
   "note": "Relative-error model of rounding: no overflow, no underflow. Exact bit patterns of doubles are not modelled."
  },
  {
   "property": "C80",
   "status": "proved",
   "theorems": [
    "C80_r2d_clip_rounded",
    "C80_r2d_split_coord_rounded",
    "C80_r2d_split_rounded"
   ],
   "note": "Relative-error model of rounding, as C79."
  },
  {
   "property": "C81",
   "status": "proved",
   "theorems": [
    "C81_r2d_split_area_rounded",
    "C81_r2d_split_coord_area_rounded"
   ],
   "note": "The areas are exact areas of the returned vertices."
  },
  {
   "property": "C82",
   "status": "proved",
   "theorems": [
    "C82_r2d_reduce_rounded"
   ],
   "note": "Relative-error model of rounding, as C79; without SHIFT_POLY."
  },
  {
   "property": "C83",
   "status": "proved",
   "theorems": [
    "C83_r2d_rasterize_area_rounded",
    "C83_r2d_rasterize_room"
   ],
   "note": "Relative-error model of rounding, as C79; without SHIFT_POLY. The total area, not the area of each cell."
  },
  {
   "property": "C84",
   "status": "proved",
   "theorems": [
    "C84_r3d_reduce_rounded"
   ],
   "note": "Relative-error model of rounding, as C79; without SHIFT_POLY."
  },
  {
   "property": "C85",
   "status": "proved",
   "theorems": [
    "C85_planar_flat",
    "C85_r3d_clip_flat_rounded",
    "C85_r3d_split_coord_volume_rounded",
    "C85_r3d_split_volume_rounded"
   ],
   "note": "The volumes are exact volumes (fan triangulation of faces, as r3d_reduce does) of the returned vertices; relative-error model of rounding, as C79."
  },
  {
   "property": "C86",
   "status": "proved",
   "theorems": [
    "C86_r3d_voxelize_volume_rounded"
   ],
   "note": "Relative-error model of rounding, as C79; without SHIFT_POLY; C36 gives cases in which r3d_voxelize returns."
  },
  {
   "property": "C87",
   "status": "proved",
   "theorems": [
    "C87_r3d_cells_intersect",
    "C87_r3d_cells_symmetric",
    "C87_r3d_clips_conserve",
    "C87_r3d_mesh_conserves",
    "C87_sides_meet_in_no_volume"
   ],
   "note": "Over the reals. Meshes may mix tetrahedra and boxes; C87_sides_meet_in_no_volume gives the hypothesis on overlaps from a separating plane."
  },
  {
   "property": "C88",
   "status": "proved",
   "theorems": [
    "C88_r2d_box_faces_intersect_refuted",
    "C88_r2d_clips_conserve",
    "C88_r2d_mesh_conserves",
    "C88_r2d_poly_faces_hold",
    "C88_r2d_polygons_intersect",
    "C88_r2d_polygons_symmetric",
    "C88_sides_meet_in_no_area"
   ],
   "note": "Over the reals. The last sentence is C88_r2d_box_faces_intersect_refuted: with the faces of r2d_box_faces_from_verts (wrong sign, C20) the common area of two squares comes out as 4 instead of 1."
  },
  {
   "property": "C89",
   "status": "proved",
   "theorems": [
    "C89_corners_weighted_means",
    "C89_hull2_weighted_means",
    "C89_hull3_weighted_means",
    "C89_hullN_weighted_means",
    "C89_r2d_clip_weighted_means",
    "C89_r3d_clip_weighted_means",
    "C89_rNd_clip_weighted_means"
   ],
   "note": "Over the reals. Gives the bodies of C62, C69, C72 and C75-C88, which are stated with half-spaces, as convex combinations of the vertices."
  },
  {
   "property": "C90",
   "status": "proved",
   "theorems": [
    "C90_r2d_affine_image",
    "C90_r2d_clip_of_image",
    "C90_r2d_moments_of_image",
    "C90_r2d_rotate_actual_image",
    "C90_r2d_scale_image",
    "C90_r2d_shear_image",
    "C90_r2d_translate_image",
    "C90_r3d_affine_image",
    "C90_r3d_clip_of_image",
    "C90_r3d_moments_of_image",
    "C90_r3d_rotate_image",
    "C90_r3d_scale_image",
    "C90_r3d_shear_image",
    "C90_r3d_translate_image"
   ],
   "note": "Over the reals. r2d_rotate is stated for the matrix the code applies and for a positive sine, since the code does not apply a rotation."
  },
  {
   "property": "C91",
   "status": "proved",
   "theorems": [
    "C91_rNd_rotate_image",
    "C91_rNd_rotate_volume",
    "C91_rNd_scale_image",
    "C91_rNd_scale_volume",
    "C91_rNd_shear_image",
    "C91_rNd_shear_volume",
    "C91_rNd_translate_image",
    "C91_rNd_translate_volume",
    "C91_rNd_turned_box"
   ],
   "note": "Over the reals."
  },
  {
   "property": "C92",
   "status": "proved",
   "theorems": [
    "C92_r3d_init_poly_integral",
    "C92_r3d_init_poly_points"
   ],
   "note": "Over the reals, for descriptions with three faces at every vertex."
  },
  {
   "property": "C93",
   "status": "proved",
   "theorems": [
    "C93_r3d_clip_own_faces_empty",
    "C93_r3d_poly_faces_inward_refuted",
    "C93_r3d_poly_faces_outward",
    "C93_r3d_poly_faces_reversed",
    "C93_r3d_poly_intersection"
   ],
   "note": "Over the reals. The inward sense is refuted with the unit cube as witness; the statement is proved with the outward sense, and with reversed lists for clipping."
  },
  {
   "property": "C94",
   "status": "proved",
   "theorems": [
    "C94_brep_round_trip",
    "C94_brep_round_trip_convex",
    "C94_solid_distinct"
   ],
   "note": "The graph part holds for positions of any type with any equality test."
  },
  {
   "property": "C95",
   "status": "proved",
   "theorems": [
    "C95_convex_polyhedron_survives",
    "C95_convex_polytope_survives",
    "C95_rNd_clip_is_good",
    "C95_rNd_is_good_convex"
   ],
   "note": "Over the reals, with the stack room of C54."
  },
  {
   "property": "C96",
   "status": "proved",
   "theorems": [
    "C96_r2d_clip_again",
    "C96_r2d_clip_in_turn",
    "C96_r2d_clip_order",
    "C96_r3d_clip_again",
    "C96_r3d_clip_in_turn",
    "C96_r3d_clip_order",
    "C96_rNd_clip_again",
    "C96_rNd_clip_in_turn",
    "C96_rNd_clip_order"
   ],
   "note": "The in-turn part holds for any arithmetic; the exception for the status of r3d_clip is part of the theorem and shown on the cube."
  },
  {
   "property": "C97",
   "status": "proved",
   "theorems": [
    "C97_binary64_factors",
    "C97_r2d_affine_clip",
    "C97_r2d_clip_units",
    "C97_r2d_rotate_actual_clip",
    "C97_r2d_scale_clip",
    "C97_r2d_scale_clip_rounded",
    "C97_r2d_shear_clip",
    "C97_r2d_translate_clip",
    "C97_r3d_affine_clip",
    "C97_r3d_clip_units",
    "C97_r3d_rotate_clip",
    "C97_r3d_scale_clip",
    "C97_r3d_scale_clip_rounded",
    "C97_r3d_shear_clip",
    "C97_r3d_translate_clip"
   ],
   "note": "No assumption on the links. For r2d_rotate the map is the one the code applies (C19). Rounded part: r3d_scale and r2d_scale, and any per-axis scaling done outside."
  },
  {
   "property": "C98",
   "status": "proved",
   "theorems": [
    "C98_r2d_clip_reduce_units",
    "C98_r2d_reduce_units",
    "C98_r3d_clip_reduce_units",
    "C98_r3d_reduce_units"
   ],
   "note": "Default build (SHIFT_POLY not defined). Needs that the order in which r3d_reduce visits the fan triangles is a function of the links (FanOrd3). No overflow or underflow in the rounding model."
  },
  {
   "property": "C99",
   "status": "proved",
   "theorems": [
    "C99_rNd_clip_units",
    "C99_rNd_rotate_clip",
    "C99_rNd_scale_clip",
    "C99_rNd_shear_clip",
    "C99_rNd_translate_clip"
   ],
   "note": "rNd_affine is left out: as written it does not apply the matrix (C49). For rNd_rotate the map is the one the code applies, also when the two axes coincide."
  },
  {
   "property": "C100",
   "status": "proved",
   "theorems": [
    "C100_rNd_mirror_split",
    "C100_rNd_rotate_split",
    "C100_rNd_scale_split",
    "C100_rNd_shear_split",
    "C100_rNd_split_units",
    "C100_rNd_translate_split"
   ],
   "note": "With a negative factor on the split axis the two parts exchange their places; that case is stated for a split that succeeds, because the order in which the two parts can fail changes."
  }
 ]
}