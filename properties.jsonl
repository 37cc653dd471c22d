{"id": "C01", "title": "r2d_clip keeps a polygon's linkage intact", "statement": "Calling r2d_clip on a polygon whose vertices are doubly linked (the 'next' of the 'previous' of every vertex is the vertex itself, and no vertex's two neighbours coincide) yields a polygon that is again doubly linked with distinct neighbours, whatever the floating-point values are (NaN, infinities and rounding included), provided the vertex buffer has room for the inserted vertices.", "quantifier": "every doubly linked polygon (convex, nonconvex, multiply connected), every list of clip planes, every arithmetic", "why_tests_cant": "the set of polygons, planes and floating point values is unbounded and tests sample a few random triangles", "anchors": ["src/r2d.c:r2d_clip"]}
{"id": "C02", "title": "r2d_clip terminates without undefined behaviour", "statement": "On a doubly linked polygon, r2d_clip returns after finitely many steps, never reads or writes outside the vertex buffer and never follows an unset link, as long as at every plane the current vertex count plus the number of bisected edges fits in R2D_MAX_VERTS.", "quantifier": "every doubly linked polygon, every plane list, every arithmetic", "why_tests_cant": "non-termination and out-of-bounds accesses on rare configurations cannot be excluded by sampling", "anchors": ["src/r2d.c:r2d_clip"]}
{"id": "C03", "title": "r2d_clip never overflows the vertex buffer", "statement": "r2d_clip on a well-formed polygon with at most R2D_MAX_VERTS vertices never writes past the vertex buffer (r3d_clip has an explicit check; r2d_clip has none).", "quantifier": "every well-formed polygon with at most R2D_MAX_VERTS vertices and every plane", "why_tests_cant": "only inputs close to the buffer limit show the failure", "anchors": ["src/r2d.c:r2d_clip", "src/r2d.h:R2D_MAX_VERTS"]}
{"id": "C04", "title": "r2d_clip result lies in every clip half-plane", "statement": "In exact arithmetic, every vertex of the polygon returned by r2d_clip has non-negative signed distance to every plane in the list, and every returned vertex is a convex combination of input vertices.", "quantifier": "every doubly linked polygon with real coordinates, every plane list", "why_tests_cant": "infinitely many coordinate values and plane orders", "anchors": ["src/r2d.c:r2d_clip"]}
{"id": "C05", "title": "r2d_clip leaves inside polygons alone and empties outside ones", "statement": "If all vertices are on or inside a plane r2d_clip returns the polygon bit for bit unchanged; if all vertices are on or outside some plane (with at least one strictly outside) the result is empty; clipping an empty polygon or with no planes changes nothing.", "quantifier": "every polygon, every plane", "why_tests_cant": "must hold for all coordinates including boundary contact", "anchors": ["src/r2d.c:r2d_clip"]}
{"id": "C06", "title": "2D clipping conserves every moment", "statement": "In exact arithmetic, for every moment order the moments of the polygon clipped by a plane plus the moments of the polygon clipped by the opposite plane equal the moments of the original polygon.", "quantifier": "every doubly linked polygon (also nonconvex or multiply connected), every plane (also through vertices or edges), every polynomial order", "why_tests_cant": "tests check order 2 on random triangles up to tolerance", "anchors": ["src/r2d.c:r2d_clip", "src/r2d.c:r2d_reduce"]}
{"id": "C07", "title": "r2d_split conserves every moment and both parts stay well linked", "statement": "In exact arithmetic the two polygons produced by r2d_split have moments that add up to those of the input polygon for every order, and both are doubly linked (the latter for every arithmetic).", "quantifier": "every array of doubly linked polygons, every plane, every order", "why_tests_cant": "unbounded inputs", "anchors": ["src/r2d.c:r2d_split"]}
{"id": "C08", "title": "r2d_split puts the positive part in out_pos", "statement": "As documented, out_pos[i] holds the part of inpolys[i] on the positive side of the plane (d + n.x >= 0) and out_neg[i] the part on the negative side.", "quantifier": "every polygon and plane", "why_tests_cant": "tests only check that the parts add up", "anchors": ["src/r2d.c:r2d_split", "src/r2d.h:r2d_split"]}
{"id": "C09", "title": "r2d_reduce computes exact polygon moments", "statement": "In exact arithmetic moments[m] returned by r2d_reduce is, for every polyorder and every exponent pair (i,j) in row-major order, the integral of x^i y^j over the polygon (sum over directed edges of the boundary integral given by Green's theorem).", "quantifier": "every doubly linked polygon, every polyorder, every exponent", "why_tests_cant": "the recursion must be right for unboundedly many orders", "anchors": ["src/r2d.c:r2d_reduce", "src/r2d.h:R2D_NUM_MOMENTS"]}
{"id": "C10", "title": "r2d_reduce fills exactly the documented moments", "statement": "r2d_reduce writes every entry of moments[0 .. (polyorder+1)(polyorder+2)/2) and nothing else, reads no uninitialised coefficient, and yields all zeros for an empty polygon.", "quantifier": "every polygon whose links are in range, every polyorder >= 0", "why_tests_cant": "index arithmetic for all orders", "anchors": ["src/r2d.c:r2d_reduce"]}
{"id": "C11", "title": "2D moment shifting is the exact change of origin", "statement": "r2d_shift_moments applied to the moments of a polygon translated by -c gives the moments of the polygon itself; hence r2d_reduce compiled with SHIFT_POLY returns the same values as without it in exact arithmetic.", "quantifier": "every polygon, every order, every centre", "why_tests_cant": "all orders and centres", "anchors": ["src/r2d.c:r2d_shift_moments", "src/r2d.c:r2d_poly_center", "src/r2d.c:r2d_reduce"]}
{"id": "C12", "title": "r2d_rasterize is conservative", "statement": "In exact arithmetic, when r2d_rasterize returns, for every moment the sum over all grid cells of the values added equals that moment of the whole polygon.", "quantifier": "every doubly linked polygon, every index box with positive size, every cell spacing, every order", "why_tests_cant": "tests use a few grids with tolerances", "anchors": ["src/v2d.c:r2d_rasterize", "src/v2d.c:r2d_split_coord"]}
{"id": "C13", "title": "r2d_rasterize's work stack never overflows and the loop terminates", "statement": "The explicit stack of ceil(log2 ni)+ceil(log2 nj)+1 entries is never exceeded and the loop ends for every grid size.", "quantifier": "every positive grid size (no 512 limit), every polygon", "why_tests_cant": "the bound must hold for all grid shapes", "anchors": ["src/v2d.c:r2d_rasterize"]}
{"id": "C14", "title": "r2d_rasterize writes only its own grid cells", "statement": "Every value is added at an index inside dest_grid[0 .. ni*nj*nmom), to the entry of the cell concerned; entries of different cells never collide; a cell is visited at most once.", "quantifier": "every grid box and polygon", "why_tests_cant": "index arithmetic over all boxes", "anchors": ["src/v2d.c:r2d_rasterize"]}
{"id": "C15", "title": "each raster cell receives the moments of a piece lying in that cell", "statement": "If the index box covers the polygon, what is added to a cell is the moment vector of a polygon all of whose vertices lie within the closed bounds of that cell.", "quantifier": "every polygon, grid, spacing > 0", "why_tests_cant": "all splits along the recursion", "anchors": ["src/v2d.c:r2d_rasterize"]}
{"id": "C16", "title": "r2d_get_ibox returns the minimal covering index box", "statement": "For a non-empty polygon whose scaled coordinates fit in int32, d*ibox[0] <= every vertex <= d*ibox[1] componentwise, and no smaller integer box does so.", "quantifier": "every non-empty polygon, every spacing > 0", "why_tests_cant": "all coordinates", "anchors": ["src/v2d.c:r2d_get_ibox"]}
{"id": "C17", "title": "r2d_clamp_ibox clamps box and polygon consistently", "statement": "After r2d_clamp_ibox the index box is the intersection of ibox and clampbox (or all zero with an empty polygon when they do not overlap), and the polygon lies in the clamp box whenever it lay in ibox.", "quantifier": "every polygon, ibox, clampbox, spacing > 0", "why_tests_cant": "all overlaps", "anchors": ["src/v2d.c:r2d_clamp_ibox"]}
{"id": "C18", "title": "2D rigid and affine transforms act on moments as they should", "statement": "r2d_translate leaves the area unchanged, r2d_scale multiplies it by scale^2, r2d_shear along different axes preserves it, r2d_affine with last row (0,0,1) multiplies it by the determinant; none touches the linkage.", "quantifier": "every doubly linked polygon, every parameter", "why_tests_cant": "all coordinates", "anchors": ["src/r2d.c:r2d_translate", "src/r2d.c:r2d_scale", "src/r2d.c:r2d_shear", "src/r2d.c:r2d_affine"]}
{"id": "C19", "title": "r2d_rotate rotates the polygon", "statement": "r2d_rotate(poly, theta) moves each vertex (x,y) to (cos x - sin y, sin x + cos y) and so preserves the area.", "quantifier": "every polygon, every angle", "why_tests_cant": "no test calls it; must hold for all angles", "anchors": ["src/r2d.c:r2d_rotate"]}
{"id": "C20", "title": "r2d_box_faces_from_verts gives the faces of the box", "statement": "A point satisfies all four plane inequalities returned for bounds lo<=hi exactly when it lies in the box [lo,hi].", "quantifier": "every pair of corners, every point", "why_tests_cant": "all coordinates", "anchors": ["src/r2d.c:r2d_box_faces_from_verts"]}
{"id": "C21", "title": "r2d_poly_faces_from_verts gives inward planes through the edges", "statement": "For every edge with distinct end points the returned plane contains both end points, and a third point has positive signed distance exactly when it is on the left of the directed edge.", "quantifier": "every vertex list, every point", "why_tests_cant": "all coordinates", "anchors": ["src/r2d.c:r2d_poly_faces_from_verts"]}
{"id": "C22", "title": "r2d_is_good decides the documented condition", "statement": "r2d_is_good returns 1 exactly when every vertex has two valid distinct edges, every vertex is pointed to by exactly two edges and no vertex points to itself.", "quantifier": "every polygon with links in range", "why_tests_cant": "all graphs", "anchors": ["src/r2d.c:r2d_is_good", "src/r2d.h:r2d_is_good"]}
{"id": "C23", "title": "2D initialisers build good polygons with the right region", "statement": "r2d_init_poly with n>=3 vertices and r2d_init_box produce a doubly linked polygon, for which r2d_is_good returns 1, visiting the given vertices in order; the box's moments are the integrals over the rectangle for all orders.", "quantifier": "every vertex list with 3 <= n <= 256, every pair of corners, all orders", "why_tests_cant": "all sizes and orders", "anchors": ["src/r2d.c:r2d_init_poly", "src/r2d.c:r2d_init_box"]}
{"id": "C24", "title": "r2d_orient is the signed area", "statement": "r2d_orient is the signed area: antisymmetric under exchange, invariant under rotation of arguments and translation, and equals moment 0 of the triangle.", "quantifier": "all points", "why_tests_cant": "all reals", "anchors": ["src/r2d.c:r2d_orient"]}
{"id": "C25", "title": "r3d_clip preserves polyhedral validity under any arithmetic", "statement": "Starting from a valid polyhedral graph (three distinct mutual neighbours per vertex in a rotation system where two faces share at most one edge) every successful r3d_clip yields a valid polyhedral graph again, whatever the floating point values.", "quantifier": "every valid polyhedron (any component count), every plane list, every arithmetic including NaN", "why_tests_cant": "the geometric-robustness claim ranges over all floating point inputs", "anchors": ["src/r3d.c:r3d_clip"]}
{"id": "C26", "title": "r3d_clip terminates and is memory safe for every valid polyhedron", "statement": "On a valid polyhedron r3d_clip always terminates, never accesses memory outside the vertex buffer or a neighbour slot outside 0..2, and reports exhaustion of the buffer by returning 0.", "quantifier": "every valid polyhedron with nverts <= R3D_MAX_VERTS, every R3D_MAX_VERTS, every plane list, every arithmetic", "why_tests_cant": "all inputs near and far from the limit", "anchors": ["src/r3d.c:r3d_clip"]}
{"id": "C27", "title": "r3d_clip return status", "statement": "r3d_clip returns 1 if and only if the clip completed, and returns 0 only for an empty input polyhedron or when the vertex buffer is exhausted; with no room problem the status is 1.", "quantifier": "every valid polyhedron, every plane list", "why_tests_cant": "status must be right for all inputs", "anchors": ["src/r3d.c:r3d_clip", "src/r3d.h:r3d_clip"]}
{"id": "C28", "title": "a failed r3d_clip leaves the polyhedron usable", "statement": "When r3d_clip returns 0 because the buffer is full, the polyhedron still is a valid polyhedron (for example unchanged).", "quantifier": "every valid polyhedron and plane list for which the status is 0", "why_tests_cant": "failure path needs near-full buffers", "anchors": ["src/r3d.c:r3d_clip"]}
{"id": "C29", "title": "r3d_clip result lies in every clip half-space", "statement": "In exact arithmetic every vertex of a successfully clipped polyhedron has non-negative signed distance to every plane and lies in the convex hull of the input vertices.", "quantifier": "every valid polyhedron, every plane list", "why_tests_cant": "all coordinates", "anchors": ["src/r3d.c:r3d_clip"]}
{"id": "C30", "title": "3D clipping conserves every moment", "statement": "In exact arithmetic, for a valid polyhedron with planar faces, the moments of the two successful clips by opposite planes add up to the moments of the original, for every order.", "quantifier": "every valid polyhedron with planar faces (also nonconvex, multiply connected), every plane, every order", "why_tests_cant": "tests check low order on random tets with tolerances", "anchors": ["src/r3d.c:r3d_clip", "src/r3d.c:r3d_reduce"]}
{"id": "C31", "title": "r3d_split conserves every moment, keeps validity, and assigns sides as documented", "statement": "For a successful r3d_split: both parts are valid polyhedra, all vertices of out_pos have signed distance >= 0 and all of out_neg <= 0, and the moments add up to the input's for every order.", "quantifier": "every array of valid polyhedra with planar faces, every plane, every order", "why_tests_cant": "unbounded inputs", "anchors": ["src/r3d.c:r3d_split"]}
{"id": "C32", "title": "r3d_reduce visits every face exactly once and terminates", "statement": "On a valid polyhedron r3d_reduce terminates without out-of-bounds access, and accounts for every directed edge exactly once.", "quantifier": "every valid polyhedron, any arithmetic, every order", "why_tests_cant": "all graphs", "anchors": ["src/r3d.c:r3d_reduce"]}
{"id": "C33", "title": "r3d_reduce computes exact polyhedron moments", "statement": "In exact arithmetic moments[m] is, for every order and every exponent triple in row-major order, the integral of x^i y^j z^k over the polyhedron (sum over fan triangles of the faces of the integral over the cone to the origin).", "quantifier": "every valid polyhedron, every order", "why_tests_cant": "recursion for unboundedly many orders", "anchors": ["src/r3d.c:r3d_reduce", "src/r3d.h:R3D_NUM_MOMENTS"]}
{"id": "C34", "title": "3D moment shifting is the exact change of origin", "statement": "r3d_shift_moments turns the moments of a polyhedron translated by -c into those of the polyhedron; r3d_reduce with SHIFT_POLY equals r3d_reduce without it in exact arithmetic.", "quantifier": "every polyhedron, every order, every centre", "why_tests_cant": "all orders", "anchors": ["src/r3d.c:r3d_shift_moments", "src/r3d.c:r3d_poly_center"]}
{"id": "C35", "title": "r3d_voxelize is conservative", "statement": "In exact arithmetic when r3d_voxelize returns, for every moment the sum over all voxels of the values added equals that moment of the polyhedron.", "quantifier": "every valid polyhedron with planar faces, every index box, spacing, order", "why_tests_cant": "grids unbounded", "anchors": ["src/v3d.c:r3d_voxelize", "src/v3d.c:r3d_split_coord"]}
{"id": "C36", "title": "r3d_voxelize's work stack never overflows, and grid writes stay in bounds", "statement": "The explicit stack never exceeds its computed size, the loop terminates, and every write goes to the entry of the voxel concerned inside dest_grid.", "quantifier": "every grid shape and polyhedron", "why_tests_cant": "all shapes", "anchors": ["src/v3d.c:r3d_voxelize"]}
{"id": "C37", "title": "r3d_split_coord / voxelization never overflows a vertex buffer", "statement": "Splitting during voxelization never writes past R3D_MAX_VERTS (r3d_split checks, r3d_split_coord does not).", "quantifier": "every valid polyhedron with nverts <= R3D_MAX_VERTS", "why_tests_cant": "needs near-full buffers", "anchors": ["src/v3d.c:r3d_split_coord"]}
{"id": "C38", "title": "r3d_get_ibox / r3d_clamp_ibox are exact", "statement": "r3d_get_ibox returns the minimal covering index box and r3d_clamp_ibox intersects box and polyhedron with the clamp box.", "quantifier": "every polyhedron, box, spacing > 0", "why_tests_cant": "all coordinates", "anchors": ["src/v3d.c:r3d_get_ibox", "src/v3d.c:r3d_clamp_ibox"]}
{"id": "C39", "title": "r3d_is_good is memory safe", "statement": "r3d_is_good never overruns its flood-fill stack of R3D_MAX_VERTS entries.", "quantifier": "every polyhedron with in-range links and nverts <= R3D_MAX_VERTS", "why_tests_cant": "needs large graphs with unlucky traversal order", "anchors": ["src/r3d.c:r3d_is_good"]}
{"id": "C40", "title": "r3d_is_good decides 3-vertex-connectedness", "statement": "Whenever the stack suffices, r3d_is_good returns 1 exactly when all vertices have three distinct in-range neighbours, in-degree three, and each connected component stays connected after removal of any two of its vertices.", "quantifier": "every polyhedron with non-negative links", "why_tests_cant": "all graphs", "anchors": ["src/r3d.c:r3d_is_good"]}
{"id": "C41", "title": "r3d_is_good implies mutual links", "statement": "If r3d_is_good returns 1 then every edge is mutual (w is a neighbour of v iff v is a neighbour of w), so that face walks are well defined.", "quantifier": "every polyhedron", "why_tests_cant": "all graphs", "anchors": ["src/r3d.c:r3d_is_good"]}
{"id": "C42", "title": "every polyhedron reachable through the API stays good", "statement": "Starting from r3d_init_tet or r3d_init_box, after any sequence of successful clips, splits and transformations the polyhedron is valid, and r3d_is_good returns 1 for it (while its stack suffices).", "quantifier": "every history of API calls, every argument, every arithmetic", "why_tests_cant": "histories are unbounded", "anchors": ["src/r3d.c:r3d_init_tet", "src/r3d.c:r3d_init_box", "src/r3d.c:r3d_clip", "src/r3d.c:r3d_split", "src/r3d.c:r3d_is_good"]}
{"id": "C43", "title": "3D transforms act on volume as they should", "statement": "r3d_rotate is an isometry preserving volume, r3d_translate preserves, r3d_scale multiplies by scale^3, r3d_shear preserves, r3d_affine multiplies by the determinant; none touches connectivity.", "quantifier": "every polyhedron and parameter", "why_tests_cant": "all reals", "anchors": ["src/r3d.c:r3d_rotate", "src/r3d.c:r3d_translate", "src/r3d.c:r3d_scale", "src/r3d.c:r3d_shear", "src/r3d.c:r3d_affine"]}
{"id": "C44", "title": "r3d face constructors give inward faces", "statement": "For a positively oriented tetrahedron a point satisfies the four planes of r3d_tet_faces_from_verts exactly when it lies in the tetrahedron; for r3d_box_faces_from_verts exactly when it lies in the box; r3d_poly_faces_from_verts gives a plane through the vertices of a planar face.", "quantifier": "all vertices, all points", "why_tests_cant": "all reals", "anchors": ["src/r3d.c:r3d_tet_faces_from_verts", "src/r3d.c:r3d_box_faces_from_verts", "src/r3d.c:r3d_poly_faces_from_verts"]}
{"id": "C45", "title": "r3d_orient is the signed volume", "statement": "r3d_orient equals one sixth of the determinant with the documented sign, equals moment 0 of the initialised tetrahedron, and is positive exactly for the tets with positive volume.", "quantifier": "all points", "why_tests_cant": "all reals", "anchors": ["src/r3d.c:r3d_orient", "src/r3d.c:r3d_init_tet"]}
{"id": "C46", "title": "r3d_init_poly builds the polyhedron described by the faces", "statement": "For a boundary description in which every vertex is on exactly three faces and faces are consistently oriented, r3d_init_poly returns 1 and each given face is a face of the resulting graph; descriptions with a vertex on fewer than three faces or too many vertices are rejected with 0.", "quantifier": "every consistent face list", "why_tests_cant": "all combinatorial types", "anchors": ["src/r3d.c:r3d_init_poly"]}
{"id": "C47", "title": "r3d_init_brep enumerates components and faces exactly", "statement": "r3d_init_brep terminates, reports the number of connected components, lists every face of every component exactly once; r3d_free_brep then frees each allocated block exactly once.", "quantifier": "every valid polyhedron", "why_tests_cant": "all graphs and histories", "anchors": ["src/r3d.c:r3d_init_brep", "src/r3d.c:r3d_free_brep"]}
{"id": "C48", "title": "rNd_orient is the signed simplex volume", "statement": "rNd_orient (RND_DIM=4) equals det(v1-v0,...,v4-v0)/4!, i.e. the permutation loop visits each permutation once with the correct sign.", "quantifier": "all matrices", "why_tests_cant": "all reals", "anchors": ["src/rNd.c:rNd_det", "src/rNd.c:rNd_orient"]}
{"id": "C49", "title": "rNd_affine applies the homogeneous matrix", "statement": "rNd_affine maps x to (A x + b)/(c.x + w) for the matrix [[A,b],[c,w]].", "quantifier": "all matrices and polytopes", "why_tests_cant": "all reals", "anchors": ["src/rNd.c:rNd_affine"]}
{"id": "C50", "title": "rNd initialisers build good polytopes", "statement": "rNd_init_simplex and rNd_init_box build graphs with mutual distinct neighbours, and symmetric face tables.", "quantifier": "all coordinates", "why_tests_cant": "all reals", "anchors": ["src/rNd.c:rNd_init_simplex", "src/rNd.c:rNd_init_box"]}
{"id": "C51", "title": "rNd transforms act coordinatewise", "statement": "rNd_translate, rNd_scale and rNd_shear add the shift, multiply by the factor, and add shear times the second coordinate, per vertex and axis; rNd_rotate turns the plane of its two axes and preserves all distances between vertices; none touches the neighbours, the 2-face tables or the counts.", "quantifier": "every dimension, polytope and parameter", "why_tests_cant": "all reals and all dimensions", "anchors": ["src/rNd.c:rNd_translate", "src/rNd.c:rNd_scale", "src/rNd.c:rNd_shear", "src/rNd.c:rNd_rotate"]}
{"id": "C52", "title": "rNd_is_good decides RND_DIM-connectedness", "statement": "For a graph with mutual links, rNd_is_good returns 1 exactly when links are in range, distinct and not loops, every vertex has RND_DIM incoming links, and removing any RND_DIM-1 vertices of a component leaves it connected.", "quantifier": "every graph, every dimension at least 2", "why_tests_cant": "all graphs; the subset enumeration must be complete", "anchors": ["src/rNd.c:rNd_is_good"]}
{"id": "C53", "title": "rNd_is_good accepts only graphs with mutual links", "statement": "If rNd_is_good returns 1 then every link is returned by the vertex it leads to.", "quantifier": "every graph", "why_tests_cant": "all graphs", "anchors": ["src/rNd.c:rNd_is_good"]}
{"id": "C54", "title": "rNd_is_good stays within its arrays", "statement": "rNd_is_good reads and writes only inside its local arrays and terminates, for every polytope with at most RND_MAX_VERTS vertices.", "quantifier": "every graph with in-range links", "why_tests_cant": "all graphs; the stack use depends on the order of the links", "anchors": ["src/rNd.c:rNd_is_good"]}
{"id": "C55", "title": "rNd initialisers build polytopes that rNd_is_good accepts", "statement": "The results of rNd_init_simplex and rNd_init_box are accepted by rNd_is_good.", "quantifier": "every dimension at least 2 for which the buffers have room, all coordinates", "why_tests_cant": "all dimensions; vertex connectivity of the hypercube graph", "anchors": ["src/rNd.c:rNd_init_simplex", "src/rNd.c:rNd_init_box", "src/rNd.c:rNd_is_good"]}
{"id": "C56", "title": "rNd_get_ibox is the tightest index box", "statement": "rNd_get_ibox returns the smallest index box whose cells cover all vertices.", "quantifier": "every polytope and grid spacing whose indices fit an int", "why_tests_cant": "all reals", "anchors": ["src/vNd.c:rNd_get_ibox"]}
{"id": "C57", "title": "rNd_clamp_ibox stays within its plane array", "statement": "rNd_clamp_ibox collects its clip planes within the local array boxfaces.", "quantifier": "every index box and clamp box", "why_tests_cant": "all boxes", "anchors": ["src/vNd.c:rNd_clamp_ibox"]}
{"id": "C58", "title": "A rejected boundary description leaves no polyhedron behind", "statement": "Whenever r3d_init_poly returns 0 the target polyhedron is either untouched or has no vertices, so that no later call sees vertices that were never written.", "quantifier": "every face list that is turned down", "why_tests_cant": "depends on where in the duplication the buffer runs out", "anchors": ["src/r3d.c:r3d_init_poly"]}
{"id": "C59", "title": "r3d_init_poly splits vertices with more than three faces into chains", "statement": "For a closed surface whose vertices are each surrounded by one cycle of at least three faces and whose duplicates fit the buffer, r3d_init_poly returns 1 without any out-of-bounds access; a vertex on k faces becomes k-2 vertices at its position, all links are mutual, and the faces of the graph are the given ones up to edges of length zero; if faces meet properly the result is a valid polyhedron.", "quantifier": "every closed surface description", "why_tests_cant": "all combinatorial types and vertex orders", "anchors": ["src/r3d.c:r3d_init_poly"]}
{"id": "C60", "title": "rNd_clip truncates the cell structure by one facet", "statement": "Clipping a simple polytope of dimension D >= 3 (mutual links, consistent 2-face numbers) by one plane leaves it unchanged, empties it, or yields a simple polytope whose vertices are the kept ones plus one per edge from a kept to a clipped vertex, linked so that each old 2-face keeps its number and each 2-face of the new facet gets a fresh one; kept vertices keep their positions and new ones lie on their edges.", "quantifier": "every dimension, every simple polytope, every plane, every arithmetic", "why_tests_cant": "all combinatorial types in all dimensions", "anchors": ["src/rNd.c:rNd_clip"]}
{"id": "C61", "title": "rNd_clip stays inside the vertex buffer", "statement": "rNd_clip of a simple polytope with at most RND_MAX_VERTS vertices never writes outside its arrays and ends.", "quantifier": "every simple polytope that fits the buffer, every plane", "why_tests_cant": "needs polytopes near the buffer size in four dimensions", "anchors": ["src/rNd.c:rNd_clip"]}
{"id": "C62", "title": "rNd_clip is the intersection with the half-spaces", "statement": "Clipping a convex simple polytope of dimension D >= 3 by any list of planes, in exact arithmetic, gives a convex simple polytope whose hull is the hull of the input intersected with all half-spaces, or empties it when no point of it is strictly inside all of them; planes through vertices, edges or faces are included. Boxes and nondegenerate simplices are such polytopes and their hulls are the boxes and simplices.", "quantifier": "every dimension >= 3, every convex simple polytope, every list of planes, every buffer size with room for the result", "why_tests_cant": "infinitely many polytopes, dimensions and planes, including degenerate positions", "anchors": ["src/rNd.c:rNd_clip", "src/rNd.c:rNd_init_box", "src/rNd.c:rNd_init_simplex"]}
{"id": "C63", "title": "rNd_reduce sums the flags of the polytope", "statement": "rNd_reduce returns the sum, over all vertices and all orderings of the edges at the vertex, of the product over d < D of the heights of the vertex along the Gram-Schmidt frame of the edges divided by d+1; on a box this is the product of its sides.", "quantifier": "every dimension, every polytope whose links are in range, every arithmetic; every box with positive sides", "why_tests_cant": "recursion over all orderings in all dimensions", "anchors": ["src/rNd.c:rNd_reduce", "src/rNd.c:reduce_helper"]}
{"id": "C64", "title": "rNd_split divides a convex polytope and its rNd_reduce value", "statement": "In exact arithmetic rNd_split of a convex simple polytope gives two convex simple polytopes whose hulls are the parts of the hull on either side of the plane (a part without interior may be empty). If no vertex lies on the plane and the polytope has edges of positive length, so have the parts, and their rNd_reduce values add up to that of the polytope.", "quantifier": "every dimension >= 3, every convex simple polytope, every axis and coordinate", "why_tests_cant": "infinitely many polytopes and planes; exact equality", "anchors": ["src/vNd.c:rNd_split", "src/rNd.c:rNd_reduce"]}
{"id": "C65", "title": "rNd_voxelize distributes a polytope over the grid", "statement": "rNd_voxelize of a convex simple polytope inside the grid adds to each cell the rNd_reduce value of a convex polytope whose hull is the part of the polytope in this cell, skips only cells without interior points of it, writes nothing else, and, when no grid plane passes through an extreme point, adds up to the rNd_reduce value of the polytope. Its stack never overflows; the only error is a split that overflows the vertex buffer, impossible with room for (D+1)^levels times the vertices.", "quantifier": "every dimension >= 3, every convex simple polytope, every grid that fits in int", "why_tests_cant": "infinitely many polytopes and grids; exact conservation", "anchors": ["src/vNd.c:rNd_voxelize", "src/vNd.c:rNd_split", "src/rNd.c:rNd_reduce"]}
{"id": "C66", "title": "rNd_reduce of a clipped polytope is a number", "statement": "rNd_reduce of the result of rNd_clip on a polytope with finite positions is a finite number.", "quantifier": "every simple polytope, every plane", "why_tests_cant": "fails only for planes exactly through a vertex", "anchors": ["src/rNd.c:reduce_helper", "src/rNd.c:rNd_clip"]}
{"id": "C67", "title": "rNd_reduce is the volume of the polytope", "statement": "rNd_reduce returns the volume (Jordan content) of the convex hull of the vertices of a simple polytope: it is non-negative, monotone in the hull and the same for every description of the same hull; after rNd_clip by planes in general position it is the volume of the intersection with the half-spaces.", "quantifier": "every dimension >= 3, every simple polytope with exact facets, every list of planes in general position", "why_tests_cant": "tests compare a few boxes and simplices with known volumes; the recursion over all flags of a simple polytope must sum to the volume for every shape and dimension", "anchors": ["src/rNd.c:rNd_reduce", "src/rNd.c:reduce_helper", "src/rNd.c:rNd_clip"]}
{"id": "C68", "title": "rNd_voxelize deposits the exact volume in each cell", "statement": "After rNd_voxelize every cell of the index box has increased by the volume of the part of the polytope in that cell.", "quantifier": "every dimension >= 3, every simple polytope in the region of the box, every grid with no plane through an extreme point of a piece", "why_tests_cant": "tests compare the total over the grid; an error that moves volume between neighbouring cells keeps the total", "anchors": ["src/vNd.c:rNd_voxelize", "src/rNd.c:rNd_split", "src/rNd.c:rNd_reduce"]}
{"id": "C69", "title": "r3d_clip and r3d_split intersect convex polyhedra with half-spaces", "statement": "For a convex polyhedron the convex hull of the vertices after r3d_clip is exactly the hull before intersected with all the half-spaces, and r3d_split gives the two intersections with the sides of the plane; the outputs are convex polyhedra again. The output is empty instead only when the intersection lies in one plane.", "quantifier": "every convex polyhedron (edges of length zero allowed), every list of planes, planes through vertices, edges and faces included", "why_tests_cant": "tests sample points and generic planes; equality of the sets for planes through vertices is outside any sample", "anchors": ["src/r3d.c:r3d_clip", "src/r3d.c:r3d_split", "src/r3d.c:r3d_init_box", "src/r3d.c:r3d_init_tet"]}
{"id": "C70", "title": "r3d_reduce gives the volume of a convex polyhedron", "statement": "The first moment from r3d_reduce is the volume (Jordan content) of the convex hull of the vertices of a convex polyhedron; after r3d_clip it is the volume of the intersection with the half-spaces, and the halves from r3d_split have the volumes of the two sides.", "quantifier": "every convex polyhedron (flat ones and edges of length zero included), every list of planes with a normal that is not zero", "why_tests_cant": "tests compare the formula with itself or with a few known shapes; here the number is compared with the volume of the set", "anchors": ["src/r3d.c:r3d_reduce", "src/r3d.c:r3d_clip", "src/r3d.c:r3d_split"]}
{"id": "C71", "title": "r3d_voxelize deposits the volume of the part of the polyhedron in each cell", "statement": "After r3d_voxelize the first moment of every cell has increased by the volume of the part of the convex polyhedron in that cell; r3d_clamp_ibox leaves the part of the polyhedron in the region of the clamp box.", "quantifier": "every convex polyhedron in the region of the index box, every grid, grid planes through vertices and faces included", "why_tests_cant": "tests compare the total over the grid; volume moved between neighbouring cells keeps the total", "anchors": ["src/v3d.c:r3d_voxelize", "src/v3d.c:r3d_clamp_ibox", "src/v3d.c:r3d_split_coord"]}
{"id": "C72", "title": "r2d_clip and r2d_split intersect convex polygons with half-planes", "statement": "For a convex polygon in counterclockwise order the convex hull of the vertices after r2d_clip is exactly the hull before intersected with all the half-planes, and r2d_split gives the two intersections with the sides of the line; the outputs are convex polygons again. The output is empty instead only when the intersection lies in one line. r2d_init_poly on points in strict counterclockwise order gives such a polygon.", "quantifier": "every convex polygon (coinciding vertices allowed), every list of lines, lines through vertices and along edges included", "why_tests_cant": "tests sample points and generic lines; equality of the sets for lines through vertices is outside any sample", "anchors": ["src/r2d.c:r2d_clip", "src/r2d.c:r2d_split", "src/r2d.c:r2d_init_poly", "src/r2d.c:r2d_init_box"]}
{"id": "C73", "title": "r2d_reduce gives the area of a convex polygon", "statement": "The first moment from r2d_reduce is the area (Jordan content) of the convex hull of the vertices of a convex polygon; after r2d_clip it is the area of the intersection with the half-planes, and the halves from r2d_split have the areas of the two sides.", "quantifier": "every convex polygon (flat ones included), every list of lines with a normal that is not zero", "why_tests_cant": "tests compare the formula with itself or with a few known shapes; here the number is compared with the area of the set", "anchors": ["src/r2d.c:r2d_reduce", "src/r2d.c:r2d_clip", "src/r2d.c:r2d_split"]}
{"id": "C74", "title": "r2d_rasterize deposits the area of the part of the polygon in each cell", "statement": "After r2d_rasterize the first moment of every cell has increased by the area of the part of the convex polygon in that cell, and every moment by the moment of a polygon whose hull is that part; r2d_clamp_ibox leaves the part of the polygon in the region of the clamp box.", "quantifier": "every convex polygon in the region of the index box, every grid, grid lines through vertices and edges included", "why_tests_cant": "tests compare the total over the grid; area moved between neighbouring cells keeps the total", "anchors": ["src/v2d.c:r2d_rasterize", "src/v2d.c:r2d_clamp_ibox", "src/v2d.c:r2d_split_coord"]}
{"id": "C75", "title": "r2d_reduce gives the integrals of the monomials over a convex polygon", "statement": "Entry (i, j) of the moments from r2d_reduce is the integral of x^i y^j over the convex hull of the vertices of a convex polygon; after r2d_clip it is the integral over the intersection with the half-planes, and the halves from r2d_split have the integrals over the two sides. The integral is the volume below the graph minus the volume above it.", "quantifier": "every convex polygon (flat ones included), every order, every list of lines with a normal that is not zero", "why_tests_cant": "tests compare low orders on a few shapes; the recursion for the higher orders and the sign of the odd ones are outside any sample", "anchors": ["src/r2d.c:r2d_reduce", "src/r2d.c:r2d_clip", "src/r2d.c:r2d_split"]}
{"id": "C76", "title": "r3d_reduce gives the integrals of the monomials over a convex polyhedron", "statement": "Entry (i, j, k) of the moments from r3d_reduce is the integral of x^i y^j z^k over the convex hull of the vertices of a convex polyhedron; after a successful r3d_clip it is the integral over the intersection with the half-spaces, and the halves from r3d_split have the integrals over the two sides. The tetrahedra over the faces from any vertex are never inverted.", "quantifier": "every convex polyhedron (flat ones included), every order, every list of planes with a normal that is not zero", "why_tests_cant": "tests compare low orders on a few shapes; the recursion for the higher orders and the sign of the odd ones are outside any sample", "anchors": ["src/r3d.c:r3d_reduce", "src/r3d.c:r3d_clip", "src/r3d.c:r3d_split"]}
{"id": "C77", "title": "r2d_rasterize and r3d_voxelize deposit the integrals over each cell", "statement": "After r2d_rasterize or r3d_voxelize the entry of every moment of every cell has increased by the integral of the monomial over the part of the convex polygon or polyhedron in that cell; after r2d_clamp_ibox, and r3d_clamp_ibox when its clip succeeds, the moments are the integrals over the part in the clamp box.", "quantifier": "every convex polygon or polyhedron in the region of the index box, every grid, every order", "why_tests_cant": "tests compare totals over the grid; moments moved between cells keep the totals", "anchors": ["src/v2d.c:r2d_rasterize", "src/v3d.c:r3d_voxelize", "src/v2d.c:r2d_clamp_ibox", "src/v3d.c:r3d_clamp_ibox"]}
{"id": "C78", "title": "Convex polyhedra with few facets never overflow the 3D buffers", "statement": "A convex polyhedron with m facets has at most 2m - 4 vertices, and every cut adds at most one facet. So r3d_clip with k planes succeeds when 3(m + k) <= R3D_MAX_VERTS + 7, r3d_split when 4m - 4 <= R3D_MAX_VERTS, and r3d_voxelize, whose split has no bounds check, stays in the buffers for up to 97 facets on any grid with the buffers of r3d.h. A box clipped by up to 91 planes and then voxelized gets the integrals over each cell, with no hypothesis that a call succeeds; so does a polyhedron clamped and then voxelized.", "quantifier": "every convex polyhedron (flat ones included), every buffer size, every list of planes, every grid whose entries can be indexed by int", "why_tests_cant": "the number of crossed edges depends on the shape and on the position of each plane; no sample shows that none overflows", "anchors": ["src/r3d.c:r3d_clip", "src/r3d.c:r3d_split", "src/v3d.c:r3d_split_coord", "src/v3d.c:r3d_voxelize", "src/v3d.c:r3d_clamp_ibox", "src/r3d.h:R3D_MAX_VERTS"]}
{"id": "C79", "title": "Rounding moves a 3D cut by a few units in the last place", "statement": "With an arithmetic that rounds after every operation with relative error at most u, the vertices that r3d_clip, r3d_split and r3d_split_coord return stay within a small multiple of u times the size of the coordinates of the input hull, lie on the right side of every plane up to a small multiple of u times the size of the terms of the signed distance, and vertices clearly on the kept side are returned bit for bit. Rounding to nearest even with 53 bits is such an arithmetic with u = 2^-53.", "quantifier": "every well-formed polyhedron, convex or not, every list of planes, every rounding with relative error at most u <= 1/10 (no overflow or underflow)", "why_tests_cant": "an ill-conditioned crossing (both signed distances nearly zero) can make a naive intersection formula lose all digits; no sample shows that none does", "anchors": ["src/r3d.c:r3d_clip", "src/r3d.c:r3d_split", "src/v3d.c:r3d_split_coord", "src/r3d.c:wav"]}
{"id": "C80", "title": "Rounding moves a 2D cut by a few units in the last place", "statement": "The same for r2d_clip, r2d_split and r2d_split_coord: returned vertices are within a small multiple of u of the input hull and of the right side of every line, and vertices clearly on the kept side are returned bit for bit.", "quantifier": "every well-formed polygon, convex or not, every list of lines, every rounding with relative error at most u <= 1/10 (no overflow or underflow)", "why_tests_cant": "as C79: nearly parallel edges and lines are not sampled", "anchors": ["src/r2d.c:r2d_clip", "src/r2d.c:r2d_split", "src/v2d.c:r2d_split_coord", "src/r2d.c:wav"]}
{"id": "C81", "title": "A rounded 2D split keeps the area up to rounding", "statement": "The exact areas of the two polygons that r2d_split or r2d_split_coord returns in rounded arithmetic add up to the area of the input up to 30 u m^2 for each new vertex, where m bounds the coordinates; there are at most 2 n new vertices.", "quantifier": "every well-formed polygon, convex or not, every line or coordinate, every rounding with relative error at most u <= 1/100 (no overflow or underflow)", "why_tests_cant": "tests compare totals with a tolerance chosen by eye, on random convex shapes", "anchors": ["src/r2d.c:r2d_split", "src/v2d.c:r2d_split_coord"]}
{"id": "C82", "title": "Every moment of r2d_reduce has a small rounding error", "statement": "With an arithmetic that rounds after every operation with relative error at most u, the moment of order (i, j) that r2d_reduce returns differs from the exact moment of the polygon by at most 2 u (8 (i + j) + n + 13) times n 2 m^(i+j+2) / (i + j + 2), where n is the number of vertices and m bounds the coordinates; it succeeds and writes no other entry.", "quantifier": "every well-formed polygon, convex or not, every order, every rounding with relative error at most u (no overflow or underflow)", "why_tests_cant": "the recurrence for the coefficients could amplify errors at high order; tests stop at low order and use tolerances chosen by eye", "anchors": ["src/r2d.c:r2d_reduce"]}
{"id": "C83", "title": "The areas deposited by r2d_rasterize sum to the area up to rounding", "statement": "In rounded arithmetic the areas that r2d_rasterize adds to the cells of the grid sum to the area of the polygon up to 3 u (MX + 29) (G + MX m^2) for each cell, where MX is the buffer size, m bounds the coordinates and G the previous entries. In any arithmetic the routine stays in its buffers when n 3^depth <= MX.", "quantifier": "every well-formed polygon, convex or not, every grid, every rounding with relative error at most u (no overflow or underflow); the room statement for every arithmetic", "why_tests_cant": "errors of all splits of the recursion add up; tests sample few grids and shapes", "anchors": ["src/v2d.c:r2d_rasterize", "src/v2d.c:r2d_split_coord", "src/r2d.c:r2d_reduce"]}
{"id": "C84", "title": "Every moment of r3d_reduce has a small rounding error", "statement": "With an arithmetic that rounds after every operation with relative error at most u, the moment of order (i, j, k) that r3d_reduce returns differs from the exact moment of the polyhedron by at most 2 u L times 9 n m^(s+3) / (s + 3), where s = i + j + k, L = 12 s + 3 n + 22, n is the number of vertices and m bounds the coordinates; it succeeds and writes no other entry.", "quantifier": "every well-formed polyhedron, convex or not, every order, every rounding with relative error at most u (no overflow or underflow)", "why_tests_cant": "the recurrence for the coefficients could amplify errors at high order; tests stop at low order and use tolerances chosen by eye", "anchors": ["src/r3d.c:r3d_reduce"]}
{"id": "C85", "title": "A rounded 3D split keeps the volume up to rounding", "statement": "With an arithmetic that rounds after every operation with relative error at most u <= 1/100, if any four vertices of a face of a polyhedron span a tetrahedron of volume at most e/6 (e = 0 for planar faces), then the two parts that r3d_split and r3d_split_coord return have the same property with e' = e + 3200 u m^3, and the sum of their volumes differs from the volume of the input by at most 2 e' times the number of their vertices; m bounds the coordinates. The faces of r3d_clip are flat to within e + n 3200 u Mn^3 after n planes, with Mn = m (1 + 5 u)^n.", "quantifier": "every well-formed polyhedron, convex or not, every plane, list of polyhedra, axis and coordinate, every rounding with relative error at most u (no overflow or underflow)", "why_tests_cant": "rounding makes faces non-planar, and then the volume depends on how faces are triangulated; whether the two parts still add up after many cuts is a statement about all inputs", "anchors": ["src/r3d.c:r3d_split", "src/r3d.c:r3d_clip", "src/v3d.c:r3d_split_coord"]}
{"id": "C86", "title": "r3d_voxelize keeps the total volume up to rounding", "statement": "With an arithmetic that rounds after every operation with relative error at most u, the volumes that r3d_voxelize adds to the cells of the grid sum to the volume of the polyhedron with an error of at most (2 u (3 MX + 23)(G + 6 MX m^3) + 2 MX (e + 5600 u S m^3)) per cell, where MX is the size of the vertex buffer, m bounds the coordinates, S is the sum of the numbers of cells along the axes, G bounds the volumes that were in the grid before, and any four vertices of a face of the input span a tetrahedron of volume at most e/6 (e = 0 for planar faces).", "quantifier": "every well-formed polyhedron, convex or not, every grid, spacing and moment order, every rounding with relative error at most u (no overflow or underflow), whenever r3d_voxelize returns", "why_tests_cant": "errors of the cuts accumulate over the levels of the bisection, and faces stop being planar; tests compare a few grids with a tolerance", "anchors": ["src/v3d.c:r3d_voxelize", "src/v3d.c:r3d_split_coord", "src/r3d.c:r3d_reduce"]}
{"id": "C87", "title": "intersecting cells and meshes in 3D with r3d_clip gives the right moments and conserves them", "statement": "For two cells, each a tetrahedron of positive orientation or an axis-aligned box, r3d_init_tet or r3d_init_box on one, r3d_clip by the planes of r3d_tet_faces_from_verts or r3d_box_faces_from_verts of the other and r3d_reduce all succeed with the buffers of r3d.h, and each moment is the integral of its monomial over the points that are in both cells; exchanging the two cells gives the same moments. If a mesh of such cells covers a convex polyhedron and any two cells meet in no volume, then clipping the polyhedron by each cell gives parts whose moments of every order add up to the moments of the polyhedron.", "quantifier": "all pairs of cells, all moment orders, all convex polyhedra with at most 167 facets and all meshes that cover them; exact real arithmetic", "why_tests_cant": "conservation over an arbitrary mesh involves every relative position of the cells, with vertices on planes and cells that only touch; tests sample positions with a tolerance", "anchors": ["src/r3d.c:r3d_clip", "src/r3d.c:r3d_init_tet", "src/r3d.c:r3d_init_box", "src/r3d.c:r3d_tet_faces_from_verts", "src/r3d.c:r3d_box_faces_from_verts", "src/r3d.c:r3d_reduce"]}
{"id": "C88", "title": "intersecting convex polygons and meshes in 2D with r2d_clip gives the right moments and conserves them", "statement": "For two lists of corners of strictly convex polygons in counterclockwise order with at most 255 corners together, r2d_init_poly on one, r2d_clip by the lines of r2d_poly_faces_from_verts of the other and r2d_reduce all succeed with the buffers of r2d.h, and each moment is the integral of its monomial over the points that are in both polygons; exchanging the two gives the same moments. If a mesh of such polygons covers a convex polygon and any two meet in no area, the moments of the parts that r2d_clip cuts out add up to the moments of the polygon. With the faces of r2d_box_faces_from_verts the intersection is wrong.", "quantifier": "all pairs of convex polygons, all moment orders, all meshes; exact real arithmetic", "why_tests_cant": "conservation over an arbitrary mesh involves every relative position of the polygons, with vertices on lines and polygons that only touch; tests sample positions with a tolerance", "anchors": ["src/r2d.c:r2d_clip", "src/r2d.c:r2d_init_poly", "src/r2d.c:r2d_poly_faces_from_verts", "src/r2d.c:r2d_box_faces_from_verts", "src/r2d.c:r2d_reduce"]}
{"id": "C89", "title": "the clipped bodies are the weighted means of the output vertices", "statement": "A point that lies in every half-plane, half-space or D-dimensional half-space containing the vertices of a polygon, polyhedron or N-D polytope is a weighted mean of the vertices, with non-negative weights of sum one, and the converse. After r2d_clip, r3d_clip or rNd_clip of a convex input by any list of planes, the weighted means of the vertices of the output are exactly the weighted means of the vertices of the input that satisfy all inequalities, or the output is empty and the input has no point strictly inside.", "quantifier": "all vertex buffers, all convex inputs, all lists of planes, all dimensions from 3 for rNd; exact real arithmetic", "why_tests_cant": "the set of all points of a body is infinite and the equality has to hold for every arrangement of planes, including planes through vertices", "anchors": ["src/r2d.c:r2d_clip", "src/r3d.c:r3d_clip", "src/rNd.c:rNd_clip"]}
{"id": "C90", "title": "the transforms map convex bodies to their images", "statement": "r3d_translate, r3d_scale by a positive factor, r3d_shear along two different axes, r3d_rotate and r3d_affine with a matrix of positive determinant that has a positive last row value at every vertex (perspective rows included) return a convex polyhedron with the same facets count bound, solid if the input is solid, whose points are exactly the images of the points of the input under the map; r3d_reduce of it returns the integrals of monomials over the image and r3d_clip of it cuts the image. The same holds in 2D, with the map that r2d_rotate actually applies.", "quantifier": "all convex polyhedra and polygons, all translations, factors, axes, angles and matrices, all vertex capacities; exact real arithmetic", "why_tests_cant": "a body has infinitely many points and the projective case has to keep convexity for every matrix and every vertex arrangement", "anchors": ["src/r3d.c:r3d_translate", "src/r3d.c:r3d_scale", "src/r3d.c:r3d_shear", "src/r3d.c:r3d_rotate", "src/r3d.c:r3d_affine", "src/r2d.c:r2d_translate", "src/r2d.c:r2d_scale", "src/r2d.c:r2d_shear", "src/r2d.c:r2d_rotate", "src/r2d.c:r2d_affine"]}
{"id": "C91", "title": "the N-D transforms map polytopes to their images, and volumes as the maps do", "statement": "rNd_translate, rNd_scale by non-zero factors, rNd_shear along two different axes and rNd_rotate in the plane of two different axes return a polytope that is convex if the input is convex, solid if the input is solid, and whose points are exactly the images of the points of the input. rNd_reduce of the result is the value it returns for the input after translations, shears and rotations, and the product of the absolute factors times that value after scaling. A box of any sides, sheared and rotated, reduces to the product of its sides.", "quantifier": "all dimensions (from 3 for volumes), all solid polytopes, translations, non-zero factors, axes and angles, all vertex capacities; exact real arithmetic", "why_tests_cant": "the value after a rotation is a different sum over flags for every polytope and angle; the equality has to hold for all of them in every dimension", "anchors": ["src/rNd.c:rNd_translate", "src/rNd.c:rNd_scale", "src/rNd.c:rNd_shear", "src/rNd.c:rNd_rotate", "src/rNd.c:rNd_reduce", "src/rNd.c:rNd_init_box"]}
{"id": "C92", "title": "r3d_init_poly builds the described convex polyhedron", "statement": "For a boundary description of a strictly convex polyhedron with three faces at every vertex, its faces listed counter-clockwise as seen from outside, r3d_init_poly returns 1 and a solid polyhedron with the given vertices and number of faces. Its points are exactly the points on the inner side of all faces, which are exactly the weighted means of the vertices. r3d_reduce of the result gives the integrals of all monomials over those points.", "quantifier": "all numbers of faces and vertices within the vertex capacity, all face lists and vertex positions that describe such a polyhedron, all polynomial orders; exact real arithmetic", "why_tests_cant": "tests use a few solids; the link between the face lists and the point set has to hold for every combinatorial type", "anchors": ["src/r3d.c:r3d_init_poly", "src/r3d.c:r3d_reduce"]}
{"id": "C93", "title": "the planes of r3d_poly_faces_from_verts point out of what r3d_init_poly builds", "statement": "For the face lists of a strictly convex polyhedron that r3d_init_poly takes (counter-clockwise from outside, three faces at every vertex), r3d_poly_faces_from_verts returns one proper plane per face, and the polyhedron is exactly the set on the negative side of all of them. That the polyhedron is on the side r3d_clip keeps is therefore false: clipping a described polyhedron by the planes of its own description leaves an empty polyhedron. With every face list reversed the planes hold exactly the points of the polyhedron, and clipping another described polyhedron by them and reducing gives the integrals over the intersection of the two.", "quantifier": "all descriptions of simple strictly convex polyhedra, all pairs of them whose faces fit the vertex capacity, all polynomial orders; exact real arithmetic", "why_tests_cant": "each routine is consistent on its own; the opposite senses only show when one description is given to both, and the intersection claim ranges over all pairs of solids", "anchors": ["src/r3d.c:r3d_poly_faces_from_verts", "src/r3d.c:r3d_init_poly", "src/r3d.c:r3d_clip", "src/r3d.c:r3d_reduce"]}
{"id": "C94", "title": "r3d_init_poly rebuilds what r3d_init_brep describes", "statement": "For a valid connected polyhedron in which no vertex has the position of the vertex before it, r3d_init_brep gives exactly one description, and r3d_init_poly of that description returns 1 and the same vertices in the same order with the same neighbours in the same rotational sense; only the first neighbour of a vertex may differ. Convex polyhedra are always connected, so for them the rebuilt polyhedron is convex, has the same points, and r3d_reduce gives the same moments.", "quantifier": "all valid connected polyhedra below the vertex capacity, all buffers handed to r3d_init_poly, all heaps, all monomials and polynomial orders; positions of any type for the graph part, exact real arithmetic for the points and moments", "why_tests_cant": "the two routines walk faces in opposite orders of construction and number faces by discovery; that one undoes the other has to hold for every graph", "anchors": ["src/r3d.c:r3d_init_brep", "src/r3d.c:r3d_init_poly", "src/r3d.c:r3d_reduce"]}
{"id": "C95", "title": "every convex polytope passes the N-D validity test", "statement": "The vertex graph of a convex polytope with D edges at every vertex stays connected when any D-1 or fewer vertices are taken out. Hence rNd_is_good returns 1 for every convex polytope within its stack, and for whatever rNd_clip makes of a convex polytope with any list of planes. In three dimensions the graph is one component and stays connected without any two vertices.", "quantifier": "all dimensions from 2 (clip: 3) on, all convex polytopes, all lists of planes, all sets of removed vertices; exact real arithmetic", "why_tests_cant": "a test removes vertices from a few polytopes; the claim is Balinski's theorem for every simple polytope in every dimension", "anchors": ["src/rNd.c:rNd_is_good", "src/rNd.c:rNd_clip", "src/r3d.c:r3d_is_good"]}
{"id": "C96", "title": "clipping with several planes is clipping with each in turn, in any order", "statement": "Clipping with the planes A followed by B gives bit for bit what clipping with A and then with B gives, in any arithmetic and including failures, in 2D, 3D and N-D. The return value of r3d_clip agrees too, except that a second call on a polyhedron emptied by the first returns 0 where the single call returns 1. In exact arithmetic clipping again with planes already used changes nothing, and two lists with the same planes, in whatever order and multiplicity, leave the same points and the same moments of a convex polyhedron or polygon.", "quantifier": "all polygons, polyhedra and polytopes (convex ones for the order), all lists of planes, all arithmetics for the first part, all polynomial orders", "why_tests_cant": "the vertex numbering differs between orders, so a test has to pick orders and shapes; the claim is for all of them", "anchors": ["src/r2d.c:r2d_clip", "src/r3d.c:r3d_clip", "src/rNd.c:rNd_clip", "src/r2d.c:r2d_reduce", "src/r3d.c:r3d_reduce"]}
{"id": "C97", "title": "transforming and clipping commute", "statement": "Moving a polyhedron or polygon with r3d_translate, r3d_scale, r3d_shear, r3d_rotate, r3d_affine (or the r2d routines) and then clipping it with planes that were moved along gives the same vertices, in the same order, with the same links and status, as clipping first and moving the result, and fails in the same cases. For r3d_affine and r2d_affine this includes matrices with a perspective row, as long as the vertices are in front of the plane sent to infinity. Under rounding, a change of units by factors that the rounding does not notice (powers of two, with either sign, for 53 bits, axis by axis) changes no bit of the clipped result beyond the factor itself.", "quantifier": "all vertex buffers (well formed or not), all buffer sizes, all lists of planes, all angles, factors, shifts and matrices; for the last part all roundings of bounded relative error", "why_tests_cant": "a test compares two floating-point runs up to a tolerance for chosen shapes; the claim is exact equality of vertices, order and links for every input", "anchors": ["src/r3d.c:r3d_clip", "src/r3d.c:r3d_rotate", "src/r3d.c:r3d_translate", "src/r3d.c:r3d_scale", "src/r3d.c:r3d_shear", "src/r3d.c:r3d_affine", "src/r2d.c:r2d_clip", "src/r2d.c:r2d_affine"]}
{"id": "C98", "title": "rounded moments follow a change of units exactly", "statement": "With every operation rounded, measuring the same polyhedron or polygon in other units, axis by axis and possibly mirrored, by factors the rounding does not notice (powers of two for 53 bits), multiplies each moment that r3d_reduce or r2d_reduce returns by exactly the factor it should: sx sy sz times sx^i sy^j sz^k. No bit of any moment depends on the units. The same holds for the whole chain of r3d_clip and r3d_reduce, and of r2d_clip and r2d_reduce.", "quantifier": "all rounding functions, all exact factors, all well-formed polyhedra and polygons, all orders, all lists of planes (for the chain: roundings of relative error at most 1/10)", "why_tests_cant": "a test compares a few shapes at a few scales; the claim is equality of every bit for every shape, order and factor", "anchors": ["src/r3d.c:r3d_reduce", "src/r2d.c:r2d_reduce", "src/r3d.c:r3d_clip", "src/r2d.c:r2d_clip"]}
{"id": "C99", "title": "transforming and clipping commute in any dimension", "statement": "Moving a polytope of any dimension with rNd_translate, rNd_scale, rNd_shear or rNd_rotate and then clipping it with rNd_clip by the planes moved along gives the same vertices in the same order, with the same neighbours and the same 2-face numbers, as clipping first and moving the result, and fails in the same cases. Under rounding, a change of units by factors the rounding does not notice, axis by axis, changes no bit of what rNd_clip returns beyond the factors.", "quantifier": "all dimensions, buffer sizes, vertex buffers and 2-face tables (well formed or not), all lists of planes, all factors, shifts, axes and angles; for the last part all roundings of relative error at most 1/10", "why_tests_cant": "the library is compiled for one dimension at a time, and a test compares two floating-point runs up to a tolerance; the claim is equality of the whole combinatorial structure for every dimension", "anchors": ["src/rNd.c:rNd_clip", "src/rNd.c:rNd_translate", "src/rNd.c:rNd_scale", "src/rNd.c:rNd_shear", "src/rNd.c:rNd_rotate"]}
{"id": "C100", "title": "moving and splitting commute in any dimension", "statement": "Moving a polytope of any dimension with rNd_translate, rNd_scale (positive factor on the split axis), rNd_shear (another axis) or rNd_rotate (two other axes) and then splitting it with rNd_split at the moved coordinate gives two parts with the same vertices in the same order, the same neighbours and the same 2-face numbers as splitting first and moving both parts, and fails in the same cases. With a negative factor on the split axis the two parts exchange their places. Under rounding, a change of units by factors the rounding does not notice, positive on the split axis, changes no bit of the two parts beyond the factors.", "quantifier": "all dimensions, buffer sizes, vertex buffers and 2-face tables (well formed or not), coordinates, axes, factors, shifts and angles; for the last part all roundings of relative error at most 1/10", "why_tests_cant": "the library is compiled for one dimension at a time, and a test compares two floating-point runs up to a tolerance; the claim is equality of the whole combinatorial structure for every dimension", "anchors": ["src/vNd.c:rNd_split", "src/rNd.c:rNd_clip", "src/rNd.c:rNd_translate", "src/rNd.c:rNd_scale", "src/rNd.c:rNd_shear", "src/rNd.c:rNd_rotate"]}
