# Formal model of r3d (polygon / polyhedron clipping and moments)

Source: `/repo` (devonmpowell/r3d), files `src/r2d.c`, `src/v2d.c`, `src/r3d.c`,
`src/v3d.c`, `src/rNd.c`, `src/vNd.c`.  The code was read as text, never built or run.
`/repo/deprecated` is an older version and is not modelled.

## Approach

* **Executable Gallina model**, function by function, each definition with a
  comment citing file and lines (`Model*.v`, no proofs inside).
* **Arithmetic is abstract.**  The model is generic over a record `num` of
  operations (add, sub, mul, div, comparisons, ...) *without laws*.  Structural
  theorems (linkage, termination, memory safety, status codes) are proved for
  every instance, hence for IEEE doubles or floats with NaN, infinities and
  rounding.  "Exact arithmetic" theorems use the instance over Coq's real
  numbers `R`; rounding error bounds use `FN rnd`, which rounds after every operation on `R`.
* **Undefined behaviour is an outcome.**  Every array access is checked
  (`Err OutOfBounds`), reads of uninitialised locals are `Err Uninit`, signed
  overflow in index computations is `Err Overflow`; loops whose bound is not
  syntactic take fuel, with `Err Fuel` excluded by theorem.
* Vertex buffers are total functions `Z -> vertex` plus a count; entries past the
  count are arbitrary (stale data).
* The buffer sizes (`R2D_MAX_VERTS`, `R3D_MAX_VERTS`, `RND_MAX_VERTS`) and the dimension
  `RND_DIM` are parameters.
* Specifications (`Spec*.v`) are small and independent of the model: predicates
  on link graphs, half spaces, integrals (`RInt`), sums over grids, boundary
  descriptions.
* Theorems are in `Props*.v`, each followed by `Print Assumptions`; the `Example`s in
  those files show that concrete, non-trivial cases meet the hypotheses.
* A property found false of the code is stated as written in `properties.jsonl` and
  refuted by a theorem `..._refuted` with a witness; what does hold is proved beside it.
  The manifest has no status for this and calls them `proved`: the negation is proved,
  the property does not hold. False as written: C03, C08, C19, C20, C22, C28, C37, C39, C41, C49, C53, C54, C57, C58, C61, C66.
  False in some cases only (a failed clip, a full or empty buffer): C38, C47.

## Files

| files | content |
|-------|---------|
| `Base`, `Lib`, `ModelCommon`, `CommonFacts` | results with errors, bounded loops, buffers, counting |
| `Model2`, `Spec2*`, `Clip2*`, ..., `Props2` | `r2d.c` |
| `ModelV`, `Vox*`, `PropsV2` | `v2d.c` |
| `Model3`, `Spec3*`, `Clip3*`, `Orb3`, `Face3`, ..., `Props3` | `r3d.c`: clip, split, reduce, shift, transforms, initialisers, faces |
| `ModelGood`, `SpecGood`, ..., `PropsG3` | `r3d_is_good` and histories of calls |
| `ModelV3`, `PropsV3` | `v3d.c` |
| `ModelB`, `SpecB`, `InitP`-`InitP7`, `PropsB`, `PropsB2` | `r3d_init_poly` |
| `ModelBR`, `SpecBR`, `Brep*`, `PropsBR` | `r3d_init_brep`, `r3d_free_brep` |
| `ModelN`, `ModelNC`, `PropsN` | `rNd.c`, `vNd.c` |
| `WalkN`, `CloseN`, `InsN`, `CutN`, `ClipN`, `SpecNC`, `CellsN`, `PropsNC` | `rNd_clip` |
| `SpecNP`, `PolyN`, `TruncN`, `NearN`, `HullN`, `ShapesN` | geometry of `rNd_clip` over the reals |
| `ModelNV`, `SpecNR`, `SpecNV`, `SpecNaN` | `rNd_voxelize`; specifications: sum over flags, grids of cells, reals with NaN |
| `RedN`, `FlagR`, `BoxVolN`, `FlagN`, `SplitN`, `VoxN`, `BoxVoxN`, `NanN`, `PropsNV` | `rNd_reduce`, `rNd_split`, `rNd_voxelize` |
| `SpecNJ`, `FlagX`, `FrameN`, `FlagF`, `UniqN`, `OffN`, `MonoN`, `DisN`, `ContN`, `UniqJ`, `VoxJ`, `ClipJ`, `PropsNJ` | volume (Jordan content) of polytopes and `rNd_reduce` |
| `SpecC2`, `LoopC2`, `HullC2`, `ClipC2`, `InitC2`, `JordJ`, `AreaC2`, `MomC2`, `RastC2`, `GlueC2`, `PropsC2` | convex polygons of `r2d.c` and `v2d.c` as sets of points, and their areas |
| `SpecI`, `IntJ`, `NearB`, `DivJ`, `IntC2`, `PropsI2`, `IntC3`, `PropsI3` | the moments as integrals of monomials over sets of points |
| `MeetJ`, `SpecM3`, `MeetC3`, `PropsM3`, `SpecM2`, `MeetC2`, `PropsM2` | intersections of cells; moments over a mesh |
| `FarkJ`, `SpecH`, `FarkC`, `FarkG`, `PropsH` | hulls as weighted means of the vertices |
| `ProjJ`, `ProjN`, `SpecP3`, `ProjC3`, `ProjG3`, `ProjC2`, `PropsP3` | images of convex bodies under the transforms |
| `SpecPN`, `ProjGN`, `ShearJ`, `PropsPN` | images and volumes under the N-D transforms |
| `SpecQ3`, `PolyQ3`, `PolyG3`, `BrepQ3`, `PropsQ3` | polyhedra and planes from boundary descriptions |
| `SpecRT`, `RotRT`, `BrepRT`, `GlueRT`, `PropsRT` | descriptions built again |
| `BalN`, `GoodBal`, `PropsBal` | connectedness of convex polytopes |
| `ClipApp`, `ClipAppR`, `PropsCA` | several planes: in turn, again, in another order |
| `SpecEq`, `Eqv`, `Eqv2`, `Eqv3`, `EqvR2`, `EqvR3`, `EqvF3`, `PropsEq` | transforming and clipping commute |
| `FanOrd3`, `Units`, `PropsU` | rounded moments in other units |
| `SpecEqN`, `EqvN`, `EqvNR`, `PropsEqN` | transforming and clipping commute, N-D |
| `SpecEqNS`, `EqvNS`, `PropsEqNS` | moving and splitting commute, N-D |
| `SpecF3`, `RoomC3`, `RoomF3`, `PipeF3`, `PropsF3` | convex polyhedra with a bound on the facets: vertices, room in the buffers, the routines one after the other |
| `SpecC3`, `Conv3`, `HullC3`, `FlagC3`, `VolC3`, `LimC3`, `SqzC3`, `VoxC3`, `InitC3`, `GlueC3`, `PropsC3` | convex polyhedra of `r3d.c` and `v3d.c` as sets of points, and their volumes |
| `RndNum`, `SpecR3`, `RndC3`, `RndE3`, `PropsR3`, `SpecR2`, `RndC2`, `RndE2`, `RndA2`, `PropsR2`, `RndM2`, `RndV2`, `PropsRV2`, `RndM3`, `PropsRM3`, `SpecL3`, `RndF3`, `RndA3`, `RndG3`, `PropsRF3`, `RndV3`, `PropsRV3` | arithmetic that rounds after every operation: error bounds |

## Properties: what is modelled and how proved

| id | model | method |
|----|-------|--------|
| C01, C02 | `r2d_clip` over any arithmetic | `next` is an injective map of a finite set; walk from an entry vertex must reach an exit; loop invariants; induction on planes |
| C03 | same | false: no overflow check. `_refuted` witness with a full buffer; the exact bound is proved in C02 |
| C04 | `r2d_clip` over `R` | new vertex is a convex combination with sd = 0; induction on planes |
| C05 | `r2d_clip` any arithmetic / `R` | direct from loop characterisation |
| C06, C07 | clip/split + reduce over `R` | edge functional antisymmetric and additive on collinear subdivision for all orders; on a line it is a coboundary; closing edges telescope |
| C08 | `r2d_split` | false in 2D (sign flipped): `_refuted`; the opposite assignment is proved |
| C09 | `r2d_reduce` over `R` | coefficient arrays satisfy the integration-by-parts recursion of `RInt` edge integrals; induction on order |
| C10 | `r2d_reduce`, any arithmetic | loop invariants over written indices |
| C11 | `r2d_shift_moments` | binomial convolution |
| C12-C15 | `r2d_rasterize` | invariant on the explicit stack: sub-boxes partition, depth potential |
| C16, C17 | `r2d_get_ibox`, `r2d_clamp_ibox` | fold invariants, floor/ceil |
| C18 | transforms | algebra on edge functional |
| C19 | `r2d_rotate` | false (`y` never written): `_refuted` |
| C20 | `r2d_box_faces_from_verts` | false (sign of d): `_refuted` |
| C21, C24 | faces, orient | algebra |
| C22 | `r2d_is_good` | exact characterisation; documented reading `_refuted` |
| C23 | initialisers | computation + induction |
| C25-C28 | `r3d_clip`, any arithmetic | dart / rotation system; invariant "the faces on both sides of a dart determine the dart" is preserved combinatorially |
| C29 | over `R` | as C04 |
| C30, C31 | clip/split + reduce over `R` | planar faces: fan sum independent of base point; potentials on cut line |
| C32, C33 | `r3d_reduce` | face walk is a permutation orbit; recursion vs iterated integral |
| C34 | `r3d_shift_moments` | as C11 |
| C35-C38 | `v3d.c` | as 2D |
| C39-C41 | `r3d_is_good` | flood-fill invariant; counter examples |
| C42 | histories | induction on the list of calls |
| C43-C45 | transforms, faces, orient | algebra |
| C46, C58, C59 | `r3d_init_poly` | corners of the description as the index set; invariants of the duplicate / ring / pair / drop / pack loops; explicit face labels of the result |
| C60, C61 | `rNd_clip`, any arithmetic | bisection as a leafy graph; the closing walk is an orbit of an injective map on flags, so it returns to a leaf; 2-faces are orbits; renumbering by counting. C61 false: duoprism of 1023 vertices |
| C62 | `rNd_clip` as an intersection, over the reals | the hull of a simple polytope is the intersection of its facet half-spaces (local minimum at a vertex is global); truncation keeps this; a plane through vertices is the limit of shifted planes |
| C63 | `rNd_reduce` as a sum over flags | recursion on the number of edges left; boxes by sign symmetry of the frames |
| C64 | `rNd_split`: hulls and additivity of `rNd_reduce` | C62 for both planes; the sum over flags is local at each vertex, so kept vertices keep their share and the shares of the two copies of a new vertex cancel |
| C65 | `rNd_voxelize`: room, cells, conservation | invariant of the traversal shared with C35/C36; pieces are hull ∩ block; vertices of a piece are its extreme points |
| C66 | finite value after a clip (refuted) | NaN is absorbed by every later operation; the new vertex on an edge starting on the plane is its first end |
| C67 | `rNd_reduce` and `rNd_clip` over `R` | the flag sum is non-negative (cone heights), depends only on the hull (vertices and normals are determined by it), is additive under cuts, continuous in the facet offsets and monotone; dissection into small boxes then gives inner and outer sums; uniqueness of volume by counting lattice points |
| C68 | `rNd_voxelize` over `R` | induction on the bisection tree: pieces stay solid; C67 on each piece; a set in the boundary of a cell has volume 0 |
| C69 | `r3d_clip`, `r3d_split`, `r3d_init_box`, `r3d_init_tet` over `R` | the truncation step of C62 carried over to the linkage of `r3d.c`: a face number per face, exact facets, and limits of those for edges of length zero; induction on the planes |
| C70 | `r3d_reduce`, `r3d_clip`, `r3d_split` over `R` | sum over flags (C67) = sum over face triangles when all edges have positive length; otherwise a limit: the hull is squeezed between scaled copies of hulls of approximations, and a flat hull is covered by thin columns |
| C71 | `r3d_voxelize`, `r3d_clamp_ibox` over `R` | induction on the bisection tree with C69 at each node, C70 at the leaves; a part in a grid plane has volume 0 |
| C72 | `r2d_clip`, `r2d_split`, `r2d_init_poly`, `r2d_init_box` over `R` | the kept vertices are a contiguous arc of the loop; the hull of the arc and the two new points is the intersection, by a multiplier argument on half-planes; induction on the planes |
| C73 | `r2d_reduce`, `r2d_clip`, `r2d_split` over `R` | the edge sum is the sum of a fan of triangles; a triangle is two slabs between lines, whose content is found by thin columns; ears are cut off one at a time |
| C74 | `r2d_rasterize`, `r2d_clamp_ibox` over `R` | induction on the bisection tree with C72 at each node, C73 at the leaves |
| C75 | `r2d_reduce`, `r2d_clip`, `r2d_split` over `R` | the region is cut into small polygons by C72 and C06; on each the monomial is nearly constant, and so is the quotient of moment and area; the pieces give boxes below and above the graph |
| C76 | `r3d_reduce`, `r3d_clip`, `r3d_split` over `R` | the same, with C69 and C30; the tetrahedra over the faces from a vertex are not inverted |
| C77 | `r2d_rasterize`, `r3d_voxelize`, `r2d_clamp_ibox`, `r3d_clamp_ibox` over `R` | C71 and C74 cell by cell, then C75 and C76 |
| C78 | `r3d_clip`, `r3d_split`, `r3d_split_coord`, `r3d_voxelize`, `r3d_clamp_ibox`, `r3d_init_box` over `R` | a lexicographic order makes exactly one vertex of each facet the lowest, which bounds the vertices; labels give one new facet for each cut; the two sides of a split bound the crossed edges |
| C79, C80 | clip, split and coordinate split of `r3d.c`, `v3d.c`, `r2d.c`, `v2d.c` with the arithmetic `FN rnd` | forward error analysis with powers of 1 + u; the weights of the new vertex are non-negative and add up to nearly 1, so no cancellation can move it off the edge |
| C81 | `r2d_split`, `r2d_split_coord` with `FN rnd` | edge sums before and after the cut; the strips between the line and the new vertices have small area |
| C82 | `r2d_reduce` with `FN rnd` | the recurrences keep the error a power of 1 + u times the value at a corner of the box of coordinates; induction on both indices |
| C83 | `r2d_rasterize` with `FN rnd` | induction on the bisection tree with C80 and C81 at each node, C82 at the leaves |
| C84 | `r3d_reduce` with `FN rnd` | as C82, induction on the order |
| C85 | `r3d_split`, `r3d_split_coord`, `r3d_clip` with `FN rnd` | faces up to `e` flat; apex changes and cap sums with an error per dart |
| C86 | `r3d_voxelize` with `FN rnd` | induction on the bisection: each split adds the error of C85, each cell that of C84 |
| C87 | `r3d_init_tet`, `r3d_init_box`, the face lists, `r3d_clip`, `r3d_reduce` over `R` | C44, C76 and C78; integrals over sets that meet in no volume add up, since no box fits into the common part |
| C88 | `r2d_init_poly`, the face lists, `r2d_clip`, `r2d_reduce` over `R` | a point on the inner side of every edge is in a triangle of the fan from a corner; then as C87 with C72 and C75 |
| C89 | `r2d_clip`, `r3d_clip`, `rNd_clip` over `R` | Farkas' lemma for finite lists of linear functions (Bartl's induction), applied to the vertices as functions on affine functions |
| C90 | the transforms of `r3d.c` and `r2d.c` over `R` | a chart (a projective map that keeps segments and turns half-spaces into half-spaces on the body) maps convex polytopes to convex polytopes and hulls to hulls |
| C91 | the transforms of `rNd.c`, then `rNd_reduce`, over `R` | affine charts; the image of a box under a shear is squeezed between stacks of boxes, a rotation is three shears |
| C92 | `r3d_init_poly`, then `r3d_reduce`, over `R` | the links of C46 are those of a realised labelled graph whose facets are the planes of the faces; its points are then those of C69 |
| C93 | `r3d_poly_faces_from_verts`, `r3d_init_poly`, `r3d_clip`, `r3d_reduce`, over `R` | every corner of a face gives a positive multiple of one affine function; the clip theorems of C69, C76 and C78 |
| C94 | `r3d_init_brep`, then `r3d_init_poly`, `r3d_reduce` | the corners of the description are the directed edges of the polyhedron; its links are then those of C46 up to the first slot, and turning the slots changes neither validity nor points |
| C95 | `rNd_is_good`, `rNd_clip`, over `R` | a vertex with no lower neighbour is lowest; walking uphill from a plane through the removed vertices and one end reaches the other without meeting them; then C52 |
| C96 | `r2d_clip`, `r3d_clip`, `rNd_clip`, `r2d_reduce`, `r3d_reduce` | induction over the planes, an empty buffer passing through unchanged; then C04/C29/C62 and the uniqueness of the integrals |
| C97 | `r2d_clip`, `r3d_clip`, all transforms | two runs side by side: equal links and flags, positions in a relation that the planes respect; then algebra of one cut edge |
| C98 | `r2d_reduce`, `r3d_reduce` | each entry of the tables is homogeneous in the coordinates, by induction on the order; triangles are visited in an order fixed by the links |
| C99 | `rNd_clip`, `rNd_translate`, `rNd_scale`, `rNd_shear`, `rNd_rotate` | two runs side by side through the walk around the 3-cells, as for C97 |
| C100 | `rNd_split`, `rNd_translate`, `rNd_scale`, `rNd_shear`, `rNd_rotate` | C99 for the two axis planes of the split |
| C47 | `r3d_init_brep`, `r3d_free_brep` | component flood fill, face orbits, heap of allocated blocks |
| C48-C57 | `rNd.c`, `vNd.c` parts | algebra / computation, flood fill, index boxes |

Further properties are described in `properties.jsonl`; the status of each is kept in
`MANIFEST.json`.

## What is modelled

Every function of `r2d.c`, `v2d.c`, `r3d.c`, `v3d.c`, `rNd.c` and `vNd.c` except those
listed under "Not modelled".  Simplifications are stated in the comment of the
definition; the general ones are:

* `long` / `int32` indices are integers; overflow is checked only where the code computes
  indices from floating point values or multiplies extents (index boxes, grid sizes);
* a `do ... while` or a `while` over a stack takes fuel; theorems give fuel that suffices;
* local arrays are functions with checked bounds; a local that is read before it is
  written is `Err Uninit` where the code leaves it uninitialised and the theorem depends
  on it, otherwise an arbitrary value is passed in as a parameter;
* `malloc` in `r3d_init_brep` gives fresh blocks and does not fail.

## Not modelled

* printing (`r2d_print`, `r3d_print`, `rNd_print`, `r3d_print_brep`), test programs, CMake;
* the code under `#if 0` at `rNd.c:577-638` (never compiled);
* the bits of floating-point numbers: theorems are for all arithmetics, for exact reals, or
  (from C79) for every arithmetic over the reals whose operations round with a bounded
  relative error, which leaves out overflow and underflow;

## Testing the theorems

`seeded/LOG.jsonl` records edits of the model that imitate realistic bugs, made in a
scratch copy, with the theorems whose proofs then fail.  A theorem counts as failed when
the proof of a lemma that it uses no longer goes through.

## Trusted base

* Coq 8.16.1 kernel (and `coqchk`).
* Axioms: exactly those printed by `Print Assumptions` after each theorem in the
  `Props*.v` files; only axioms of the standard library occur.
* The hand translation from C to Gallina (cited line by line).

### Axioms of each theorem

`Print Assumptions` stands beneath each theorem; grouped by what it prints:

* closed under the global context (no axioms):
  `C01_r2d_clip_linked`, `C02_r2d_clip_only_overflow`, `C02_r2d_clip_room`, `C02_r2d_clip_safe`, `C05_r2d_clip_trivial`, `C07_r2d_split_linked`, `C07_r2d_split_safe`, `C10_moment_slots`, `C10_r2d_reduce_fills`, `C13_r2d_rasterize_returns`, `C14_r2d_rasterize_bounds`, `C14_r2d_rasterize_own_cells`, `C17_r2d_clamp_ibox_box`, `C22_good_polygons_accepted`, `C22_r2d_is_good_exact`, `C23_r2d_init_poly`, `C25_r3d_clip_linked`, `C26_r3d_clip_total`, `C27_r3d_clip_room`, `C27_r3d_clip_succeeds`, `C28_r3d_clip_failed_state`, `C31_r3d_split_linked`, `C31_r3d_split_room`, `C31_r3d_split_total`, `C32_r3d_reduce_visits`, `C33_moment_order`, `C36_r3d_voxelize_bounds`, `C36_r3d_voxelize_only_overflow`, `C36_r3d_voxelize_own_cells`, `C36_r3d_voxelize_returns`, `C37_r3d_voxelize_room`, `C38_r3d_clamp_ibox_box`, `C38_r3d_clamp_ibox_returns`, `C39_r3d_is_good_room`, `C40_r3d_is_good_decides`, `C40_r3d_is_good_decides_any`, `C42_api_history_good`, `C42_valid_is_3_connected`, `C46_init_poly_three`, `C46_init_poly_three_valid`, `C46_init_poly_too_few_faces`, `C46_init_poly_too_many`, `C47_init_brep`, `C47_init_brep_any_valid_refuted`, `C47_init_brep_empty`, `C47_init_brep_full`, `C50_rNd_init_box`, `C50_rNd_init_simplex`, `C51_rNd_scale`, `C51_rNd_shear`, `C51_rNd_translate`, `C52_rNd_is_good_decides`, `C52_rNd_is_good_decides_any`, `C54_rNd_is_good_room`, `C55_rNd_init_box_is_good`, `C55_rNd_init_simplex_is_good`, `C58_init_poly_rejected_empty_refuted`, `C58_init_poly_too_big`, `C59_init_poly_any`, `C59_init_poly_any_valid`, `C60_rNd_clip_plane`, `C60_rNd_init_box_cells`, `C60_rNd_init_simplex_cells`, `C61_rNd_clip_safe`, `C63_rNd_reduce_flags`, `C83_r2d_rasterize_room`, `C94_brep_round_trip`, `C96_r2d_clip_in_turn`, `C96_r3d_clip_in_turn`, `C96_rNd_clip_in_turn`.
* `ClassicalDedekindReals.sig_forall_dec`:
  `C41_r3d_is_good_mutual_refuted`, `C94_solid_distinct`.
* `ClassicalDedekindReals.sig_forall_dec`, `FunctionalExtensionality.functional_extensionality_dep`:
  `C03_convex_triangles`, `C39_r3d_is_good_stack_refuted`, `C67_content_unique`, `C69_solid_is_convex`, `C70_content3_unique`, `C73_content2_unique`, `C75_integral2_unique`, `C76_integral3_unique`, `C78_convex_has_facets`, `C85_planar_flat`, `C88_sides_meet_in_no_area`, `C95_convex_polyhedron_survives`.
* `ClassicalDedekindReals.sig_forall_dec`, `ClassicalDedekindReals.sig_not_dec`, `FunctionalExtensionality.functional_extensionality_dep`:
  `C03_convex_boxes`, `C08_r2d_split_pos_side_refuted`, `C100_rNd_mirror_split`, `C100_rNd_rotate_split`, `C100_rNd_scale_split`, `C100_rNd_shear_split`, `C100_rNd_split_units`, `C100_rNd_translate_split`, `C16_r2d_get_ibox_empty_undefined`, `C16_r2d_get_ibox_minimal`, `C20_r2d_box_faces_actual`, `C20_r2d_box_faces_refuted`, `C21_r2d_poly_faces`, `C22_r2d_is_good_refuted`, `C34_r3d_poly_center`, `C38_r3d_clamp_ibox_clip_ok`, `C38_r3d_get_ibox_empty_undefined`, `C38_r3d_get_ibox_minimal`, `C44_r3d_box_faces`, `C44_r3d_poly_faces`, `C44_r3d_tet_faces`, `C48_rNd_det_leibniz`, `C48_rNd_orient_4`, `C48_rNd_orient_leibniz`, `C49_rNd_affine_exact`, `C49_rNd_affine_refuted`, `C50_rNd_init_box_face_numbers_refuted`, `C51_rNd_rotate`, `C53_rNd_is_good_mutual_refuted`, `C54_rNd_is_good_stack_refuted`, `C56_rNd_get_ibox`, `C57_rNd_clamp_ibox_refuted`, `C61_rNd_clip_overflow_refuted`, `C62_rNd_clip_box`, `C62_rNd_clip_hull`, `C62_rNd_init_box_convex`, `C62_rNd_init_simplex_convex`, `C63_rNd_reduce_box`, `C64_rNd_init_box_solid`, `C64_rNd_init_simplex_solid`, `C64_rNd_split_hull`, `C64_rNd_split_reduce`, `C65_rNd_voxelize_box`, `C65_rNd_voxelize_cells`, `C65_rNd_voxelize_only_overflow`, `C65_rNd_voxelize_room`, `C66_rNd_clip_reduce_nan`, `C66_rNd_reduce_after_clip_refuted`, `C67_content_box`, `C67_rNd_clip_volume`, `C67_rNd_reduce_monotone`, `C67_rNd_reduce_same_hull`, `C67_rNd_reduce_volume`, `C68_rNd_voxelize_box_volume`, `C68_rNd_voxelize_volume`, `C69_r3d_init_box_convex`, `C69_r3d_init_tet_convex`, `C69_r3d_split_intersects`, `C72_r2d_init_poly_convex`, `C72_r2d_split_intersects`, `C75_integral2_constant`, `C76_integral3_constant`, `C78_r3d_init_box_facets`, `C78_r3d_init_box_hull`, `C78_r3d_init_tet_facets`, `C79_r3d_clip_rounded`, `C79_r3d_split_coord_rounded`, `C79_r3d_split_rounded`, `C80_r2d_clip_rounded`, `C80_r2d_split_coord_rounded`, `C80_r2d_split_rounded`, `C88_r2d_poly_faces_hold`, `C90_r2d_affine_image`, `C90_r2d_rotate_actual_image`, `C90_r2d_scale_image`, `C90_r2d_shear_image`, `C90_r2d_translate_image`, `C90_r3d_affine_image`, `C90_r3d_rotate_image`, `C90_r3d_scale_image`, `C90_r3d_shear_image`, `C90_r3d_translate_image`, `C91_rNd_rotate_image`, `C91_rNd_scale_image`, `C91_rNd_scale_volume`, `C91_rNd_shear_image`, `C91_rNd_translate_image`, `C91_rNd_translate_volume`, `C93_r3d_poly_faces_outward`, `C93_r3d_poly_faces_reversed`, `C95_convex_polytope_survives`, `C95_rNd_clip_is_good`, `C95_rNd_is_good_convex`, `C96_rNd_clip_again`, `C96_rNd_clip_order`, `C97_r2d_affine_clip`, `C97_r2d_clip_units`, `C97_r2d_rotate_actual_clip`, `C97_r2d_scale_clip`, `C97_r2d_scale_clip_rounded`, `C97_r2d_shear_clip`, `C97_r2d_translate_clip`, `C97_r3d_affine_clip`, `C97_r3d_clip_units`, `C97_r3d_rotate_clip`, `C97_r3d_scale_clip`, `C97_r3d_scale_clip_rounded`, `C97_r3d_shear_clip`, `C97_r3d_translate_clip`, `C98_r2d_clip_reduce_units`, `C98_r2d_reduce_units`, `C98_r3d_clip_reduce_units`, `C98_r3d_reduce_units`, `C99_rNd_clip_units`, `C99_rNd_rotate_clip`, `C99_rNd_scale_clip`, `C99_rNd_shear_clip`, `C99_rNd_translate_clip`.
* `ClassicalDedekindReals.sig_forall_dec`, `Classical_Prop.classic`, `FunctionalExtensionality.functional_extensionality_dep`:
  `C89_corners_weighted_means`, `C89_hull2_weighted_means`, `C89_hull3_weighted_means`, `C89_hullN_weighted_means`, `C92_r3d_init_poly_points`.
* `ClassicalDedekindReals.sig_forall_dec`, `ClassicalDedekindReals.sig_not_dec`, `Classical_Prop.classic`, `FunctionalExtensionality.functional_extensionality_dep`:
  `C03_r2d_clip_convex_room`, `C03_r2d_clip_no_overflow_refuted`, `C04_r2d_clip_inside`, `C05_r2d_clip_inside_unchanged`, `C05_r2d_clip_outside_any`, `C05_r2d_clip_outside_empty`, `C06_r2d_clip_conserves`, `C07_r2d_split_conserves`, `C08_r2d_split_sides`, `C09_r2d_reduce_exact`, `C11_r2d_reduce_shifted`, `C11_r2d_shift_moments`, `C12_r2d_get_ibox_rasterize`, `C12_r2d_rasterize_conservative`, `C13_r2d_rasterize_convex_returns`, `C15_r2d_rasterize_cell_pieces`, `C17_r2d_clamp_ibox_inside`, `C17_r2d_clamp_ibox_polygon`, `C17_r2d_clamp_ibox_returns`, `C18_r2d_affine`, `C18_r2d_scale`, `C18_r2d_shear`, `C18_r2d_translate`, `C19_r2d_rotate_actual`, `C19_r2d_rotate_refuted`, `C23_r2d_init_box`, `C24_r2d_orient`, `C27_r3d_clip_status`, `C28_r3d_clip_failed_valid_refuted`, `C29_r3d_clip_inside`, `C29_r3d_clip_inside_unchanged`, `C29_r3d_clip_outside_empty`, `C30_r3d_clip_conserves`, `C31_r3d_split_exact`, `C33_box_moments`, `C33_r3d_reduce_exact`, `C33_tet_moments`, `C34_r3d_reduce_shift_poly`, `C34_r3d_shift_moments`, `C35_r3d_get_ibox_voxelize`, `C35_r3d_voxelize_cell_pieces`, `C35_r3d_voxelize_conservative`, `C37_r3d_split_coord_overflow_refuted`, `C38_r3d_clamp_ibox_inside`, `C38_r3d_clamp_ibox_polyhedron`, `C38_r3d_clamp_ibox_unreported_failure_refuted`, `C43_r3d_affine`, `C43_r3d_rotate`, `C43_r3d_scale`, `C43_r3d_shear`, `C43_r3d_translate`, `C45_r3d_orient`, `C69_r3d_clip_intersects`, `C70_r3d_clip_volume`, `C70_r3d_reduce_volume`, `C70_r3d_split_volumes`, `C71_r3d_clamp_volume`, `C71_r3d_voxelize_volume`, `C72_r2d_clip_intersects`, `C72_r2d_clip_returns`, `C72_r2d_init_box_convex`, `C73_r2d_clip_area`, `C73_r2d_reduce_area`, `C73_r2d_split_areas`, `C74_r2d_clamp_area`, `C74_r2d_rasterize_area`, `C74_r2d_rasterize_parts`, `C75_r2d_clip_integral`, `C75_r2d_reduce_integral`, `C75_r2d_split_integrals`, `C76_r3d_clip_integral`, `C76_r3d_fan_positive`, `C76_r3d_reduce_integral`, `C76_r3d_split_integrals`, `C77_r2d_clamp_integral`, `C77_r2d_rasterize_integral`, `C77_r3d_clamp_integral`, `C77_r3d_voxelize_integral`, `C77_r3d_voxelize_parts`, `C78_r3d_box_clip_voxelize`, `C78_r3d_clamp_voxelize`, `C78_r3d_clip_room`, `C78_r3d_clip_voxelize`, `C78_r3d_split_room`, `C78_r3d_voxelize_97_facets`, `C78_r3d_voxelize_room`, `C78_vertices_facets`, `C79_binary64_rounding`, `C81_r2d_split_area_rounded`, `C81_r2d_split_coord_area_rounded`, `C82_r2d_reduce_rounded`, `C83_r2d_rasterize_area_rounded`, `C84_r3d_reduce_rounded`, `C85_r3d_clip_flat_rounded`, `C85_r3d_split_coord_volume_rounded`, `C85_r3d_split_volume_rounded`, `C86_r3d_voxelize_volume_rounded`, `C87_r3d_cells_intersect`, `C87_r3d_cells_symmetric`, `C87_r3d_clips_conserve`, `C87_r3d_mesh_conserves`, `C87_sides_meet_in_no_volume`, `C88_r2d_box_faces_intersect_refuted`, `C88_r2d_clips_conserve`, `C88_r2d_mesh_conserves`, `C88_r2d_polygons_intersect`, `C88_r2d_polygons_symmetric`, `C89_r2d_clip_weighted_means`, `C89_r3d_clip_weighted_means`, `C89_rNd_clip_weighted_means`, `C90_r2d_clip_of_image`, `C90_r2d_moments_of_image`, `C90_r3d_clip_of_image`, `C90_r3d_moments_of_image`, `C91_rNd_rotate_volume`, `C91_rNd_shear_volume`, `C91_rNd_turned_box`, `C92_r3d_init_poly_integral`, `C93_r3d_clip_own_faces_empty`, `C93_r3d_poly_faces_inward_refuted`, `C93_r3d_poly_intersection`, `C94_brep_round_trip_convex`, `C96_r2d_clip_again`, `C96_r2d_clip_order`, `C96_r3d_clip_again`, `C96_r3d_clip_order`, `C97_binary64_factors`.
