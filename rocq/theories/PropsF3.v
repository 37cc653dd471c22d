(** * PropsF3: room in the vertex buffers for convex polyhedra in [r3d_clip], [r3d_split]
    (src/r3d.c), [r3d_clamp_ibox] and [r3d_voxelize] (src/v3d.c) (C78). *)
From Coq Require Import Reals ZArith List Bool Lia Lra.
From Verif Require Import Base Lib SumR ModelCommon Model3 ModelV ModelV3 SpecN SpecNJ SpecI Spec3 RealNum Reduce3 Mom3 Cons3 VoxFacts Vox3 GlueV3 Spec3R SpecC3 SpecF3
  VoxC3 GlueC3 IntC3 RoomF3 PipeF3.
Import ListNotations.
Open Scope Z_scope.

(** ** C78: a convex polyhedron with [m] facets fits, and so do its cuts *)
Theorem C78_vertices_facets (p : pol3) m : facets3 p m -> 0 < nv p -> nv p + 4 <= 2 * m.
Proof. exact (facets_vertices p m). Qed.
Print Assumptions C78_vertices_facets.

(** [facets3] only adds the number to [convex3] *)
Theorem C78_convex_has_facets (p : pol3) : convex3 p <-> exists m, facets3 p m.
Proof. exact (convex_iff_facets p). Qed.
Print Assumptions C78_convex_has_facets.

Theorem C78_r3d_init_box_facets MX (p p' : pol3) lo hi : 8 <= MX -> (x3 lo <= x3 hi)%R -> (y3 lo <= y3 hi)%R -> (z3 lo <= z3 hi)%R ->
  r3d_init_box RN MX p lo hi = OK p' -> facets3 p' 6 /\ nv p' = 8.
Proof. exact (init_box_facets MX p p' lo hi). Qed.
Print Assumptions C78_r3d_init_box_facets.

Theorem C78_r3d_init_box_hull MX (p p' : pol3) lo hi : 8 <= MX -> r3d_init_box RN MX p lo hi = OK p' -> (x3 lo <= x3 hi)%R -> (y3 lo <= y3 hi)%R -> (z3 lo <= z3 hi)%R ->
  forall x, hull3 p' x <-> box_pts lo hi x.
Proof. exact (init_box_hull MX p p' lo hi). Qed.
Print Assumptions C78_r3d_init_box_hull.

Theorem C78_r3d_init_tet_facets MX (p p' : pol3) (a b c d : rvec3 R) : 4 <= MX -> (0 < (r3d_orient RN a b c d : R))%R ->
  r3d_init_tet RN MX p a b c d = OK p' -> facets3 p' 4 /\ nv p' = 4.
Proof. exact (init_tet_facets MX p p' a b c d). Qed.
Print Assumptions C78_r3d_init_tet_facets.

(** [r3d_clip] succeeds and adds at most one facet for each plane *)
Theorem C78_r3d_clip_room MX (p : pol3) planes m : facets3 p m -> 0 < nv p <= MX -> 3 * (m + Z.of_nat (length planes)) <= MX + 7 ->
  exists p', r3d_clip RN MX p planes = OK (p', 1) /\ facets3 p' (m + Z.of_nat (length planes)).
Proof. exact (clip_facets MX p planes m). Qed.
Print Assumptions C78_r3d_clip_room.

Theorem C78_r3d_split_room MX pl ins m : Forall (fun i : pol3 * (pol3 * pol3) => facets3 (fst i) m /\ nv (fst i) <= MX) ins -> 4 * m - 4 <= MX ->
  exists outs, r3d_split RN MX pl ins = OK (outs, 1)
  /\ Forall (fun o : pol3 * (pol3 * pol3) => facets3 (fst (snd o)) (m + 1) /\ facets3 (snd (snd o)) (m + 1)) outs.
Proof. exact (split_facets_room MX pl ins m). Qed.
Print Assumptions C78_r3d_split_room.

(** [r3d_voxelize] splits with no bounds check (src/v3d.c, [r3d_split_coord]); it stays in the buffers *)
Theorem C78_r3d_voxelize_room MX sh po stk0 mom0 (p : pol3) B gr d m : 0 <= po -> facets3 p m -> nv p <= MX -> cells3_ok (num_moments3 po) B ->
  4 * (m + depth 3 B) <= MX + 8 -> exists gr', r3d_voxelize RN MX sh po stk0 mom0 p B gr d = OK gr'.
Proof. exact (voxelize_facets MX sh po stk0 mom0 p B gr d m). Qed.
Print Assumptions C78_r3d_voxelize_room.

(** with the buffers of src/r3d.h: up to 97 facets, any grid *)
Theorem C78_r3d_voxelize_97_facets sh po stk0 mom0 (p : pol3) B gr d : 0 <= po -> facets3 p 97 -> cells3_ok (num_moments3 po) B ->
  exists gr', r3d_voxelize RN 512 sh po stk0 mom0 p B gr d = OK gr'.
Proof. exact (voxelize_97 sh po stk0 mom0 p B gr d). Qed.
Print Assumptions C78_r3d_voxelize_97_facets.

(** clip, then voxelize: no hypothesis that either call succeeds *)
Theorem C78_r3d_clip_voxelize MX sh po stk0 mom0 (p : pol3) planes B (gr : Z -> R) d m :
  0 <= po -> facets3 p m -> 0 < nv p -> (forall pl, In pl planes -> Spec3R.proper pl) -> cells3_ok (num_moments3 po) B ->
  (0 <= x3 d)%R -> (0 <= y3 d)%R -> (0 <= z3 d)%R -> within d B p -> 4 * (m + Z.of_nat (length planes) + depth 3 B) <= MX + 8 ->
  exists p' gr', r3d_clip RN MX p planes = OK (p', 1) /\ r3d_voxelize RN MX sh po stk0 mom0 p' B gr d = OK gr'
  /\ forall i j k, Z.of_nat i + Z.of_nat j + Z.of_nat k <= po ->
     forall a b c, fst B 0 <= a < snd B 0 -> fst B 1 <= b < snd B 1 -> fst B 2 <= c < snd B 2 ->
     let e := num_moments3 po * (((a - fst B 0) * (snd B 1 - fst B 1) + (b - fst B 1)) * (snd B 2 - fst B 2) + (c - fst B 2)) + idx3 (Z.of_nat i) (Z.of_nat j) (Z.of_nat k) in
     integral3 (fun x => hull3 p x /\ holds3 planes x /\ in_cell3 d a b c x) (fun x => x3 x ^ i * y3 x ^ j * z3 x ^ k)%R (gr' e - gr e)%R.
Proof. exact (clip_voxelize MX sh po stk0 mom0 p planes B gr d m). Qed.
Print Assumptions C78_r3d_clip_voxelize.

(** clamp, then voxelize on the clamped box *)
Theorem C78_r3d_clamp_voxelize MX sh po stk0 mom0 (p : pol3) B cb (gr : Z -> R) d m :
  0 <= po -> facets3 p m -> 0 < nv p -> 4 * (m + 39) <= MX + 8 ->
  (0 <= x3 d)%R -> (0 <= y3 d)%R -> (0 <= z3 d)%R -> within d B p -> (forall i, 0 <= i < 3 -> int_min <= fst B i < snd B i /\ snd B i <= int_max) ->
  cells3_ok (num_moments3 po) cb -> (forall i, 0 <= i < 3 -> - int_max <= fst cb i) -> boxes_overlap B cb ->
  exists p' B' gr', r3d_clamp_ibox RN MX p B cb d = OK (p', B') /\ box_meet B cb B' /\ r3d_voxelize RN MX sh po stk0 mom0 p' B' gr d = OK gr'
  /\ forall i j k, Z.of_nat i + Z.of_nat j + Z.of_nat k <= po ->
     forall a b c, fst B' 0 <= a < snd B' 0 -> fst B' 1 <= b < snd B' 1 -> fst B' 2 <= c < snd B' 2 ->
     let e := num_moments3 po * (((a - fst B' 0) * (snd B' 1 - fst B' 1) + (b - fst B' 1)) * (snd B' 2 - fst B' 2) + (c - fst B' 2)) + idx3 (Z.of_nat i) (Z.of_nat j) (Z.of_nat k) in
     integral3 (fun x => hull3 p x /\ in_cell3 d a b c x) (fun x => x3 x ^ i * y3 x ^ j * z3 x ^ k)%R (gr' e - gr e)%R.
Proof. exact (clamp_voxelize MX sh po stk0 mom0 p B cb gr d m). Qed.
Print Assumptions C78_r3d_clamp_voxelize.

(** [r3d_init_box], [r3d_clip] with at most 91 planes, [r3d_voxelize] on any grid that holds the box *)
Theorem C78_r3d_box_clip_voxelize sh po stk0 mom0 (p0 : pol3) lo hi planes B (gr : Z -> R) d :
  0 <= po -> (x3 lo <= x3 hi)%R -> (y3 lo <= y3 hi)%R -> (z3 lo <= z3 hi)%R ->
  (forall pl, In pl planes -> Spec3R.proper pl) -> (length planes <= 91)%nat -> cells3_ok (num_moments3 po) B ->
  (0 <= x3 d)%R -> (0 <= y3 d)%R -> (0 <= z3 d)%R -> (forall x, box_pts lo hi x -> in_cells3 d B x) ->
  exists p p' gr', r3d_init_box RN 512 p0 lo hi = OK p /\ r3d_clip RN 512 p planes = OK (p', 1) /\ r3d_voxelize RN 512 sh po stk0 mom0 p' B gr d = OK gr'
  /\ forall i j k, Z.of_nat i + Z.of_nat j + Z.of_nat k <= po ->
     forall a b c, fst B 0 <= a < snd B 0 -> fst B 1 <= b < snd B 1 -> fst B 2 <= c < snd B 2 ->
     let e := num_moments3 po * (((a - fst B 0) * (snd B 1 - fst B 1) + (b - fst B 1)) * (snd B 2 - fst B 2) + (c - fst B 2)) + idx3 (Z.of_nat i) (Z.of_nat j) (Z.of_nat k) in
     integral3 (fun x => box_pts lo hi x /\ holds3 planes x /\ in_cell3 d a b c x) (fun x => x3 x ^ i * y3 x ^ j * z3 x ^ k)%R (gr' e - gr e)%R.
Proof. exact (box_clip_voxelize sh po stk0 mom0 p0 lo hi planes B gr d). Qed.
Print Assumptions C78_r3d_box_clip_voxelize.

(** the unit cube, clipped by two planes, on a grid of two cells each way *)
Example cube_pipe_ok : let d := (V3 (1/2) (1/2) (2/3))%R in let planes := [PL3 (V3 1 (-1) 0) 0; PL3 (V3 (-1) (-1) (-1)) (3 / 2)]%R in
  (forall pl, In pl planes -> Spec3R.proper pl) /\ (length planes <= 91)%nat /\ cells3_ok (num_moments3 2) grid3
  /\ forall x, box_pts (V3 0 0 0)%R (V3 1 1 1)%R x -> in_cells3 d grid3 x.
Proof. exact cube_pipe. Qed.
(** the unit cube with one of these cells as the clamp box *)
Example cube_clamp_room_ok p0 : exists p, r3d_init_box RN 512 p0 (V3 0 0 0)%R (V3 1 1 1)%R = OK p /\ facets3 p 6 /\ 0 < nv p /\ 4 * (6 + 39) <= 512 + 8
  /\ within (V3 (1/2) (1/2) (2/3))%R grid3 p /\ (forall i, 0 <= i < 3 -> int_min <= fst grid3 i < snd grid3 i /\ snd grid3 i <= int_max)
  /\ cells3_ok (num_moments3 2) clamp3 /\ (forall i, 0 <= i < 3 -> - int_max <= fst clamp3 i) /\ boxes_overlap grid3 clamp3.
Proof. exact (cube_clamp_room p0). Qed.
