(** * PropsC3: convex polyhedra under [r3d_clip], [r3d_split] (src/r3d.c), [r3d_reduce],
    [r3d_clamp_ibox] and [r3d_voxelize] (src/v3d.c): the sets and the volumes (C69-C71). *)
From Coq Require Import Reals ZArith List Bool Lia Lra.
From Verif Require Import Base Lib SumR ModelCommon Model3 ModelV ModelV3 SpecN SpecNJ Spec3 RealNum Reduce3 Cons3 Vox3 GlueV3 Spec3R SpecC3
  HullC3 SqzC3 VoxC3 InitC3 GlueC3.
Import ListNotations.
Open Scope Z_scope.

(** ** C69: clips and splits are intersections with half-spaces *)
Theorem C69_r3d_clip_intersects MX (p p' : pol3) planes : convex3 p -> nv p <= MX -> r3d_clip RN MX p planes = OK (p', 1) ->
  convex3 p' /\ ((forall x, hull3 p' x <-> hull3 p x /\ holds3 planes x)
    \/ (nv p' = 0 /\ exists pl, In pl planes /\ forall x, hull3 p x -> holds3 planes x -> sdist3 pl x = 0%R)).
Proof. exact (r3d_clip_hull MX p p' planes). Qed.
Print Assumptions C69_r3d_clip_intersects.

Theorem C69_r3d_split_intersects MX pl ins outs : r3d_split RN MX pl ins = OK (outs, 1) ->
  Forall2 (fun (i o : pol3 * (pol3 * pol3)) => convex3 (fst i) -> nv (fst i) <= MX ->
     side_of (fst i) pl (fst (snd o)) /\ side_of (fst i) (flip3 pl) (snd (snd o))) ins outs.
Proof. exact (split_hulls MX pl ins outs). Qed.
Print Assumptions C69_r3d_split_intersects.

(** boxes, flat ones too, and positively oriented tetrahedra *)
Theorem C69_r3d_init_box_convex MX (p p' : pol3) lo hi : 8 <= MX -> (x3 lo <= x3 hi)%R -> (y3 lo <= y3 hi)%R -> (z3 lo <= z3 hi)%R ->
  r3d_init_box RN MX p lo hi = OK p' -> convex3 p' /\ nv p' = 8.
Proof. exact (init_box_convex MX p p' lo hi). Qed.
Print Assumptions C69_r3d_init_box_convex.

Theorem C69_r3d_init_tet_convex MX (p p' : pol3) (a b c d : rvec3 R) : 4 <= MX -> (0 < (r3d_orient RN a b c d : R))%R ->
  r3d_init_tet RN MX p a b c d = OK p' -> solid3 p' /\ nv p' = 4.
Proof. exact (init_tet_solid MX p p' a b c d). Qed.
Print Assumptions C69_r3d_init_tet_convex.

Theorem C69_solid_is_convex (p : pol3) : solid3 p -> convex3 p.
Proof. exact (LimC3.solid_convex3 p). Qed.
Print Assumptions C69_solid_is_convex.

(** the cube, cut and split through four of its vertices *)
Example cube_clip_ok p0 : exists p p', r3d_init_box RN 512 p0 (V3 0 0 0)%R (V3 1 1 1)%R = OK p /\ convex3 p
  /\ r3d_clip RN 512 p [PL3 (V3 1 (-1) 0) 0; PL3 (V3 (-1) (-1) (-1)) (3 / 2)]%R = OK (p', 1).
Proof. exact (cube_clip p0). Qed.
Example cube_split_ok p0 : exists p o, r3d_init_box RN 512 p0 (V3 0 0 0)%R (V3 1 1 1)%R = OK p /\ convex3 p
  /\ r3d_split RN 512 (PL3 (V3 1 (-1) 0) 0)%R [(p, (p0, p0))] = OK (o, 1).
Proof. exact (cube_split p0). Qed.
Example tet_orient_ok : (0 < (r3d_orient RN (V3 0 0 0) (V3 1 0 0) (V3 0 1 0) (V3 0 0 1) : R))%R.
Proof. exact tet_orient. Qed.

(** ** C70: the first moment is the volume *)
Theorem C70_r3d_reduce_volume MX sh (p : pol3) (mom : Z -> R) po : 0 <= po -> convex3 p -> nv p <= MX ->
  exists mom', r3d_reduce RN MX sh p mom po = OK mom' /\ content3 (hull3 p) (mom' 0).
Proof. exact (reduce_content MX sh p mom po). Qed.
Print Assumptions C70_r3d_reduce_volume.

Theorem C70_r3d_clip_volume MX sh (p p' : pol3) planes (mom : Z -> R) po : 0 <= po -> convex3 p -> nv p <= MX -> (forall pl, In pl planes -> proper pl) ->
  r3d_clip RN MX p planes = OK (p', 1) ->
  exists mom', r3d_reduce RN MX sh p' mom po = OK mom' /\ content3 (fun x => hull3 p x /\ holds3 planes x) (mom' 0).
Proof. exact (clip_reduce_volume MX sh p p' planes mom po). Qed.
Print Assumptions C70_r3d_clip_volume.

Theorem C70_r3d_split_volumes MX pl ins outs : proper pl -> r3d_split RN MX pl ins = OK (outs, 1) ->
  Forall2 (fun (i o : pol3 * (pol3 * pol3)) => convex3 (fst i) -> nv (fst i) <= MX ->
     content3 (fun x => hull3 (fst i) x /\ (0 <= sdist3 pl x)%R) (moment3 (fst (snd o)) 0 0 0)
     /\ content3 (fun x => hull3 (fst i) x /\ (sdist3 pl x <= 0)%R) (moment3 (snd (snd o)) 0 0 0)) ins outs.
Proof. exact (split_volumes MX pl ins outs). Qed.
Print Assumptions C70_r3d_split_volumes.

Theorem C70_content3_unique (K : rvec3 R -> Prop) (t s : R) : content3 K t -> content3 K s -> t = s.
Proof. exact (content3_unique K t s). Qed.
Print Assumptions C70_content3_unique.

(** ** C71: volumes on the grid *)
(** [e] is the entry of the first moment of the cell *)
Theorem C71_r3d_voxelize_volume MX sh po stk0 mom0 (p : pol3) B (gr gr' : Z -> R) d : 0 <= po -> convex3 p -> nv p <= MX -> cells3_ok (num_moments3 po) B ->
  (0 <= x3 d)%R -> (0 <= y3 d)%R -> (0 <= z3 d)%R -> within d B p -> r3d_voxelize RN MX sh po stk0 mom0 p B gr d = OK gr' ->
  forall a b c, fst B 0 <= a < snd B 0 -> fst B 1 <= b < snd B 1 -> fst B 2 <= c < snd B 2 ->
  let e := num_moments3 po * (((a - fst B 0) * (snd B 1 - fst B 1) + (b - fst B 1)) * (snd B 2 - fst B 2) + (c - fst B 2)) in
  content3 (fun x => hull3 p x /\ in_cell3 d a b c x) (gr' e - gr e)%R.
Proof. exact (voxelize_content MX sh po stk0 mom0 p B gr gr' d). Qed.
Print Assumptions C71_r3d_voxelize_volume.

(** [r3d_clamp_ibox] keeps the part of the polyhedron in the region of the clamp box *)
Theorem C71_r3d_clamp_volume MX (p p' : pol3) B cb B' (d : rvec3 R) : (forall i, 0 <= i < 3 -> - int_max <= fst cb i <= int_max) ->
  convex3 p -> nv p <= MX -> (0 <= x3 d)%R -> (0 <= y3 d)%R -> (0 <= z3 d)%R -> within d B p ->
  (0 < nv p -> exists q, r3d_clip RN MX p (clamp_faces d cb B) = OK (q, 1)) ->
  r3d_clamp_ibox RN MX p B cb d = OK (p', B') ->
  convex3 p' /\ content3 (fun x => hull3 p x /\ in_cells3 d cb x) (moment3 p' 0 0 0)
  /\ ((forall x, hull3 p' x <-> hull3 p x /\ in_cells3 d cb x) \/ nv p' = 0).
Proof. exact (clamp_content MX p p' B cb B' d). Qed.
Print Assumptions C71_r3d_clamp_volume.

(** the cube on a grid with spacings 1/2, 1/2, 2/3: cell planes hold faces of it *)
Example cube_vox_ok p0 stk0 mom0 : exists p gr', r3d_init_box RN 512 p0 (V3 0 0 0)%R (V3 1 1 1)%R = OK p /\ convex3 p /\ nv p <= 512
  /\ within (V3 (1/2) (1/2) (2/3))%R ((fun _ => 0), (fun _ => 2)) p /\ cells3_ok (num_moments3 2) ((fun _ => 0), (fun _ => 2))
  /\ r3d_voxelize RN 512 false 2 stk0 mom0 p ((fun _ => 0), (fun _ => 2)) (fun _ => 0%R) (V3 (1/2) (1/2) (2/3))%R = OK gr'.
Proof. exact (cube_vox p0 stk0 mom0). Qed.
(** the cube clamped to one of these cells *)
Example cube_clamp_ok p0 : exists p p' B', r3d_init_box RN 512 p0 (V3 0 0 0)%R (V3 1 1 1)%R = OK p /\ convex3 p /\ nv p <= 512
  /\ within (V3 (1/2) (1/2) (2/3))%R grid3 p /\ (forall i, 0 <= i < 3 -> - int_max <= fst clamp3 i <= int_max)
  /\ (0 < nv p -> exists q, r3d_clip RN 512 p (clamp_faces (V3 (1/2) (1/2) (2/3))%R clamp3 grid3) = OK (q, 1))
  /\ r3d_clamp_ibox RN 512 p grid3 clamp3 (V3 (1/2) (1/2) (2/3))%R = OK (p', B').
Proof. exact (cube_clamp p0). Qed.
