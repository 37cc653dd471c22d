(** * PropsRV3: [r3d_voxelize] (src/v3d.c) in rounded arithmetic (C86).  [FN rnd] rounds after
    every operation; [accurate u rnd] bounds the relative error of one rounding by [u];
    C79_binary64_rounding shows that rounding with 53 bits is such an arithmetic.
    [flat_faces e p]: any four vertices of one face of [p] span at most [e / 6]; [e] is 0 for
    planar faces (C85_planar_flat). *)
From Coq Require Import Reals ZArith List Bool Lia Lra.
From Verif Require Import Base Lib SumR ModelCommon Model3 ModelV ModelV3 Spec3 RealNum Spec3R Vox3 RndNum SpecR3 SpecL3 RndV3.
Import ListNotations.
Open Scope R_scope.

(** ** C86: the volumes that [r3d_voxelize] adds to the cells sum to the volume of the
    polyhedron, convex or not, up to rounding *)
Theorem C86_r3d_voxelize_volume_rounded u rnd MX po stk0 mom0 m e G (p : pol3) B (d : rvec3 R) (gr gr' : Z -> R) : accurate u rnd -> 0 <= u <= 1 / 100 ->
  (0 <= po)%Z -> wf3 p -> (0 < nv p <= MX)%Z -> cells3_ok (num_moments3 po) B ->
  0 <= m -> 0 <= e -> (forall v, (0 <= v < nv p)%Z -> within_abs m (ps (vb p) v)) -> flat_faces e p ->
  let S := IZR (snd B 0%Z - fst B 0%Z + (snd B 1%Z - fst B 1%Z) + (snd B 2%Z - fst B 2%Z)) in
  2 * u * (3 * IZR MX + 23) <= 1 -> 50 * u * S <= 1 ->
  let cells := ((snd B 0%Z - fst B 0%Z) * (snd B 1%Z - fst B 1%Z) * (snd B 2%Z - fst B 2%Z))%Z in
  0 <= G -> (forall c, (0 <= c < cells)%Z -> Rabs (gr (num_moments3 po * c)%Z) <= G) ->
  r3d_voxelize (FN rnd) MX false po stk0 mom0 p B gr d = OK gr' ->
  Rabs (lsum (zrange cells) (fun c => gr' (num_moments3 po * c)%Z - gr (num_moments3 po * c)%Z) - moment3 p 0 0 0)
    <= (2 * u * (3 * IZR MX + 23) * (G + 6 * IZR MX * m ^ 3) + 2 * IZR MX * (e + 5600 * u * S * m ^ 3)) * IZR cells.
Proof. intros HA Hu. exact (voxelize_volume_F u rnd HA Hu MX po stk0 mom0 m e G p B d gr gr'). Qed.
Print Assumptions C86_r3d_voxelize_volume_rounded.

(** the unit cube on a grid of 2 by 2 by 2 cells, with 53 bits *)
Example C86_cube (p0 : pol3) stk0 mom0 : let B := ((fun _ => 0%Z), (fun _ => 2%Z)) : box in let d := V3 (1 / 2) (1 / 2) (1 / 2) : rvec3 R in
  exists p gr', r3d_init_box (FN rnd53) 512 p0 (V3 0 0 0) (V3 1 1 1) = OK p /\ wf3 p /\ (0 < nv p <= 512)%Z
  /\ (forall v, (0 <= v < nv p)%Z -> within_abs 1 (ps (vb p) v)) /\ flat_faces 0 p /\ cells3_ok (num_moments3 2) B
  /\ 2 * u53 * (3 * IZR 512 + 23) <= 1 /\ 50 * u53 * IZR (2 - 0 + (2 - 0) + (2 - 0)) <= 1
  /\ r3d_voxelize (FN rnd53) 512 false 2 stk0 mom0 p B (fun _ => 0) d = OK gr'.
Proof. exact (cube_voxels p0 stk0 mom0). Qed.
