(** * PropsI3: the moments of convex polyhedra under [r3d_reduce], [r3d_clip], [r3d_split]
    (src/r3d.c), [r3d_clamp_ibox] and [r3d_voxelize] (src/v3d.c) are integrals (C76, C77). *)
From Coq Require Import Reals ZArith List Bool Lia Lra.
From Verif Require Import Base Lib SumR ModelCommon Model3 ModelV ModelV3 SpecN SpecNJ SpecI Spec3 RealNum Reduce3 Mom3 Cons3 Vox3 GlueV3 Spec3R SpecC3
  VoxC3 GlueC3 IntC3.
Import ListNotations.
Open Scope Z_scope.

(** ** C76: entry [idx3 i j k] of [r3d_reduce] is the integral of [x^i y^j z^k] *)
Theorem C76_r3d_reduce_integral MX i j k sh (p : pol3) (mom : Z -> R) po : convex3 p -> nv p <= MX -> Z.of_nat i + Z.of_nat j + Z.of_nat k <= po ->
  exists mom', r3d_reduce RN MX sh p mom po = OK mom'
  /\ integral3 (hull3 p) (fun x => x3 x ^ i * y3 x ^ j * z3 x ^ k)%R (mom' (idx3 (Z.of_nat i) (Z.of_nat j) (Z.of_nat k))).
Proof. exact (reduce_integral MX i j k sh p mom po). Qed.
Print Assumptions C76_r3d_reduce_integral.

Theorem C76_r3d_clip_integral MX i j k sh (p p' : pol3) planes (mom : Z -> R) po : convex3 p -> nv p <= MX -> (forall pl, In pl planes -> proper pl) ->
  r3d_clip RN MX p planes = OK (p', 1) -> Z.of_nat i + Z.of_nat j + Z.of_nat k <= po ->
  exists mom', r3d_reduce RN MX sh p' mom po = OK mom'
  /\ integral3 (fun x => hull3 p x /\ holds3 planes x) (fun x => x3 x ^ i * y3 x ^ j * z3 x ^ k)%R (mom' (idx3 (Z.of_nat i) (Z.of_nat j) (Z.of_nat k))).
Proof. exact (clip_reduce_integral MX i j k sh p p' planes mom po). Qed.
Print Assumptions C76_r3d_clip_integral.

Theorem C76_r3d_split_integrals MX i j k pl ins outs : proper pl -> r3d_split RN MX pl ins = OK (outs, 1) ->
  Forall2 (fun (p o : pol3 * (pol3 * pol3)) => convex3 (fst p) -> nv (fst p) <= MX ->
     integral3 (fun x => hull3 (fst p) x /\ (0 <= sdist3 pl x)%R) (fun x => x3 x ^ i * y3 x ^ j * z3 x ^ k)%R (moment3 (fst (snd o)) i j k)
     /\ integral3 (fun x => hull3 (fst p) x /\ (sdist3 pl x <= 0)%R) (fun x => x3 x ^ i * y3 x ^ j * z3 x ^ k)%R (moment3 (snd (snd o)) i j k)) ins outs.
Proof. exact (split_integrals MX i j k pl ins outs). Qed.
Print Assumptions C76_r3d_split_integrals.

(** every tetrahedron that the decomposition of [r3d_reduce] makes from a vertex and the faces is positively oriented or flat *)
Theorem C76_r3d_fan_positive (p : pol3) d e c : convex3 p -> isd (below (nv p)) d -> same_face (nb (vb p)) d e -> 0 <= c < nv p ->
  (0 <= vol6 (ps (vb p) c) (ps (vb p) (fst e)) (ps (vb p) (dtgt (nb (vb p)) d)) (ps (vb p) (fst d)))%R.
Proof. exact (convex_fan p d e c). Qed.
Print Assumptions C76_r3d_fan_positive.

(** a set and a function have one integral only, and a constant has the expected one *)
Theorem C76_integral3_unique (K : rvec3 R -> Prop) f t s : integral3 K f t -> integral3 K f s -> t = s.
Proof. exact (integral3_unique K f t s). Qed.
Print Assumptions C76_integral3_unique.

Theorem C76_integral3_constant (K : rvec3 R -> Prop) c t : content3 K t -> integral3 K (fun _ => c) (c * t)%R.
Proof. exact (integral3_const K c t). Qed.
Print Assumptions C76_integral3_constant.

(** the cube, cut and split through four of its vertices *)
Example cube_clip_ok p0 : exists p p', r3d_init_box RN 512 p0 (V3 0 0 0)%R (V3 1 1 1)%R = OK p /\ convex3 p
  /\ r3d_clip RN 512 p [PL3 (V3 1 (-1) 0) 0; PL3 (V3 (-1) (-1) (-1)) (3 / 2)]%R = OK (p', 1).
Proof. exact (cube_clip p0). Qed.
Example cube_split_ok p0 : exists p o, r3d_init_box RN 512 p0 (V3 0 0 0)%R (V3 1 1 1)%R = OK p /\ convex3 p
  /\ r3d_split RN 512 (PL3 (V3 1 (-1) 0) 0)%R [(p, (p0, p0))] = OK (o, 1).
Proof. exact (cube_split p0). Qed.

(** ** C77: integrals on the grid *)
(** [e] is the entry of the moment [i], [j], [k] of the cell *)
Theorem C77_r3d_voxelize_integral MX i j k sh po stk0 mom0 (p : pol3) B (gr gr' : Z -> R) d : convex3 p -> nv p <= MX -> cells3_ok (num_moments3 po) B ->
  (0 <= x3 d)%R -> (0 <= y3 d)%R -> (0 <= z3 d)%R -> within d B p -> r3d_voxelize RN MX sh po stk0 mom0 p B gr d = OK gr' -> Z.of_nat i + Z.of_nat j + Z.of_nat k <= po ->
  forall a b c, fst B 0 <= a < snd B 0 -> fst B 1 <= b < snd B 1 -> fst B 2 <= c < snd B 2 ->
  let e := num_moments3 po * (((a - fst B 0) * (snd B 1 - fst B 1) + (b - fst B 1)) * (snd B 2 - fst B 2) + (c - fst B 2)) + idx3 (Z.of_nat i) (Z.of_nat j) (Z.of_nat k) in
  integral3 (fun x => hull3 p x /\ in_cell3 d a b c x) (fun x => x3 x ^ i * y3 x ^ j * z3 x ^ k)%R (gr' e - gr e)%R.
Proof. exact (voxelize_integral MX i j k sh po stk0 mom0 p B gr gr' d). Qed.
Print Assumptions C77_r3d_voxelize_integral.

(** every entry of a cell grows by the moment of a convex polyhedron that is the part of [p] in the cell *)
Theorem C77_r3d_voxelize_parts MX sh po stk0 mom0 (p : pol3) B (gr gr' : Z -> R) d : 0 <= po -> convex3 p -> nv p <= MX -> cells3_ok (num_moments3 po) B ->
  (0 <= x3 d)%R -> (0 <= y3 d)%R -> (0 <= z3 d)%R -> within d B p -> r3d_voxelize RN MX sh po stk0 mom0 p B gr d = OK gr' ->
  forall a b c, fst B 0 <= a < snd B 0 -> fst B 1 <= b < snd B 1 -> fst B 2 <= c < snd B 2 ->
  exists o : pol3, convex3 o
  /\ ((forall x, hull3 o x <-> hull3 p x /\ in_cell3 d a b c x)
      \/ (nv o = 0 /\ exists g, proper g /\ forall x, hull3 p x -> in_cell3 d a b c x -> sdist3 g x = 0%R))
  /\ forall i j k, (i + j + k <= Z.to_nat po)%nat ->
     let e := num_moments3 po * (((a - fst B 0) * (snd B 1 - fst B 1) + (b - fst B 1)) * (snd B 2 - fst B 2) + (c - fst B 2)) + idx3 (Z.of_nat i) (Z.of_nat j) (Z.of_nat k) in
     (gr' e = gr e + moment3 o i j k)%R.
Proof. exact (voxelize_pieces MX sh po stk0 mom0 p B gr gr' d). Qed.
Print Assumptions C77_r3d_voxelize_parts.

(** [r3d_clamp_ibox] drops the return value of [r3d_clip]; the clip succeeds here, see C71 *)
Theorem C77_r3d_clamp_integral MX i j k (p p' : pol3) B cb B' (d : rvec3 R) : (forall i, 0 <= i < 3 -> - int_max <= fst cb i <= int_max) ->
  convex3 p -> nv p <= MX -> (0 <= x3 d)%R -> (0 <= y3 d)%R -> (0 <= z3 d)%R -> within d B p ->
  (0 < nv p -> exists q, r3d_clip RN MX p (clamp_faces d cb B) = OK (q, 1)) ->
  r3d_clamp_ibox RN MX p B cb d = OK (p', B') ->
  integral3 (fun x => hull3 p x /\ in_cells3 d cb x) (fun x => x3 x ^ i * y3 x ^ j * z3 x ^ k)%R (moment3 p' i j k).
Proof. exact (clamp_integral MX i j k p p' B cb B' d). Qed.
Print Assumptions C77_r3d_clamp_integral.

(** the cube on a grid with spacings 1/2, 1/2, 2/3: cell planes hold faces of it *)
Example cube_vox_ok p0 stk0 mom0 : exists p gr', r3d_init_box RN 512 p0 (V3 0 0 0)%R (V3 1 1 1)%R = OK p /\ convex3 p /\ nv p <= 512
  /\ within (V3 (1/2) (1/2) (2/3))%R ((fun _ => 0), (fun _ => 2)) p /\ cells3_ok (num_moments3 2) ((fun _ => 0), (fun _ => 2))
  /\ r3d_voxelize RN 512 false 2 stk0 mom0 p ((fun _ => 0), (fun _ => 2)) (fun _ => 0%R) (V3 (1/2) (1/2) (2/3))%R = OK gr'.
Proof. exact (cube_vox p0 stk0 mom0). Qed.
(** the cube clamped to one of these cells *)
Example cube_clamp_ok p0 : exists p p' B', r3d_init_box RN 512 p0 (V3 0 0 0)%R (V3 1 1 1)%R = OK p /\ convex3 p /\ nv p <= 512
  /\ within (V3 (1/2) (1/2) (2/3))%R grid3 p /\ (forall i, 0 <= i < 3 -> - int_max <= fst clamp3 i <= int_max)
  /\ (0 < nv p -> exists q, r3d_clip RN 512 p (clamp_faces (V3 (1/2) (1/2) (2/3))%R clamp3 grid3) = OK (q, 1))
  /\ r3d_clamp_ibox RN 512 p grid3 clamp3 (V3 (1/2) (1/2) (2/3))%R = OK (p', B').
Proof. exact (cube_clamp p0). Qed.
