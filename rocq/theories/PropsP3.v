(** * PropsP3: the transforms of [src/r3d.c] and [src/r2d.c] map convex bodies to their images (C90). *)
From Coq Require Import Reals ZArith List Bool Lia Lra.
From Verif Require Import Base Lib SumR ModelCommon Model2 Model3 ModelV SpecI Spec2 Spec2R Spec3 Spec3R SpecC2 SpecC3 SpecF3 SpecP3 RealNum
  Reduce2 Reduce3 Cons2 Cons3 Small2 Trans3 ProjC3 ProjG3 ProjC2.
Import ListNotations.
Open Scope Z_scope.

(** ** C90: 3D *)
Theorem C90_r3d_translate_image MX (p : pol3) (sh : rvec3 R) : convex3 p -> nv p <= MX ->
  exists p', r3d_translate RN MX p sh = OK p' /\ image3 (fun q => V3 (x3 q + x3 sh) (y3 q + y3 sh) (z3 q + z3 sh))%R p p'.
Proof. exact (fun CV HM => translate_image MX p CV HM sh). Qed.
Print Assumptions C90_r3d_translate_image.

Theorem C90_r3d_scale_image MX (p : pol3) (s : R) : convex3 p -> nv p <= MX -> (0 < s)%R ->
  exists p', r3d_scale RN MX p s = OK p' /\ image3 (fun q => V3 (x3 q * s) (y3 q * s) (z3 q * s))%R p p'.
Proof. exact (fun CV HM => scale_image MX p CV HM s). Qed.
Print Assumptions C90_r3d_scale_image.

Theorem C90_r3d_shear_image MX (p : pol3) (s : R) axb axs : convex3 p -> nv p <= MX -> 0 <= axb < 3 -> 0 <= axs < 3 -> axb <> axs ->
  exists p', r3d_shear RN MX p s axb axs = OK p' /\ image3 (shear3_map s axb axs) p p'.
Proof. exact (fun CV HM => shear_image MX p CV HM s axb axs). Qed.
Print Assumptions C90_r3d_shear_image.

Theorem C90_r3d_rotate_image MX (p : pol3) (theta : R) axis : convex3 p -> nv p <= MX -> 0 <= axis < 3 ->
  exists p', r3d_rotate RN MX p theta axis = OK p' /\ image3 (rot3_map theta axis) p p'.
Proof. exact (fun CV HM => rotate_image MX p CV HM theta axis). Qed.
Print Assumptions C90_r3d_rotate_image.

(** also for matrices with a perspective row *)
Theorem C90_r3d_affine_image MX (p : pol3) (m : Z -> Z -> R) : convex3 p -> nv p <= MX -> (0 < det4 m)%R ->
  (forall v, 0 <= v < nv p -> (0 < row4 m 3 (ps (vb p) v))%R) -> exists p', r3d_affine RN MX p m = OK p' /\ image3 (proj4 m) p p'.
Proof. exact (fun CV HM => affine_image MX p CV HM m). Qed.
Print Assumptions C90_r3d_affine_image.

Theorem C90_r3d_moments_of_image MX i j k sh (g : rvec3 R -> rvec3 R) (p p' : pol3) (mom : Z -> R) po : image3 g p p' -> nv p' <= MX ->
  Z.of_nat i + Z.of_nat j + Z.of_nat k <= po ->
  exists mom', r3d_reduce RN MX sh p' mom po = OK mom'
  /\ integral3 (fun y => exists x, hull3 p x /\ y = g x) (fun x => x3 x ^ i * y3 x ^ j * z3 x ^ k)%R (mom' (idx3 (Z.of_nat i) (Z.of_nat j) (Z.of_nat k))).
Proof. exact (image_moments MX i j k sh g p p' mom po). Qed.
Print Assumptions C90_r3d_moments_of_image.

Theorem C90_r3d_clip_of_image MX (g : rvec3 R -> rvec3 R) (p p' o : pol3) planes : image3 g p p' -> nv p' <= MX -> r3d_clip RN MX p' planes = OK (o, 1) ->
  (forall y, hull3 o y <-> exists x, hull3 p x /\ y = g x /\ holds3 planes y)
  \/ (nv o = 0 /\ exists pl, In pl planes /\ forall x, hull3 p x -> holds3 planes (g x) -> sdist3 pl (g x) = 0%R).
Proof. exact (image_clip MX g p p' o planes). Qed.
Print Assumptions C90_r3d_clip_of_image.

(** ** C90: 2D *)
Theorem C90_r2d_translate_image MX (p : poly (rvec2 R)) (sh : rvec2 R) : convex_ccw p -> nv p <= MX ->
  exists p', r2d_translate RN MX p sh = OK p' /\ image2 (fun q => V2 (vx q + vx sh) (vy q + vy sh))%R p p'.
Proof. exact (fun CV HM => translate_image2 MX p CV HM sh). Qed.
Print Assumptions C90_r2d_translate_image.

Theorem C90_r2d_scale_image MX (p : poly (rvec2 R)) (s : R) : convex_ccw p -> nv p <= MX -> (0 < s)%R ->
  exists p', r2d_scale RN MX p s = OK p' /\ image2 (fun q => V2 (vx q * s) (vy q * s))%R p p'.
Proof. exact (fun CV HM => scale_image2 MX p CV HM s). Qed.
Print Assumptions C90_r2d_scale_image.

Theorem C90_r2d_shear_image MX (p : poly (rvec2 R)) (s : R) axb axs : convex_ccw p -> nv p <= MX -> 0 <= axb < 2 -> 0 <= axs < 2 -> axb <> axs ->
  exists p', r2d_shear RN MX p s axb axs = OK p' /\ image2 (shear_map s axb axs) p p'.
Proof. exact (fun CV HM => shear_image2 MX p CV HM s axb axs). Qed.
Print Assumptions C90_r2d_shear_image.

Theorem C90_r2d_affine_image MX (p : poly (rvec2 R)) (m : Z -> Z -> R) : convex_ccw p -> nv p <= MX -> (0 < det33 m)%R ->
  (forall v, 0 <= v < nv p -> (0 < row3 m 2 (ps (vb p) v))%R) -> exists p', r2d_affine RN MX p m = OK p' /\ image2 (proj3 m) p p'.
Proof. exact (fun CV HM => affine_image2 MX p CV HM m). Qed.
Print Assumptions C90_r2d_affine_image.

(** what [r2d_rotate] does instead of a rotation (C19), when the sine is positive *)
Theorem C90_r2d_rotate_actual_image MX (p : poly (rvec2 R)) (theta : R) : convex_ccw p -> nv p <= MX -> (0 < sin theta)%R ->
  exists p', r2d_rotate RN MX p theta = OK p' /\ image2 (fun q => V2 (sin theta * vx q + cos theta * vy q) (vy q))%R p p'.
Proof. exact (fun CV HM => rotate_image2 MX p CV HM theta). Qed.
Print Assumptions C90_r2d_rotate_actual_image.

Theorem C90_r2d_moments_of_image MX i j sh (g : rvec2 R -> rvec2 R) (p p' : poly (rvec2 R)) (mom : Z -> R) po : image2 g p p' -> nv p' <= MX ->
  Z.of_nat i + Z.of_nat j <= po ->
  exists mom', r2d_reduce RN MX sh p' mom po = OK mom'
  /\ integral2 (fun y => exists x, hull2 p x /\ y = g x) (fun x => vx x ^ i * vy x ^ j)%R (mom' (idx2 (Z.of_nat i) (Z.of_nat j))).
Proof. exact (image_moments2 MX i j sh g p p' mom po). Qed.
Print Assumptions C90_r2d_moments_of_image.

Theorem C90_r2d_clip_of_image MX (g : rvec2 R -> rvec2 R) (p p' o : poly (rvec2 R)) planes : image2 g p p' -> nv p' <= MX -> r2d_clip RN MX p' planes = OK o ->
  (forall y, hull2 o y <-> exists x, hull2 p x /\ y = g x /\ holds2 planes y)
  \/ (nv o = 0 /\ exists pl, In pl planes /\ forall x, hull2 p x -> holds2 planes (g x) -> sdist pl (g x) = 0%R).
Proof. exact (image_clip2 MX g p p' o planes). Qed.
Print Assumptions C90_r2d_clip_of_image.

(** the unit cube and the unit square with a perspective map *)
Example cube_persp_ok p0 : exists p, r3d_init_box RN 512 p0 (V3 0 0 0)%R (V3 1 1 1)%R = OK p /\ convex3 p /\ nv p <= 512 /\ (0 < det4 persp)%R
  /\ forall v, 0 <= v < nv p -> (0 < row4 persp 3 (ps (vb p) v))%R.
Proof. exact (cube_persp p0). Qed.
Example square_persp_ok p0 : exists p, r2d_init_box RN 256 p0 (V2 0 0)%R (V2 1 1)%R = OK p /\ convex_ccw p /\ nv p <= 256 /\ (0 < det33 persp2)%R
  /\ forall v, 0 <= v < nv p -> (0 < row3 persp2 2 (ps (vb p) v))%R.
Proof. exact (square_persp p0). Qed.
