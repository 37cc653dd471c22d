(** * PropsI2: the moments of convex polygons under [r2d_reduce], [r2d_clip], [r2d_split]
    (src/r2d.c), [r2d_clamp_ibox] and [r2d_rasterize] (src/v2d.c) are integrals (C75, C77). *)
From Coq Require Import Reals ZArith List Bool Lia Lra.
From Verif Require Import Base Lib SumR ModelCommon Model2 ModelV RealNum SpecNV SpecNJ SpecI Spec2 Spec2R Cons2 Reduce2
  Vox2 SpecC2 RastC2 GlueC2 IntC2.
Import ListNotations.
Open Scope Z_scope.
Notation pol2 := (poly (rvec2 R)).

(** ** C75: entry [idx2 i j] of [r2d_reduce] is the integral of [x^i y^j] *)
Theorem C75_r2d_reduce_integral MX i j sh (p : pol2) (mom : Z -> R) po : convex_ccw p -> nv p <= MX -> Z.of_nat i + Z.of_nat j <= po ->
  exists mom', r2d_reduce RN MX sh p mom po = OK mom'
  /\ integral2 (hull2 p) (fun x => vx x ^ i * vy x ^ j)%R (mom' (idx2 (Z.of_nat i) (Z.of_nat j))).
Proof. exact (reduce_integral MX i j sh p mom po). Qed.
Print Assumptions C75_r2d_reduce_integral.

Theorem C75_r2d_clip_integral MX i j sh (p p' : pol2) planes (mom : Z -> R) po : convex_ccw p -> nv p <= MX -> (forall pl, In pl planes -> proper2 pl) ->
  r2d_clip RN MX p planes = OK p' -> Z.of_nat i + Z.of_nat j <= po ->
  exists mom', r2d_reduce RN MX sh p' mom po = OK mom'
  /\ integral2 (fun x => hull2 p x /\ holds2 planes x) (fun x => vx x ^ i * vy x ^ j)%R (mom' (idx2 (Z.of_nat i) (Z.of_nat j))).
Proof. exact (clip_reduce_integral MX i j sh p p' planes mom po). Qed.
Print Assumptions C75_r2d_clip_integral.

Theorem C75_r2d_split_integrals MX i j pl ins outs : proper2 pl -> r2d_split RN MX pl ins = OK outs ->
  Forall2 (fun (p o : pol2 * (pol2 * pol2)) => convex_ccw (fst p) -> nv (fst p) <= MX ->
     integral2 (fun x => hull2 (fst p) x /\ (sdist pl x <= 0)%R) (fun x => vx x ^ i * vy x ^ j)%R (moment2 (fst (snd o)) i j)
     /\ integral2 (fun x => hull2 (fst p) x /\ (0 <= sdist pl x)%R) (fun x => vx x ^ i * vy x ^ j)%R (moment2 (snd (snd o)) i j)) ins outs.
Proof. exact (split_integrals MX i j pl ins outs). Qed.
Print Assumptions C75_r2d_split_integrals.

(** a set and a function have one integral only, and a constant has the expected one *)
Theorem C75_integral2_unique (K : rvec2 R -> Prop) f t s : integral2 K f t -> integral2 K f s -> t = s.
Proof. exact (integral2_unique K f t s). Qed.
Print Assumptions C75_integral2_unique.

Theorem C75_integral2_constant (K : rvec2 R -> Prop) c t : content2 K t -> integral2 K (fun _ => c) (c * t)%R.
Proof. exact (integral2_const K c t). Qed.
Print Assumptions C75_integral2_constant.

(** the square, cut and split through two of its corners *)
Example square_clip_ok p0 : exists p p', r2d_init_box RN 256 p0 (V2 0 0)%R (V2 1 1)%R = OK p /\ convex_ccw p
  /\ r2d_clip RN 256 p [PL2 (V2 1 (-1)) 0; PL2 (V2 (-1) (-2)) (3 / 2)]%R = OK p'.
Proof. exact (square_clip p0). Qed.
Example square_split_ok p0 : exists p o, r2d_init_box RN 256 p0 (V2 0 0)%R (V2 1 1)%R = OK p /\ convex_ccw p
  /\ r2d_split RN 256 (PL2 (V2 1 (-1)) 0)%R [(p, (p0, p0))] = OK o.
Proof. exact (square_split p0). Qed.

(** ** C77: integrals on the grid *)
(** [e] is the entry of the moment [i], [j] of the cell *)
Theorem C77_r2d_rasterize_integral MX i j sh po stk0 mom0 (p : pol2) B (gr gr' : Z -> R) d : convex_ccw p -> nv p <= MX -> cells_ok (num_moments2 po) B ->
  (0 <= vx d)%R -> (0 <= vy d)%R -> within d B p -> r2d_rasterize RN MX sh po stk0 mom0 p B gr d = OK gr' -> Z.of_nat i + Z.of_nat j <= po ->
  forall a b, fst B 0 <= a < snd B 0 -> fst B 1 <= b < snd B 1 ->
  let e := num_moments2 po * ((a - fst B 0) * (snd B 1 - fst B 1) + (b - fst B 1)) + idx2 (Z.of_nat i) (Z.of_nat j) in
  integral2 (fun x => hull2 p x /\ in_cell2 d a b x) (fun x => vx x ^ i * vy x ^ j)%R (gr' e - gr e)%R.
Proof. exact (rasterize_integral MX i j sh po stk0 mom0 p B gr gr' d). Qed.
Print Assumptions C77_r2d_rasterize_integral.

Theorem C77_r2d_clamp_integral MX i j (p p' : pol2) B cb B' (d : rvec2 R) : (forall i, 0 <= i < 2 -> - int_max <= fst cb i <= int_max) ->
  convex_ccw p -> nv p <= MX -> (0 <= vx d)%R -> (0 <= vy d)%R -> within d B p -> r2d_clamp_ibox RN MX p B cb d = OK (p', B') ->
  integral2 (fun x => hull2 p x /\ in_cells2 d cb x) (fun x => vx x ^ i * vy x ^ j)%R (moment2 p' i j).
Proof. exact (clamp_integral MX i j p p' B cb B' d). Qed.
Print Assumptions C77_r2d_clamp_integral.

(** the square on a grid with spacings 1/2, 1/3: lines of the grid hold its edges *)
Example square_raster_ok p0 stk0 mom0 : exists p gr', r2d_init_box RN 256 p0 (V2 0 0)%R (V2 1 1)%R = OK p /\ convex_ccw p /\ nv p <= 256
  /\ within (V2 (1/2) (1/3))%R grid4 p /\ cells_ok (num_moments2 2) grid4
  /\ r2d_rasterize RN 256 false 2 stk0 mom0 p grid4 (fun _ => 0%R) (V2 (1/2) (1/3))%R = OK gr'.
Proof. exact (square_raster p0 stk0 mom0). Qed.
Example square_clamp_ok p0 : exists p p' B', r2d_init_box RN 256 p0 (V2 0 0)%R (V2 1 1)%R = OK p /\ convex_ccw p /\ nv p <= 256
  /\ within (V2 (1/2) (1/3))%R grid4 p /\ (forall i, 0 <= i < 2 -> - int_max <= fst clamp4 i <= int_max)
  /\ r2d_clamp_ibox RN 256 p grid4 clamp4 (V2 (1/2) (1/3))%R = OK (p', B').
Proof. exact (square_clamp p0). Qed.
