(** * PropsC2: convex polygons under [r2d_clip], [r2d_split], [r2d_reduce] (src/r2d.c),
    [r2d_clamp_ibox] and [r2d_rasterize] (src/v2d.c): the sets and the areas (C72-C74). *)
From Coq Require Import Reals ZArith List Bool Lia Lra.
From Verif Require Import Base Lib SumR ModelCommon Model2 ModelV RealNum SpecNV SpecNJ Spec2 Spec2R Cons2 Reduce2
  Vox2 SpecC2 ClipC2 InitC2 AreaC2 RastC2 GlueC2.
Import ListNotations.
Open Scope Z_scope.
Notation pol2 := (poly (rvec2 R)).

(** ** C72: clips and splits are intersections with half-planes *)
Theorem C72_r2d_clip_intersects MX (p p' : pol2) planes : convex_ccw p -> nv p <= MX -> r2d_clip RN MX p planes = OK p' ->
  convex_ccw p' /\ ((forall x, hull2 p' x <-> hull2 p x /\ holds2 planes x)
    \/ (nv p' = 0 /\ exists pl, In pl planes /\ forall x, hull2 p x -> holds2 planes x -> sdist pl x = 0%R)).
Proof. exact (r2d_clip_hull MX p p' planes). Qed.
Print Assumptions C72_r2d_clip_intersects.

Theorem C72_r2d_clip_returns MX (p : pol2) planes : convex_ccw p -> nv p + Z.of_nat (length planes) + 1 <= MX ->
  exists p', r2d_clip RN MX p planes = OK p' /\ nv p' <= nv p + Z.of_nat (length planes).
Proof. exact (r2d_clip_room MX p planes). Qed.
Print Assumptions C72_r2d_clip_returns.

(** the first output is on the outer side, see C08 *)
Theorem C72_r2d_split_intersects MX pl ins outs : r2d_split RN MX pl ins = OK outs ->
  Forall2 (fun (i o : pol2 * (pol2 * pol2)) => convex_ccw (fst i) -> nv (fst i) <= MX ->
     side_of2 (fst i) (flip pl) (fst (snd o)) /\ side_of2 (fst i) pl (snd (snd o))) ins outs.
Proof. exact (split_hulls MX pl ins outs). Qed.
Print Assumptions C72_r2d_split_intersects.

(** points in strict counterclockwise order *)
Theorem C72_r2d_init_poly_convex MX (p p' : pol2) (l : list (rvec2 R)) : 3 <= Z.of_nat (length l) <= MX -> strict_ccw l -> r2d_init_poly RN MX p l = OK p' ->
  convex_ccw p' /\ nv p' = Z.of_nat (length l)
  /\ forall x, hull2 p' x <-> forall g, (forall q, In q l -> (0 <= sdist g q)%R) -> (0 <= sdist g x)%R.
Proof. exact (init_poly_convex MX p p' l). Qed.
Print Assumptions C72_r2d_init_poly_convex.

Theorem C72_r2d_init_box_convex MX (p p' : pol2) lo hi : 4 <= MX -> (vx lo <= vx hi)%R -> (vy lo <= vy hi)%R -> r2d_init_box RN MX p lo hi = OK p' ->
  convex_ccw p' /\ nv p' = 4 /\ forall x, hull2 p' x <-> (vx lo <= vx x <= vx hi /\ vy lo <= vy x <= vy hi)%R.
Proof. exact (init_box_convex MX p p' lo hi). Qed.
Print Assumptions C72_r2d_init_box_convex.

(** the square, cut and split through two of its corners, and a pentagon *)
Example square_clip_ok p0 : exists p p', r2d_init_box RN 256 p0 (V2 0 0)%R (V2 1 1)%R = OK p /\ convex_ccw p
  /\ r2d_clip RN 256 p [PL2 (V2 1 (-1)) 0; PL2 (V2 (-1) (-2)) (3 / 2)]%R = OK p'.
Proof. exact (square_clip p0). Qed.
Example square_split_ok p0 : exists p o, r2d_init_box RN 256 p0 (V2 0 0)%R (V2 1 1)%R = OK p /\ convex_ccw p
  /\ r2d_split RN 256 (PL2 (V2 1 (-1)) 0)%R [(p, (p0, p0))] = OK o.
Proof. exact (square_split p0). Qed.
Example penta_ok : strict_ccw [V2 0 0; V2 2 (-1); V2 4 1; V2 3 3; V2 (-1) 2]%R.
Proof. exact penta_ccw. Qed.

(** ** C73: the first moment is the area *)
Theorem C73_r2d_reduce_area MX sh (p : pol2) (mom : Z -> R) po : 0 <= po -> convex_ccw p -> nv p <= MX ->
  exists mom', r2d_reduce RN MX sh p mom po = OK mom' /\ content2 (hull2 p) (mom' 0).
Proof. exact (reduce_area MX sh p mom po). Qed.
Print Assumptions C73_r2d_reduce_area.

Theorem C73_r2d_clip_area MX sh (p p' : pol2) planes (mom : Z -> R) po : 0 <= po -> convex_ccw p -> nv p <= MX -> (forall pl, In pl planes -> proper2 pl) ->
  r2d_clip RN MX p planes = OK p' ->
  exists mom', r2d_reduce RN MX sh p' mom po = OK mom' /\ content2 (fun x => hull2 p x /\ holds2 planes x) (mom' 0).
Proof. exact (clip_reduce_area MX sh p p' planes mom po). Qed.
Print Assumptions C73_r2d_clip_area.

Theorem C73_r2d_split_areas MX pl ins outs : proper2 pl -> r2d_split RN MX pl ins = OK outs ->
  Forall2 (fun (i o : pol2 * (pol2 * pol2)) => convex_ccw (fst i) -> nv (fst i) <= MX ->
     content2 (fun x => hull2 (fst i) x /\ (sdist pl x <= 0)%R) (moment2 (fst (snd o)) 0 0)
     /\ content2 (fun x => hull2 (fst i) x /\ (0 <= sdist pl x)%R) (moment2 (snd (snd o)) 0 0)) ins outs.
Proof. exact (split_areas MX pl ins outs). Qed.
Print Assumptions C73_r2d_split_areas.

Theorem C73_content2_unique (K : rvec2 R -> Prop) (t s : R) : content2 K t -> content2 K s -> t = s.
Proof. exact (content2_unique K t s). Qed.
Print Assumptions C73_content2_unique.

(** ** C74: areas on the grid *)
(** [e] is the entry of the first moment of the cell *)
Theorem C74_r2d_rasterize_area MX sh po stk0 mom0 (p : pol2) B (gr gr' : Z -> R) d : 0 <= po -> convex_ccw p -> nv p <= MX -> cells_ok (num_moments2 po) B ->
  (0 <= vx d)%R -> (0 <= vy d)%R -> within d B p -> r2d_rasterize RN MX sh po stk0 mom0 p B gr d = OK gr' ->
  forall a b, fst B 0 <= a < snd B 0 -> fst B 1 <= b < snd B 1 ->
  let e := num_moments2 po * ((a - fst B 0) * (snd B 1 - fst B 1) + (b - fst B 1)) in
  content2 (fun x => hull2 p x /\ in_cell2 d a b x) (gr' e - gr e)%R.
Proof. exact (rasterize_area MX sh po stk0 mom0 p B gr gr' d). Qed.
Print Assumptions C74_r2d_rasterize_area.

(** every entry of a cell grows by the moment of a convex polygon that is the part of [p] in the cell *)
Theorem C74_r2d_rasterize_parts MX sh po stk0 mom0 (p : pol2) B (gr gr' : Z -> R) d : 0 <= po -> convex_ccw p -> nv p <= MX -> cells_ok (num_moments2 po) B ->
  (0 <= vx d)%R -> (0 <= vy d)%R -> within d B p -> r2d_rasterize RN MX sh po stk0 mom0 p B gr d = OK gr' ->
  forall a b, fst B 0 <= a < snd B 0 -> fst B 1 <= b < snd B 1 ->
  exists o : pol2, convex_ccw o
  /\ ((forall x, hull2 o x <-> hull2 p x /\ in_cell2 d a b x)
      \/ (nv o = 0 /\ exists g, proper2 g /\ forall x, hull2 p x -> in_cell2 d a b x -> sdist g x = 0%R))
  /\ forall i j, (i + j <= Z.to_nat po)%nat ->
     let e := num_moments2 po * ((a - fst B 0) * (snd B 1 - fst B 1) + (b - fst B 1)) + idx2 (Z.of_nat i) (Z.of_nat j) in
     (gr' e = gr e + moment2 o i j)%R.
Proof. exact (rasterize_pieces MX sh po stk0 mom0 p B gr gr' d). Qed.
Print Assumptions C74_r2d_rasterize_parts.

(** [r2d_clamp_ibox] keeps the part of the polygon in the region of the clamp box *)
Theorem C74_r2d_clamp_area MX (p p' : pol2) B cb B' (d : rvec2 R) : (forall i, 0 <= i < 2 -> - int_max <= fst cb i <= int_max) ->
  convex_ccw p -> nv p <= MX -> (0 <= vx d)%R -> (0 <= vy d)%R -> within d B p -> r2d_clamp_ibox RN MX p B cb d = OK (p', B') ->
  convex_ccw p' /\ content2 (fun x => hull2 p x /\ in_cells2 d cb x) (moment2 p' 0 0)
  /\ ((forall x, hull2 p' x <-> hull2 p x /\ in_cells2 d cb x) \/ nv p' = 0).
Proof. exact (clamp_area MX p p' B cb B' d). Qed.
Print Assumptions C74_r2d_clamp_area.

(** the square on a grid with spacings 1/2, 1/3: lines of the grid hold its edges *)
Example square_raster_ok p0 stk0 mom0 : exists p gr', r2d_init_box RN 256 p0 (V2 0 0)%R (V2 1 1)%R = OK p /\ convex_ccw p /\ nv p <= 256
  /\ within (V2 (1/2) (1/3))%R grid4 p /\ cells_ok (num_moments2 2) grid4
  /\ r2d_rasterize RN 256 false 2 stk0 mom0 p grid4 (fun _ => 0%R) (V2 (1/2) (1/3))%R = OK gr'.
Proof. exact (square_raster p0 stk0 mom0). Qed.
Example square_clamp_ok p0 : exists p p' B', r2d_init_box RN 256 p0 (V2 0 0)%R (V2 1 1)%R = OK p /\ convex_ccw p /\ nv p <= 256
  /\ within (V2 (1/2) (1/3))%R grid4 p /\ (forall i, 0 <= i < 2 -> - int_max <= fst clamp4 i <= int_max)
  /\ r2d_clamp_ibox RN 256 p grid4 clamp4 (V2 (1/2) (1/3))%R = OK (p', B').
Proof. exact (square_clamp p0). Qed.
