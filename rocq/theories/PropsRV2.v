(** * PropsRV2: [r2d_reduce] (src/r2d.c) and [r2d_rasterize] (src/v2d.c) in rounded arithmetic
    (C82, C83).  [FN rnd] rounds after every operation; [accurate u rnd] bounds the relative
    error of one rounding by [u]; C79_binary64_rounding shows that rounding with 53 bits is such
    an arithmetic. *)
From Coq Require Import Reals ZArith List Bool Lia Lra.
From Verif Require Import Base Lib SumR ModelCommon Model2 ModelV Spec2 RealNum Spec2R Reduce2 Mom2 Cons2 Vox2 RndNum SpecR2 RndC2 RndE2 RndM2 RndV2.
Import ListNotations.
Open Scope R_scope.

(** ** C82: every moment of [r2d_reduce] has a small error *)
Theorem C82_r2d_reduce_rounded u rnd MX (p : pol2) mom po m : accurate u rnd -> 0 <= u <= 1 / 10 -> 0 <= m -> (0 <= po)%Z -> wf2 p -> (nv p <= MX)%Z ->
  (forall v, (0 <= v < nv p)%Z -> within_abs2 m (ps (vb p) v)) ->
  exists mom', r2d_reduce (FN rnd) MX false p mom po = OK mom'
  /\ (forall i j, (i + j <= Z.to_nat po)%nat -> 2 * u * INR (8 * (i + j) + Z.to_nat (nv p) + 13) <= 1 ->
       Rabs (mom' (idx2 (Z.of_nat i) (Z.of_nat j)) - moment2 p i j)
         <= 2 * u * INR (8 * (i + j) + Z.to_nat (nv p) + 13) * (IZR (nv p) * (2 / INR (i + j + 2) * m ^ (i + j + 2))))
  /\ (forall k, ~ (0 <= k < num_moments2 po)%Z -> mom' k = mom k).
Proof. exact (reduce_linear u rnd MX p mom po m). Qed.
Print Assumptions C82_r2d_reduce_rounded.

(** with 53 bits the condition on the order and the number of vertices is mild *)
Example C82_condition : 2 * u53 * INR (8 * 20 + 256 + 13) <= 1.
Proof.
  assert (U : 0 <= u53 <= 1 / 1000). { unfold u53. cbn. lra. }
  change (8 * 20 + 256 + 13)%nat with 429%nat. rewrite INR_IZR_INZ. change (Z.of_nat 429) with 429%Z. lra.
Qed.

(** ** C83: the areas that [r2d_rasterize] adds to the cells sum to the area of the polygon,
    convex or not, up to rounding *)
Theorem C83_r2d_rasterize_area_rounded u rnd MX po stk0 mom0 m G (p : pol2) B (d : rvec2 R) (gr gr' : Z -> R) : accurate u rnd -> 0 <= u <= 1 / 100 ->
  (0 <= po)%Z -> wf2 p -> (0 < nv p <= MX)%Z -> cells_ok (num_moments2 po) B ->
  0 <= m -> (forall v, (0 <= v < nv p)%Z -> within_abs2 m (ps (vb p) v)) ->
  2 * u * (IZR MX + 14) <= 1 -> 50 * u * IZR (snd B 0%Z - fst B 0%Z + (snd B 1%Z - fst B 1%Z)) <= 1 ->
  let cells := ((snd B 0%Z - fst B 0%Z) * (snd B 1%Z - fst B 1%Z))%Z in
  0 <= G -> (forall c, (0 <= c < cells)%Z -> Rabs (gr (num_moments2 po * c)%Z) <= G) ->
  r2d_rasterize (FN rnd) MX false po stk0 mom0 p B gr d = OK gr' ->
  Rabs (lsum (zrange cells) (fun c => gr' (num_moments2 po * c)%Z - gr (num_moments2 po * c)%Z) - moment2 p 0 0)
    <= 3 * u * (IZR MX + 29) * (G + IZR MX * (m * m)) * IZR cells.
Proof. intros HA Hu. exact (rasterize_area_F u rnd HA Hu MX po stk0 mom0 m G p B d gr gr'). Qed.
Print Assumptions C83_r2d_rasterize_area_rounded.

(** in every arithmetic, [r2d_rasterize] stays in the buffers when three times the vertices fit
    at each level of the bisection *)
Theorem C83_r2d_rasterize_room (N : num) (MX po : Z) stk0 mom0 (p : poly (rvec2 (T N))) B gr d : (0 <= po)%Z -> wf2 p -> (0 < nv p)%Z ->
  (nv p * 3 ^ (Z.log2_up (snd B 0%Z - fst B 0%Z) + Z.log2_up (snd B 1%Z - fst B 1%Z)) <= MX)%Z -> cells_ok (num_moments2 po) B ->
  exists gr', r2d_rasterize N MX false po stk0 mom0 p B gr d = OK gr'.
Proof. exact (rasterize_room N MX po stk0 mom0 p B gr d). Qed.
Print Assumptions C83_r2d_rasterize_room.

(** the unit square on a grid of 2 by 2 cells, with 53 bits *)
Example C83_square (p0 : pol2) stk0 mom0 : let B := ((fun _ => 0%Z), (fun _ => 2%Z)) : box in let d := V2 (1 / 2) (1 / 2) : rvec2 R in
  exists p gr', r2d_init_box (FN rnd53) 256 p0 (V2 0 0) (V2 1 1) = OK p /\ wf2 p /\ (0 < nv p <= 256)%Z
  /\ (forall v, (0 <= v < nv p)%Z -> within_abs2 1 (ps (vb p) v)) /\ cells_ok (num_moments2 2) B
  /\ 2 * u53 * (IZR 256 + 14) <= 1 /\ 50 * u53 * IZR (2 - 0 + (2 - 0)) <= 1
  /\ r2d_rasterize (FN rnd53) 256 false 2 stk0 mom0 p B (fun _ => 0) d = OK gr'.
Proof. exact (square_raster p0 stk0 mom0). Qed.
