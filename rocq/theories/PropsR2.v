(** * PropsR2: [r2d_clip], [r2d_split] (src/r2d.c) and [r2d_split_coord] (src/v2d.c) in rounded
    arithmetic (C80, C81).  [FN rnd] rounds after every operation; [accurate u rnd] bounds the
    relative error of one rounding by [u]; C79_binary64_rounding shows that rounding with 53 bits
    is such an arithmetic. *)
From Coq Require Import Reals ZArith List Bool Lia Lra.
From Verif Require Import Base Lib ModelCommon Model2 Spec2 RealNum Spec2R Cons2 Glue2 SpecC2 RndNum SpecR2 RndC2 RndE2 RndA2.
Import ListNotations.
Open Scope R_scope.

(** ** C80: rounding moves a cut by a few units in the last place *)

(** the vertices that [r2d_clip] returns are close to the input and to the inside of all lines,
    and vertices clearly inside all lines are returned as they are *)
Theorem C80_r2d_clip_rounded u rnd MX M (planes : list (plane2 R)) (p p' : pol2) : accurate u rnd -> 0 <= u <= 1 / 10 ->
  0 <= M -> wf2 p -> (nv p <= MX)%Z ->
  (forall v, (0 <= v < nv p)%Z -> within_abs2 M (ps (vb p) v)) ->
  r2d_clip (FN rnd) MX p planes = OK p' ->
  let Mn := M * (1 + 5 * u) ^ length planes in
  (forall v, (0 <= v < nv p')%Z -> within_abs2 Mn (ps (vb p') v)
     /\ (exists x, hull2 p x /\ near2 (Mn - M) (ps (vb p') v) x)
     /\ (forall pl, In pl planes -> - (5 * u * plane_size2 pl Mn + normal_size2 pl * (Mn - M)) <= sdist pl (ps (vb p') v)))
  /\ (forall v, (0 <= v < nv p)%Z -> (forall pl, In pl planes -> 5 * u * plane_size2 pl M < sdist pl (ps (vb p) v)) ->
        exists v', (0 <= v' < nv p')%Z /\ ps (vb p') v' = ps (vb p) v).
Proof. intros HA Hu. exact (r2d_clip_F u rnd HA Hu MX M planes p p'). Qed.
Print Assumptions C80_r2d_clip_rounded.

(** both halves of [r2d_split] *)
Theorem C80_r2d_split_rounded u rnd MX pl m ins outs : accurate u rnd -> 0 <= u <= 1 / 10 -> 0 <= m ->
  r2d_split (FN rnd) MX pl ins = OK outs ->
  Forall2 (fun (i o : pol2 * (pol2 * pol2)) => wf2 (fst i) -> (nv (fst i) <= MX)%Z ->
     (forall v, (0 <= v < nv (fst i))%Z -> within_abs2 m (ps (vb (fst i)) v)) ->
     side_near2 u pl m (fst i) (fst (snd o)) (-1) /\ side_near2 u pl m (fst i) (snd (snd o)) 1) ins outs.
Proof. exact (r2d_split_F u rnd MX pl m ins outs). Qed.
Print Assumptions C80_r2d_split_rounded.

(** both halves of the coordinate split of [r2d_rasterize] *)
Theorem C80_r2d_split_coord_rounded u rnd MX m (p o1 q0 q1 : pol2) coord ax : accurate u rnd -> 0 <= u <= 1 / 10 -> 0 <= m ->
  wf2 p -> (0 < nv p <= MX)%Z -> (0 <= ax < 2)%Z ->
  (forall v, (0 <= v < nv p)%Z -> within_abs2 m (ps (vb p) v)) ->
  r2d_split_coord (FN rnd) MX p o1 coord ax = OK (q0, q1) ->
  side_near2 u (axis_plane ax coord) m p q0 (-1) /\ side_near2 u (axis_plane ax coord) m p q1 1.
Proof. intros HA Hu. exact (split_coord_F u rnd HA Hu MX m p o1 q0 q1 coord ax). Qed.
Print Assumptions C80_r2d_split_coord_rounded.

(** the unit square and a slanted line, with 53 bits: a corner is cut off and a corner stays *)
Example C80_square_rounded (p0 : pol2) : let pl := PL2 (V2 (-1) (-1 / 3)) 1 in
  exists p p' o, r2d_init_box (FN rnd53) 256 p0 (V2 0 0) (V2 1 1) = OK p /\ wf2 p /\ (nv p <= 256)%Z
  /\ (forall v, (0 <= v < nv p)%Z -> within_abs2 1 (ps (vb p) v))
  /\ r2d_clip (FN rnd53) 256 p [pl] = OK p' /\ r2d_split (FN rnd53) 256 pl [(p, (p0, p0))] = OK o
  /\ (exists v, (0 <= v < nv p)%Z /\ 7 * u53 * plane_size2 pl 1 < sdist pl (ps (vb p) v))
  /\ (exists v, (0 <= v < nv p)%Z /\ sdist pl (ps (vb p) v) < - (7 * u53 * plane_size2 pl (1 * (1 + 5 * u53) ^ 1) + normal_size2 pl * (1 * (1 + 5 * u53) ^ 1 - 1))).
Proof. exact (square_rounded p0). Qed.

(** ** C81: a rounded split keeps the area up to rounding, even of polygons that are not convex *)
Theorem C81_r2d_split_area_rounded u rnd MX pl m ins outs : accurate u rnd -> 0 <= u <= 1 / 100 -> 0 <= m ->
  r2d_split (FN rnd) MX pl ins = OK outs ->
  Forall2 (fun (i o : pol2 * (pol2 * pol2)) => let p := fst i in let o0 := fst (snd o) in let o1 := snd (snd o) in
     wf2 p -> (nv p <= MX)%Z -> (forall v, (0 <= v < nv p)%Z -> within_abs2 m (ps (vb p) v)) ->
     Rabs (moment2 o0 0 0 + moment2 o1 0 0 - moment2 p 0 0) <= 30 * u * (m * m) * IZR (nv o0 + nv o1 - nv p)
     /\ (0 <= nv o0 + nv o1 - nv p <= 2 * nv p)%Z) ins outs.
Proof. exact (r2d_split_area u rnd MX pl m ins outs). Qed.
Print Assumptions C81_r2d_split_area_rounded.

Theorem C81_r2d_split_coord_area_rounded u rnd MX m (p o1 q0 q1 : pol2) coord ax : accurate u rnd -> 0 <= u <= 1 / 100 -> 0 <= m ->
  wf2 p -> (0 < nv p <= MX)%Z -> (0 <= ax < 2)%Z ->
  (forall v, (0 <= v < nv p)%Z -> within_abs2 m (ps (vb p) v)) ->
  r2d_split_coord (FN rnd) MX p o1 coord ax = OK (q0, q1) ->
  Rabs (moment2 q0 0 0 + moment2 q1 0 0 - moment2 p 0 0) <= 30 * u * (m * m) * IZR (nv q0 + nv q1 - nv p)
  /\ (0 <= nv q0 + nv q1 - nv p <= 2 * nv p)%Z.
Proof. intros HA Hu. exact (split_coord_area u rnd HA Hu MX m p o1 q0 q1 coord ax). Qed.
Print Assumptions C81_r2d_split_coord_area_rounded.

(** the square above meets the hypotheses, and 53 bits are enough for C81 *)
Example C81_u53 : 0 <= u53 <= 1 / 100.
Proof. unfold u53. cbn. lra. Qed.
