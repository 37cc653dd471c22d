(** * PropsR3: [r3d_clip], [r3d_split] (src/r3d.c) and [r3d_split_coord] (src/v3d.c) in rounded
    arithmetic (C79).  [FN rnd] rounds after every operation; [accurate u rnd] bounds the
    relative error of one rounding by [u]. *)
From Coq Require Import Reals ZArith List Bool Lia Lra.
From Verif Require Import Base Lib ModelCommon Model3 Spec3 RealNum Spec3R Cons3 Glue3 RndNum SpecR3 RndC3 RndE3.
Import ListNotations.
Open Scope R_scope.

(** ** C79: rounding moves a cut by a few units in the last place *)

(** rounding to nearest even with 53 bits is such an arithmetic *)
Theorem C79_binary64_rounding : accurate u53 rnd53 /\ 0 <= u53 <= 1 / 10.
Proof. exact (conj rnd53_accurate u53_small). Qed.
Print Assumptions C79_binary64_rounding.

(** the vertices that [r3d_clip] returns are close to the input and to the inside of all planes,
    and vertices clearly inside all planes are returned as they are *)
Theorem C79_r3d_clip_rounded u rnd MX M (planes : list (plane3 R)) (p p' : pol3) : accurate u rnd -> 0 <= u <= 1 / 10 ->
  0 <= M -> wf3 p -> (nv p <= MX)%Z ->
  (forall v, (0 <= v < nv p)%Z -> within_abs M (ps (vb p) v)) ->
  r3d_clip (FN rnd) MX p planes = OK (p', 1%Z) ->
  let Mn := M * (1 + 5 * u) ^ length planes in
  (forall v, (0 <= v < nv p')%Z -> within_abs Mn (ps (vb p') v)
     /\ (exists x, in_hull3 p x /\ near3 (Mn - M) (ps (vb p') v) x)
     /\ (forall pl, In pl planes -> - (5 * u * plane_size pl Mn + normal_size pl * (Mn - M)) <= sdist3 pl (ps (vb p') v)))
  /\ (forall v, (0 <= v < nv p)%Z -> (forall pl, In pl planes -> 5 * u * plane_size pl M < sdist3 pl (ps (vb p) v)) ->
        exists v', (0 <= v' < nv p')%Z /\ ps (vb p') v' = ps (vb p) v).
Proof. intros HA Hu. exact (r3d_clip_F u rnd HA Hu MX M planes p p'). Qed.
Print Assumptions C79_r3d_clip_rounded.

(** both halves of [r3d_split] *)
Theorem C79_r3d_split_rounded u rnd MX pl m ins outs : accurate u rnd -> 0 <= u <= 1 / 10 -> 0 <= m ->
  r3d_split (FN rnd) MX pl ins = OK (outs, 1%Z) ->
  Forall2 (fun (i o : pol3 * (pol3 * pol3)) => wf3 (fst i) -> (nv (fst i) <= MX)%Z ->
     (forall v, (0 <= v < nv (fst i))%Z -> within_abs m (ps (vb (fst i)) v)) ->
     side_near u pl m (fst i) (fst (snd o)) 1 /\ side_near u pl m (fst i) (snd (snd o)) (-1)) ins outs.
Proof. exact (r3d_split_F u rnd MX pl m ins outs). Qed.
Print Assumptions C79_r3d_split_rounded.

(** both halves of the coordinate split of [r3d_voxelize] *)
Theorem C79_r3d_split_coord_rounded u rnd MX m (p o1 q0 q1 : pol3) coord ax : accurate u rnd -> 0 <= u <= 1 / 10 -> 0 <= m ->
  wf3 p -> (0 < nv p <= MX)%Z -> (0 <= ax < 3)%Z ->
  (forall v, (0 <= v < nv p)%Z -> within_abs m (ps (vb p) v)) ->
  r3d_split_coord (FN rnd) MX p o1 coord ax = OK (q0, q1) ->
  side_near u (axis_plane3 ax coord) m p q0 (-1) /\ side_near u (axis_plane3 ax coord) m p q1 1.
Proof. intros HA Hu. exact (split3_coord_F u rnd HA Hu MX m p o1 q0 q1 coord ax). Qed.
Print Assumptions C79_r3d_split_coord_rounded.

(** the unit cube and a slanted plane, with 53 bits: a corner is cut off and a corner stays *)
Example C79_cube_rounded (p0 : pol3) : let pl := PL3 (V3 (-1) (-1) (-1 / 3)) (3 / 2) in
  exists p p', r3d_init_box (FN rnd53) 512 p0 (V3 0 0 0) (V3 1 1 1) = OK p /\ wf3 p /\ (nv p <= 512)%Z
  /\ (forall v, (0 <= v < nv p)%Z -> within_abs 1 (ps (vb p) v))
  /\ r3d_clip (FN rnd53) 512 p [pl] = OK (p', 1%Z)
  /\ (exists v, (0 <= v < nv p)%Z /\ 5 * u53 * plane_size pl 1 < sdist3 pl (ps (vb p) v))
  /\ (exists v, (0 <= v < nv p)%Z /\ sdist3 pl (ps (vb p) v) < - (5 * u53 * plane_size pl (1 * (1 + 5 * u53) ^ 1) + normal_size pl * (1 * (1 + 5 * u53) ^ 1 - 1))).
Proof. exact (cube_rounded p0). Qed.
