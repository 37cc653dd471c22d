(** * PropsRF3: the volumes of the two parts of [r3d_split] (src/r3d.c) and [r3d_split_coord]
    (src/v3d.c), and the flatness of the faces of [r3d_clip], in rounded arithmetic (C85).
    [svol6] is six times the signed volume of a tetrahedron; [flat_faces e p]: any four vertices
    of one face of [p] span at most [e / 6]. *)
From Coq Require Import Reals ZArith List Bool Lia Lra.
From Verif Require Import Base Lib ModelCommon Model3 Spec3 RealNum Spec3R Cons3 RndNum SpecR3 SpecL3 RndA3 RndG3.
Import ListNotations.
Open Scope R_scope.

(** ** C85: a rounded split keeps the volume up to rounding, even of polyhedra that are not convex *)
Theorem C85_r3d_split_volume_rounded u rnd MX pl m e ins outs : accurate u rnd -> 0 <= u <= 1 / 100 -> 0 <= m -> 0 <= e ->
  r3d_split (FN rnd) MX pl ins = OK (outs, 1%Z) ->
  Forall2 (fun (i o : pol3 * (pol3 * pol3)) => let p := fst i in let o0 := fst (snd o) in let o1 := snd (snd o) in let e' := e + 3200 * u * m ^ 3 in
     wf3 p -> (nv p <= MX)%Z -> (forall v, (0 <= v < nv p)%Z -> within_abs m (ps (vb p) v)) -> flat_faces e p ->
     flat_faces e' o0 /\ flat_faces e' o1
     /\ Rabs (moment3 o0 0 0 0 + moment3 o1 0 0 0 - moment3 p 0 0 0) <= 2 * IZR (nv o0 + nv o1) * e') ins outs.
Proof. exact (r3d_split_flat u rnd MX pl m e ins outs). Qed.
Print Assumptions C85_r3d_split_volume_rounded.

Theorem C85_r3d_split_coord_volume_rounded u rnd MX m e (p o1 q0 q1 : pol3) coord ax : accurate u rnd -> 0 <= u <= 1 / 100 -> 0 <= m -> 0 <= e ->
  wf3 p -> (0 < nv p <= MX)%Z -> (0 <= ax < 3)%Z ->
  (forall v, (0 <= v < nv p)%Z -> within_abs m (ps (vb p) v)) -> flat_faces e p ->
  r3d_split_coord (FN rnd) MX p o1 coord ax = OK (q0, q1) -> let e' := e + 3200 * u * m ^ 3 in
  flat_faces e' q0 /\ flat_faces e' q1
  /\ Rabs (moment3 q0 0 0 0 + moment3 q1 0 0 0 - moment3 p 0 0 0) <= 2 * IZR (nv q0 + nv q1) * e'.
Proof. intros HA Hu. exact (split3_coord_flat u rnd HA Hu MX m e p o1 q0 q1 coord ax). Qed.
Print Assumptions C85_r3d_split_coord_volume_rounded.

(** the faces of a rounded clip are nearly flat *)
Theorem C85_r3d_clip_flat_rounded u rnd MX M e (planes : list (plane3 R)) (p p' : pol3) : accurate u rnd -> 0 <= u <= 1 / 100 -> 0 <= M -> 0 <= e ->
  wf3 p -> (nv p <= MX)%Z -> (forall v, (0 <= v < nv p)%Z -> within_abs M (ps (vb p) v)) -> flat_faces e p ->
  r3d_clip (FN rnd) MX p planes = OK (p', 1%Z) ->
  flat_faces (e + INR (length planes) * (3200 * u * (M * (1 + 5 * u) ^ length planes) ^ 3)) p'.
Proof. intros HA Hu. exact (r3d_clip_flat u rnd HA Hu MX M e planes p p'). Qed.
Print Assumptions C85_r3d_clip_flat_rounded.

(** a polyhedron whose faces are planar starts with [e = 0] *)
Theorem C85_planar_flat (p : pol3) : planar_faces p -> flat_faces 0 p.
Proof. exact (planar_flat p). Qed.
Print Assumptions C85_planar_flat.

(** the unit cube, split by a slanted plane that passes between its corners and by [x = 1/3], with 53 bits *)
Example C85_cube_rounded (p0 : pol3) : let pl := PL3 (V3 (-1) (-1) (-1 / 3)) (3 / 2) in
  exists p o, r3d_init_box (FN rnd53) 512 p0 (V3 0 0 0) (V3 1 1 1) = OK p /\ wf3 p /\ (0 < nv p <= 512)%Z
  /\ (forall v, (0 <= v < nv p)%Z -> within_abs 1 (ps (vb p) v)) /\ flat_faces 0 p
  /\ r3d_split (FN rnd53) 512 pl [(p, (p0, p0))] = OK (o, 1%Z)
  /\ (exists q0 q1, r3d_split_coord (FN rnd53) 512 p p0 (1 / 3) 0 = OK (q0, q1)).
Proof. exact (cube_split_rounded p0). Qed.
