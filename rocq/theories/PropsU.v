(** * PropsU: property C98.  Proofs are in FanOrd3, Units. *)
From Coq Require Import Reals ZArith List Bool Lia Lra.
From Flocq Require Import Core.
From Verif Require Import Base Lib ModelCommon Model2 Model3 RealNum RndNum Spec2 Spec3 Spec2R SpecEq Reduce2 Reduce3 EqvF3 Units.
From Verif Require Mom3 Glue3 Glue2 GlueC2.
Import ListNotations.
Open Scope Z_scope.

(** ** C98: rounded moments in other units *)
(** The rounding may be anything at all; the factors are those it does not notice. *)
Theorem C98_r3d_reduce_units rnd MX sx sy sz (p p' : poly (rvec3 R)) mom mom' po : exact_factor rnd sx -> exact_factor rnd sy -> exact_factor rnd sz ->
  0 <= po -> wf3 p -> nv p <= MX -> scaled_verts3 sx sy sz p p' ->
  exists m m', r3d_reduce (FN rnd) MX false p mom po = OK m /\ r3d_reduce (FN rnd) MX false p' mom' po = OK m'
  /\ forall i j k, Z.of_nat i + Z.of_nat j + Z.of_nat k <= po ->
       m' (idx3 (Z.of_nat i) (Z.of_nat j) (Z.of_nat k)) = (sx * sy * sz * (sx ^ i * sy ^ j * sz ^ k) * m (idx3 (Z.of_nat i) (Z.of_nat j) (Z.of_nat k)))%R.
Proof. exact (fun HX HY HZ => reduce3_units rnd sx sy sz HX HY HZ MX p p' mom mom' po). Qed.
Print Assumptions C98_r3d_reduce_units.

Theorem C98_r2d_reduce_units rnd MX sx sy (p p' : poly (rvec2 R)) mom mom' po : exact_factor rnd sx -> exact_factor rnd sy ->
  0 <= po -> wf2 p -> nv p <= MX -> scaled_verts2 sx sy p p' ->
  exists m m', r2d_reduce (FN rnd) MX false p mom po = OK m /\ r2d_reduce (FN rnd) MX false p' mom' po = OK m'
  /\ forall i j, Z.of_nat i + Z.of_nat j <= po ->
       m' (idx2 (Z.of_nat i) (Z.of_nat j)) = (sx * sy * (sx ^ i * sy ^ j) * m (idx2 (Z.of_nat i) (Z.of_nat j)))%R.
Proof. exact (fun HX HY => reduce2_units rnd sx sy HX HY MX p p' mom mom' po). Qed.
Print Assumptions C98_r2d_reduce_units.

(** clip and reduce together *)
Theorem C98_r3d_clip_reduce_units u rnd MX sx sy sz c (p p' q : poly (rvec3 R)) planes planes' mom mom' po : accurate u rnd -> (0 <= u <= 1 / 10)%R ->
  exact_factor rnd sx -> exact_factor rnd sy -> exact_factor rnd sz -> exact_factor rnd c -> (0 < c)%R ->
  0 <= po -> wf3 p -> nv p <= MX -> scaled_verts3 sx sy sz p p' -> Forall2 (scaled_plane3 sx sy sz c) planes planes' ->
  r3d_clip (FN rnd) MX p planes = OK (q, 1) ->
  exists q' m m', r3d_clip (FN rnd) MX p' planes' = OK (q', 1) /\ r3d_reduce (FN rnd) MX false q mom po = OK m /\ r3d_reduce (FN rnd) MX false q' mom' po = OK m'
  /\ forall i j k, Z.of_nat i + Z.of_nat j + Z.of_nat k <= po ->
       m' (idx3 (Z.of_nat i) (Z.of_nat j) (Z.of_nat k)) = (sx * sy * sz * (sx ^ i * sy ^ j * sz ^ k) * m (idx3 (Z.of_nat i) (Z.of_nat j) (Z.of_nat k)))%R.
Proof. exact (clip_reduce3_units u rnd MX sx sy sz c p p' q planes planes' mom mom' po). Qed.
Print Assumptions C98_r3d_clip_reduce_units.

Theorem C98_r2d_clip_reduce_units u rnd MX sx sy c (p p' q : poly (rvec2 R)) planes planes' mom mom' po : accurate u rnd -> (0 <= u <= 1 / 10)%R ->
  exact_factor rnd sx -> exact_factor rnd sy -> exact_factor rnd c -> (0 < c)%R ->
  0 <= po -> wf2 p -> nv p <= MX -> scaled_verts2 sx sy p p' -> Forall2 (scaled_plane2 sx sy c) planes planes' ->
  r2d_clip (FN rnd) MX p planes = OK q ->
  exists q' m m', r2d_clip (FN rnd) MX p' planes' = OK q' /\ r2d_reduce (FN rnd) MX false q mom po = OK m /\ r2d_reduce (FN rnd) MX false q' mom' po = OK m'
  /\ forall i j, Z.of_nat i + Z.of_nat j <= po ->
       m' (idx2 (Z.of_nat i) (Z.of_nat j)) = (sx * sy * (sx ^ i * sy ^ j) * m (idx2 (Z.of_nat i) (Z.of_nat j)))%R.
Proof. exact (clip_reduce2_units u rnd MX sx sy c p p' q planes planes' mom mom' po). Qed.
Print Assumptions C98_r2d_clip_reduce_units.

(** ** The hypotheses are met: the unit cube and square with 53 bits, one axis stretched, one mirrored, one shrunk *)
Section Cases.
Let sx := bpow radix2 10.
Let sy := (- bpow radix2 3)%R.
Let sz := bpow radix2 (-1).
Let a : plane3 R := PL3 (V3 1 (-1) 0)%R 0%R.
Let b : plane3 R := PL3 (V3 (-1) (-1) (-1))%R (3 / 2)%R.
Example cube_units_ok p0 : exists p p' q, r3d_init_box RN 512 p0 (V3 0 0 0)%R (V3 1 1 1)%R = OK p /\ nv p = 8 /\ wf3 p
  /\ exact_factor rnd53 sx /\ exact_factor rnd53 sy /\ exact_factor rnd53 sz /\ exact_factor rnd53 1%R
  /\ scaled_verts3 sx sy sz p p' /\ ps (vb p') 6 = (V3 1024 (-8) (1 / 2))%R
  /\ Forall2 (scaled_plane3 sx sy sz 1) [a; b] [PL3 (V3 (1 / 1024) (1 / 8) 0)%R 0%R; PL3 (V3 (- 1 / 1024) (1 / 8) (- 2))%R (3 / 2)%R]
  /\ r3d_clip (FN rnd53) 512 p [a; b] = OK (q, 1).
Proof.
  destruct (Glue3.r3d_init_box_shape 512 p0 (V3 0 0 0)%R (V3 1 1 1)%R ltac:(lia)) as (p & E & Hn & Hw & _ & HP & _).
  destruct (Glue3.r3d_clip_room (FN rnd53) 512 p [a; b] Hw) as (q & Eq); [rewrite (Hn : nv (V := rvec3 (T (FN rnd53))) p = 8); cbn; lia..|].
  exists p, (PY (VB (nb (vb p)) (fun v => scaled3 sx sy sz (ps (vb p) v))) (nv p)), q. split; [exact E|]. split; auto. split; auto.
  split; [apply exact_pow|]. split; [apply exact_neg_pow|]. split; [apply exact_pow|]. split; [apply (ef_1 rnd53)|].
  split; [repeat split|]. split.
  - cbn [map x3 y3 z3] in HP. injection HP as _ _ _ _ _ _ P6 _. refine (eq_trans (f_equal (scaled3 sx sy sz) P6) _). unfold scaled3, sx, sy, sz. cbn. f_equal; lra.
  - split; [|exact Eq]. unfold scaled_plane3, a, b, sx, sy, sz. constructor; [|constructor; [|constructor]]; cbn; repeat split; lra.
Qed.
Example square_units_ok p0 : exists p p' q, r2d_init_box RN 256 p0 (V2 0 0)%R (V2 1 1)%R = OK p /\ nv p = 4 /\ wf2 p
  /\ exact_factor rnd53 sx /\ exact_factor rnd53 sy /\ scaled_verts2 sx sy p p'
  /\ Forall2 (scaled_plane2 sx sy 1) [PL2 (V2 1 (-1)) 0]%R [PL2 (V2 (1 / 1024) (1 / 8)) 0]%R
  /\ r2d_clip (FN rnd53) 256 p [PL2 (V2 1 (-1)) 0]%R = OK q.
Proof.
  destruct (GlueC2.square_convex p0) as (p & E & C & Hn & _). assert (Hw : wf2 p) by apply C.
  destruct (Glue2.r2d_clip_room (FN rnd53) 256 p [PL2 (V2 1 (-1)) 0]%R Hw) as (q & Eq); [rewrite (Hn : nv (V := rvec2 (T (FN rnd53))) p = 4); cbn; lia|].
  exists p, (PY (VB (nb (vb p)) (fun v => scaled2 sx sy (ps (vb p) v))) (nv p)), q. split; [exact E|]. split; auto. split; auto.
  split; [apply exact_pow|]. split; [apply exact_neg_pow|]. split; [repeat split|]. split; [|exact Eq].
  unfold scaled_plane2, sx, sy. constructor; [|constructor]; cbn; repeat split; lra.
Qed.
End Cases.
