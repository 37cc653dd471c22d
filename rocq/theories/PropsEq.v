(** * PropsEq: property C97.  Proofs are in Eqv, Eqv2, Eqv3, EqvR2, EqvR3, EqvF3. *)
From Coq Require Import Reals ZArith List Bool Lia Lra.
From Flocq Require Import Core.
From Verif Require Import Base Lib ModelCommon Model2 Model3 RealNum RndNum Spec2R Spec3R SpecP3 SpecEq Cons2 Small2 Small3 Trans3 Eqv Eqv2 Eqv3 EqvR3 EqvF3 EqvR2.
From Verif Require Mom3 Glue3 GlueC3 GlueC2.
Import ListNotations.
Open Scope Z_scope.

(** ** C97: transform and then clip, or clip and then transform *)
(** [agree]: the same error, or the same vertices in the same order with the same links (and status).
    Nothing is asked of the links: the polyhedron may be broken, the buffer may be too small. *)
Theorem C97_r3d_translate_clip MX (p : poly (rvec3 R)) planes planes' sh : 0 <= nv p <= MX -> Forall2 (carried3 (fun q => V3 (x3 q + x3 sh) (y3 q + y3 sh) (z3 q + z3 sh))%R) planes planes' ->
  agree same_verts_st (let* p1 := r3d_translate RN MX p sh in r3d_clip RN MX p1 planes')
    (let* (q, r) := r3d_clip RN MX p planes in let* q1 := r3d_translate RN MX q sh in OK (q1, r)).
Proof. exact (fun Hn => translate_commutes MX p Hn planes planes' sh). Qed.
Print Assumptions C97_r3d_translate_clip.

Theorem C97_r3d_scale_clip MX (p : poly (rvec3 R)) planes planes' s : 0 <= nv p <= MX -> Forall2 (carried3 (fun q => V3 (x3 q * s) (y3 q * s) (z3 q * s))%R) planes planes' ->
  agree same_verts_st (let* p1 := r3d_scale RN MX p s in r3d_clip RN MX p1 planes')
    (let* (q, r) := r3d_clip RN MX p planes in let* q1 := r3d_scale RN MX q s in OK (q1, r)).
Proof. exact (fun Hn => scale_commutes MX p Hn planes planes' s). Qed.
Print Assumptions C97_r3d_scale_clip.

Theorem C97_r3d_shear_clip MX (p : poly (rvec3 R)) planes planes' s axb axs : 0 <= nv p <= MX -> 0 <= axb < 3 -> 0 <= axs < 3 -> Forall2 (carried3 (shear3_map s axb axs)) planes planes' ->
  agree same_verts_st (let* p1 := r3d_shear RN MX p s axb axs in r3d_clip RN MX p1 planes')
    (let* (q, r) := r3d_clip RN MX p planes in let* q1 := r3d_shear RN MX q s axb axs in OK (q1, r)).
Proof. exact (fun Hn => shear_commutes MX p Hn planes planes' s axb axs). Qed.
Print Assumptions C97_r3d_shear_clip.

Theorem C97_r3d_rotate_clip MX (p : poly (rvec3 R)) planes planes' th axis : 0 <= nv p <= MX -> 0 <= axis < 3 -> Forall2 (carried3 (rot3_map th axis)) planes planes' ->
  agree same_verts_st (let* p1 := r3d_rotate RN MX p th axis in r3d_clip RN MX p1 planes')
    (let* (q, r) := r3d_clip RN MX p planes in let* q1 := r3d_rotate RN MX q th axis in OK (q1, r)).
Proof. exact (fun Hn => rotate_commutes MX p Hn planes planes' th axis). Qed.
Print Assumptions C97_r3d_rotate_clip.

(** any matrix, perspective included, as long as the vertices are in front of the plane that it sends to infinity *)

Theorem C97_r3d_affine_clip MX (p : poly (rvec3 R)) planes planes' m : 0 <= nv p <= MX -> (forall v, 0 <= v < nv p -> (0 < row4 m 3 (ps (vb p) v))%R) -> Forall2 (carried4 m) planes planes' ->
  agree same_verts_st (let* p1 := r3d_affine RN MX p m in r3d_clip RN MX p1 planes')
    (let* (q, r) := r3d_clip RN MX p planes in let* q1 := r3d_affine RN MX q m in OK (q1, r)).
Proof. exact (fun Hn => affine_commutes MX p Hn planes planes' m). Qed.
Print Assumptions C97_r3d_affine_clip.

(** ** Polygons *)

Theorem C97_r2d_translate_clip MX (p : poly (rvec2 R)) planes planes' sh : 0 <= nv p <= MX -> Forall2 (carried2 (fun q => V2 (vx q + vx sh) (vy q + vy sh))%R) planes planes' ->
  agree (same_verts 2) (let* p1 := r2d_translate RN MX p sh in r2d_clip RN MX p1 planes') (let* q := r2d_clip RN MX p planes in r2d_translate RN MX q sh).
Proof. exact (fun Hn => translate_commutes2 MX p Hn planes planes' sh). Qed.
Print Assumptions C97_r2d_translate_clip.

Theorem C97_r2d_scale_clip MX (p : poly (rvec2 R)) planes planes' s : 0 <= nv p <= MX -> Forall2 (carried2 (fun q => V2 (vx q * s) (vy q * s))%R) planes planes' ->
  agree (same_verts 2) (let* p1 := r2d_scale RN MX p s in r2d_clip RN MX p1 planes') (let* q := r2d_clip RN MX p planes in r2d_scale RN MX q s).
Proof. exact (fun Hn => scale_commutes2 MX p Hn planes planes' s). Qed.
Print Assumptions C97_r2d_scale_clip.

Theorem C97_r2d_shear_clip MX (p : poly (rvec2 R)) planes planes' s axb axs : 0 <= nv p <= MX -> 0 <= axb < 2 -> 0 <= axs < 2 -> Forall2 (carried2 (shear_map s axb axs)) planes planes' ->
  agree (same_verts 2) (let* p1 := r2d_shear RN MX p s axb axs in r2d_clip RN MX p1 planes') (let* q := r2d_clip RN MX p planes in r2d_shear RN MX q s axb axs).
Proof. exact (fun Hn => shear_commutes2 MX p Hn planes planes' s axb axs). Qed.
Print Assumptions C97_r2d_shear_clip.

(** with the map that [r2d_rotate] applies instead of a rotation (C19) *)

Theorem C97_r2d_rotate_actual_clip MX (p : poly (rvec2 R)) planes planes' th : 0 <= nv p <= MX -> Forall2 (carried2 (fun q => V2 (sin th * vx q + cos th * vy q) (vy q))%R) planes planes' ->
  agree (same_verts 2) (let* p1 := r2d_rotate RN MX p th in r2d_clip RN MX p1 planes') (let* q := r2d_clip RN MX p planes in r2d_rotate RN MX q th).
Proof. exact (fun Hn => rotate_commutes2 MX p Hn planes planes' th). Qed.
Print Assumptions C97_r2d_rotate_actual_clip.

Theorem C97_r2d_affine_clip MX (p : poly (rvec2 R)) planes planes' m : 0 <= nv p <= MX -> (forall v, 0 <= v < nv p -> (0 < row3 m 2 (ps (vb p) v))%R) -> Forall2 (carried33 m) planes planes' ->
  agree (same_verts 2) (let* p1 := r2d_affine RN MX p m in r2d_clip RN MX p1 planes') (let* q := r2d_clip RN MX p planes in r2d_affine RN MX q m).
Proof. exact (fun Hn => affine_commutes2 MX p Hn planes planes' m). Qed.
Print Assumptions C97_r2d_affine_clip.

(** ** Rounded arithmetic: a change of units by exact factors changes no bit of the result *)

Theorem C97_r3d_clip_units u rnd MX sx sy sz c (p p' : poly (rvec3 R)) planes planes' : accurate u rnd -> (0 <= u <= 1 / 10)%R ->
  exact_factor rnd sx -> exact_factor rnd sy -> exact_factor rnd sz -> exact_factor rnd c -> (0 < c)%R ->
  0 <= nv p <= MX -> scaled_verts3 sx sy sz p p' -> Forall2 (scaled_plane3 sx sy sz c) planes planes' ->
  agree (fun o o' => scaled_verts3 sx sy sz (fst o) (fst o') /\ snd o' = snd o) (r3d_clip (FN rnd) MX p planes) (r3d_clip (FN rnd) MX p' planes').
Proof. exact (fun HA Hu => scaled_clip u rnd HA Hu MX sx sy sz c p p' planes planes'). Qed.
Print Assumptions C97_r3d_clip_units.

Theorem C97_r2d_clip_units u rnd MX sx sy c (p p' : poly (rvec2 R)) planes planes' : accurate u rnd -> (0 <= u <= 1 / 10)%R ->
  exact_factor rnd sx -> exact_factor rnd sy -> exact_factor rnd c -> (0 < c)%R ->
  0 <= nv p <= MX -> scaled_verts2 sx sy p p' -> Forall2 (scaled_plane2 sx sy c) planes planes' ->
  agree (scaled_verts2 sx sy) (r2d_clip (FN rnd) MX p planes) (r2d_clip (FN rnd) MX p' planes').
Proof. exact (fun HA Hu => scaled_clip2 u rnd HA Hu MX sx sy c p p' planes planes'). Qed.
Print Assumptions C97_r2d_clip_units.

Theorem C97_r3d_scale_clip_rounded u rnd MX s c (p : poly (rvec3 R)) planes planes' : accurate u rnd -> (0 <= u <= 1 / 10)%R ->
  (forall x, rnd (rnd x) = rnd x) -> exact_factor rnd s -> exact_factor rnd c -> (0 < c)%R ->
  0 <= nv p <= MX -> (forall v, 0 <= v < nv p -> in_format3 rnd (ps (vb p) v)) -> Forall2 (scaled_plane3 s s s c) planes planes' ->
  agree same_verts_st (let* p1 := r3d_scale (FN rnd) MX p s in r3d_clip (FN rnd) MX p1 planes')
    (let* (q, r) := r3d_clip (FN rnd) MX p planes in let* q1 := r3d_scale (FN rnd) MX q s in OK (q1, r)).
Proof. exact (fun HA Hu => scale_rounded_commutes u rnd HA Hu MX s c p planes planes'). Qed.
Print Assumptions C97_r3d_scale_clip_rounded.

Theorem C97_r2d_scale_clip_rounded u rnd MX s c (p : poly (rvec2 R)) planes planes' : accurate u rnd -> (0 <= u <= 1 / 10)%R ->
  (forall x, rnd (rnd x) = rnd x) -> exact_factor rnd s -> exact_factor rnd c -> (0 < c)%R ->
  0 <= nv p <= MX -> (forall v, 0 <= v < nv p -> in_format2 rnd (ps (vb p) v)) -> Forall2 (scaled_plane2 s s c) planes planes' ->
  agree (same_verts 2) (let* p1 := r2d_scale (FN rnd) MX p s in r2d_clip (FN rnd) MX p1 planes') (let* q := r2d_clip (FN rnd) MX p planes in r2d_scale (FN rnd) MX q s).
Proof. exact (fun HA Hu => scale_rounded_commutes2 u rnd HA Hu MX s c p planes planes'). Qed.
Print Assumptions C97_r2d_scale_clip_rounded.

(** for 53 bits: powers of two, with either sign *)

Theorem C97_binary64_factors e : exact_factor rnd53 (bpow radix2 e) /\ exact_factor rnd53 (- bpow radix2 e) /\ forall x, rnd53 (rnd53 x) = rnd53 x.
Proof. exact (conj (exact_pow e) (conj (exact_neg_pow e) rnd53_idem)). Qed.
Print Assumptions C97_binary64_factors.

(** ** The hypotheses are met *)
Section Cases.
Let a : plane3 R := PL3 (V3 1 (-1) 0)%R 0%R.
Let b : plane3 R := PL3 (V3 (-1) (-1) (-1))%R (3 / 2)%R.
(** the cube moved by (1, 2, 3), with two planes moved along; both ways succeed and agree *)
Example cube_moved p0 : exists p q, r3d_init_box RN 512 p0 (V3 0 0 0)%R (V3 1 1 1)%R = OK p /\ r3d_clip RN 512 p [a; b] = OK (q, 1)
  /\ agree same_verts_st (let* p1 := r3d_translate RN 512 p (V3 1 2 3)%R in r3d_clip RN 512 p1 [PL3 (V3 1 (-1) 0)%R 1%R; PL3 (V3 (-1) (-1) (-1))%R (15 / 2)%R])
       (let* q1 := r3d_translate RN 512 q (V3 1 2 3)%R in OK (q1, 1)).
Proof.
  destruct (Glue3.r3d_init_box_shape 512 p0 (V3 0 0 0)%R (V3 1 1 1)%R ltac:(lia)) as (p & E & Hn & _).
  destruct (GlueC3.cube_clip p0) as (p' & q & E' & _ & Eq). rewrite E in E'. injection E' as <-. exists p, q. split; auto. split; auto.
  pose proof (C97_r3d_translate_clip 512 p [a; b] [PL3 (V3 1 (-1) 0)%R 1%R; PL3 (V3 (-1) (-1) (-1))%R (15 / 2)%R] (V3 1 2 3)%R ltac:(Mom3.rn; lia)) as X.
  unfold a, b in X. rewrite Eq in X. cbn [bind] in X. apply X. constructor; [|constructor; [|constructor]]; exists 1%R; (split; [lra|]); intros x; unfold sdist3; cbn; field.
Qed.
(** the quarter turn about the z axis *)
Example plane_turned : carried3 (rot3_map (PI / 2) 2) a (PL3 (V3 1 1 0) 0)%R.
Proof. exists 1%R. split; [lra|]. intros x. unfold rot3_map, sdist3, a. cbn. rewrite cos_PI2, sin_PI2. ring. Qed.
(** a matrix with a perspective row: (x, y, z) to (x, y, z) / (1 + x) *)
Let m (r c : Z) : R := if r =? 3 then (if (c =? 0) || (c =? 3) then 1 else 0)%R else if r =? c then 1%R else 0%R.
Example plane_projected p0 : carried4 m b (PL3 (V3 (- 5 / 2) (-1) (-1)) (3 / 2))%R
  /\ exists p, r3d_init_box RN 512 p0 (V3 0 0 0)%R (V3 1 1 1)%R = OK p /\ nv p = 8 /\ forall v, 0 <= v < nv p -> (0 < row4 m 3 (ps (vb p) v))%R.
Proof.
  split.
  - exists 1%R. split; [lra|]. intros x. unfold row4, proj4, sdist3, row4, b, m. cbn. intros H. field. lra.
  - destruct (Glue3.r3d_init_box_shape 512 p0 (V3 0 0 0)%R (V3 1 1 1)%R ltac:(lia)) as (p & E & Hn & _ & _ & HP & _). exists p. split; auto. split; auto.
    intros v Hv. assert (Hv' : 0 <= v < 8) by (Mom3.rn; lia). cbn [map x3 y3 z3] in HP. injection HP as P0 P1 P2 P3 P4 P5 P6 P7.
    unfold row4, m. cbn. assert (v = 0 \/ v = 1 \/ v = 2 \/ v = 3 \/ v = 4 \/ v = 5 \/ v = 6 \/ v = 7) as X by lia.
    destruct X as [->|[->|[->|[->|[->|[->|[->| ->]]]]]]]; Mom3.rn; rewrite ?P0, ?P1, ?P2, ?P3, ?P4, ?P5, ?P6, ?P7; cbn; lra.
Qed.
(** the cube in units 1024 times smaller, and mirrored, with 53 bits; [r3d_init_box] only copies coordinates *)
Example cube_units p0 : exists p, r3d_init_box RN 512 p0 (V3 0 0 0)%R (V3 1 1 1)%R = OK p /\ nv p = 8
  /\ (forall v, 0 <= v < nv p -> in_format3 rnd53 (ps (vb p) v))
  /\ Forall2 (scaled_plane3 (bpow radix2 10) (bpow radix2 10) (bpow radix2 10) (bpow radix2 10)) [a; b] [a; PL3 (V3 (-1) (-1) (-1))%R 1536%R]
  /\ Forall2 (scaled_plane3 (- bpow radix2 0) (- bpow radix2 0) (- bpow radix2 0) (bpow radix2 0)) [a; b] [PL3 (V3 (-1) 1 0)%R 0%R; PL3 (V3 1 1 1)%R (3 / 2)%R].
Proof.
  destruct (Glue3.r3d_init_box_shape 512 p0 (V3 0 0 0)%R (V3 1 1 1)%R ltac:(lia)) as (p & E & Hn & _ & _ & HP & _). exists p. split; [exact E|]. split; auto.
  split; [|split].
  - intros v Hv. assert (Hv' : 0 <= v < 8) by (Mom3.rn; lia). cbn [map x3 y3 z3] in HP. injection HP as P0 P1 P2 P3 P4 P5 P6 P7.
    assert (R0 : rnd53 0 = 0%R) by (pose proof (rnd53_accurate 0%R) as X; rewrite Rabs_R0, Rmult_0_r in X; apply Rabs_le_inv in X; lra).
    assert (R1 : rnd53 1 = 1%R) by (apply round_generic; [apply _|]; apply generic_format_FLX; exists (Float radix2 1 0); [unfold F2R; cbn; ring|cbn; lia]).
    unfold in_format3. assert (v = 0 \/ v = 1 \/ v = 2 \/ v = 3 \/ v = 4 \/ v = 5 \/ v = 6 \/ v = 7) as X by lia.
    destruct X as [->|[->|[->|[->|[->|[->|[->| ->]]]]]]]; Mom3.rn; rewrite ?P0, ?P1, ?P2, ?P3, ?P4, ?P5, ?P6, ?P7; cbn; rewrite ?R0, ?R1; auto.
  - unfold scaled_plane3, a, b. constructor; [|constructor; [|constructor]]; cbn; repeat split; lra.
  - unfold scaled_plane3, a, b. constructor; [|constructor; [|constructor]]; cbn; repeat split; lra.
Qed.
(** the square, moved *)
Example square_moved p0 : exists p q, r2d_init_box RN 256 p0 (V2 0 0)%R (V2 1 1)%R = OK p /\ r2d_clip RN 256 p [PL2 (V2 1 (-1)) 0; PL2 (V2 (-1) (-2)) (3 / 2)]%R = OK q
  /\ agree (same_verts 2) (let* p1 := r2d_translate RN 256 p (V2 1 2)%R in r2d_clip RN 256 p1 [PL2 (V2 1 (-1)) 1; PL2 (V2 (-1) (-2)) (13 / 2)]%R) (r2d_translate RN 256 q (V2 1 2)%R).
Proof.
  destruct (GlueC2.square_clip p0) as (p & q & E & C & Eq). destruct (GlueC2.square_convex p0) as (p' & E' & _ & Hn & _). rewrite E in E'. injection E' as <-.
  exists p, q. split; auto. split; auto.
  pose proof (C97_r2d_translate_clip 256 p [PL2 (V2 1 (-1)) 0; PL2 (V2 (-1) (-2)) (3 / 2)]%R [PL2 (V2 1 (-1)) 1; PL2 (V2 (-1) (-2)) (13 / 2)]%R (V2 1 2)%R ltac:(Mom3.rn; lia)) as X.
  rewrite Eq in X. cbn [bind] in X. apply X. constructor; [|constructor; [|constructor]]; exists 1%R; (split; [lra|]); intros x; unfold sdist; cbn; field.
Qed.
End Cases.
