(** * ProjG3: each transform of [src/r3d.c] as a projective map, and the moments afterwards. *)
From Coq Require Import Reals ZArith List Bool Lia Lra Psatz.
From Verif Require Import Base Lib SumR ModelCommon Model3 ModelV SpecN SpecNC Spec3 Spec3R SpecC3 SpecF3 SpecI SpecP3 RealNum Small3 Cons3 Trans3 ProjC3 Reduce3.
From Verif Require IntC3 HullC3 GlueC3 InitC3 PipeF3.
Import ListNotations.
Open Scope R_scope.

(** the matrix with the given rows *)
Definition mat3 (a b c : Z -> R) (r k : Z) : R := if (r =? 0)%Z then a k else if (r =? 1)%Z then b k else if (r =? 2)%Z then c k else if (k =? 3)%Z then 1 else 0.
Definition ent (a b c d : R) (k : Z) : R := if (k =? 0)%Z then a else if (k =? 1)%Z then b else if (k =? 2)%Z then c else d.

Section T.
Context (MX : Z) (p : pol3).
Hypothesis CV : convex3 p.
Hypothesis HM : (nv p <= MX)%Z.
Let Hw : wf3 p := proj1 CV.

Lemma affine_mat a b c (g : rvec3 R -> rvec3 R) (p' : pol3) : (forall q, g q = V3 (row4 (mat3 a b c) 0 q) (row4 (mat3 a b c) 1 q) (row4 (mat3 a b c) 2 q)) ->
  0 < det4 (mat3 a b c) -> mapped3R g p p' -> image3 g p p'.
Proof.
  intros G Hd M. pose proof (mapped3_wf _ _ _ _ M Hw) as W'. destruct M as (A & B & C & _).
  assert (R3 : forall q, row4 (mat3 a b c) 3 q = 1) by (intros q; unfold row4, mat3; cbn; ring).
  assert (E : forall q, proj4 (mat3 a b c) q = g q) by (intros q; rewrite G; unfold proj4; rewrite R3; f_equal; field).
  destruct (image_proj (mat3 a b c) p p' Hd ltac:(intros; rewrite R3; lra) W' A B ltac:(intros v Hv; rewrite E; now apply C) CV) as (I1 & I2 & I3 & I4).
  split; auto. split; auto. split; auto. intros y. rewrite I4. split; intros (x & H & ->); exists x; rewrite E; auto.
Qed.

Theorem translate_image (sh : rvec3 R) : exists p', r3d_translate RN MX p sh = OK p' /\ image3 (fun q => V3 (x3 q + x3 sh) (y3 q + y3 sh) (z3 q + z3 sh)) p p'.
Proof.
  destruct (translate3_R MX p Hw HM sh) as (p' & E & M). exists p'. split; auto.
  apply (affine_mat (ent 1 0 0 (x3 sh)) (ent 0 1 0 (y3 sh)) (ent 0 0 1 (z3 sh))); auto.
  - intros q. unfold row4, mat3, ent. cbn. f_equal; ring.
  - unfold det4, mat3, ent. cbn. lra.
Qed.
Theorem scale_image s : 0 < s -> exists p', r3d_scale RN MX p s = OK p' /\ image3 (fun q => V3 (x3 q * s) (y3 q * s) (z3 q * s)) p p'.
Proof.
  intros Hs. destruct (scale3_R MX p Hw HM s) as (p' & E & M). exists p'. split; auto.
  apply (affine_mat (ent s 0 0 0) (ent 0 s 0 0) (ent 0 0 s 0)); auto.
  - intros q. unfold row4, mat3, ent. cbn. f_equal; ring.
  - unfold det4, mat3, ent. cbn. assert (0 < s * s) by nra. nra.
Qed.
Theorem shear_image s axb axs : (0 <= axb < 3)%Z -> (0 <= axs < 3)%Z -> axb <> axs ->
  exists p', r3d_shear RN MX p s axb axs = OK p' /\ image3 (shear3_map s axb axs) p p'.
Proof.
  intros H1 H2 H3. destruct (shear3_R MX p Hw HM s axb axs H1 H2) as (p' & E & M). exists p'. split; auto.
  assert (axb = 0 \/ axb = 1 \/ axb = 2)%Z as [-> |[-> | ->]] by lia;
  assert (axs = 0 \/ axs = 1 \/ axs = 2)%Z as [-> |[-> | ->]] by lia; try lia;
  [apply (affine_mat (ent 1 s 0 0) (ent 0 1 0 0) (ent 0 0 1 0))|apply (affine_mat (ent 1 0 s 0) (ent 0 1 0 0) (ent 0 0 1 0))
  |apply (affine_mat (ent 1 0 0 0) (ent s 1 0 0) (ent 0 0 1 0))|apply (affine_mat (ent 1 0 0 0) (ent 0 1 s 0) (ent 0 0 1 0))
  |apply (affine_mat (ent 1 0 0 0) (ent 0 1 0 0) (ent s 0 1 0))|apply (affine_mat (ent 1 0 0 0) (ent 0 1 0 0) (ent 0 s 1 0))]; auto;
  try (intros q; unfold shear3_map, coordR3, row4, mat3, ent; cbn; f_equal; ring); unfold det4, mat3, ent; cbn; match goal with |- 0 < ?u => replace u with 1 by ring; lra end.
Qed.
Theorem rotate_image theta axis : (0 <= axis < 3)%Z -> exists p', r3d_rotate RN MX p theta axis = OK p' /\ image3 (rot3_map theta axis) p p'.
Proof.
  intros H1. destruct (rotate3_R MX p Hw HM theta axis H1) as (p' & E & M). exists p'. split; auto.
  pose proof (sin2_cos2 theta) as SC. unfold Rsqr in SC.
  assert (axis = 0 \/ axis = 1 \/ axis = 2)%Z as [-> |[-> | ->]] by lia;
  [apply (affine_mat (ent 1 0 0 0) (ent 0 (cos theta) (- sin theta) 0) (ent 0 (sin theta) (cos theta) 0))
  |apply (affine_mat (ent (cos theta) 0 (sin theta) 0) (ent 0 1 0 0) (ent (- sin theta) 0 (cos theta) 0))
  |apply (affine_mat (ent (cos theta) (- sin theta) 0 0) (ent (sin theta) (cos theta) 0 0) (ent 0 0 1 0))]; auto;
  try (intros q; unfold rot3_map, row4, mat3, ent; cbn; f_equal; ring); unfold det4, mat3, ent; cbn; match goal with |- 0 < ?u => replace u with (sin theta * sin theta + cos theta * cos theta) by ring; lra end.
Qed.
Theorem affine_image m : 0 < det4 m -> (forall v, (0 <= v < nv p)%Z -> 0 < row4 m 3 (ps (vb p) v)) ->
  exists p', r3d_affine RN MX p m = OK p' /\ image3 (proj4 m) p p'.
Proof.
  intros Hd HW. destruct (affine3_R MX p Hw HM m) as (p' & E & M). exists p'. split; auto.
  pose proof (mapped3_wf _ _ _ _ M Hw) as W'. destruct M as (A & B & C & _). apply image_proj; auto.
  intros v Hv. rewrite C by auto. unfold affine3_map. cbv zeta. set (q := ps (vb p) v).
  assert (Q : forall r, x3 q * m r 0%Z + y3 q * m r 1%Z + z3 q * m r 2%Z + m r 3%Z = row4 m r q) by (intros; unfold row4; ring).
  change (T RN) with R in *. rewrite !Q. reflexivity.
Qed.
End T.

(** the moments afterwards are the integrals over the image *)
Theorem image_moments MX i j k sh (g : rvec3 R -> rvec3 R) (p p' : pol3) (mom : Z -> R) po : image3 g p p' -> (nv p' <= MX)%Z -> (Z.of_nat i + Z.of_nat j + Z.of_nat k <= po)%Z ->
  exists mom', r3d_reduce RN MX sh p' mom po = OK mom'
  /\ integral3 (fun y => exists x, hull3 p x /\ y = g x) (fun x => x3 x ^ i * y3 x ^ j * z3 x ^ k) (mom' (idx3 (Z.of_nat i) (Z.of_nat j) (Z.of_nat k))).
Proof.
  intros (CV & _ & _ & H) HM Ho. destruct (IntC3.reduce_integral MX i j k sh p' mom po CV HM Ho) as (mom' & E & I). exists mom'. split; auto.
  revert I. apply IntC3.integral3_ext. exact H.
Qed.
(** and a clip of the image leaves the images of the points that end up on the inner side of the planes *)
Theorem image_clip MX (g : rvec3 R -> rvec3 R) (p p' o : pol3) planes : image3 g p p' -> (nv p' <= MX)%Z -> r3d_clip RN MX p' planes = OK (o, 1%Z) ->
  (forall y, hull3 o y <-> exists x, hull3 p x /\ y = g x /\ holds3 planes y)
  \/ (nv o = 0%Z /\ exists pl, In pl planes /\ forall x, hull3 p x -> holds3 planes (g x) -> sdist3 pl (g x) = 0).
Proof.
  intros (CV & _ & _ & H) HM E. destruct (HullC3.r3d_clip_hull MX p' o planes CV HM E) as (_ & [I|(Z0 & pl & Ip & I)]).
  - left. intros y. rewrite I, H. split; [intros ((x & Hx & ->) & Hh); eauto|intros (x & Hx & -> & Hh); eauto].
  - right. split; auto. exists pl. split; auto. intros x Hx. apply I. apply H. eauto.
Qed.

(** the unit cube under a perspective map with the denominator [z + 2] *)
Definition persp (r k : Z) : R := if (r =? 3)%Z then (if (k =? 2)%Z then 1 else if (k =? 3)%Z then 2 else 0) else if (r =? k)%Z then 1 else 0.
Lemma cube_persp p0 : exists p, r3d_init_box RN 512 p0 (V3 0 0 0) (V3 1 1 1) = OK p /\ convex3 p /\ (nv p <= 512)%Z /\ 0 < det4 persp
  /\ forall v, (0 <= v < nv p)%Z -> 0 < row4 persp 3 (ps (vb p) v).
Proof.
  destruct (GlueC3.cube_clip p0) as (p & _ & E & CV & _). exists p. split; auto. split; auto.
  destruct (InitC3.init_box_solid 512 p0 p (V3 0 0 0) (V3 1 1 1) ltac:(lia)) as (_ & Hn); cbn [x3 y3 z3]; try lra; auto.
  split; [change (T RN) with R in *; lia|]. split; [unfold det4, persp; cbn; lra|]. intros v Hv.
  pose proof (proj1 (PipeF3.init_box_hull 512 p0 p (V3 0 0 0) (V3 1 1 1) ltac:(lia) E ltac:(cbn; lra) ltac:(cbn; lra) ltac:(cbn; lra) _) (PipeF3.vertex_hull p v Hv)) as (_ & _ & B).
  cbn [z3] in B. unfold row4, persp. cbn. lra.
Qed.
