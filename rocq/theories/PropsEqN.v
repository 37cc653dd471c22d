(** * PropsEqN: property C99.  Proofs are in EqvN, EqvNR. *)
From Coq Require Import Reals ZArith List Bool Lia Lra.
From Flocq Require Import Core.
From Verif Require Import Base Lib ModelCommon ModelN ModelNC RealNum RndNum SumR SpecN SpecNP SpecEq SpecEqN EqvF3 EqvNR PropsN PropsNC.
From Verif Require Units.
Import ListNotations.
Open Scope Z_scope.

(** ** C99: in any dimension, transform and then clip, or clip and then transform *)
(** [agree]: the same error, or the same vertices in the same order with the same neighbours and 2-faces.
    Nothing is asked of the links or of the 2-faces; the walk may run out of rounds. *)
Theorem C99_rNd_translate_clip MX D fuel (p : polyN RN) planes planes' sh : 0 <= D -> 0 <= nvN RN p <= MX ->
  Forall2 (carriedN D (fun x i => x i + sh i)%R) planes planes' ->
  agree (same_vertsN D) (let* p1 := rNd_translate RN MX D p sh in rNd_clip RN MX D fuel p1 planes') (let* q := rNd_clip RN MX D fuel p planes in rNd_translate RN MX D q sh).
Proof. exact (translate_clipN MX D fuel p planes planes' sh). Qed.
Print Assumptions C99_rNd_translate_clip.

Theorem C99_rNd_scale_clip MX D fuel (p : polyN RN) planes planes' sc : 0 <= D -> 0 <= nvN RN p <= MX ->
  Forall2 (carriedN D (fun x i => x i * sc i)%R) planes planes' ->
  agree (same_vertsN D) (let* p1 := rNd_scale RN MX D p sc in rNd_clip RN MX D fuel p1 planes') (let* q := rNd_clip RN MX D fuel p planes in rNd_scale RN MX D q sc).
Proof. exact (scale_clipN MX D fuel p planes planes' sc). Qed.
Print Assumptions C99_rNd_scale_clip.

Theorem C99_rNd_shear_clip MX D fuel (p : polyN RN) planes planes' sh axb axs : 0 <= axb < D -> 0 <= axs < D -> 0 <= nvN RN p <= MX ->
  Forall2 (carriedN D (fun x i => if i =? axb then x i + sh * x axs else x i)%R) planes planes' ->
  agree (same_vertsN D) (let* p1 := rNd_shear RN MX D p sh axb axs in rNd_clip RN MX D fuel p1 planes') (let* q := rNd_clip RN MX D fuel p planes in rNd_shear RN MX D q sh axb axs).
Proof. exact (shear_clipN MX D fuel p planes planes' sh axb axs). Qed.
Print Assumptions C99_rNd_shear_clip.

Theorem C99_rNd_rotate_clip MX D fuel (p : polyN RN) planes planes' th a1 a2 : 0 <= a1 < D -> 0 <= a2 < D -> 0 <= nvN RN p <= MX ->
  Forall2 (carriedN D (fun x i => if i =? a2 then sin th * x a1 + cos th * x a2 else if i =? a1 then cos th * x a1 - sin th * x a2 else x i)%R) planes planes' ->
  agree (same_vertsN D) (let* p1 := rNd_rotate RN MX D p th a1 a2 in rNd_clip RN MX D fuel p1 planes') (let* q := rNd_clip RN MX D fuel p planes in rNd_rotate RN MX D q th a1 a2).
Proof. exact (rotate_clipN MX D fuel p planes planes' th a1 a2). Qed.
Print Assumptions C99_rNd_rotate_clip.

(** rounded arithmetic: a change of units by exact factors changes no bit of the result *)
Theorem C99_rNd_clip_units u rnd MX D s c fuel (p p' : polyN (FN rnd)) planes planes' : accurate u rnd -> (0 <= u <= 1 / 10)%R -> 0 <= D ->
  (forall i, 0 <= i < D -> exact_factor rnd (s i)) -> exact_factor rnd c -> (0 < c)%R ->
  0 <= nvN (FN rnd) p <= MX -> scaled_vertsN rnd D s p p' -> Forall2 (scaled_planeN rnd D s c) planes planes' ->
  agree (scaled_vertsN rnd D s) (rNd_clip (FN rnd) MX D fuel p planes) (rNd_clip (FN rnd) MX D fuel p' planes').
Proof. exact (fun HA Hu HD Hs Hc Pc => unitsN u rnd HA Hu MX D HD s c Hs Hc Pc fuel p p' planes planes'). Qed.
Print Assumptions C99_rNd_clip_units.

(** ** The hypotheses are met: the hypercube *)
Section Cases.
Let pl (a b d : R) : planeN RN := PLN RN (fun i => if i =? 0 then a else if i =? 1 then b else 0%R) d.
Let sh (i : Z) : R := if i =? 0 then 1%R else if i =? 1 then 2%R else 0%R.
Lemma pl_at a b d x : Spl 4 (pl a b d) x = (d + (a * x 0%Z + b * x 1%Z))%R.
Proof. unfold Spl, linN, pl. change (zrange 4) with [0; 1; 2; 3]. cbn. ring. Qed.
Example hypercube_moved p0 fuel : (Z.to_nat (1024 * 4 * 4 * 4) <= fuel)%nat ->
  exists p q, rNd_init_box RN 1024 4 p0 (fun _ => 0%R) (fun _ => 1%R) = OK p /\ rNd_clip RN 1024 4 fuel p [pl 1 (-1) (- 1 / 2)] = OK q
  /\ agree (same_vertsN 4) (let* p1 := rNd_translate RN 1024 4 p sh in rNd_clip RN 1024 4 fuel p1 [pl 1 (-1) (1 / 2)]) (rNd_translate RN 1024 4 q sh).
Proof.
  intros Hf. destruct (C62_rNd_clip_box 1024 4 fuel p0 (fun _ => 0%R) (fun _ => 1%R) [pl 1 (-1) (- 1 / 2)] ltac:(lia) ltac:(cbn; lia) ltac:(intros; lra) Hf) as (p & q & E & Eq & _).
  destruct (C62_rNd_init_box_convex 1024 4 p0 (fun _ => 0%R) (fun _ => 1%R) ltac:(lia) ltac:(cbn; lia) ltac:(intros; lra)) as (p' & E' & En & _). rewrite E in E'. injection E' as <-.
  exists p, q. split; auto. split; auto. change (2 ^ 4) with 16 in En.
  pose proof (C99_rNd_translate_clip 1024 4 fuel p [pl 1 (-1) (- 1 / 2)] [pl 1 (-1) (1 / 2)] sh ltac:(lia) ltac:(rewrite En; lia)) as X.
  rewrite Eq in X. cbn [bind] in X. apply X. constructor; [|constructor]. exists 1%R. split; [lra|]. intros x. rewrite !pl_at. unfold sh. cbn. field.
Qed.
Example plane_turnedN : carriedN 4 (fun x i => if i =? 1 then sin (PI / 2) * x 0%Z + cos (PI / 2) * x 1%Z else if i =? 0 then cos (PI / 2) * x 0%Z - sin (PI / 2) * x 1%Z else x i)%R (pl 1 (-1) (- 1 / 2)) (pl 1 1 (- 1 / 2)).
Proof. exists 1%R. split; [lra|]. intros x. rewrite !pl_at. cbn. rewrite cos_PI2, sin_PI2. field. Qed.
Let s (i : Z) : R := if i =? 0 then bpow radix2 10 else (- bpow radix2 3)%R.
Example hypercube_units p0 : exists p p' : polyN (FN rnd53), rNd_init_box (FN rnd53) 1024 4 p0 (fun _ => 0%R) (fun _ => 1%R) = OK p /\ nvN _ p = 16
  /\ scaled_vertsN rnd53 4 s p p' /\ ps (vbN _ p') 15 3 = (-8)%R /\ (forall i, 0 <= i < 4 -> exact_factor rnd53 (s i)) /\ exact_factor rnd53 1
  /\ scaled_planeN rnd53 4 s 1 (PLN (FN rnd53) (fun i => if i =? 0 then 1%R else if i =? 1 then (-1)%R else 0%R) (- 1 / 2)%R) (PLN (FN rnd53) (fun i => if i =? 0 then (1 / 1024)%R else if i =? 1 then (1 / 8)%R else 0%R) (- 1 / 2)%R).
Proof.
  destruct (C50_rNd_init_box (FN rnd53) 1024 4 p0 (fun _ => 0%R) (fun _ => 1%R) ltac:(lia) ltac:(cbn; lia)) as (p & E & En & HP & _).
  exists p, (PN (FN rnd53) (VB (nb (vbN _ p)) (fun v i => s i * ps (vbN _ p) v i)%R) (fdN _ p) (nvN _ p) (nfN _ p)). split; [exact E|]. split; [exact En|]. split; [repeat split|].
  split; [|split; [|split; [apply (Units.ef_1 rnd53)|]]].
  - refine (eq_trans (f_equal (Rmult (s 3)) (HP 15 3 _ _)) _); [cbn; lia|lia|]. unfold s. cbn. lra.
  - intros i Hi. unfold s. destruct (i =? 0); [apply exact_pow|apply exact_neg_pow].
  - split; [|cbn; lra]. intros i Hi. unfold s. assert (i = 0 \/ i = 1 \/ i = 2 \/ i = 3) as [-> | [-> | [-> | ->]]] by lia; cbn; lra.
Qed.
End Cases.
