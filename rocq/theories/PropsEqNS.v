(** * PropsEqNS: property C100.  Proofs are in EqvNS. *)
From Coq Require Import Reals ZArith List Bool Lia Lra.
From Flocq Require Import Core.
From Verif Require Import Base Lib ModelCommon ModelN ModelNC RealNum RndNum SpecN SpecNP SpecEq SpecEqN SpecEqNS EqvF3 EqvNS PropsNC PropsNV PropsEqN.
Import ListNotations.
Open Scope Z_scope.

(** ** C100: in any dimension, move and then split, or split and then move both parts *)
Theorem C100_rNd_translate_split MX D fuel (p : polyN RN) sh coord ax : 0 <= ax < D -> 0 <= nvN RN p <= MX ->
  agree (same_partsN D) (let* p1 := rNd_translate RN MX D p sh in rNd_split RN MX D fuel p1 (coord + sh ax)%R ax)
    (let* o := rNd_split RN MX D fuel p coord ax in both (fun q => rNd_translate RN MX D q sh) o).
Proof. exact (translate_splitN MX D fuel p sh coord ax). Qed.
Print Assumptions C100_rNd_translate_split.

(** the factors of the other axes may be anything, also zero or negative *)
Theorem C100_rNd_scale_split MX D fuel (p : polyN RN) sc coord ax : 0 <= ax < D -> (0 < sc ax)%R -> 0 <= nvN RN p <= MX ->
  agree (same_partsN D) (let* p1 := rNd_scale RN MX D p sc in rNd_split RN MX D fuel p1 (coord * sc ax)%R ax)
    (let* o := rNd_split RN MX D fuel p coord ax in both (fun q => rNd_scale RN MX D q sc) o).
Proof. exact (scale_splitN MX D fuel p sc coord ax). Qed.
Print Assumptions C100_rNd_scale_split.

(** a negative factor on the split axis exchanges the parts *)
Theorem C100_rNd_mirror_split MX D fuel (p q0 q1 : polyN RN) sc coord ax : 0 <= ax < D -> (sc ax < 0)%R -> 0 <= nvN RN p <= MX ->
  rNd_split RN MX D fuel p coord ax = OK (q0, q1) ->
  agree (same_partsN D) (let* p1 := rNd_scale RN MX D p sc in rNd_split RN MX D fuel p1 (coord * sc ax)%R ax) (both (fun q => rNd_scale RN MX D q sc) (q1, q0)).
Proof. exact (mirror_splitN MX D fuel p q0 q1 sc coord ax). Qed.
Print Assumptions C100_rNd_mirror_split.

Theorem C100_rNd_shear_split MX D fuel (p : polyN RN) sh axb axs coord ax : 0 <= ax < D -> 0 <= axb < D -> 0 <= axs < D -> ax <> axb -> 0 <= nvN RN p <= MX ->
  agree (same_partsN D) (let* p1 := rNd_shear RN MX D p sh axb axs in rNd_split RN MX D fuel p1 coord ax)
    (let* o := rNd_split RN MX D fuel p coord ax in both (fun q => rNd_shear RN MX D q sh axb axs) o).
Proof. exact (shear_splitN MX D fuel p sh axb axs coord ax). Qed.
Print Assumptions C100_rNd_shear_split.

Theorem C100_rNd_rotate_split MX D fuel (p : polyN RN) th a1 a2 coord ax : 0 <= ax < D -> 0 <= a1 < D -> 0 <= a2 < D -> ax <> a1 -> ax <> a2 -> 0 <= nvN RN p <= MX ->
  agree (same_partsN D) (let* p1 := rNd_rotate RN MX D p th a1 a2 in rNd_split RN MX D fuel p1 coord ax)
    (let* o := rNd_split RN MX D fuel p coord ax in both (fun q => rNd_rotate RN MX D q th a1 a2) o).
Proof. exact (rotate_splitN MX D fuel p th a1 a2 coord ax). Qed.
Print Assumptions C100_rNd_rotate_split.

(** rounded arithmetic: other units, the factor of the split axis positive *)
Theorem C100_rNd_split_units u rnd MX D s fuel (p p' : polyN (FN rnd)) coord ax : accurate u rnd -> (0 <= u <= 1 / 10)%R ->
  0 <= ax < D -> (forall i, 0 <= i < D -> exact_factor rnd (s i)) -> (0 < s ax)%R ->
  0 <= nvN (FN rnd) p <= MX -> scaled_vertsN rnd D s p p' ->
  agree (scaled_partsN rnd D s) (rNd_split (FN rnd) MX D fuel p coord ax) (rNd_split (FN rnd) MX D fuel p' (s ax * coord)%R ax).
Proof. exact (fun HA Hu => split_unitsN u rnd HA Hu MX D s fuel p p' coord ax). Qed.
Print Assumptions C100_rNd_split_units.

(** ** The hypotheses are met: the hypercube, split through the middle; [hypercube_units] of PropsEqN meets those of the last theorem *)
Example hypercube_split_moved p0 fuel (sh : Z -> R) : (Z.to_nat (1024 * 4 * 4 * 4) <= fuel)%nat ->
  exists p q0 q1, rNd_init_box RN 1024 4 p0 (fun _ => 0%R) (fun _ => 1%R) = OK p /\ rNd_split RN 1024 4 fuel p (1 / 2)%R 2 = OK (q0, q1)
  /\ (forall x, hullP 4 q0 x <-> in_box 4 (fun _ => 0%R) (fun _ => 1%R) x /\ (x 2%Z <= 1 / 2)%R)
  /\ agree (same_partsN 4) (let* p1 := rNd_translate RN 1024 4 p sh in rNd_split RN 1024 4 fuel p1 (1 / 2 + sh 2%Z)%R 2) (both (fun q => rNd_translate RN 1024 4 q sh) (q0, q1)).
Proof.
  intros Hf. destruct (C62_rNd_init_box_convex 1024 4 p0 (fun _ => 0%R) (fun _ => 1%R) ltac:(lia) ltac:(cbn; lia) ltac:(intros; lra)) as (p & E & En & HC & HB).
  change (2 ^ 4) with 16 in En.
  destruct (C64_rNd_split_hull 1024 4 fuel p (1 / 2)%R 2 ltac:(lia) Hf ltac:(rewrite En; lia) ltac:(lia) HC) as [(q0 & q1 & Eq & _ & _ & _ & _ & _ & _ & H0 & _)|(H & _)]; [|rewrite En in H; lia].
  exists p, q0, q1. split; [exact E|]. split; [exact Eq|]. split.
  - destruct H0 as [H0|(_ & H0)]; [intros x; rewrite H0, HB; reflexivity|].
    exfalso. assert (X : hullP 4 p (fun _ => 0%R)) by (apply HB; intros i Hi; lra). specialize (H0 _ X). cbn in H0. lra.
  - pose proof (C100_rNd_translate_split 1024 4 fuel p sh (1 / 2)%R 2 ltac:(lia) ltac:(rewrite En; lia)) as X. rewrite Eq in X. cbn [bind] in X. exact X.
Qed.
Example split_factors : (0 < bpow radix2 10)%R /\ exact_factor rnd53 (bpow radix2 10) /\ exact_factor rnd53 (- bpow radix2 3).
Proof. split; [apply bpow_gt_0|]. split; [apply exact_pow|apply exact_neg_pow]. Qed.
Example hypercube_split_mirrored p0 fuel : (Z.to_nat (1024 * 4 * 4 * 4) <= fuel)%nat ->
  exists p q0 q1, rNd_init_box RN 1024 4 p0 (fun _ => 0%R) (fun _ => 1%R) = OK p /\ rNd_split RN 1024 4 fuel p (1 / 2)%R 2 = OK (q0, q1)
  /\ agree (same_partsN 4) (let* p1 := rNd_scale RN 1024 4 p (fun _ => (-3)%R) in rNd_split RN 1024 4 fuel p1 (1 / 2 * -3)%R 2) (both (fun q => rNd_scale RN 1024 4 q (fun _ => (-3)%R)) (q1, q0)).
Proof.
  intros Hf. destruct (C62_rNd_init_box_convex 1024 4 p0 (fun _ => 0%R) (fun _ => 1%R) ltac:(lia) ltac:(cbn; lia) ltac:(intros; lra)) as (p & E & En & _).
  destruct (hypercube_split_moved p0 fuel (fun _ => 0%R) Hf) as (p' & q0 & q1 & E' & Eq & _). rewrite E in E'. injection E' as <-.
  exists p, q0, q1. split; [exact E|]. split; [exact Eq|]. change (2 ^ 4) with 16 in En.
  exact (C100_rNd_mirror_split 1024 4 fuel p q0 q1 (fun _ => (-3)%R) (1 / 2)%R 2 ltac:(lia) ltac:(lra) ltac:(rewrite En; lia) Eq).
Qed.
