(** * PropsPN: the transforms of [src/rNd.c] map polytopes to their images and volumes as maps do (C91). *)
From Coq Require Import Reals ZArith List Bool Lia Lra.
From Verif Require Import Base Lib SumR ModelCommon ModelN ModelNC SpecNC SpecNP SpecNV SpecNJ SpecPN RealNum FlagR ProjGN ShearJ.
Import ListNotations.
Open Scope Z_scope.

(** ** C91: images *)
Theorem C91_rNd_translate_image MX D (p : polyN RN) s : 0 <= nvN RN p <= MX -> 0 <= D ->
  exists p', rNd_translate RN MX D p s = OK p' /\ imageN D (fun x k => x k + s k)%R p p'.
Proof. exact (fun Hn => translateN_image MX D p Hn s). Qed.
Print Assumptions C91_rNd_translate_image.

(** also for negative factors *)
Theorem C91_rNd_scale_image MX D (p : polyN RN) s : 0 <= nvN RN p <= MX -> 0 <= D -> (forall k, 0 <= k < D -> s k <> 0%R) ->
  exists p', rNd_scale RN MX D p s = OK p' /\ imageN D (fun x k => x k * s k)%R p p'.
Proof. exact (fun Hn => scaleN_image MX D p Hn s). Qed.
Print Assumptions C91_rNd_scale_image.

Theorem C91_rNd_shear_image MX D (p : polyN RN) s axb axs : 0 <= nvN RN p <= MX -> 0 <= axb < D -> 0 <= axs < D -> axb <> axs ->
  exists p', rNd_shear RN MX D p s axb axs = OK p' /\ imageN D (fun x k => if k =? axb then x k + s * x axs else x k)%R p p'.
Proof. exact (fun Hn => shearN_image MX D p Hn s axb axs). Qed.
Print Assumptions C91_rNd_shear_image.

Theorem C91_rNd_rotate_image MX D (p : polyN RN) th a1 a2 : 0 <= nvN RN p <= MX -> 0 <= a1 < D -> 0 <= a2 < D -> a1 <> a2 ->
  exists p', rNd_rotate RN MX D p th a1 a2 = OK p'
  /\ imageN D (fun x k => if k =? a1 then cos th * x a1 - sin th * x a2 else if k =? a2 then sin th * x a1 + cos th * x a2 else x k)%R p p'.
Proof. exact (fun Hn => rotateN_image MX D p Hn th a1 a2). Qed.
Print Assumptions C91_rNd_rotate_image.

(** ** C91: volumes *)
Theorem C91_rNd_translate_volume MX D (p p' : polyN RN) ltd0 ltd1 s t : 3 <= D -> 0 <= nvN RN p <= MX -> solidN D p ->
  rNd_translate RN MX D p s = OK p' -> rNd_reduce RN MX D ltd0 p = OK t -> rNd_reduce RN MX D ltd1 p' = OK t.
Proof. exact (fun HD Hn SO => translateN_volume MX D p ltd0 ltd1 HD Hn SO s p' t). Qed.
Print Assumptions C91_rNd_translate_volume.

Theorem C91_rNd_scale_volume MX D (p p' : polyN RN) ltd0 ltd1 s t : 3 <= D -> 0 <= nvN RN p <= MX -> solidN D p -> (forall k, 0 <= k < D -> s k <> 0%R) ->
  rNd_scale RN MX D p s = OK p' -> rNd_reduce RN MX D ltd0 p = OK t -> rNd_reduce RN MX D ltd1 p' = OK (lprod (zrange D) (fun i => Rabs (s i)) * t)%R.
Proof. exact (fun HD Hn SO => scaleN_volume MX D p ltd0 ltd1 HD Hn SO s p' t). Qed.
Print Assumptions C91_rNd_scale_volume.

Theorem C91_rNd_shear_volume MX D (p p' : polyN RN) ltd0 ltd1 s axb axs t : 3 <= D -> 0 <= nvN RN p <= MX -> solidN D p ->
  0 <= axb < D -> 0 <= axs < D -> axb <> axs -> rNd_shear RN MX D p s axb axs = OK p' -> rNd_reduce RN MX D ltd0 p = OK t -> rNd_reduce RN MX D ltd1 p' = OK t.
Proof. exact (fun HD Hn SO => shearN_volume MX D p ltd0 ltd1 HD Hn SO s axb axs p' t). Qed.
Print Assumptions C91_rNd_shear_volume.

Theorem C91_rNd_rotate_volume MX D (p p' : polyN RN) ltd0 ltd1 th a1 a2 t : 3 <= D -> 0 <= nvN RN p <= MX -> solidN D p ->
  0 <= a1 < D -> 0 <= a2 < D -> a1 <> a2 -> rNd_rotate RN MX D p th a1 a2 = OK p' -> rNd_reduce RN MX D ltd0 p = OK t -> rNd_reduce RN MX D ltd1 p' = OK t.
Proof. exact (fun HD Hn SO => rotateN_volume MX D p ltd0 ltd1 HD Hn SO th a1 a2 p' t). Qed.
Print Assumptions C91_rNd_rotate_volume.

(** a box of any sides in any dimension, sheared and rotated, is solid and has the volume of the box *)
Theorem C91_rNd_turned_box MX D (p : polyN RN) lo hi s th a1 a2 b1 b2 ltd0 : 3 <= D -> 2 ^ D <= MX -> (forall i, 0 <= i < D -> (lo i < hi i)%R) ->
  0 <= a1 < D -> 0 <= a2 < D -> a1 <> a2 -> 0 <= b1 < D -> 0 <= b2 < D -> b1 <> b2 ->
  exists p0 p1 p2, rNd_init_box RN MX D p lo hi = OK p0 /\ rNd_shear RN MX D p0 s a1 a2 = OK p1 /\ rNd_rotate RN MX D p1 th b1 b2 = OK p2
  /\ rNd_reduce RN MX D ltd0 p2 = OK (lprod (zrange D) (fun i => hi i - lo i)%R).
Proof. exact (turned_box MX D p lo hi s th a1 a2 b1 b2 ltd0). Qed.
Print Assumptions C91_rNd_turned_box.

(** the hypotheses are met: the tesseract *)
Example tesseract (p : polyN RN) ltd0 : exists p0 p1 p2, rNd_init_box RN 16 4 p (fun _ => 0%R) (fun _ => 1%R) = OK p0
  /\ rNd_shear RN 16 4 p0 2%R 0 3 = OK p1 /\ rNd_rotate RN 16 4 p1 1%R 1 2 = OK p2 /\ rNd_reduce RN 16 4 ltd0 p2 = OK 1%R.
Proof.
  destruct (turned_box 16 4 p (fun _ => 0%R) (fun _ => 1%R) 2%R 1%R 0 3 1 2 ltd0) as (p0 & p1 & p2 & E0 & E1 & E2 & E3); try lia; [intros; lra|].
  exists p0, p1, p2. split; auto. split; auto. split; auto. rewrite E3. f_equal. change (lprod (zrange 4) (fun _ => 1 - 0) = 1)%R. change (zrange 4) with [0; 1; 2; 3]. cbn [lprod]. ring.
Qed.
