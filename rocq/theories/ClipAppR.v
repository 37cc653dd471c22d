(** * ClipAppR: clipping again, and in another order, over the reals. *)
From Coq Require Import Reals ZArith List Bool Lia Lra.
From Verif Require Import Base Lib SumR ModelCommon CommonFacts ModelN ModelNC Model2 Model3 RealNum Spec2 Spec2R SpecN SpecNC SpecNP SpecC2 SpecI SpecC3 Spec3R Spec3 ClipApp Clip2 Cons2 ClipN HullN UniqN.
From Verif Require Reduce2 Reduce3 IntC2 IntC3 ClipC2 HullC3 Props2 Props3 RastC2.
Import ListNotations.
Open Scope Z_scope.

(** ** Three dimensions *)
Theorem clip3_again MX (p p' : pol3) A B : wf3 p -> 0 <= nv p <= MX -> r3d_clip RN MX p A = OK (p', 1) -> 0 < nv p' -> (forall pl, In pl B -> In pl A) ->
  r3d_clip RN MX p' B = OK (p', 1).
Proof.
  intros W Hn E Hp Sub. destruct (Props3.C25_r3d_clip_linked RN MX p p' A W (proj2 Hn) E) as (W' & H').
  apply Props3.C29_r3d_clip_inside_unchanged; auto. intros v pl Hv Hpl.
  apply (Props3.C29_r3d_clip_inside MX p p' A W (proj2 Hn) E); auto.
Qed.
Theorem clip3_order MX (p p1 p2 : pol3) A B : convex3 p -> nv p <= MX -> (forall pl, In pl A <-> In pl B) ->
  r3d_clip RN MX p A = OK (p1, 1) -> r3d_clip RN MX p B = OK (p2, 1) ->
  (0 < nv p1 -> 0 < nv p2 -> forall x, hull3 p1 x <-> hull3 p2 x)
  /\ ((forall pl, In pl A -> proper pl) -> forall sh mom i j k po, Z.of_nat i + Z.of_nat j + Z.of_nat k <= po -> exists m1 m2,
       r3d_reduce RN MX sh p1 mom po = OK m1 /\ r3d_reduce RN MX sh p2 mom po = OK m2
       /\ m1 (Reduce3.idx3 (Z.of_nat i) (Z.of_nat j) (Z.of_nat k)) = m2 (Reduce3.idx3 (Z.of_nat i) (Z.of_nat j) (Z.of_nat k))).
Proof.
  intros CV HM AB E1 E2.
  assert (HH : forall x, holds3 A x <-> holds3 B x) by (intros x; split; intros H pl Hp; apply H; now apply AB).
  split.
  - intros P1 P2 x. destruct (HullC3.r3d_clip_hull MX p p1 A CV HM E1) as (_ & [H1|(H1 & _)]); [|lia].
    destruct (HullC3.r3d_clip_hull MX p p2 B CV HM E2) as (_ & [H2|(H2 & _)]); [|lia]. rewrite H1, H2, HH. tauto.
  - intros PP sh mom i j k po Hp.
    destruct (IntC3.clip_reduce_integral MX i j k sh p p1 A mom po CV HM PP E1 Hp) as (m1 & R1 & I1).
    destruct (IntC3.clip_reduce_integral MX i j k sh p p2 B mom po CV HM ltac:(intros pl Hpl; apply PP; now apply AB) E2 Hp) as (m2 & R2 & I2).
    exists m1, m2. split; auto. split; auto. eapply IntC3.integral3_unique; [exact I1|]. eapply IntC3.integral3_ext; [|exact I2].
    intros x. cbv beta. rewrite HH. tauto.
Qed.

(** ** Two dimensions *)
Theorem clip2_again MX (p p' : poly (rvec2 R)) A B : wf2 p -> nv p <= MX -> r2d_clip RN MX p A = OK p' -> (forall pl, In pl B -> In pl A) ->
  r2d_clip RN MX p' B = OK p'.
Proof.
  intros W Hn E Sub. destruct (Props2.C01_r2d_clip_linked RN MX p p' A W Hn E) as (W' & H' & _).
  apply Props2.C05_r2d_clip_inside_unchanged; auto. intros v pl Hv Hpl.
  apply (Props2.C04_r2d_clip_inside MX p p' A W Hn E); auto.
Qed.
Theorem clip2_order MX (p p1 p2 : poly (rvec2 R)) A B : convex_ccw p -> nv p <= MX -> (forall pl, In pl A <-> In pl B) ->
  r2d_clip RN MX p A = OK p1 -> r2d_clip RN MX p B = OK p2 ->
  (0 < nv p1 -> 0 < nv p2 -> forall x, hull2 p1 x <-> hull2 p2 x)
  /\ ((forall pl, In pl A -> proper2 pl) -> forall sh mom i j po, Z.of_nat i + Z.of_nat j <= po -> exists m1 m2,
       r2d_reduce RN MX sh p1 mom po = OK m1 /\ r2d_reduce RN MX sh p2 mom po = OK m2
       /\ m1 (Reduce2.idx2 (Z.of_nat i) (Z.of_nat j)) = m2 (Reduce2.idx2 (Z.of_nat i) (Z.of_nat j))).
Proof.
  intros CV HM AB E1 E2.
  assert (HH : forall x, holds2 A x <-> holds2 B x) by (intros x; split; intros H pl Hp; apply H; now apply AB).
  split.
  - intros P1 P2 x. destruct (ClipC2.r2d_clip_hull MX p p1 A CV HM E1) as (_ & [H1|(H1 & _)]); [|lia].
    destruct (ClipC2.r2d_clip_hull MX p p2 B CV HM E2) as (_ & [H2|(H2 & _)]); [|lia]. rewrite H1, H2, HH. tauto.
  - intros PP sh mom i j po Hp.
    destruct (IntC2.clip_reduce_integral MX i j sh p p1 A mom po CV HM PP E1 Hp) as (m1 & R1 & I1).
    destruct (IntC2.clip_reduce_integral MX i j sh p p2 B mom po CV HM ltac:(intros pl Hpl; apply PP; now apply AB) E2 Hp) as (m2 & R2 & I2).
    exists m1, m2. split; auto. split; auto. eapply IntC2.integral2_unique; [exact I1|]. eapply IntC2.integral2_ext; [|exact I2].
    intros x. cbv beta. rewrite HH. tauto.
Qed.

(** ** N dimensions *)
Section ND.
Context (MX D : Z) (fuel : nat).
Hypothesis HD : 3 <= D.
Hypothesis Hf : (Z.to_nat (MX * D * D * D) <= fuel)%nat.
Lemma planesN_inside planes : forall p : polyN RN, 0 <= nvN RN p <= MX ->
  (forall pl, In pl planes -> forall v, upto (nvN RN p) v -> (0 <= Spl D pl (ps (vbN RN p) v))%R) -> clipN_planes RN MX D fuel planes p = OK p.
Proof.
  induction planes as [|pl r IH]; intros p Hn H; cbn [clipN_planes]; auto.
  destruct (clipN_sd_spec RN MX D (vbN RN p) (nvN RN p) pl ltac:(lia) Hn) as (s & ES & _ & _ & _ & SM & _). rewrite ES. cbn [bind]. rewrite SM.
  assert (E : nle RN (n0 RN) (minf RN (sdfN RN D pl (vbN RN p)) (nvN RN p) (nbig RN)) = true).
  { apply minf_R. split; [cbn; lra|]. intros v Hv. rewrite sdfN_lin. apply H; [now left|exact Hv]. }
  rewrite E. apply IH; auto. intros pl' Hpl. apply H. now right.
Qed.
Theorem clipN_again (p p' : polyN RN) A B : 0 <= nvN RN p <= MX -> convexN D p -> rNd_clip RN MX D fuel p A = OK p' -> (forall pl, In pl B -> In pl A) ->
  rNd_clip RN MX D fuel p' B = OK p'.
Proof.
  intros Hn CV E Sub. destruct (rNd_clip_hull MX D fuel HD Hf p A Hn CV) as [(q & E' & Hq & _ & CQ & H)|(_ & E')]; rewrite E' in E; [|discriminate].
  injection E as <-. unfold rNd_clip. destruct (Z.leb_spec (nvN RN q) 0) as [H0|H0]; auto.
  destruct H as [H|(H & _)]; [|lia]. apply planesN_inside; auto. intros pl Hpl v Hv.
  destruct (proj1 (H (ps (vbN RN q) v)) (hull_vertex D (nvN RN q) (ps (vbN RN q)) v Hv)) as (_ & HA). apply HA. auto.
Qed.
Theorem clipN_order (p p1 p2 : polyN RN) A B : 0 <= nvN RN p <= MX -> convexN D p -> (forall pl, In pl A <-> In pl B) ->
  rNd_clip RN MX D fuel p A = OK p1 -> rNd_clip RN MX D fuel p B = OK p2 -> 0 < nvN RN p1 -> 0 < nvN RN p2 ->
  forall x, hullP D p1 x <-> hullP D p2 x.
Proof.
  intros Hn CV AB E1 E2 P1 P2 x.
  assert (HH : holds D A x <-> holds D B x) by (split; intros H pl Hp; apply H; now apply AB).
  destruct (rNd_clip_hull MX D fuel HD Hf p A Hn CV) as [(q1 & E1' & _ & _ & _ & H1)|(_ & E')]; [|congruence].
  destruct (rNd_clip_hull MX D fuel HD Hf p B Hn CV) as [(q2 & E2' & _ & _ & _ & H2)|(_ & E')]; [|congruence].
  rewrite E1' in E1. rewrite E2' in E2. injection E1 as ->. injection E2 as ->.
  destruct H1 as [H1|(H1 & _)]; [|lia]. destruct H2 as [H2|(H2 & _)]; [|lia]. rewrite H1, H2, HH. tauto.
Qed.
End ND.
