(** * GlueC2: cases that meet the hypotheses of the theorems on convex polygons. *)
From Coq Require Import Reals ZArith List Bool Lia Lra.
From Verif Require Import Base Lib SumR ModelCommon Model2 ModelV RealNum SpecNV SpecNJ Spec2 Spec2R Struct2 Clip2 Mom2 Cons2 Misc2 Reduce2 Glue2
  Small2 VoxFacts Convex2 IBox Vox2 GlueV2 SpecC2 LoopC2 HullC2 ClipC2 InitC2 AreaC2 MomC2 RastC2.
Import ListNotations.
Open Scope R_scope.

Lemma square_convex p0 : exists p, r2d_init_box RN 256 p0 (V2 0 0) (V2 1 1) = OK p /\ convex_ccw p /\ nv p = 4%Z
  /\ forall x, hull2 p x <-> 0 <= vx x <= 1 /\ 0 <= vy x <= 1.
Proof.
  destruct (init_box_all 256 p0 (V2 0 0) (V2 1 1) ltac:(lia)) as (p & E & _). exists p. split; auto.
  apply (init_box_convex 256 p0 p (V2 0 0) (V2 1 1)); cbn; auto; lra || lia.
Qed.
(** a square cut by a line through two of its corners and by one that misses the corners *)
Lemma square_clip p0 : exists p p', r2d_init_box RN 256 p0 (V2 0 0) (V2 1 1) = OK p /\ convex_ccw p
  /\ r2d_clip RN 256 p [PL2 (V2 1 (-1)) 0; PL2 (V2 (-1) (-2)) (3 / 2)] = OK p'.
Proof.
  destruct (square_convex p0) as (p & E & C & Hn & _).
  destruct (r2d_clip_room 256 p [PL2 (V2 1 (-1)) 0; PL2 (V2 (-1) (-2)) (3 / 2)] C) as (p' & Ec & _); [rn; rewrite Hn; vm_compute; discriminate|].
  exists p, p'. auto.
Qed.
Lemma square_split p0 : exists p o, r2d_init_box RN 256 p0 (V2 0 0) (V2 1 1) = OK p /\ convex_ccw p
  /\ r2d_split RN 256 (PL2 (V2 1 (-1)) 0) [(p, (p0, p0))] = OK o.
Proof.
  destruct (square_convex p0) as (p & E & C & Hn & _).
  destruct (r2d_split_safe RN 256 (PL2 (V2 1 (-1)) 0) [(p, (p0, p0))]) as (o & Es). { constructor; [|constructor]. cbn [fst]. split; [apply C|]. rn; lia. }
  exists p, o. auto.
Qed.
Definition grid4 : box := ((fun _ => -1)%Z, (fun _ => 3)%Z).
Lemma square_raster p0 stk0 mom0 : exists p gr', r2d_init_box RN 256 p0 (V2 0 0) (V2 1 1) = OK p /\ convex_ccw p /\ (nv p <= 256)%Z
  /\ within (V2 (1/2) (1/3)) grid4 p /\ cells_ok (num_moments2 2) grid4
  /\ r2d_rasterize RN 256 false 2 stk0 mom0 p grid4 (fun _ => 0) (V2 (1/2) (1/3)) = OK gr'.
Proof.
  destruct (square_convex p0) as (p & E & C & Hn & H).
  assert (HB : cells_ok (num_moments2 2) grid4) by (split; [intros i _; cbn; unfold int_min, int_max; lia|vm_compute; discriminate]).
  assert (C2 := C). apply convex_ccw_iff in C2 as (Hw & Hc & _).
  destruct (rasterize_convex_returns 256 false 2 stk0 mom0 p grid4 (fun _ => 0) (V2 (1/2) (1/3))) as (gr' & Er); auto; [lia|rn; rewrite Hn; vm_compute; discriminate|].
  exists p, gr'. split; auto. split; auto. split; [rn; lia|]. split; auto.
  intros v i Hv Hi. pose proof (proj1 (H _) (hull2_vertex p v Hv)) as (A & B). destruct (slot2 i Hi) as [->| ->]; cbn; lra.
Qed.
Definition clamp4 : box := ((fun _ => 1)%Z, (fun _ => 2)%Z).
Lemma square_clamp p0 : exists p p' B', r2d_init_box RN 256 p0 (V2 0 0) (V2 1 1) = OK p /\ convex_ccw p /\ (nv p <= 256)%Z
  /\ within (V2 (1/2) (1/3)) grid4 p /\ (forall i, 0 <= i < 2 -> - int_max <= fst clamp4 i <= int_max)%Z
  /\ r2d_clamp_ibox RN 256 p grid4 clamp4 (V2 (1/2) (1/3)) = OK (p', B').
Proof.
  destruct (square_raster p0 (fun _ => (p0, grid4)) (fun _ => 0)) as (p & _ & E & C & Hn & Wi & _).
  assert (Hc : (forall i, 0 <= i < 2 -> - int_max <= fst clamp4 i <= int_max)%Z) by (intros i _; cbn; unfold int_max; lia).
  assert (C2 := C). apply convex_ccw_iff in C2 as (Hw & Hx & _).
  destruct (init_box_convex 256 p0 p (V2 0 0) (V2 1 1) ltac:(lia) ltac:(cbn; lra) ltac:(cbn; lra) E) as (_ & N4 & _).
  destruct (clamp_convex 256 p grid4 clamp4 (V2 (1/2) (1/3)) Hc Hw Hx ltac:(rn; lia)) as (p' & B' & Ec & _). exists p, p', B'. auto 10.
Qed.
Lemma penta_ccw : strict_ccw [V2 0 0; V2 2 (-1); V2 4 1; V2 3 3; V2 (-1) 2].
Proof. cbn [strict_ccw]. repeat (split || apply FOP_cons || apply FOP_nil || apply Forall_cons || apply Forall_nil); unfold turn; cbn; lra. Qed.
