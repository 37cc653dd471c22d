(** * PropsCA: property C96.  Proofs are in ClipApp, ClipAppR. *)
From Coq Require Import Reals ZArith List Bool Lia Lra.
From Verif Require Import Base Lib ModelCommon ModelN ModelNC Model2 Model3 RealNum Spec2 Spec2R SpecN SpecNC SpecNP SpecC2 SpecI SpecC3 SpecF3 Spec3R Spec3 Reduce2 Reduce3 ClipApp ClipAppR.
From Verif Require Mom3 Glue3 GlueC3 GlueC2 InitC3 RoomF3 Props3 PropsF3 PropsC2 PropsNC PropsN PipeF3 HullC3.
Import ListNotations.
Open Scope Z_scope.

(** ** C96: one call with all planes and one call after the other *)
(** Any arithmetic, every input, errors included: the same buffer. *)
Theorem C96_r2d_clip_in_turn (N : num) MX A B (p : poly (rvec2 (T N))) : 0 <= nv p ->
  r2d_clip N MX p (A ++ B) = let* p1 := r2d_clip N MX p A in r2d_clip N MX p1 B.
Proof. exact (r2d_clip_app N MX A B p). Qed.
Print Assumptions C96_r2d_clip_in_turn.

Theorem C96_rNd_clip_in_turn (N : num) MX D fuel A B (p : polyN N) : 0 <= nvN N p ->
  rNd_clip N MX D fuel p (A ++ B) = let* p1 := rNd_clip N MX D fuel p A in rNd_clip N MX D fuel p1 B.
Proof. exact (rNd_clip_app N MX D fuel A B p). Qed.
Print Assumptions C96_rNd_clip_in_turn.

(** [r3d_clip] also returns a status.  It reports 1 when a plane empties the polyhedron,
    but 0 when it is called with an empty one. *)
Theorem C96_r3d_clip_in_turn (N : num) MX A B (p : poly (rvec3 (T N))) : 0 < nv p ->
  (forall e, r3d_clip N MX p A = Err e -> r3d_clip N MX p (A ++ B) = Err e)
  /\ forall p1 r, r3d_clip N MX p A = OK (p1, r) ->
     (r = 0 /\ r3d_clip N MX p (A ++ B) = OK (p1, 0))
     \/ (r = 1 /\ 0 < nv p1 /\ r3d_clip N MX p (A ++ B) = r3d_clip N MX p1 B)
     \/ (r = 1 /\ nv p1 = 0 /\ r3d_clip N MX p (A ++ B) = OK (p1, 1) /\ r3d_clip N MX p1 B = OK (p1, 0)).
Proof. exact (r3d_clip_app N MX A B p). Qed.
Print Assumptions C96_r3d_clip_in_turn.

(** ** Clipping again with planes already used changes nothing *)
Theorem C96_r2d_clip_again MX (p p' : poly (rvec2 R)) A B : wf2 p -> nv p <= MX -> r2d_clip RN MX p A = OK p' -> (forall pl, In pl B -> In pl A) ->
  r2d_clip RN MX p' B = OK p'.
Proof. exact (clip2_again MX p p' A B). Qed.
Print Assumptions C96_r2d_clip_again.

Theorem C96_r3d_clip_again MX (p p' : pol3) A B : wf3 p -> 0 <= nv p <= MX -> r3d_clip RN MX p A = OK (p', 1) -> 0 < nv p' -> (forall pl, In pl B -> In pl A) ->
  r3d_clip RN MX p' B = OK (p', 1).
Proof. exact (clip3_again MX p p' A B). Qed.
Print Assumptions C96_r3d_clip_again.

Theorem C96_rNd_clip_again MX D fuel (p p' : polyN RN) A B : 3 <= D -> (Z.to_nat (MX * D * D * D) <= fuel)%nat -> 0 <= nvN RN p <= MX -> convexN D p ->
  rNd_clip RN MX D fuel p A = OK p' -> (forall pl, In pl B -> In pl A) -> rNd_clip RN MX D fuel p' B = OK p'.
Proof. exact (fun HD Hf => clipN_again MX D fuel HD Hf p p' A B). Qed.
Print Assumptions C96_rNd_clip_again.

(** ** The order of the planes, and how often each occurs, does not matter *)
Theorem C96_r2d_clip_order MX (p p1 p2 : poly (rvec2 R)) A B : convex_ccw p -> nv p <= MX -> (forall pl, In pl A <-> In pl B) ->
  r2d_clip RN MX p A = OK p1 -> r2d_clip RN MX p B = OK p2 ->
  (0 < nv p1 -> 0 < nv p2 -> forall x, hull2 p1 x <-> hull2 p2 x)
  /\ ((forall pl, In pl A -> proper2 pl) -> forall sh mom i j po, Z.of_nat i + Z.of_nat j <= po -> exists m1 m2,
       r2d_reduce RN MX sh p1 mom po = OK m1 /\ r2d_reduce RN MX sh p2 mom po = OK m2
       /\ m1 (idx2 (Z.of_nat i) (Z.of_nat j)) = m2 (idx2 (Z.of_nat i) (Z.of_nat j))).
Proof. exact (clip2_order MX p p1 p2 A B). Qed.
Print Assumptions C96_r2d_clip_order.

Theorem C96_r3d_clip_order MX (p p1 p2 : pol3) A B : convex3 p -> nv p <= MX -> (forall pl, In pl A <-> In pl B) ->
  r3d_clip RN MX p A = OK (p1, 1) -> r3d_clip RN MX p B = OK (p2, 1) ->
  (0 < nv p1 -> 0 < nv p2 -> forall x, hull3 p1 x <-> hull3 p2 x)
  /\ ((forall pl, In pl A -> proper pl) -> forall sh mom i j k po, Z.of_nat i + Z.of_nat j + Z.of_nat k <= po -> exists m1 m2,
       r3d_reduce RN MX sh p1 mom po = OK m1 /\ r3d_reduce RN MX sh p2 mom po = OK m2
       /\ m1 (idx3 (Z.of_nat i) (Z.of_nat j) (Z.of_nat k)) = m2 (idx3 (Z.of_nat i) (Z.of_nat j) (Z.of_nat k))).
Proof. exact (clip3_order MX p p1 p2 A B). Qed.
Print Assumptions C96_r3d_clip_order.

Theorem C96_rNd_clip_order MX D fuel (p p1 p2 : polyN RN) A B : 3 <= D -> (Z.to_nat (MX * D * D * D) <= fuel)%nat -> 0 <= nvN RN p <= MX -> convexN D p ->
  (forall pl, In pl A <-> In pl B) -> rNd_clip RN MX D fuel p A = OK p1 -> rNd_clip RN MX D fuel p B = OK p2 ->
  0 < nvN RN p1 -> 0 < nvN RN p2 -> forall x, hullP D p1 x <-> hullP D p2 x.
Proof. exact (fun HD Hf => clipN_order MX D fuel HD Hf p p1 p2 A B). Qed.
Print Assumptions C96_rNd_clip_order.

(** ** The hypotheses are met *)
Section Cases.
Let a : plane3 R := PL3 (V3 1 (-1) 0)%R 0%R.
Let b : plane3 R := PL3 (V3 (-1) (-1) (-1))%R (3 / 2)%R.
Let out : plane3 R := PL3 (V3 (-1) 0 0)%R (-1)%R.
(** the cube, cut by two planes in both orders; the result, cut again *)
Example cube_orders p0 : exists p p1 p2, r3d_init_box RN 512 p0 (V3 0 0 0)%R (V3 1 1 1)%R = OK p /\ convex3 p /\ wf3 p /\ 0 < nv p <= 512
  /\ r3d_clip RN 512 p [a; b] = OK (p1, 1) /\ r3d_clip RN 512 p [b; a; b] = OK (p2, 1)
  /\ (0 < nv p1 -> r3d_clip RN 512 p1 [b] = OK (p1, 1))
  /\ exists m1 m2, r3d_reduce RN 512 true p1 (fun _ => 0%R) 0 = OK m1 /\ r3d_reduce RN 512 true p2 (fun _ => 0%R) 0 = OK m2 /\ m1 0 = m2 0.
Proof.
  destruct (GlueC3.cube_clip p0) as (p & p1 & E & CV & E1). exists p, p1.
  destruct (RoomF3.init_box_facets 512 p0 p (V3 0 0 0)%R (V3 1 1 1)%R ltac:(lia)) as (F & Hn); cbn [x3 y3 z3]; try lra; auto.
  destruct (PropsF3.C78_r3d_clip_room 512 p [b; a; b] 6 F ltac:(Mom3.rn; lia) ltac:(cbn; lia)) as (p2 & E2 & _). exists p2.
  assert (HM : nv p <= 512) by (Mom3.rn; lia).
  split; auto. split; auto. split; [apply CV|]. split; [Mom3.rn; lia|]. split; auto. split; auto. split.
  - intros Hp. apply (C96_r3d_clip_again 512 p p1 [a; b] [b]); auto; [apply CV|Mom3.rn; lia|]. intros pl [<-|[]]. cbn. auto.
  - destruct (C96_r3d_clip_order 512 p p1 p2 [a; b] [b; a; b] CV HM ltac:(intros pl; cbn; tauto) E1 E2) as (_ & H).
    destruct (H ltac:(intros pl [<-|[<-|[]]]; unfold proper; cbn; [left|left]; lra) true (fun _ => 0%R) 0%nat 0%nat 0%nat 0 ltac:(lia)) as (m1 & m2 & R1 & R2 & Em).
    exists m1, m2. auto.
Qed.
(** a plane that the cube is behind, and then another call *)
Example cube_gone p0 : exists p p1, r3d_init_box RN 512 p0 (V3 0 0 0)%R (V3 1 1 1)%R = OK p
  /\ r3d_clip RN 512 p [out] = OK (p1, 1) /\ nv p1 = 0 /\ r3d_clip RN 512 p [out; a] = OK (p1, 1) /\ r3d_clip RN 512 p1 [a] = OK (p1, 0).
Proof.
  destruct (GlueC3.cube_clip p0) as (p & _ & E & CV & _). exists p.
  destruct (RoomF3.init_box_facets 512 p0 p (V3 0 0 0)%R (V3 1 1 1)%R ltac:(lia)) as (F & Hn); cbn [x3 y3 z3]; try lra; auto.
  destruct (PropsF3.C78_r3d_clip_room 512 p [out] 6 F ltac:(Mom3.rn; lia) ltac:(cbn; lia)) as (p1 & E1 & _). exists p1.
  assert (HM : nv p <= 512) by (Mom3.rn; lia).
  assert (Z0 : nv p1 = 0).
  { apply (Props3.C29_r3d_clip_outside_empty 512 p p1 [out] (proj1 CV) HM E1). exists out. split; [now left|]. intros v Hv.
    destruct (proj1 (PipeF3.init_box_hull 512 p0 p (V3 0 0 0)%R (V3 1 1 1)%R ltac:(lia) E ltac:(cbn; lra) ltac:(cbn; lra) ltac:(cbn; lra) (ps (vb p) v)) (HullC3.hull3_vertex p v Hv)) as (X & _).
    cbn [x3 y3 z3] in X. unfold sdist3, out. cbn [n3 d3 x3 y3 z3]. Mom3.rn. lra. }
  split; auto. split; auto. split; auto.
  destruct (C96_r3d_clip_in_turn RN 512 [out] [a] p ltac:(Mom3.rn; lia)) as (_ & H).
  destruct (H p1 1 E1) as [(X & _)|[(_ & X & _)|(_ & _ & X & Y)]]; [lia|lia|]. split; auto.
Qed.
End Cases.
