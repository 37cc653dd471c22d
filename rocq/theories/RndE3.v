(** * RndE3: [r3d_split] on lists in rounded arithmetic, and a case for [r3d_clip]. *)
From Coq Require Import Reals ZArith List Bool Lia Lra Psatz.
From Verif Require Import Base Lib ModelCommon CommonFacts RealNum Model3 Spec2 Spec3 Spec3R Orb3 Cut3 Clip2 Struct3 Clip3 Cons2 Cons3 Geo3 Glue3 Graph3 Small3 RndNum SpecR3 RndC3 Glue2.
Import ListNotations.
Open Scope R_scope.

Lemma r3d_split_F u rnd MX pl m ins outs : accurate u rnd -> 0 <= u <= 1 / 10 -> 0 <= m -> r3d_split (FN rnd) MX pl ins = OK (outs, 1%Z) ->
  Forall2 (fun (i o : pol3 * (pol3 * pol3)) => wf3 (fst i) -> (nv (fst i) <= MX)%Z ->
     (forall v, (0 <= v < nv (fst i))%Z -> within_abs m (ps (vb (fst i)) v)) ->
     side_near u pl m (fst i) (fst (snd o)) 1 /\ side_near u pl m (fst i) (snd (snd o)) (-1)) ins outs.
Proof.
  intros HA Hu Hm E. apply r3d_split_list in E. eapply F2_impl; [|exact E].
  intros [p [a b]] [q [o0 o1]] X Hw HM HB. cbn [fst snd] in *. exact (split31_F u rnd HA Hu MX pl m p a b q o0 o1 Hm Hw HM HB X).
Qed.

(** the unit cube and a slanted plane, with 53 bits: the clip succeeds, a corner is cut off and a corner stays *)
Lemma cube_rounded (p0 : pol3) : let pl := PL3 (V3 (-1) (-1) (-1 / 3)) (3 / 2) in
  exists p p', r3d_init_box (FN rnd53) 512 p0 (V3 0 0 0) (V3 1 1 1) = OK p /\ wf3 p /\ (nv p <= 512)%Z
  /\ (forall v, (0 <= v < nv p)%Z -> within_abs 1 (ps (vb p) v))
  /\ r3d_clip (FN rnd53) 512 p [pl] = OK (p', 1%Z)
  /\ (exists v, (0 <= v < nv p)%Z /\ 5 * u53 * plane_size pl 1 < sdist3 pl (ps (vb p) v))
  /\ (exists v, (0 <= v < nv p)%Z /\ sdist3 pl (ps (vb p) v) < - (5 * u53 * plane_size pl (1 * (1 + 5 * u53) ^ 1) + normal_size pl * (1 * (1 + 5 * u53) ^ 1 - 1))).
Proof.
  intros pl. destruct (init_box_spec3 (FN rnd53) 512 p0 (V3 0 0 0) (V3 1 1 1) ltac:(lia)) as (p & E & Hn & A & P).
  change (T (FN rnd53)) with R in *. pose proof (box_wf (FN rnd53) p Hn A) as W. exists p.
  destruct (clip3_planes_room (FN rnd53) 512 [pl] p W) as (p' & E'); try (change (T (FN rnd53)) with R; rewrite Hn; cbn [length]; lia).
  exists p'. split; [exact E|]. split; [exact W|]. split; [rewrite Hn; lia|].
  assert (PV : forall v, (0 <= v < 8)%Z -> In (ps (vb p) v) (map (ps (vb p)) (zrange 8))) by (intros v Hv; apply in_map; now apply in_zrange).
  split.
  { intros v Hv. rewrite Hn in Hv. specialize (PV v Hv). rewrite P in PV. cbn [x3 y3 z3] in PV.
    assert (B0 : Rabs 0 <= 1) by (rewrite Rabs_R0; lra). assert (B1 : Rabs 1 <= 1) by (rewrite Rabs_R1; lra).
    cbn [In] in PV. repeat (destruct PV as [<-|PV]); [..|destruct PV]; split; [|split| |split| |split| |split| |split| |split| |split| |split]; auto. }
  split. { unfold r3d_clip. change (T (FN rnd53)) with R. rewrite Hn. exact E'. }
  change (zrange 8) with [0%Z; 1%Z; 2%Z; 3%Z; 4%Z; 5%Z; 6%Z; 7%Z] in P. cbn [map] in P. injection P as P0 _ _ _ _ _ P6 _. cbn [x3 y3 z3] in *.
  assert (U : 0 <= u53 <= 1 / 1000). { unfold u53. cbn. lra. }
  assert (N1 : normal_size pl = 7 / 3). { unfold normal_size, pl. cbn [n3 x3 y3 z3]. rewrite !(Rabs_left (_)) by lra. lra. }
  assert (D1 : Rabs (d3 pl) = 3 / 2). { unfold pl. cbn [d3]. apply Rabs_pos_eq. lra. }
  split; [exists 0%Z|exists 6%Z]; (split; [rewrite Hn; lia|]).
  - rewrite P0. unfold plane_size. rewrite N1, D1. unfold sdist3, pl. cbn [d3 n3 x3 y3 z3]. lra.
  - rewrite P6. unfold plane_size. rewrite N1, D1. unfold sdist3, pl. cbn [d3 n3 x3 y3 z3 pow]. nra.
Qed.
