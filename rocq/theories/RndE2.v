(** * RndE2: [r2d_split] on lists in rounded arithmetic, and a case for [r2d_clip]. *)
From Coq Require Import Reals ZArith List Bool Lia Lra Psatz.
From Verif Require Import Base Lib ModelCommon CommonFacts RealNum Model2 Spec2 Spec2R Clip2 Cons2 SpecC2 Misc2 Small2 Glue2 RndNum SpecR2 RndC2.
Import ListNotations.
Open Scope R_scope.

Lemma r2d_split_F u rnd MX pl m ins outs : accurate u rnd -> 0 <= u <= 1 / 10 -> 0 <= m -> r2d_split (FN rnd) MX pl ins = OK outs ->
  Forall2 (fun (i o : pol2 * (pol2 * pol2)) => wf2 (fst i) -> (nv (fst i) <= MX)%Z ->
     (forall v, (0 <= v < nv (fst i))%Z -> within_abs2 m (ps (vb (fst i)) v)) ->
     side_near2 u pl m (fst i) (fst (snd o)) (-1) /\ side_near2 u pl m (fst i) (snd (snd o)) 1) ins outs.
Proof.
  intros HA Hu Hm E. apply r2d_split_list in E. eapply F2_impl; [|exact E].
  intros [p [a b]] [q [o0 o1]] X Hw HM HB. cbn [fst snd] in *. exact (split1_F u rnd HA Hu MX pl m p a b q o0 o1 Hm Hw HM HB X).
Qed.

Lemma square_F (p0 : pol2) : exists p, r2d_init_box (FN rnd53) 256 p0 (V2 0 0) (V2 1 1) = OK p /\ wf2 p /\ nv p = 4%Z
  /\ (forall v, (0 <= v < nv p)%Z -> within_abs2 1 (ps (vb p) v)) /\ ps (vb p) 0 = V2 0 0 /\ ps (vb p) 2 = V2 1 1.
Proof.
  destruct (init_box_spec (FN rnd53) 256 p0 (V2 0 0) (V2 1 1) ltac:(lia)) as (p & E & Hn & P & L).
  change (T (FN rnd53)) with R in *. exists p. split; [exact E|]. split.
  { split; [lia|]. intros v Hv. rewrite Hn in Hv. assert (v = 0 \/ v = 1 \/ v = 2 \/ v = 3)%Z as H by lia.
    destruct (L 0%Z ltac:(lia)) as (A0 & B0). destruct (L 1%Z ltac:(lia)) as (A1 & B1). destruct (L 2%Z ltac:(lia)) as (A2 & B2). destruct (L 3%Z ltac:(lia)) as (A3 & B3).
    cbn in A0, B0, A1, B1, A2, B2, A3, B3. rewrite Hn. destruct H as [->|[->|[->| ->]]]; repeat rewrite ?A0, ?B0, ?A1, ?B1, ?A2, ?B2, ?A3, ?B3; lia. }
  split; [auto|]. change (zrange 4) with [0%Z; 1%Z; 2%Z; 3%Z] in P. cbn [map] in P. injection P as P0 P1 P2 P3. cbn [vx vy] in *.
  split; [|split; [exact P0|exact P2]]. intros v Hv. rewrite Hn in Hv.
  assert (B0 : Rabs 0 <= 1) by (rewrite Rabs_R0; lra). assert (B1 : Rabs 1 <= 1) by (rewrite Rabs_R1; lra).
  assert (v = 0 \/ v = 1 \/ v = 2 \/ v = 3)%Z as [->|[->|[->| ->]]] by lia; rewrite ?P0, ?P1, ?P2, ?P3; split; auto.
Qed.

(** the unit square and a slanted line, with 53 bits: the clip and the split succeed, a corner is cut off and a corner stays *)
Lemma square_rounded (p0 : pol2) : let pl := PL2 (V2 (-1) (-1 / 3)) 1 in
  exists p p' o, r2d_init_box (FN rnd53) 256 p0 (V2 0 0) (V2 1 1) = OK p /\ wf2 p /\ (nv p <= 256)%Z
  /\ (forall v, (0 <= v < nv p)%Z -> within_abs2 1 (ps (vb p) v))
  /\ r2d_clip (FN rnd53) 256 p [pl] = OK p' /\ r2d_split (FN rnd53) 256 pl [(p, (p0, p0))] = OK o
  /\ (exists v, (0 <= v < nv p)%Z /\ 7 * u53 * plane_size2 pl 1 < sdist pl (ps (vb p) v))
  /\ (exists v, (0 <= v < nv p)%Z /\ sdist pl (ps (vb p) v) < - (7 * u53 * plane_size2 pl (1 * (1 + 5 * u53) ^ 1) + normal_size2 pl * (1 * (1 + 5 * u53) ^ 1 - 1))).
Proof.
  intros pl. destruct (square_F p0) as (p & E & W & Hn & B & P0 & P2). exists p.
  destruct (r2d_clip_room (FN rnd53) 256 p [pl] W) as (p' & E'); [change (nv p * 2 ^ 1 <= 256)%Z; lia|].
  destruct (r2d_split_safe (FN rnd53) 256 pl [(p, (p0, p0))]) as (o & Eo).
  { constructor; [|constructor]. cbn [fst]. split; [exact W|]. change (3 * nv p <= 256)%Z. lia. }
  exists p', o. split; [exact E|]. split; [exact W|]. split; [rewrite Hn; lia|]. split; [exact B|]. split; [exact E'|]. split; [exact Eo|].
  assert (U : 0 <= u53 <= 1 / 1000). { unfold u53. cbn. lra. }
  assert (N1 : normal_size2 pl = 4 / 3). { unfold normal_size2, pl. cbn [pn vx vy]. rewrite !(Rabs_left (_)) by lra. lra. }
  assert (D1 : Rabs (pd pl) = 1). { unfold pl. cbn [pd]. apply Rabs_R1. }
  split; [exists 0%Z|exists 2%Z]; (split; [rewrite Hn; lia|]).
  - rewrite P0. unfold plane_size2. rewrite N1, D1. unfold sdist, pl. cbn [pd pn vx vy]. lra.
  - rewrite P2. unfold plane_size2. rewrite N1, D1. unfold sdist, pl. cbn [pd pn vx vy pow]. nra.
Qed.
