(** * RndG3: a case for the volumes of a rounded 3D split. *)
From Coq Require Import Reals ZArith List Bool Lia Lra.
From Verif Require Import Base Lib ModelCommon CommonFacts RealNum Model3 Spec3 Spec3R Orb3 Clip3 Cons3 Glue3 Graph3 Small3 RndNum SpecR3 SpecL3 RndC3 RndE3 RndA3.
Import ListNotations.
Open Scope R_scope.

(** the unit cube has flat faces, and a slanted plane that passes between its corners splits it *)
Lemma cube_split_rounded (p0 : pol3) : let pl := PL3 (V3 (-1) (-1) (-1 / 3)) (3 / 2) in
  exists p o, r3d_init_box (FN rnd53) 512 p0 (V3 0 0 0) (V3 1 1 1) = OK p /\ wf3 p /\ (0 < nv p <= 512)%Z
  /\ (forall v, (0 <= v < nv p)%Z -> within_abs 1 (ps (vb p) v)) /\ flat_faces 0 p
  /\ r3d_split (FN rnd53) 512 pl [(p, (p0, p0))] = OK (o, 1%Z)
  /\ (exists q0 q1, r3d_split_coord (FN rnd53) 512 p p0 (1 / 3) 0 = OK (q0, q1)).
Proof.
  intros pl. destruct (cube_rounded p0) as (p & _ & E & W & HM & HB & _).
  destruct (init_box_spec3 (FN rnd53) 512 p0 (V3 0 0 0) (V3 1 1 1) ltac:(lia)) as (q & E' & Hn & A & P). rewrite E' in E. inversion E; subst q. clear E.
  change (T (FN rnd53)) with R in *.
  destruct (r3d_split_room (FN rnd53) 512 pl [(p, (p0, p0))]) as (o & Eo).
  { constructor; [|constructor]. cbn [fst]. split; [exact W|]. change (T (FN rnd53)) with R. rewrite Hn. lia. }
  exists p, o. split; [exact E'|]. split; [exact W|]. split; [rewrite Hn; lia|]. split; [exact HB|].
  split; [apply planar_flat, (box_planar p (V3 0 0 0) (V3 1 1 1) Hn A P)|]. split; [exact Eo|].
  destruct (split3_coord_spec (FN rnd53) 512 p p0 (1 / 3) 0 W HM ltac:(lia))
    as [(_ & X)|[(_ & _ & X)|[(_ & _ & X)|(_ & _ & _ & _ & _ & _ & [(q0 & q1 & X & _)|(_ & X)])]]]; [exact (ex_intro _ _ (ex_intro _ _ X))..|].
  exfalso. destruct W as (Hn0 & L & _). pose proof (exits3_le (fun v => negb (cright3 (FN rnd53) (1 / 3) 0 (vb p) v)) (nb (vb p)) (nv p) Hn0 L). change (T (FN rnd53)) with R in *. lia.
Qed.
