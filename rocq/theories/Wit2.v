(** * Wit2: concrete 2D polygons used for non-vacuity and for refutations. *)
From Coq Require Import Reals ZArith List Bool Lia Lra Psatz.
From Verif Require Import Base Lib ModelCommon CommonFacts Model2 Spec2 Struct2 Clip2 HPoly HInt
  RealNum SumR Spec2R Mom2 Cons2 Green2 Small2.
Import ListNotations.
Open Scope R_scope.

(** an [n]-gon whose vertex [v] is [f v] *)
Definition ngon {V} (n : Z) (f : Z -> V) : poly V :=
  PY (VB (fun v s => if (s =? 0)%Z then ((v + 1) mod n)%Z else ((v - 1) mod n)%Z) f) n.
Lemma ngon_good {V} n (f : Z -> V) : (3 <= n)%Z -> good2 (ngon n f).
Proof.
  intros Hn. destruct (ring_links (nb (vb (ngon n f))) n Hn) as (A & B).
  - intros v Hv. split; reflexivity.
  - split; [split; [cbn; lia|exact A]|exact B].
Qed.

(** the unit square *)
Definition sq : pol2 := ngon 4 (fun v =>
  if (v =? 0)%Z then V2 0 0 else if (v =? 1)%Z then V2 1 0 else if (v =? 2)%Z then V2 1 1 else V2 0 1).
Lemma sq_good : good2 sq.
Proof. apply ngon_good. lia. Qed.

(** 256 points of a parabola: a convex polygon that fills the buffer *)
Definition parab : pol2 := ngon 256 (fun v => V2 (IZR v) (IZR v * IZR v)).
Definition parab_cut : plane2 R := PL2 (V2 1 0) (- (127 + /2)).
Lemma parab_good : good2 parab.
Proof. apply ngon_good. lia. Qed.

Definition left_of (a b q : rvec2 R) : Prop :=
  0 <= (vx b - vx a) * (vy q - vy a) - (vy b - vy a) * (vx q - vx a).
Lemma parab_convex u v : (0 <= u < 256)%Z -> (0 <= v < 256)%Z ->
  left_of (ps (vb parab) v) (ps (vb parab) (nb (vb parab) v 0%Z)) (ps (vb parab) u).
Proof.
  intros Hu Hv. cbn [parab ngon vb nb ps]. cbn [Z.eqb]. unfold left_of. cbn [vx vy].
  destruct (Z.eq_dec v 255) as [->|Hn].
  - change ((255 + 1) mod 256)%Z with 0%Z.
    assert (0 <= IZR u <= 255) by (split; apply IZR_le; lia). nra.
  - rewrite Z.mod_small by lia. rewrite plus_IZR.
    assert (0 <= (IZR u - IZR v) * (IZR u - IZR v - 1)).
    { rewrite <- minus_IZR. rewrite <- minus_IZR. rewrite <- mult_IZR. apply IZR_le.
      destruct (Z_le_gt_dec u v); [apply Z.mul_nonpos_nonpos; lia|apply Z.mul_nonneg_nonneg; lia]. }
    nra.
Qed.
Lemma parab_overflow : r2d_clip RN 256 parab [parab_cut] = Err OutOfBounds.
Proof.
  unfold r2d_clip. change (nv parab <=? 0)%Z with false. cbv iota.
  assert (S : forall v, sdist parab_cut (ps (vb parab) v) = IZR v - (127 + /2)).
  { intros. unfold sdist, parab_cut. cbn -[IZR]. lra. }
  assert (C : crossings parab_cut parab = 2%Z).
  { unfold crossings. rewrite (exits_ext _ (fun v => (128 <=? v)%Z)).
    - vm_compute. reflexivity.
    - apply parab_good.
    - intros v Hv. rewrite S. destruct (Z.leb_spec 128 v) as [L|L].
      + apply Rleb_true. apply IZR_le in L. lra.
      + apply Rleb_false. assert (v <= 127)%Z as L' by lia. apply IZR_le in L'. lra. }
  destruct (clip_step_R 256 parab_cut [] parab (proj1 parab_good) ltac:(cbn; lia))
    as [(A & _)|[(A & _)|(_ & _ & [(p' & _ & _ & _ & X & _)|(E & _)])]].
  - exfalso. pose proof (A 0%Z ltac:(cbn; lia)) as X. rewrite S in X. lra.
  - exfalso. pose proof (A 255%Z ltac:(cbn; lia)) as X. rewrite S in X. lra.
  - exfalso. rewrite C in X. cbn in X. lia.
  - exact E.
Qed.

(** every polygon strictly on the positive side ends up in [out_neg] *)
Lemma split_positive MX pl (p opos oneg : pol2) : wf2 p -> (0 < nv p <= MX)%Z ->
  (forall v, (0 <= v < nv p)%Z -> 0 < sdist pl (ps (vb p) v)) ->
  r2d_split1 RN MX pl p opos oneg = OK (p, (PY (vb opos) 0%Z, p)).
Proof.
  intros Hw Hn Hp.
  assert (R : forall v, (0 <= v < nv p)%Z -> rightv RN pl (vb p) v = true).
  { intros v Hv. unfold rightv, sidesd. rn. rewrite sdf_sdist. pose proof (Hp v Hv).
    apply Rltb_true. cbn. lra. }
  destruct (split1_spec RN MX pl p opos oneg Hw ltac:(rn; lia)) as [(A & E')|[(A & B & E')|[(A & B & E')|(u & v & Hu & Hv & Ru & Rv & _)]]].
  - rn. lia.
  - rn. pose proof (B 0%Z ltac:(lia)) as X. rewrite R in X by lia. discriminate.
  - exact E'.
  - rn. rewrite R in Ru by auto. discriminate.
Qed.

(** a triangle of vertices that all point to themselves *)
Definition selfish : pol2 := PY (VB (fun v s => if (s =? 0)%Z then v else ((v + 1) mod 3)%Z) (fun _ => V2 0 0)) 3%Z.
