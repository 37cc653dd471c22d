(** * Trans3: moments under the 3D transforms (r3d.c:583-643). *)
From Coq Require Import Reals ZArith List Bool Lia Lra Psatz.
From Coquelicot Require Import Coquelicot.
From Verif Require Import Base Lib ModelCommon CommonFacts Model3 Spec3 Orb3 Cut3 FaceSpec3 Face3 HPoly HShift HInt
  RealNum SumR Spec3R Mom3 Geo3 Cons3 Green2 Shift2 Shift3 Graph3 Small3.
Import ListNotations.
Open Scope R_scope.

Lemma tet3_000 a b c : tet3 0 0 0 a b c = det3 (pt3 a) (pt3 b) (pt3 c) / 6.
Proof. unfold tet3. rewrite tet_int_Hn. unfold Hn. rewrite H_000. unfold deg. cbn. field. Qed.

Lemma mapped3_moment (g : rvec3 R -> rvec3 R) (p p' : pol3) i j k : wf3 p -> mapped3R g p p' ->
  moment3 p' i j k = moment3_of g p i j k.
Proof.
  intros (Hn & L & _) (A & B & C & _). unfold moment3, moment3_of. rn. rewrite A, B.
  apply lsum_ext. intros d Hd. apply isd_in in Hd.
  rewrite !C; auto.
  - destruct Hd. auto.
  - apply (isd_opp _ _ L d Hd).
  - destruct (lead_isd (nb (vb p)) (nv p) Hn L d Hd). auto.
Qed.

(** sums over the darts of [p] that depend antisymmetrically on the edge, possibly weighted
    by a quantity that is constant on each face, telescope *)
Section Fan.
Context (p : pol3).
Hypothesis Hw : wf3 p.
Let f := nb (vb p).
Let n := nv p.
Let ds := darts 3 n.
Let pos := ps (vb p).
Let la d := pos (fst (lead f n d)).

Lemma fan_edge (W : rvec3 R -> rvec3 R -> R) : (forall a b, W b a = - W a b) ->
  lsum ds (fun d => W (pos (dtgt f d)) (pos (fst d))) = 0.
Proof.
  destruct Hw as (Hn & L & _). intros HW.
  apply (sum_odd f (below n) ds L (NoDup_darts _ _ Hn)).
  - intros d. symmetry. apply isd_in.
  - intros d Hd. rewrite (dtgt_opp f _ L d Hd). unfold dsrc. change (fst (dopp f d)) with (dtgt f d). apply HW.
Qed.
Lemma fan_apex (W : rvec3 R -> rvec3 R -> R) :
  lsum ds (fun d => W (la d) (pos (dtgt f d))) = lsum ds (fun d => W (la d) (pos (fst d))).
Proof.
  destruct Hw as (Hn & L & _).
  etransitivity; [|refine (sum_fnext f (below n) n ds L (below_b n) (NoDup_darts _ _ Hn) _ (fun d => W (la d) (pos (fst d))))].
  2: { intros d. symmetry. apply isd_in. }
  apply lsum_ext. intros d Hd. apply isd_in in Hd. unfold la.
  rewrite <- (lead_sf f n Hn L d (fnext f d) Hd) by apply sf_step. reflexivity.
Qed.
End Fan.

(** volume under an affine map *)
Definition lin3 (m : Z -> Z -> R) (q : rvec3 R) : rvec3 R :=
  let row r := x3 q * m r 0%Z + y3 q * m r 1%Z + z3 q * m r 2%Z + m r 3%Z in V3 (row 0%Z) (row 1%Z) (row 2%Z).
Definition detm (m : Z -> Z -> R) : R :=
  m 0%Z 0%Z * (m 1%Z 1%Z * m 2%Z 2%Z - m 1%Z 2%Z * m 2%Z 1%Z)
  - m 0%Z 1%Z * (m 1%Z 0%Z * m 2%Z 2%Z - m 1%Z 2%Z * m 2%Z 0%Z)
  + m 0%Z 2%Z * (m 1%Z 0%Z * m 2%Z 1%Z - m 1%Z 1%Z * m 2%Z 0%Z).

Lemma det3_aff m (a b c : rvec3 R) :
  let t := V3 (m 0 3)%Z (m 1 3)%Z (m 2 3)%Z in
  let W u v := det3 (pt3 t) (pt3 (vsb t (lin3 m u))) (pt3 (vsb t (lin3 m v))) in
  det3 (pt3 (lin3 m a)) (pt3 (lin3 m b)) (pt3 (lin3 m c))
  = detm m * det3 (pt3 a) (pt3 b) (pt3 c) + W a b + W b c - W a c.
Proof. cbn. unfold det3, detm, pt3, vsb, lin3. cbn. ring. Qed.

Lemma affine_volume m (p p' : pol3) : wf3 p -> mapped3R (lin3 m) p p' ->
  moment3 p' 0 0 0 = detm m * moment3 p 0 0 0.
Proof.
  intros Hw M. rewrite (mapped3_moment _ _ _ _ _ _ Hw M). unfold moment3, moment3_of. cbn zeta.
  set (t := V3 (m 0 3)%Z (m 1 3)%Z (m 2 3)%Z).
  set (W := fun u v => det3 (pt3 t) (pt3 (vsb t (lin3 m u))) (pt3 (vsb t (lin3 m v)))).
  set (f := nb (vb p)). set (n := nv p). set (pos := ps (vb p)).
  rewrite <- lsum_scal.
  transitivity (lsum (darts 3 n) (fun d =>
     detm m * tet3 0 0 0 (pos (fst (lead f n d))) (pos (dtgt f d)) (pos (fst d))
     + (W (pos (fst (lead f n d))) (pos (dtgt f d)) / 6
        + W (pos (dtgt f d)) (pos (fst d)) / 6
        - W (pos (fst (lead f n d))) (pos (fst d)) / 6))).
  - apply lsum_ext. intros d _. rewrite !tet3_000. pose proof (det3_aff m (pos (fst (lead f n d))) (pos (dtgt f d)) (pos (fst d))) as E.
    cbv zeta in E. fold t in E. rewrite E. unfold W. field.
  - rewrite lsum_add.
    match goal with |- ?u + ?v = ?w => enough (v = 0) as -> by ring end.
    rewrite lsum_sub, lsum_add.
    pose proof (fan_edge p Hw (fun u v => W u v / 6)) as F1. pose proof (fan_apex p Hw (fun u v => W u v / 6)) as F2.
    fold f n pos in F1, F2. cbv beta in F1, F2. rewrite F1, F2; [ring|].
    intros a b. unfold W, det3. cbn. field.
Qed.

Section T.
Context (MX : Z) (p : pol3).
Hypothesis Hw : wf3 p.
Hypothesis HM : (nv p <= MX)%Z.

Lemma hn3 : (0 <= nv p <= MX)%Z. Proof. destruct Hw. rn. lia. Qed.

Lemma translate3_R (sh : rvec3 R) : exists p', r3d_translate RN MX p sh = OK p'
  /\ mapped3R (fun q => V3 (x3 q + x3 sh) (y3 q + y3 sh) (z3 q + z3 sh)) p p'.
Proof. apply map_pos3_spec; [exact hn3|reflexivity]. Qed.
Lemma translate3_moment (sh : rvec3 R) (p' : pol3) i j k :
  mapped3R (fun q => V3 (x3 q + x3 sh) (y3 q + y3 sh) (z3 q + z3 sh)) p p' ->
  moment3 p' i j k = bsum3 sh i j k (moment3 p).
Proof.
  intros M. pose proof (mapped3_wf _ _ _ _ M Hw) as Hw'. destruct Hw' as (Hn' & L' & _).
  rewrite <- (moment3_shift sh p' i j k Hn' L'). unfold bsum3.
  apply sum_eq. intros a _. apply sum_eq. intros b _. apply sum_eq. intros d _. f_equal.
  unfold moment3_at, moment3_of, moment3. destruct M as (A & B & C & _). rn. rewrite A, B.
  destruct Hw as (Hn & L & _).
  assert (X : forall v, (0 <= v < nv p)%Z -> vsb sh (ps (vb p') v) = ps (vb p) v).
  { intros v Hv. rewrite C by auto. unfold vsb. cbn. destruct (ps (vb p) v). cbn. f_equal; ring. }
  apply lsum_ext. intros e He. apply isd_in in He. rewrite !X; auto.
  - destruct He; auto.
  - apply (isd_opp _ _ L e He).
  - destruct (lead_isd (nb (vb p)) (nv p) Hn L e He). auto.
Qed.

Lemma scale3_R s : exists p', r3d_scale RN MX p s = OK p'
  /\ mapped3R (fun q => V3 (x3 q * s) (y3 q * s) (z3 q * s)) p p'.
Proof. apply map_pos3_spec; [exact hn3|reflexivity]. Qed.
Lemma tet3_scale s a b c i j k :
  tet3 i j k (V3 (x3 a * s) (y3 a * s) (z3 a * s)) (V3 (x3 b * s) (y3 b * s) (z3 b * s)) (V3 (x3 c * s) (y3 c * s) (z3 c * s))
  = s ^ (i + j + k + 3) * tet3 i j k a b c.
Proof.
  unfold tet3. rewrite !tet_int_Hn. unfold Hn.
  assert (E : forall q, pt3 (V3 (x3 q * s) (y3 q * s) (z3 q * s)) = pscal s (pt3 q)).
  { intros q. unfold pt3, pscal. cbn. apply pt_eq; ring. }
  rewrite !E. pose proof (H_scal s [pt3 a; pt3 b; pt3 c] i j k) as HS. cbn [map] in HS. rewrite HS.
  replace (det3 (pscal s (pt3 a)) (pscal s (pt3 b)) (pscal s (pt3 c))) with (s ^ 3 * det3 (pt3 a) (pt3 b) (pt3 c))
    by (unfold det3, pscal, pt3; cbn; ring).
  unfold deg. rewrite (pow_add s (i + j + k) 3). set (D := det3 _ _ _). set (h := H _ _ _ _). field. apply fact_neq.
Qed.
Lemma scale3_moment s (p' : pol3) i j k : mapped3R (fun q => V3 (x3 q * s) (y3 q * s) (z3 q * s)) p p' ->
  moment3 p' i j k = s ^ (i + j + k + 3) * moment3 p i j k.
Proof.
  intros M. rewrite (mapped3_moment _ _ _ _ _ _ Hw M). unfold moment3, moment3_of. rewrite <- lsum_scal.
  apply lsum_ext. intros. apply tet3_scale.
Qed.

(** replace coordinate [axb] by itself plus [s] times coordinate [axs] *)
Definition shear3_map (s : R) (axb axs : Z) (q : rvec3 R) : rvec3 R :=
  let w := coordR3 axb q + s * coordR3 axs q in
  if (axb =? 0)%Z then V3 w (y3 q) (z3 q) else if (axb =? 1)%Z then V3 (x3 q) w (z3 q) else V3 (x3 q) (y3 q) w.
Lemma shear3_R s axb axs : (0 <= axb < 3)%Z -> (0 <= axs < 3)%Z ->
  exists p', r3d_shear RN MX p s axb axs = OK p' /\ mapped3R (shear3_map s axb axs) p p'.
Proof.
  intros H1 H2. apply map_pos3_spec; [exact hn3|]. intros q.
  assert (axb = 0 \/ axb = 1 \/ axb = 2)%Z as [-> |[-> | ->]] by lia;
  assert (axs = 0 \/ axs = 1 \/ axs = 2)%Z as [-> |[-> | ->]] by lia; reflexivity.
Qed.
Lemma shear3_volume s axb axs (p' : pol3) : (0 <= axb < 3)%Z -> (0 <= axs < 3)%Z -> axb <> axs ->
  mapped3R (shear3_map s axb axs) p p' -> moment3 p' 0 0 0 = moment3 p 0 0 0.
Proof.
  intros H1 H2 H3 M. rewrite (mapped3_moment _ _ _ _ _ _ Hw M). unfold moment3, moment3_of.
  apply lsum_ext. intros d _. rewrite !tet3_000. unfold shear3_map, coordR3.
  assert (axb = 0 \/ axb = 1 \/ axb = 2)%Z as [-> |[-> | ->]] by lia;
  assert (axs = 0 \/ axs = 1 \/ axs = 2)%Z as [-> |[-> | ->]] by lia; try lia; unfold det3, pt3; cbn; field.
Qed.

(** the projective map of r3d.c:622-643 *)
Definition affine3_map (m : Z -> Z -> R) (q : rvec3 R) : rvec3 R :=
  let row r := x3 q * m r 0%Z + y3 q * m r 1%Z + z3 q * m r 2%Z + m r 3%Z in
  V3 (row 0%Z / row 3%Z) (row 1%Z / row 3%Z) (row 2%Z / row 3%Z).
Lemma affine3_R m : exists p', r3d_affine RN MX p m = OK p' /\ mapped3R (affine3_map m) p p'.
Proof. apply map_pos3_spec; [exact hn3|reflexivity]. Qed.
Lemma affine3_det m (p' : pol3) : m 3%Z 0%Z = 0 -> m 3%Z 1%Z = 0 -> m 3%Z 2%Z = 0 -> m 3%Z 3%Z = 1 ->
  mapped3R (affine3_map m) p p' -> moment3 p' 0 0 0 = detm m * moment3 p 0 0 0.
Proof.
  intros A B C D (M1 & M2 & M3 & M4). apply affine_volume; auto.
  split; auto. split; auto. split; auto. intros v Hv. rewrite M3 by auto. unfold affine3_map, lin3.
  rewrite A, B, C, D. rn. f_equal; field.
Qed.

(** rotation about a coordinate axis *)
Definition rot3_map (theta : R) (axis : Z) (q : rvec3 R) : rvec3 R :=
  if (axis =? 0)%Z then V3 (x3 q) (cos theta * y3 q - sin theta * z3 q) (sin theta * y3 q + cos theta * z3 q)
  else if (axis =? 1)%Z then V3 (sin theta * z3 q + cos theta * x3 q) (y3 q) (cos theta * z3 q - sin theta * x3 q)
  else V3 (cos theta * x3 q - sin theta * y3 q) (sin theta * x3 q + cos theta * y3 q) (z3 q).
Lemma rotate3_R theta axis : (0 <= axis < 3)%Z -> exists p', r3d_rotate RN MX p theta axis = OK p'
  /\ mapped3R (rot3_map theta axis) p p'.
Proof.
  intros H1. apply map_pos3_spec; [exact hn3|]. intros q.
  assert (axis = 0 \/ axis = 1 \/ axis = 2)%Z as [-> |[-> | ->]] by lia; reflexivity.
Qed.
Lemma rotate3_volume theta axis (p' : pol3) : (0 <= axis < 3)%Z ->
  mapped3R (rot3_map theta axis) p p' -> moment3 p' 0 0 0 = moment3 p 0 0 0.
Proof.
  intros H1 M. rewrite (mapped3_moment _ _ _ _ _ _ Hw M). unfold moment3, moment3_of.
  apply lsum_ext. intros d _. rewrite !tet3_000.
  pose proof (sin2_cos2 theta) as E. unfold Rsqr in E.
  assert (E' : sin theta * sin theta = 1 - cos theta * cos theta) by lra.
  f_equal. unfold rot3_map. set (s := sin theta) in *. set (c := cos theta) in *.
  assert (axis = 0 \/ axis = 1 \/ axis = 2)%Z as [-> |[-> | ->]] by lia; unfold det3, pt3; cbn; ring [E'].
Qed.
Definition dist3 (a b : rvec3 R) : R :=
  (x3 a - x3 b) ^ 2 + (y3 a - y3 b) ^ 2 + (z3 a - z3 b) ^ 2.
Lemma rot3_isometry theta axis a b : dist3 (rot3_map theta axis a) (rot3_map theta axis b) = dist3 a b.
Proof.
  pose proof (sin2_cos2 theta) as E. unfold Rsqr in E.
  unfold rot3_map, dist3. destruct (axis =? 0)%Z; [|destruct (axis =? 1)%Z]; cbn [x3 y3 z3];
    set (s := sin theta) in *; set (c := cos theta) in *; assert (E' : s * s = 1 - c * c) by lra; ring [E'].
Qed.
End T.
