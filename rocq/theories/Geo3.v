(** * Geo3: planes, lines and fans of triangles in exact arithmetic. *)
From Coq Require Import Reals ZArith List Bool Lia Lra.
From Verif Require Import Base Lib ModelCommon CommonFacts Model3 Spec3 Orb3 Cut3 FaceSpec3 Face3 HPoly HShift HInt RealNum SumR Spec3R Mom3.
Import ListNotations.
Open Scope R_scope.

(** four points of a proper plane span no volume *)
Lemma plane_vol6 g a b c d : proper g ->
  sdist3 g a = 0 -> sdist3 g b = 0 -> sdist3 g c = 0 -> sdist3 g d = 0 -> vol6 a b c d = 0.
Proof.
  destruct g as [[nx ny nz] gd], a as [ax ay az], b as [bx by' bz], c as [cx cy cz], d as [dx dy dz].
  unfold proper, sdist3, vol6, det3, psub, pt3. cbn [n3 d3 x3 y3 z3 px py pz].
  intros Hp A B C D.
  set (u1 := bx - ax). set (u2 := by' - ay). set (u3 := bz - az).
  set (v1 := cx - ax). set (v2 := cy - ay). set (v3 := cz - az).
  set (w1 := dx - ax). set (w2 := dy - ay). set (w3 := dz - az).
  assert (U : nx * u1 + ny * u2 + nz * u3 = 0) by (unfold u1, u2, u3; lra).
  assert (V : nx * v1 + ny * v2 + nz * v3 = 0) by (unfold v1, v2, v3; lra).
  assert (W : nx * w1 + ny * w2 + nz * w3 = 0) by (unfold w1, w2, w3; lra).
  clearbody u1 u2 u3 v1 v2 v3 w1 w2 w3.
  match goal with |- ?e = 0 => set (D0 := e) end.
  assert (X : nx * D0 = 0).
  { transitivity ((nx * u1 + ny * u2 + nz * u3) * (v2 * w3 - v3 * w2)
      - (nx * v1 + ny * v2 + nz * v3) * (u2 * w3 - u3 * w2) + (nx * w1 + ny * w2 + nz * w3) * (u2 * v3 - u3 * v2)).
    unfold D0; ring. rewrite U, V, W. ring. }
  assert (Y : ny * D0 = 0).
  { transitivity (- ((nx * u1 + ny * u2 + nz * u3) * (v1 * w3 - v3 * w1)
      - (nx * v1 + ny * v2 + nz * v3) * (u1 * w3 - u3 * w1) + (nx * w1 + ny * w2 + nz * w3) * (u1 * v3 - u3 * v1))).
    unfold D0; ring. rewrite U, V, W. ring. }
  assert (Z : nz * D0 = 0).
  { transitivity ((nx * u1 + ny * u2 + nz * u3) * (v1 * w2 - v2 * w1)
      - (nx * v1 + ny * v2 + nz * v3) * (u1 * w2 - u2 * w1) + (nx * w1 + ny * w2 + nz * w3) * (u1 * v2 - u2 * v1)).
    unfold D0; ring. rewrite U, V, W. ring. }
  destruct Hp as [Hp|[Hp|Hp]]; [apply Rmult_integral in X|apply Rmult_integral in Y|apply Rmult_integral in Z]; tauto.
Qed.

(** points of a line *)
Definition lerp3 (t : R) (a b : rvec3 R) : rvec3 R :=
  V3 ((1 - t) * x3 a + t * x3 b) ((1 - t) * y3 a + t * y3 b) ((1 - t) * z3 a + t * z3 b).
Lemma sdist3_lerp g t a b : sdist3 g (lerp3 t a b) = (1 - t) * sdist3 g a + t * sdist3 g b.
Proof. unfold sdist3, lerp3. cbn [x3 y3 z3]. ring. Qed.
Lemma lerp3_swap t a b : lerp3 t a b = lerp3 (1 - t) b a.
Proof. unfold lerp3. f_equal; ring. Qed.

Section Laws.
Context (i j k : nat).
Notation T3 := (tet3 i j k).
Lemma tet3_flat a b c : det3 (pt3 a) (pt3 b) (pt3 c) = 0 -> T3 a b c = 0.
Proof. intros E. unfold tet3. rewrite tet_int_Hn, E. unfold Rdiv. ring. Qed.
Lemma tet3_line c a b t : T3 c b (lerp3 t a b) + T3 c (lerp3 t a b) a = T3 c b a.
Proof.
  pose proof (tet3_cocycle i j k c b (lerp3 t a b) a) as C.
  assert (E : T3 b (lerp3 t a b) a = 0).
  { apply tet3_flat. unfold det3, lerp3, pt3. cbn. ring. }
  assert (vol6 c b (lerp3 t a b) a = 0) as V.
  { unfold vol6, det3, psub, lerp3, pt3. cbn. ring. }
  specialize (C V). lra.
Qed.
End Laws.

(** point where the line through [a] and [b] meets the plane *)
Definition meet3 (pl : plane3 R) (a b : rvec3 R) : rvec3 R :=
  wav3 RN a (- sdist3 pl b) b (sdist3 pl a).
Lemma meet3_lerp pl a b : sdist3 pl a <> sdist3 pl b ->
  meet3 pl a b = lerp3 (sdist3 pl a / (sdist3 pl a - sdist3 pl b)) a b.
Proof. intros E. unfold meet3, wav3, lerp3. cbn. f_equal; field; lra. Qed.
Lemma meet3_on pl a b : sdist3 pl a <> sdist3 pl b -> sdist3 pl (meet3 pl a b) = 0.
Proof. intros E. rewrite meet3_lerp, sdist3_lerp by auto. field. lra. Qed.
Lemma meet3_comm pl a b : sdist3 pl a <> sdist3 pl b -> meet3 pl a b = meet3 pl b a.
Proof. intros E. unfold meet3, wav3. cbn. f_equal; field; lra. Qed.
Lemma meet3_on_l pl a b : sdist3 pl a <> sdist3 pl b -> sdist3 pl a = 0 -> meet3 pl a b = a.
Proof. intros E Z. rewrite meet3_lerp by auto. rewrite Z. destruct a. unfold lerp3. cbn. rewrite Z in E. f_equal; field; lra. Qed.
Lemma meet3_flip pl a b : sdist3 pl a <> sdist3 pl b -> meet3 (flip3 pl) a b = meet3 pl a b.
Proof.
  intros E. assert (F : forall q, sdist3 (flip3 pl) q = - sdist3 pl q) by (intros; unfold sdist3, flip3; cbn; ring).
  unfold meet3, wav3. rewrite !F. cbn. f_equal; field; lra.
Qed.
Lemma sdist3_flip pl q : sdist3 (flip3 pl) q = - sdist3 pl q.
Proof. unfold sdist3, flip3. cbn. ring. Qed.
Lemma flip3_proper pl : proper pl -> proper (flip3 pl).
Proof. unfold proper, flip3. cbn. intros [H|[H|H]]; [left|right; left|right; right]; lra. Qed.
(** convexity along an edge *)
Lemma sdist3_meet pl g a b : 0 <= sdist3 pl a -> sdist3 pl b < 0 ->
  exists t, 0 <= t <= 1 /\ sdist3 g (meet3 pl a b) = t * sdist3 g a + (1 - t) * sdist3 g b.
Proof.
  intros A B. exists (- sdist3 pl b / (sdist3 pl a - sdist3 pl b)). split.
  - split.
    + apply Rmult_le_pos; [lra|]. left. apply Rinv_0_lt_compat. lra.
    + apply (Rmult_le_reg_r (sdist3 pl a - sdist3 pl b)); [lra|]. unfold Rdiv. rewrite Rmult_assoc, Rinv_l by lra. lra.
  - rewrite meet3_lerp, sdist3_lerp by lra. field. lra.
Qed.
(** a point of the plane *)
Definition base3 (pl : plane3 R) : rvec3 R :=
  let n := n3 pl in let q := x3 n * x3 n + y3 n * y3 n + z3 n * z3 n in
  V3 (- d3 pl * x3 n / q) (- d3 pl * y3 n / q) (- d3 pl * z3 n / q).
Lemma base3_on pl : proper pl -> sdist3 pl (base3 pl) = 0.
Proof.
  intros H. unfold sdist3, base3. cbn.
  assert (x3 (n3 pl) * x3 (n3 pl) + y3 (n3 pl) * y3 (n3 pl) + z3 (n3 pl) * z3 (n3 pl) <> 0).
  { unfold proper in H. nra. }
  field. auto.
Qed.

(** ** Sums over darts *)
Section Sums.
Context (f : Z -> Z -> Z) (Dom : Z -> Prop) (n : Z) (ds : list dart).
Hypothesis L : links f Dom.
Hypothesis Hb : forall v, Dom v -> (0 <= v < n)%Z.
Hypothesis ND : NoDup ds.
Hypothesis HI : forall d, In d ds <-> isd Dom d.

Lemma sum_fnext g : lsum ds (fun d => g (fnext f d)) = lsum ds g.
Proof.
  apply (lsum_bij (fnext f)); auto.
  - intros d Hd. apply HI. apply isd_fnext; auto. now apply HI.
  - intros d e Hd He. apply (fnext_inj f Dom L); now apply HI.
  - intros e He. apply HI in He. destruct (fnext_surj f Dom L n Hb e He) as (d & Hd & E).
    exists d. split; auto. now apply HI.
Qed.
Lemma sum_opp g : lsum ds (fun d => g (dopp f d)) = lsum ds g.
Proof.
  apply (lsum_bij (dopp f)); auto.
  - intros d Hd. apply HI. apply isd_opp; auto. now apply HI.
  - intros d e Hd He. apply (opp_inj f Dom L); now apply HI.
  - intros e He. apply HI in He. exists (dopp f e). split; [apply HI, isd_opp; auto|].
    apply (opp_opp f Dom L); auto.
Qed.

(** the apex of each fan may be any point of the plane of its face *)
Lemma apex_change i j k (pos : Z -> rvec3 R) (A A' : dart -> rvec3 R) :
  (forall d, isd Dom d -> A (fnext f d) = A d) ->
  (forall d, isd Dom d -> A' (fnext f d) = A' d) ->
  (forall d, isd Dom d -> vol6 (A d) (A' d) (pos (dtgt f d)) (pos (fst d)) = 0) ->
  lsum ds (fun d => tet3 i j k (A' d) (pos (dtgt f d)) (pos (fst d)))
  = lsum ds (fun d => tet3 i j k (A d) (pos (dtgt f d)) (pos (fst d))).
Proof.
  intros HA HA' HV.
  set (g := fun d => tet3 i j k (A d) (A' d) (pos (fst d))).
  transitivity (lsum ds (fun d => (tet3 i j k (A d) (pos (dtgt f d)) (pos (fst d)) + g (fnext f d)) - g d)).
  2: { rewrite lsum_sub, lsum_add, sum_fnext. ring. }
  apply lsum_ext. intros d Hd. apply HI in Hd. rewrite (tet3_apex i j k (A d)) by auto.
  unfold g. rewrite HA, HA' by auto. rewrite fst_fnext. ring.
Qed.

(** closed sums in one plane vanish *)
Lemma sum_odd g : (forall d, isd Dom d -> g (dopp f d) = - g d) -> lsum ds g = 0.
Proof.
  intros H. assert (E : lsum ds g = lsum ds (fun d => -1 * g d)).
  { rewrite <- sum_opp. apply lsum_ext. intros d Hd. rewrite H by (now apply HI). ring. }
  rewrite lsum_scal in E. lra.
Qed.
End Sums.
