(** * Units: rounded moments follow a change of units by exact factors without a new rounding. *)
From Coq Require Import Reals ZArith List Bool Lia Lra.
From Verif Require Import Base Lib ModelCommon Model2 Model3 RealNum RndNum Spec2 Spec3 Spec2R SpecEq Orb3 Reduce2 Reduce3 FaceSpec3 Face3 FanOrd3 EqvF3 EqvR2 Glue3 Glue2.
Import ListNotations.
Open Scope R_scope.

Section U.
Context (rnd : R -> R).
Notation N := (FN rnd).
Notation ef := (exact_factor rnd).
Lemma ef_1 : ef 1.
Proof. split; [lra|]. intros x. now rewrite !Rmult_1_l. Qed.
Lemma ef_mul a b : ef a -> ef b -> ef (a * b).
Proof. intros (A & HA) (B & HB). split; [now apply Rmult_integral_contrapositive_currified|]. intros x. now rewrite Rmult_assoc, HA, HB, Rmult_assoc. Qed.
Lemma ef_pow a k : ef a -> ef (a ^ k).
Proof. intros H. induction k; cbn; [apply ef_1|now apply ef_mul]. Qed.
Lemma ef_add w x y : ef w -> rnd (w * x + w * y) = w * rnd (x + y).
Proof. intros (_ & H). now rewrite <- Rmult_plus_distr_l, H. Qed.
Lemma ef_sub w x y : ef w -> rnd (w * x - w * y) = w * rnd (x - y).
Proof. intros (_ & H). rewrite <- H. f_equal. ring. Qed.
Lemma ef_muls v w x y : ef v -> ef w -> rnd (v * x * (w * y)) = v * w * rnd (x * y).
Proof. intros Hv Hw. rewrite <- (proj2 (ef_mul v w Hv Hw)). f_equal. ring. Qed.
Lemma ef_fold {A} w (g g' : A -> R) l : ef w -> (forall v, In v l -> g' v = w * g v) -> forall q, fold_left (fun q v => rnd (q + g' v)) l (w * q) = w * fold_left (fun q v => rnd (q + g v)) l q.
Proof.
  intros Hw. induction l as [|v l IH]; intros H q; cbn [fold_left]; auto. rewrite (H v) by now left. rewrite ef_add by auto. apply IH. intros x Hx. apply H. now right.
Qed.

Section S3.
Context (sx sy sz : R) (HX : ef sx) (HY : ef sy) (HZ : ef sz).
Definition W3 (i j k : nat) : R := sx ^ i * sy ^ j * sz ^ k.
Lemma ef_W3 i j k : ef (W3 i j k).
Proof. unfold W3. apply ef_mul; [apply ef_mul|]; now apply ef_pow. Qed.
Lemma pstep3_hom (fx fx' fy fy' fz fz' : R -> R) w i j k x x' y y' z z' : ef w ->
  ((0 < i)%nat -> fx' x' = w * fx x) -> ((0 < j)%nat -> fy' y' = w * fy y) -> ((0 < k)%nat -> fz' z' = w * fz z) ->
  pstep3 N fx' fy' fz' i j k x' y' z' = w * pstep3 N fx fy fz i j k x y z.
Proof.
  intros Hw H1 H2 H3. unfold pstep3. cbn [n0 nadd FN T].
  assert (A : (match i with O => 0 | S _ => rnd (0 + fx' x') end) = w * (match i with O => 0 | S _ => rnd (0 + fx x) end)).
  { destruct i; [ring|]. rewrite H1 by lia. rewrite <- (ef_add w 0 (fx x)) by auto. f_equal. ring. }
  rewrite A. clear A. set (a := match i with O => 0 | S _ => rnd (0 + fx x) end). clearbody a.
  assert (B : (match j with O => w * a | S _ => rnd (w * a + fy' y') end) = w * (match j with O => a | S _ => rnd (a + fy y) end)).
  { destruct j; [ring|]. rewrite H2 by lia. now apply ef_add. }
  rewrite B. clear B. set (c := match j with O => a | S _ => rnd (a + fy y) end). clearbody c.
  destruct k; [ring|]. rewrite H3 by lia. now apply ef_add.
Qed.
Lemma cpas3_eq (fx fy fz : R -> R) i j k : (0 < i + j + k)%nat -> cpas3 N fx fy fz i j k =
  pstep3 N fx fy fz i j k (match i with O => 0 | S i' => cpas3 N fx fy fz i' j k end) (match j with O => 0 | S j' => cpas3 N fx fy fz i j' k end) (match k with O => 0 | S k' => cpas3 N fx fy fz i j k' end).
Proof. destruct i, j, k; intros; try lia; reflexivity. Qed.
Lemma dpas3_eq (fx fy fz : R -> R) c i j k : (0 < i + j + k)%nat -> dpas3 N fx fy fz c i j k =
  rnd (pstep3 N fx fy fz i j k (match i with O => 0 | S i' => dpas3 N fx fy fz c i' j k end) (match j with O => 0 | S j' => dpas3 N fx fy fz c i j' k end) (match k with O => 0 | S k' => dpas3 N fx fy fz c i j k' end) + c i j k).
Proof. destruct i, j, k; intros; try lia; reflexivity. Qed.
Definition hom (s : R) (g g' : R -> R) : Prop := forall w x, ef w -> g' (w * x) = s * w * g x.
Lemma hom_mul s a : ef s -> hom s (fun x => rnd (a * x)) (fun x => rnd (s * a * x)).
Proof. intros Hs w x Hw. now apply ef_muls. Qed.
Lemma W3_S i j k : W3 (S i) j k = sx * W3 i j k /\ W3 i (S j) k = sy * W3 i j k /\ W3 i j (S k) = sz * W3 i j k.
Proof. unfold W3. cbn [pow]. repeat split; ring. Qed.
Section F.
Context (fx fx' fy fy' fz fz' : R -> R) (H1 : hom sx fx fx') (H2 : hom sy fy fy') (H3 : hom sz fz fz').
Lemma step_hom (g g' : nat -> nat -> nat -> R) i j k : (forall a b c, (a + b + c < i + j + k)%nat -> g' a b c = W3 a b c * g a b c) ->
  pstep3 N fx' fy' fz' i j k (match i with O => 0 | S i' => g' i' j k end) (match j with O => 0 | S j' => g' i j' k end) (match k with O => 0 | S k' => g' i j k' end)
  = W3 i j k * pstep3 N fx fy fz i j k (match i with O => 0 | S i' => g i' j k end) (match j with O => 0 | S j' => g i j' k end) (match k with O => 0 | S k' => g i j k' end).
Proof.
  intros H. apply pstep3_hom; [apply ef_W3| | |].
  - intros P. destruct i; [lia|]. rewrite H, H1 by (try lia; apply ef_W3). rewrite (proj1 (W3_S i j k)). reflexivity.
  - intros P. destruct j; [lia|]. rewrite H, H2 by (try lia; apply ef_W3). rewrite (proj1 (proj2 (W3_S i j k))). reflexivity.
  - intros P. destruct k; [lia|]. rewrite H, H3 by (try lia; apply ef_W3). rewrite (proj2 (proj2 (W3_S i j k))). reflexivity.
Qed.
Lemma W3_000 : W3 0 0 0 = 1. Proof. unfold W3. cbn. ring. Qed.
Lemma cpas3_hom : forall K i j k, (i + j + k = K)%nat -> cpas3 N fx' fy' fz' i j k = W3 i j k * cpas3 N fx fy fz i j k.
Proof.
  induction K as [K IH] using lt_wf_ind. intros i j k E. destruct (Nat.eq_dec K 0) as [K0|K0].
  - assert (i = 0 /\ j = 0 /\ k = 0)%nat as (-> & -> & ->) by lia. rewrite W3_000. change (1 = 1 * 1). ring.
  - rewrite !cpas3_eq by lia. apply (step_hom (cpas3 N fx fy fz) (cpas3 N fx' fy' fz')). intros a b c L. apply (IH (a + b + c)%nat); lia.
Qed.
Lemma dpas3_hom (c c' : nat -> nat -> nat -> R) : (forall i j k, c' i j k = W3 i j k * c i j k) ->
  forall K i j k, (i + j + k = K)%nat -> dpas3 N fx' fy' fz' c' i j k = W3 i j k * dpas3 N fx fy fz c i j k.
Proof.
  intros HC. induction K as [K IH] using lt_wf_ind. intros i j k E. destruct (Nat.eq_dec K 0) as [K0|K0].
  - assert (i = 0 /\ j = 0 /\ k = 0)%nat as (-> & -> & ->) by lia. rewrite W3_000. change (1 = 1 * 1). ring.
  - rewrite !dpas3_eq by lia. rewrite (step_hom (dpas3 N fx fy fz c) (dpas3 N fx' fy' fz' c')); [|intros a b d L; apply (IH (a + b + d)%nat); lia].
    rewrite HC. apply ef_add, ef_W3.
Qed.
End F.
Notation sc := (scaled3 sx sy sz).
Lemma E3_hom v0 v1 v2 i j k : E3 N (sc v0) (sc v1) (sc v2) i j k = W3 i j k * E3 N v0 v1 v2 i j k.
Proof.
  unfold E3. eapply (dpas3_hom _ _ _ _ _ _ (hom_mul sx (x3 v0) HX) (hom_mul sy (y3 v0) HY) (hom_mul sz (z3 v0) HZ)); [|reflexivity].
  clear i j k. intros i j k. unfold D3. eapply (dpas3_hom _ _ _ _ _ _ (hom_mul sx (x3 v1) HX) (hom_mul sy (y3 v1) HY) (hom_mul sz (z3 v1) HZ)); [|reflexivity].
  clear i j k. intros i j k. unfold C3. exact (cpas3_hom _ _ _ _ _ _ (hom_mul sx (x3 v2) HX) (hom_mul sy (y3 v2) HY) (hom_mul sz (z3 v2) HZ) _ i j k eq_refl).
Qed.
Definition V3f : R := sx * sy * sz.
Lemma ef_V3f : ef V3f.
Proof. apply ef_mul; auto. apply ef_mul; auto. Qed.
Lemma mono_hom a b c : rnd (rnd (sx * a * (sy * b)) * (sz * c)) = V3f * rnd (rnd (a * b) * c).
Proof. rewrite (ef_muls sx sy a b) by auto. rewrite (ef_muls (sx * sy) sz); auto. now apply ef_mul. Qed.
Lemma sixv_hom v0 v1 v2 : sixv3 N (sc v0) (sc v1) (sc v2) = V3f * sixv3 N v0 v1 v2.
Proof.
  unfold sixv3, scaled3. cbn [x3 y3 z3 nadd nsub nmul nopp FN]. rewrite (Ropp_mult_distr_r sx). rewrite !mono_hom.
  rewrite ef_add by apply ef_V3f. rewrite ef_add by apply ef_V3f. rewrite ef_sub by apply ef_V3f. rewrite ef_sub by apply ef_V3f. rewrite ef_add by apply ef_V3f. reflexivity.
Qed.
Lemma tg_hom v0 v1 v2 i j k : (0 <= i)%Z -> (0 <= j)%Z -> (0 <= k)%Z -> tg N (sc v0) (sc v1) (sc v2) i j k = V3f * W3 (Z.to_nat i) (Z.to_nat j) (Z.to_nat k) * tg N v0 v1 v2 i j k.
Proof.
  intros Hi Hj Hk. unfold tg, zz3. rewrite sixv_hom, E3_hom. destruct (Z.eqb_spec (i + j + k) 0) as [E|E].
  - assert (i = 0 /\ j = 0 /\ k = 0)%Z as (-> & -> & ->) by lia. cbn [Z.to_nat]. rewrite W3_000. cbn [nmul nsixth FN].
    rewrite Rmult_1_r, <- (proj2 ef_V3f). f_equal. ring.
  - exact (ef_muls _ _ _ _ ef_V3f (ef_W3 _ _ _)).
Qed.
Lemma mdiv_hom w q i j k : ef w -> mdiv N (w * q) i j k = w * mdiv N q i j k.
Proof.
  intros Hw. unfold mdiv. destruct (i + j + k =? 0)%Z; auto. cbn [ndiv FN]. rewrite <- (proj2 Hw). f_equal. unfold Rdiv. ring.
Qed.
Theorem reduce3_units MX (p p' : poly (rvec3 R)) mom mom' po : (0 <= po)%Z -> wf3 p -> (nv p <= MX)%Z -> scaled_verts3 sx sy sz p p' ->
  exists m m', r3d_reduce N MX false p mom po = OK m /\ r3d_reduce N MX false p' mom' po = OK m'
  /\ forall i j k, (Z.of_nat i + Z.of_nat j + Z.of_nat k <= po)%Z ->
       m' (idx3 (Z.of_nat i) (Z.of_nat j) (Z.of_nat k)) = sx * sy * sz * (sx ^ i * sy ^ j * sz ^ k) * m (idx3 (Z.of_nat i) (Z.of_nat j) (Z.of_nat k)).
Proof.
  destruct p as ((f, q), n), p' as ((f', q'), n'). intros Hpo Hw HM (E1 & E2 & E3). cbn [nv vb nb ps] in *. subst n' f'.
  destruct (Z.eq_dec n 0) as [E0|E0].
  - destruct (reduce3_empty N MX false po (PY (VB f q) n) mom Hpo) as (m & R1 & M1 & _); [cbn; lia|].
    destruct (reduce3_empty N MX false po (PY (VB f q') n) mom' Hpo) as (m' & R2 & M2 & _); [cbn; lia|].
    exists m, m'. split; auto. split; auto. intros i j k L. rewrite M1, M2 by (apply idx3_range; lia). cbn. ring.
  - assert (Hp : (0 < n <= MX)%Z) by (destruct Hw as (Hn & _); cbn [nv] in Hn; lia).
    destruct (reduce3_ord N MX po (PY (VB f q) n) mom Hpo Hw Hp) as (l & m & V1 & M1 & _ & R1).
    destruct (reduce3_ord N MX po (PY (VB f q') n) mom' Hpo Hw Hp) as (l' & m' & V2 & M2 & _ & R2).
    exists m, m'. split; auto. split; auto. intros i j k Lo. rewrite M1, M2 by lia. cbn [nv vb nb] in V1, V2.
    rewrite (visit_det _ _ _ _ V1 _ _ V2 eq_refl). set (w := sx * sy * sz * (sx ^ i * sy ^ j * sz ^ k)).
    assert (Hw' : ef w) by (apply ef_mul; [apply ef_V3f|apply ef_W3]). cbn [nv vb].
    rewrite <- mdiv_hom by auto. f_equal. unfold tsum. cbn [n0 FN]. replace 0 with (w * 0) at 1 by ring.
    apply ef_fold; auto. intros d Hd. unfold trig. cbn [nb ps shifted3].
    assert (Hi : isd (below n) d). { apply (visit_isd f n (proj1 (proj2 Hw)) _ _ V1 d Hd). }
    assert (Hl : isd (below n) (lead f n d)) by (apply lead_isd; [lia|apply Hw|exact Hi]).
    assert (Ht : (0 <= dtgt f d < n)%Z) by (apply (isd_opp f (below n) (proj1 (proj2 Hw)) d Hi)).
    rewrite !E3; [|apply Hi|exact Ht|apply Hl]. rewrite tg_hom by lia. rewrite !Nat2Z.id. reflexivity.
Qed.
End S3.
Section S2.
Context (sx sy : R) (HX : ef sx) (HY : ef sy).
Definition W2 (i j : nat) : R := sx ^ i * sy ^ j.
Lemma ef_W2 i j : ef (W2 i j).
Proof. unfold W2. apply ef_mul; now apply ef_pow. Qed.
Lemma pstep_hom (fx fx' fy fy' : R -> R) w i j x x' y y' : ef w ->
  ((0 < i)%nat -> fx' x' = w * fx x) -> ((0 < j)%nat -> fy' y' = w * fy y) ->
  pstep N fx' fy' i j x' y' = w * pstep N fx fy i j x y.
Proof.
  intros Hw H1 H2. unfold pstep. cbn [n0 nadd FN T].
  assert (A : (match i with O => 0 | S _ => rnd (0 + fx' x') end) = w * (match i with O => 0 | S _ => rnd (0 + fx x) end)).
  { destruct i; [ring|]. rewrite H1 by lia. rewrite <- (ef_add w 0 (fx x)) by auto. f_equal. ring. }
  rewrite A. clear A. set (a := match i with O => 0 | S _ => rnd (0 + fx x) end). clearbody a.
  destruct j; [ring|]. rewrite H2 by lia. now apply ef_add.
Qed.
Lemma cpas_eq (fx fy : R -> R) i j : (0 < i + j)%nat -> cpas N fx fy i j =
  pstep N fx fy i j (match i with O => 0 | S i' => cpas N fx fy i' j end) (match j with O => 0 | S j' => cpas N fx fy i j' end).
Proof. destruct i, j; intros; try lia; reflexivity. Qed.
Lemma dpas_eq (fx fy : R -> R) c i j : (0 < i + j)%nat -> dpas N fx fy c i j =
  rnd (pstep N fx fy i j (match i with O => 0 | S i' => dpas N fx fy c i' j end) (match j with O => 0 | S j' => dpas N fx fy c i j' end) + c i j).
Proof. destruct i, j; intros; try lia; reflexivity. Qed.
Lemma W2_S i j : W2 (S i) j = sx * W2 i j /\ W2 i (S j) = sy * W2 i j.
Proof. unfold W2. cbn [pow]. split; ring. Qed.
Lemma W2_00 : W2 0 0 = 1. Proof. unfold W2. cbn. ring. Qed.
Section F2.
Context (fx fx' fy fy' : R -> R) (H1 : hom sx fx fx') (H2 : hom sy fy fy').
Lemma step_hom2 (g g' : nat -> nat -> R) i j : (forall a b, (a + b < i + j)%nat -> g' a b = W2 a b * g a b) ->
  pstep N fx' fy' i j (match i with O => 0 | S i' => g' i' j end) (match j with O => 0 | S j' => g' i j' end)
  = W2 i j * pstep N fx fy i j (match i with O => 0 | S i' => g i' j end) (match j with O => 0 | S j' => g i j' end).
Proof.
  intros H. apply pstep_hom; [apply ef_W2| |].
  - intros P. destruct i; [lia|]. rewrite H, H1 by (try lia; apply ef_W2). rewrite (proj1 (W2_S i j)). reflexivity.
  - intros P. destruct j; [lia|]. rewrite H, H2 by (try lia; apply ef_W2). rewrite (proj2 (W2_S i j)). reflexivity.
Qed.
Lemma cpas_hom : forall K i j, (i + j = K)%nat -> cpas N fx' fy' i j = W2 i j * cpas N fx fy i j.
Proof.
  induction K as [K IH] using lt_wf_ind. intros i j E. destruct (Nat.eq_dec K 0) as [K0|K0].
  - assert (i = 0 /\ j = 0)%nat as (-> & ->) by lia. rewrite W2_00. change (1 = 1 * 1). ring.
  - rewrite !cpas_eq by lia. apply (step_hom2 (cpas N fx fy) (cpas N fx' fy')). intros a b L. apply (IH (a + b)%nat); lia.
Qed.
Lemma dpas_hom (c c' : nat -> nat -> R) : (forall i j, c' i j = W2 i j * c i j) ->
  forall K i j, (i + j = K)%nat -> dpas N fx' fy' c' i j = W2 i j * dpas N fx fy c i j.
Proof.
  intros HC. induction K as [K IH] using lt_wf_ind. intros i j E. destruct (Nat.eq_dec K 0) as [K0|K0].
  - assert (i = 0 /\ j = 0)%nat as (-> & ->) by lia. rewrite W2_00. change (1 = 1 * 1). ring.
  - rewrite !dpas_eq by lia. rewrite (step_hom2 (dpas N fx fy c) (dpas N fx' fy' c')); [|intros a b L; apply (IH (a + b)%nat); lia].
    rewrite HC. apply ef_add, ef_W2.
Qed.
End F2.
Notation sc := (scaled2 sx sy).
Lemma Dg_hom v0 v1 i j : Dg N (sc v0) (sc v1) i j = W2 i j * Dg N v0 v1 i j.
Proof.
  unfold Dg. eapply (dpas_hom _ _ _ _ (hom_mul sx (vx v0) HX) (hom_mul sy (vy v0) HY)); [|reflexivity].
  clear i j. intros i j. unfold Cg. exact (cpas_hom _ _ _ _ (hom_mul sx (vx v1) HX) (hom_mul sy (vy v1) HY) _ i j eq_refl).
Qed.
Lemma eg_hom v0 v1 i j : (0 <= i)%Z -> (0 <= j)%Z -> eg N (sc v0) (sc v1) i j = sx * sy * W2 (Z.to_nat i) (Z.to_nat j) * eg N v0 v1 i j.
Proof.
  intros Hi Hj. assert (HV : ef (sx * sy)) by now apply ef_mul. unfold eg, zz. rewrite Dg_hom. unfold scaled2. cbn [vx vy nadd nsub nmul nhalf FN].
  rewrite (ef_muls sx sy) by auto. rewrite (ef_muls sy sx) by auto. rewrite (Rmult_comm sy sx), ef_sub by auto.
  destruct (Z.eqb_spec (i + j) 0) as [E|E].
  - assert (i = 0 /\ j = 0)%Z as (-> & ->) by lia. cbn [Z.to_nat]. rewrite W2_00. rewrite Rmult_1_r. set (t := rnd (_ - _)). rewrite <- (proj2 HV (rnd (/ 2) * t)). f_equal. ring.
  - exact (ef_muls _ _ _ _ HV (ef_W2 _ _)).
Qed.
Lemma bdiv_hom w q i j : ef w -> bdiv N (w * q) i j = w * bdiv N q i j.
Proof.
  intros Hw. unfold bdiv. destruct (i + j =? 0)%Z; auto. cbn [ndiv FN]. rewrite <- (proj2 Hw). f_equal. unfold Rdiv. ring.
Qed.
Theorem reduce2_units MX (p p' : poly (rvec2 R)) mom mom' po : (0 <= po)%Z -> wf2 p -> (nv p <= MX)%Z -> scaled_verts2 sx sy p p' ->
  exists m m', r2d_reduce N MX false p mom po = OK m /\ r2d_reduce N MX false p' mom' po = OK m'
  /\ forall i j, (Z.of_nat i + Z.of_nat j <= po)%Z ->
       m' (idx2 (Z.of_nat i) (Z.of_nat j)) = sx * sy * (sx ^ i * sy ^ j) * m (idx2 (Z.of_nat i) (Z.of_nat j)).
Proof.
  destruct p as ((f, q), n), p' as ((f', q'), n'). intros Hpo Hw HM (E1 & E2 & E3). cbn [nv vb nb ps] in *. subst n' f'.
  destruct (reduce_spec N MX po (PY (VB f q) n) mom Hpo Hw HM) as (m & R1 & M1 & _).
  destruct (reduce_spec N MX po (PY (VB f q') n) mom' Hpo Hw HM) as (m' & R2 & M2 & _).
  exists m, m'. split; auto. split; auto. intros i j Lo. rewrite M1, M2 by lia. cbn [nv vb]. destruct (n =? 0)%Z; [cbn; ring|].
  set (w := sx * sy * (sx ^ i * sy ^ j)). assert (Hw' : ef w) by (apply ef_mul; [now apply ef_mul|apply ef_W2]).
  unfold mom_entry. rewrite <- bdiv_hom by auto. f_equal. unfold esum. cbn [n0 FN]. replace 0 with (w * 0) at 1 by ring.
  apply ef_fold; auto. intros v Hv. apply in_zrange in Hv. cbn [nb ps]. destruct Hw as (Hn & Hl). cbn [nv vb nb] in Hl.
  rewrite !E3; [|apply Hl; auto|auto]. rewrite eg_hom by lia. rewrite !Nat2Z.id. reflexivity.
Qed.
End S2.
End U.

(** clip, then reduce *)
Theorem clip_reduce3_units u rnd MX sx sy sz c (p p' q : poly (rvec3 R)) planes planes' mom mom' po : accurate u rnd -> (0 <= u <= 1 / 10) ->
  exact_factor rnd sx -> exact_factor rnd sy -> exact_factor rnd sz -> exact_factor rnd c -> 0 < c ->
  (0 <= po)%Z -> wf3 p -> (nv p <= MX)%Z -> scaled_verts3 sx sy sz p p' -> Forall2 (scaled_plane3 sx sy sz c) planes planes' ->
  r3d_clip (FN rnd) MX p planes = OK (q, 1%Z) ->
  exists q' m m', r3d_clip (FN rnd) MX p' planes' = OK (q', 1%Z) /\ r3d_reduce (FN rnd) MX false q mom po = OK m /\ r3d_reduce (FN rnd) MX false q' mom' po = OK m'
  /\ forall i j k, (Z.of_nat i + Z.of_nat j + Z.of_nat k <= po)%Z ->
       m' (idx3 (Z.of_nat i) (Z.of_nat j) (Z.of_nat k)) = sx * sy * sz * (sx ^ i * sy ^ j * sz ^ k) * m (idx3 (Z.of_nat i) (Z.of_nat j) (Z.of_nat k)).
Proof.
  intros HA Hu HX HY HZ Hc Pc Hpo Hw HM HS HF E. assert (Hn : (0 <= nv p <= MX)%Z) by (split; [apply Hw|exact HM]).
  pose proof (scaled_clip u rnd HA Hu MX sx sy sz c p p' planes planes' HX HY HZ Hc Pc Hn HS HF) as A.
  destruct (r3d_clip_linked (FN rnd) MX p q planes Hw HM E) as (Wq & Mq).
  rewrite E in A. destruct (r3d_clip (FN rnd) MX p' planes') as [(q', r')|] eqn:E'; cbn in A; [|contradiction]. destruct A as (A & ->).
  destruct (reduce3_units rnd sx sy sz HX HY HZ MX q q' mom mom' po Hpo Wq Mq A) as (m & m' & R1 & R2 & M).
  exists q', m, m'. repeat split; auto.
Qed.
Theorem clip_reduce2_units u rnd MX sx sy c (p p' q : poly (rvec2 R)) planes planes' mom mom' po : accurate u rnd -> (0 <= u <= 1 / 10) ->
  exact_factor rnd sx -> exact_factor rnd sy -> exact_factor rnd c -> 0 < c ->
  (0 <= po)%Z -> wf2 p -> (nv p <= MX)%Z -> scaled_verts2 sx sy p p' -> Forall2 (scaled_plane2 sx sy c) planes planes' ->
  r2d_clip (FN rnd) MX p planes = OK q ->
  exists q' m m', r2d_clip (FN rnd) MX p' planes' = OK q' /\ r2d_reduce (FN rnd) MX false q mom po = OK m /\ r2d_reduce (FN rnd) MX false q' mom' po = OK m'
  /\ forall i j, (Z.of_nat i + Z.of_nat j <= po)%Z ->
       m' (idx2 (Z.of_nat i) (Z.of_nat j)) = sx * sy * (sx ^ i * sy ^ j) * m (idx2 (Z.of_nat i) (Z.of_nat j)).
Proof.
  intros HA Hu HX HY Hc Pc Hpo Hw HM HS HF E. assert (Hn : (0 <= nv p <= MX)%Z) by (split; [apply Hw|exact HM]).
  pose proof (scaled_clip2 u rnd HA Hu MX sx sy c p p' planes planes' HX HY Hc Pc Hn HS HF) as A.
  destruct (r2d_clip_linked (FN rnd) MX p q planes Hw HM E) as (Wq & Mq & _).
  rewrite E in A. destruct (r2d_clip (FN rnd) MX p' planes') as [q'|] eqn:E'; cbn in A; [|contradiction].
  destruct (reduce2_units rnd sx sy HX HY MX q q' mom mom' po Hpo Wq Mq A) as (m & m' & R1 & R2 & M).
  exists q', m, m'. repeat split; auto.
Qed.
