(** * Mom3: [r3d_reduce] computes the exact moments; laws of signed tetrahedra. *)
From Coq Require Import Reals ZArith List Bool Lia Lra Permutation.
From Verif Require Import Base Lib ModelCommon CommonFacts Model3 Spec3 Orb3 Cut3 FaceSpec3 HPoly HShift HInt
  RealNum SumR Reduce2 Reduce3 Face3 Spec3R.
Import ListNotations.
Open Scope R_scope.
Ltac rn := change (T RN) with R in *.

(** ** The coefficient tables over the reals *)
Lemma cpas3_H (x y z : R) : forall i j k, cpas3 RN (Rmult x) (Rmult y) (Rmult z) i j k = H [P3 x y z] i j k.
Proof.
  set (g := cpas3 RN (Rmult x) (Rmult y) (Rmult z)).
  assert (E : forall i j k, g i j k = geo (P3 x y z) aone i j k).
  { intros i j k. revert i j k. change (g == geo (P3 x y z) aone). apply geo_unique.
    intros i j k. unfold aadd, M, s1, s2, s3.
    destruct i as [|i], j as [|j], k as [|k]; unfold g; cbn; unfold pstep3; cbn; ring. }
  intros. rewrite E. reflexivity.
Qed.
Lemma dpas3_H (x y z : R) (c : nat -> nat -> nat -> R) : c 0%nat 0%nat 0%nat = 1 ->
  forall i j k, dpas3 RN (Rmult x) (Rmult y) (Rmult z) c i j k = geo (P3 x y z) c i j k.
Proof.
  intros Hc. set (g := dpas3 RN (Rmult x) (Rmult y) (Rmult z) c).
  change (g == geo (P3 x y z) c). apply geo_unique.
  intros i j k. unfold aadd, M, s1, s2, s3.
  destruct i as [|i], j as [|j], k as [|k]; unfold g; cbn; unfold pstep3; cbn; rewrite ?Hc; ring.
Qed.
Lemma C3_H (v : rvec3 R) : C3 RN v == H [pt3 v].
Proof. intros i j k. apply cpas3_H. Qed.
Lemma D3_H (v w : rvec3 R) : D3 RN v w == H [pt3 v; pt3 w].
Proof.
  intros i j k. unfold D3. change (nmul RN) with Rmult. rewrite dpas3_H by reflexivity.
  apply (geo_ext (pt3 v)). apply C3_H.
Qed.
Lemma E3_H (u v w : rvec3 R) : E3 RN u v w == H [pt3 u; pt3 v; pt3 w].
Proof.
  intros i j k. unfold E3. change (nmul RN) with Rmult. rewrite dpas3_H by reflexivity.
  apply (geo_ext (pt3 u)). apply D3_H.
Qed.

Lemma B3_multi : forall i j k,
  @eq R (B3 RN i j k) (INR (fact (i + j + k)) / (INR (fact i) * INR (fact j) * INR (fact k))).
Proof.
  set (g := B3 RN : nat -> nat -> nat -> R).
  set (h := fun i j k => INR (fact (i + j + k)) / (INR (fact i) * INR (fact j) * INR (fact k))).
  assert (E1 : g == geo (P3 1 1 1) aone).
  { apply geo_unique. intros i j k. unfold aadd, M, s1, s2, s3.
    destruct i as [|i], j as [|j], k as [|k]; unfold g; cbn; unfold pstep3; cbn; ring. }
  assert (E2 : h == geo (P3 1 1 1) aone).
  { apply geo_unique. intros i j k. unfold aadd, M, s1, s2, s3, h. cbn [px py pz].
    assert (X : forall m, INR (fact (S m)) = (INR m + 1) * INR (fact m)) by (intros; rewrite fact_simpl, mult_INR, S_INR; auto).
    destruct i as [|i], j as [|j], k as [|k]; unfold aone; rewrite ?Nat.add_succ_r, ?Nat.add_0_r; cbn [Nat.add];
      rewrite ?Nat.add_succ_r, ?Nat.add_0_r; rewrite ?X;
      repeat match goal with |- context [fact 0] => change (fact 0) with 1%nat end;
      change (INR 1) with 1; rewrite ?S_INR, ?plus_INR; rewrite ?S_INR;
      repeat match goal with x : nat |- _ =>
        lazymatch goal with H : 0 <= INR x |- _ => fail | _ => pose proof (pos_INR x) end end;
      try (field; repeat split; try apply fact_neq; lra). }
  intros. change (g i j k = h i j k). now rewrite E1, E2.
Qed.

Lemma sixv_det (a b c : rvec3 R) : @eq R (sixv3 RN a b c) (det3 (pt3 a) (pt3 b) (pt3 c)).
Proof. unfold sixv3, det3, pt3. cbn. ring. Qed.

Lemma mdiv_tg (a b c : rvec3 R) i j k : (0 <= i)%Z -> (0 <= j)%Z -> (0 <= k)%Z ->
  @eq R (mdiv RN (tg RN a b c i j k) i j k) (tet3 (Z.to_nat i) (Z.to_nat j) (Z.to_nat k) a b c).
Proof.
  intros Hi Hj Hk. destruct (Z_of_nat_complete i Hi) as (x & ->).
  destruct (Z_of_nat_complete j Hj) as (y & ->). destruct (Z_of_nat_complete k Hk) as (z & ->).
  clear. unfold mdiv, tg, tet3, zz3. rewrite !Nat2Z.id, tet_int_Hn, sixv_det, (E3_H a b c x y z), B3_multi. unfold Hn.
  change (nsixth RN) with (/ 6). change (nofZ RN) with IZR. change (nmul RN) with Rmult. change (ndiv RN) with Rdiv.
  destruct (Z.eqb_spec (Z.of_nat x + Z.of_nat y + Z.of_nat z) 0) as [E|E].
  - assert (x = 0%nat) as -> by lia. assert (y = 0%nat) as -> by lia. assert (z = 0%nat) as -> by lia.
    rewrite H_000. cbn. field.
  - unfold deg.
    replace (x + y + z + 3)%nat with (S (S (S (x + y + z)))) by lia.
    rewrite !plus_IZR, <- !INR_IZR_INZ.
    rewrite (fact_simpl (S (S (x + y + z)))), (fact_simpl (S (x + y + z))), (fact_simpl (x + y + z)), !mult_INR, !S_INR, !plus_INR.
    change (T RN) with R.
    pose proof (fact_neq (x + y + z)). pose proof (fact_neq x). pose proof (fact_neq y). pose proof (fact_neq z).
    pose proof (pos_INR x). pose proof (pos_INR y). pose proof (pos_INR z).
    field. repeat split; auto; lra.
Qed.

Lemma mdiv_lin i j k {A} (f : A -> R) l : @eq R (mdiv RN (lsum l f) i j k) (lsum l (fun v => mdiv RN (f v) i j k)).
Proof.
  unfold mdiv. destruct (i + j + k =? 0)%Z; auto. change (ndiv RN) with Rdiv. unfold Rdiv.
  rewrite Rmult_comm, <- lsum_scal. apply lsum_ext. intros. ring.
Qed.

(** ** Laws of signed tetrahedra *)
Section Laws.
Context (i j k : nat).
Local Notation T3 := (tet3 i j k).
Definition vol6 (a b c d : rvec3 R) : R := det3 (psub (pt3 b) (pt3 a)) (psub (pt3 c) (pt3 a)) (psub (pt3 d) (pt3 a)).

Lemma tet3_cocycle a b c d : vol6 a b c d = 0 -> T3 a b c - T3 a b d + T3 a c d - T3 b c d = 0.
Proof.
  intros E. unfold tet3. rewrite !tet_int_Hn. unfold Hn.
  pose proof (det_cocycle (pt3 a) (pt3 b) (pt3 c) (pt3 d) i j k) as C. unfold vol6 in E. rewrite E in C.
  set (Q := INR (fact (deg i j k + 3))). assert (HQ : Q <> 0) by apply fact_neq.
  transitivity (INR (fact i) * INR (fact j) * INR (fact k) / Q *
    (det3 (pt3 a) (pt3 b) (pt3 c) * H [pt3 a; pt3 b; pt3 c] i j k - det3 (pt3 a) (pt3 b) (pt3 d) * H [pt3 a; pt3 b; pt3 d] i j k
     + det3 (pt3 a) (pt3 c) (pt3 d) * H [pt3 a; pt3 c; pt3 d] i j k - det3 (pt3 b) (pt3 c) (pt3 d) * H [pt3 b; pt3 c; pt3 d] i j k)).
  - field. auto.
  - rewrite C. field. auto.
Qed.
Lemma tet3_swap1 a b c : T3 b a c = - T3 a b c.
Proof.
  unfold tet3. rewrite !tet_int_Hn. unfold Hn. rewrite (H_swap (pt3 b) (pt3 a) [pt3 c] i j k).
  unfold det3. field. apply fact_neq.
Qed.
Lemma tet3_swap2 a b c : T3 a c b = - T3 a b c.
Proof.
  unfold tet3. rewrite !tet_int_Hn. unfold Hn.
  pose proof (geo_ext (pt3 a) _ _ (H_swap (pt3 c) (pt3 b) []) i j k) as E.
  change (H [pt3 a; pt3 c; pt3 b] i j k = H [pt3 a; pt3 b; pt3 c] i j k) in E. rewrite E.
  unfold det3. field. apply fact_neq.
Qed.
Lemma tet3_rot a b c : T3 b c a = T3 a b c.
Proof. rewrite tet3_swap2, tet3_swap1. ring. Qed.
Lemma tet3_same1 a c : T3 a a c = 0.
Proof. pose proof (tet3_swap1 a a c). lra. Qed.
Lemma tet3_same2 a c : T3 a c c = 0.
Proof. pose proof (tet3_swap2 a c c). lra. Qed.
Lemma tet3_same3 a c : T3 a c a = 0.
Proof. rewrite <- (tet3_rot a c a). rewrite <- tet3_rot. apply tet3_same1. Qed.
(** change of apex within the plane of a triangle *)
Lemma tet3_apex a a' b c : vol6 a a' b c = 0 -> T3 a' b c = T3 a b c + T3 a a' b - T3 a a' c.
Proof. intros E. pose proof (tet3_cocycle a a' b c E). lra. Qed.
End Laws.

(** ** r3d_reduce is exact *)
Definition shv (vc : option (rvec3 R)) (q : rvec3 R) : rvec3 R := shifted3 RN vc q.
Definition moment3_of (h : rvec3 R -> rvec3 R) (p : pol3) (i j k : nat) : R :=
  let f := nb (vb p) in
  lsum (darts 3 (nv p)) (fun d =>
    tet3 i j k (h (ps (vb p) (fst (lead f (nv p) d)))) (h (ps (vb p) (dtgt f d))) (h (ps (vb p) (fst d)))).

Lemma mom_state_R vc (p : pol3) po l (m0 m1 : Z -> R) : wf3 p -> mom_state RN vc p po l m0 m1 ->
  forall i j k, (0 <= i)%Z -> (0 <= j)%Z -> (0 <= k)%Z -> (i + j + k <= po)%Z ->
  m1 (idx3 i j k) = moment3_of (shv vc) p (Z.to_nat i) (Z.to_nat j) (Z.to_nat k).
Proof.
  intros (Hn & HL & HP) (ND & FA & E & _) i j k Hi Hj Hk Hs.
  rewrite E by auto. clear E. unfold tsum. change (nadd RN) with Rplus. change (n0 RN) with 0. rn.
  pose proof (fold_left_lsum l (fun d => trig RN (vb p) (nv p) vc d i j k : R) 0) as FL. rn. rewrite FL. clear FL. rewrite Rplus_0_l.
  rewrite mdiv_lin. unfold moment3_of.
  set (f := nb (vb p)) in *. set (n := nv p) in *.
  set (t := fun d => tet3 (Z.to_nat i) (Z.to_nat j) (Z.to_nat k) (shv vc (ps (vb p) (fst (lead f n d))))
      (shv vc (ps (vb p) (dtgt f d))) (shv vc (ps (vb p) (fst d)))).
  transitivity (lsum l t).
  { apply lsum_ext. intros d _. unfold trig. rewrite mdiv_tg by auto. reflexivity. }
  set (F := fun d : Z * Z => negb (fst d =? fst (lead f n d))%Z && negb (dtgt f d =? fst (lead f n d))%Z).
  change (lsum l t = lsum (darts 3 n) t).
  rewrite (lsum_split F (darts 3 n)).
  rewrite (lsum_0 (filter (fun d => negb (F d)) (darts 3 n))).
  - rewrite Rplus_0_r. apply lsum_perm. apply NoDup_Permutation; auto.
    + apply NoDup_filter, NoDup_darts. auto.
    + intros d. rewrite FA, filter_In. unfold fan. fold f. fold n. rewrite <- (isd_in n) .
      unfold F. rewrite andb_true_iff, !negb_true_iff, !Z.eqb_neq. tauto.
  - intros d Hd. apply filter_In in Hd as (_ & Hd). apply negb_true_iff, andb_false_iff in Hd.
    rewrite !negb_false_iff, !Z.eqb_eq in Hd. unfold t. destruct Hd as [Hd|Hd]; rewrite Hd.
    + apply tet3_same3.
    + apply tet3_same1.
Qed.

Lemma moment3_empty (p : pol3) i j k : (nv p <= 0)%Z -> moment3 p i j k = 0.
Proof. intros Hn. unfold moment3, darts. rewrite (zrange_nonpos (nv p) Hn). reflexivity. Qed.

Lemma reduce_moment3 MX (p : pol3) mom po : (0 <= po)%Z -> wf3 p -> (nv p <= MX)%Z ->
  exists mom', r3d_reduce RN MX false p mom po = OK mom'
  /\ (forall i j k, (i + j + k <= Z.to_nat po)%nat ->
        mom' (idx3 (Z.of_nat i) (Z.of_nat j) (Z.of_nat k)) = moment3 p i j k)
  /\ (forall m, ~ (0 <= m < num_moments3 po)%Z -> mom' m = mom m).
Proof.
  intros Hpo Hw HM. pose proof Hw as (Hn & _). rn.
  destruct (Z.eq_dec (nv p) 0) as [E0|E0].
  - destruct (reduce3_empty RN MX false po p mom) as (mom' & E & R1 & R2); [lia|rn; lia|]. rn.
    exists mom'. split; auto. split; auto. intros i j k L.
    rewrite moment3_empty by lia. apply R1. apply idx3_range; lia.
  - destruct (reduce3_spec RN MX false po p mom) as (vc & l & m1 & -> & S1 & E); auto; [rn; lia|]. rn.
    exists m1. split; auto. split; [|apply S1]. intros i j k L.
    rewrite (mom_state_R _ _ _ _ _ _ Hw S1) by lia. rewrite !Nat2Z.id. reflexivity.
Qed.
