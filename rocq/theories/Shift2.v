(** * Shift2: [r2d_shift_moments] and [r2d_reduce] with SHIFT_POLY, exact arithmetic. *)
From Coq Require Import Reals ZArith List Bool Lia Lra Permutation.
From Verif Require Import Base Lib ModelCommon CommonFacts Model2 Spec2 HPoly HShift HInt
  RealNum SumR Reduce2 Mom2 Spec2R.
Import ListNotations.
Open Scope Z_scope.

Section Shift.
Context (po : Z).
Hypothesis Hpo : 0 <= po.

Definition Cz (k i : Z) : R := Binomial.C (Z.to_nat k) (Z.to_nat i).

Notation blay := (Z -> Z -> option R).
Lemma rd_b_ok (B : blay) i k x : 0 <= i <= po -> 0 <= k <= po -> B i k = Some x -> rd_b RN po B i k = OK x.
Proof. intros. unfold rd_b. rewrite !inb_true by lia. cbn [andb]. change (T RN) with R. now rewrite H1. Qed.
Lemma wr_b_ok (B : blay) i k x : 0 <= i <= po -> 0 <= k <= po -> wr_b RN po B i k x = OK (lset RN B i k x).
Proof. intros. unfold wr_b. rewrite !inb_true by lia. reflexivity. Qed.

Lemma Cz_0 k : 0 <= k -> Cz k 0 = 1%R.
Proof.
  intros. unfold Cz, Binomial.C. change (Z.to_nat 0) with 0%nat. rewrite Nat.sub_0_r.
  change (INR (fact 0)) with 1%R. field. apply INR_fact_neq_0.
Qed.
Lemma Cz_n k : 0 <= k -> Cz k k = 1%R.
Proof.
  intros. unfold Cz, Binomial.C. rewrite Nat.sub_diag. change (INR (fact 0)) with 1%R.
  field. apply INR_fact_neq_0.
Qed.
Lemma Cz_step k i : 0 < i < k -> Cz k i = (Cz (k - 1) i + Cz (k - 1) (i - 1))%R.
Proof.
  intros. unfold Cz. replace (Z.to_nat k) with (S (Z.to_nat (k - 1))) by lia.
  replace (Z.to_nat i) with (S (Z.to_nat (i - 1))) by lia.
  rewrite <- Binomial.pascal by lia. ring.
Qed.

(** r2d.c:334-344 *)
Lemma pascal_R : exists B, pascal RN po = OK B
  /\ forall k i, 0 <= i <= k -> k <= po -> B i k = Some (Cz k i).
Proof.
  unfold Model2.pascal. rewrite wr_b_ok by lia. cbn [bind].
  destruct (for_inv (fun q B => forall k i, 0 <= i <= k -> k < q -> B i k = Some (Cz k i)) 1 (po + 1)
    (fun corder => for_ 0 (corder + 1) (pascal_body RN po corder)) (lset RN (fun _ _ => None) 0 0 (n1 RN)))
    as (B & E & I); try lia.
  - intros k i Hi Hk. assert (k = 0) by lia. assert (i = 0) by lia. subst. rewrite lset_eq, Cz_0 by lia. reflexivity.
  - intros q B Hq I.
    destruct (for_inv (fun t B' => (forall k i, k <> q -> B' i k = B i k)
        /\ (forall i, q - t < i <= q -> B' i q = Some (Cz q i))) 0 (q + 1) (pascal_body RN po q) B)
      as (B' & E & J1 & J2); try lia.
    + split; auto. intros. lia.
    + intros t B1 Ht (J1 & J2). unfold pascal_body. replace (q - (q - t)) with t by lia.
      rewrite wr_b_ok by lia. cbn [bind].
      assert (W : forall B2 : blay, (forall i k, (i, k) <> (q - t, q) -> B2 i k = B1 i k) -> B2 (q - t) q = Some (Cz q (q - t)) ->
        (forall k i, k <> q -> B2 i k = B i k) /\ (forall i, q - (t + 1) < i <= q -> B2 i q = Some (Cz q i))).
      { intros B2 W1 W2. split.
        - intros k i Hk. rewrite W1 by (intros X; apply pair_equal_spec in X; lia). auto.
        - intros i Hi. destruct (Z.eq_dec i (q - t)) as [->|]; auto.
          rewrite W1 by (intros X; apply pair_equal_spec in X; lia). apply J2. lia. }
      destruct (Z.ltb_spec 0 (q - t)) as [L1|L1]; destruct (Z.ltb_spec 0 t) as [L2|L2]; cbn [andb].
      * rewrite (rd_b_ok _ (q - t) (q - 1) (Cz (q - 1) (q - t))); try lia.
        2: { rewrite lset_neq by (intros X; apply pair_equal_spec in X; lia). rewrite J1 by lia. apply I; lia. }
        cbn [bind]. rewrite (rd_b_ok _ (q - t - 1) (q - 1) (Cz (q - 1) (q - t - 1))); try lia.
        2: { rewrite lset_neq by (intros X; apply pair_equal_spec in X; lia). rewrite J1 by lia. apply I; lia. }
        cbn [bind]. rewrite wr_b_ok by lia. eexists. split; [reflexivity|]. apply W.
        -- intros i k Hk. rewrite !lset_neq by auto. reflexivity.
        -- rewrite lset_eq. rewrite (Cz_step q (q - t)) by lia. reflexivity.
      * eexists. split; [reflexivity|]. apply W; [intros; now rewrite lset_neq by auto|]. rewrite lset_eq.
        replace t with 0 by lia. rewrite Z.sub_0_r, Cz_n by lia. reflexivity.
      * eexists. split; [reflexivity|]. apply W; [intros; now rewrite lset_neq by auto|]. rewrite lset_eq.
        replace (q - t) with 0 by lia. rewrite Cz_0 by lia. reflexivity.
      * lia.
    + exists B'. split; [exact E|]. intros k i Hi Hk. destruct (Z.eq_dec k q).
      * subst. apply J2. lia.
      * rewrite J1 by auto. apply I; lia.
  - exists B. split; [exact E|]. intros. apply I; lia.
Qed.

Context (mom : Z -> R) (c : rvec2 R).

(** one term of the shifted moment *)
Definition sterm (i j k l : Z) : R :=
  if (k <=? i) && (l <=? j)
  then (Cz i k * Cz j l * vx c ^ Z.to_nat (i - k) * vy c ^ Z.to_nat (j - l) * mom (idx2 k l))%R else 0%R.

Definition ssum (i j Q : Z) : R :=
  lsum (zrange Q) (fun q => lsum (zrange (q + 1)) (fun t => sterm i j (q - t) t)).

Lemma ssum_succ i j Q : 0 <= Q ->
  ssum i j (Q + 1) = (ssum i j Q + lsum (zrange (Q + 1)) (fun t => sterm i j (Q - t) t))%R.
Proof. intros. unfold ssum. rewrite (zrange_succ Q) at 1 by lia. rewrite lsum_app. cbn [lsum]. ring. Qed.

Lemma shift_i_spec B q t (mom2 : Z -> R) :
  (forall k i, 0 <= i <= k -> k <= po -> B i k = Some (Cz k i)) ->
  1 <= q <= po -> 0 <= t <= q ->
  exists mom3 : Z -> R, shift_i RN po B mom c q t (tri2 q + t, mom2) = OK (tri2 q + t + 1, mom3)
  /\ mom3 (tri2 q + t) = (mom2 (tri2 q + t)%Z + ssum (q - t)%Z t (q + 1)%Z)%R
  /\ (forall m, m <> tri2 q + t -> mom3 m = mom2 m).
Proof.
  intros HB Hq Ht. unfold shift_i. replace (q - (q - t)) with t by lia.
  set (m := tri2 q + t). set (i := q - t).
  assert (Hm : 0 <= m < num_moments2 po).
  { pose proof (idx2_range po i t ltac:(lia) ltac:(lia) ltac:(lia)) as X. unfold idx2 in X.
    replace (i + t) with q in X by lia. exact X. }
  destruct (for_inv (fun Q s => fst s = tri2 Q /\ snd s m = (mom2 m + ssum i t Q)%R
     /\ (forall x, x <> m -> snd s x = mom2 x)) 0 (q + 1)
    (fun mcorder => for_ 0 (mcorder + 1) (shift_inner RN po B mom c m i t mcorder)) (0, mom2))
    as ([mm mom3] & E & I1 & I2 & I3); try lia.
  - cbn [fst snd]. split; auto. split; auto. unfold ssum. cbn. ring.
  - intros Q [mm mo] HQ (I1 & I2 & I3). cbn [fst snd] in *.
    destruct (for_inv (fun y s => fst s = tri2 Q + y
        /\ snd s m = (mom2 m + ssum i t Q + lsum (zrange y) (fun t' => sterm i t (Q - t') t'))%R
        /\ (forall x, x <> m -> snd s x = mom2 x)) 0 (Q + 1) (shift_inner RN po B mom c m i t Q) (mm, mo))
      as ([mm' mo'] & E & J1 & J2 & J3); try lia.
    + cbn [fst snd]. split; [lia|]. split; auto. rewrite I2. cbn. ring.
    + intros y [m1 mo1] Hy (J1 & J2 & J3). cbn [fst snd] in *. unfold shift_inner.
      replace (Q - (Q - y)) with y by lia.
      rewrite zrange_succ by lia.
      destruct ((Q - y <=? i) && (y <=? t)) eqn:EB.
      * apply andb_true_iff in EB as (L1 & L2). apply Z.leb_le in L1. apply Z.leb_le in L2.
        rewrite (rd_b_ok B (Q - y) i _ ltac:(lia) ltac:(lia) (HB i (Q - y) ltac:(lia) ltac:(lia))). cbn [bind].
        rewrite (rd_b_ok B y t _ ltac:(lia) ltac:(lia) (HB t y ltac:(lia) ltac:(lia))). cbn [bind].
        assert (Hmm : 0 <= m1 < num_moments2 po).
        { pose proof (idx2_range po (Q - y) y ltac:(lia) ltac:(lia) ltac:(lia)) as X. unfold idx2 in X.
          replace (Q - y + y) with Q in X by lia. lia. }
        rewrite !rd_ok by auto. cbn [bind]. rewrite wr_ok by auto. cbn [bind].
        eexists. split; [reflexivity|]. cbn [fst snd]. split; [lia|]. split.
        -- rewrite upd_eq. change (T RN) with R. rewrite J2. rewrite lsum_app. cbn [lsum].
           unfold sterm at 3. rewrite (proj2 (Z.leb_le _ _) L1), (proj2 (Z.leb_le _ _) L2). cbn [andb].
           unfold idx2. replace (Q - y + y) with Q by lia. rewrite J1.
           change (nadd RN) with Rplus. change (nmul RN) with Rmult.
           change (npow RN) with (fun (x : R) (n : Z) => (x ^ Z.to_nat n)%R). cbv beta. change (T RN) with R. ring.
        -- intros x Hx. rewrite upd_neq by auto. auto.
      * eexists. split; [reflexivity|]. cbn [fst snd]. split; [lia|]. split; auto.
        rewrite J2, lsum_app. cbn [lsum]. unfold sterm at 3. rewrite EB. ring.
    + exists (mm', mo'). split; auto. cbn [fst snd] in *. split; [|split; auto].
      * rewrite J1, tri2_succ. lia.
      * rewrite J2, (ssum_succ i t Q) by lia. ring.
  - change (T RN) with R in *. rewrite E. cbn [bind]. eexists. split; [reflexivity|]. cbn [fst snd] in *. auto.
Qed.

Lemma shift_spec : exists mom' : Z -> R, r2d_shift_moments RN mom po c = OK mom'
  /\ (forall i j, 0 <= i -> 0 <= j -> 0 < i + j <= po -> mom' (idx2 i j) = ssum i j (i + j + 1))
  /\ (forall m, ~ 1 <= m < num_moments2 po -> mom' m = mom m).
Proof.
  unfold r2d_shift_moments.
  assert (Hnm : 0 <= num_moments2 po) by (rewrite num_moments2_tri; apply tri2_nonneg; lia).
  destruct (zero_loop RN (num_moments2 po) (fun _ => n0 RN) Hnm) as (mom2 & E0 & Z1 & Z2).
  rewrite E0. cbn [bind]. destruct pascal_R as (B & EB & HB). change (T RN) with R in *. rewrite EB. cbn [bind].
  destruct (for_inv (fun q s => fst s = tri2 q
     /\ (forall i j, 0 <= i -> 0 <= j -> 0 < i + j < q -> snd s (idx2 i j) = ssum i j (i + j + 1))
     /\ (forall m, tri2 q <= m -> snd s m = mom2 m)) 1 (po + 1)
     (fun corder => for_ 0 (corder + 1) (shift_i RN po B mom c corder)) (1, mom2))
    as ([mf mom3] & E & I1 & I2 & I3); try lia.
  - cbn [fst snd]. split; auto. split; auto. intros. lia.
  - intros q [m mo] Hq (I1 & I2 & I3). cbn [fst snd] in *.
    destruct (for_inv (fun t s => fst s = tri2 q + t
      /\ (forall i j, 0 <= i -> 0 <= j -> 0 < i + j < q -> snd s (idx2 i j) = ssum i j (i + j + 1))
      /\ (forall j, 0 <= j < t -> snd s (tri2 q + j) = ssum (q - j) j (q + 1))
      /\ (forall m, tri2 q + t <= m -> snd s m = mom2 m)) 0 (q + 1) (shift_i RN po B mom c q) (m, mo))
     as ([m' mo'] & E & J1 & J2 & J3 & J4); try lia.
    + cbn [fst snd]. split; [lia|]. split; auto. split; [intros; lia|]. intros. apply I3. lia.
    + intros t [m1 mo1] Ht (J1 & J2 & J3 & J4). cbn [fst snd] in *. subst m1.
      destruct (shift_i_spec B q t mo1 HB) as (mo3 & E & K1 & K2); try lia.
      exists (tri2 q + t + 1, mo3). split; auto. cbn [fst snd]. split; [lia|]. split; [|split].
      * intros i j Hi Hj Hs. rewrite K2; auto. unfold idx2.
        pose proof (tri2_mono (i + j + 1) q ltac:(lia)) as X. rewrite tri2_succ in X. lia.
      * intros j Hj. destruct (Z.eq_dec j t).
        { subst j. rewrite K1, J4 by lia. rewrite Z1.
          - cbn. ring.
          - pose proof (idx2_range po (q - t) t ltac:(lia) ltac:(lia) ltac:(lia)) as X. unfold idx2 in X.
            replace (q - t + t) with q in X by lia. exact X. }
        rewrite K2 by lia. apply J3. lia.
      * intros x Hx. rewrite K2 by lia. apply J4. lia.
    + exists (m', mo'). split; auto. cbn [fst snd] in *. rewrite tri2_succ. split; [lia|]. split.
      * intros i j Hi Hj Hs. destruct (Z.eq_dec (i + j) q) as [Eq|Eq].
        { unfold idx2. rewrite Eq. rewrite J3 by lia. f_equal. lia. }
        apply J2; lia.
      * intros x Hx. apply J4. lia.
  - change (T RN) with R in *. rewrite E. cbn [bind fst snd] in *.
    assert (Hnm1 : 1 <= num_moments2 po).
    { rewrite num_moments2_tri. pose proof (tri2_mono 1 (po + 1) ltac:(lia)) as X. change (tri2 1) with 1 in X. lia. }
    destruct (for_inv (fun k a => (forall m, 1 <= m < k -> a m = mom3 m) /\ (forall m, ~ 1 <= m < k -> a m = mom m))
      1 (num_moments2 po) (fun m a => let* x := rd (num_moments2 po) mom3 m in wr (num_moments2 po) a m x) mom)
      as (mom' & E' & R1 & R2); try lia.
    + split; auto. intros. lia.
    + intros k a Hk (R1 & R2). rewrite rd_ok by lia. cbn [bind]. rewrite wr_ok by lia. eexists. split; [reflexivity|].
      split; intros m Hm.
      * destruct (Z.eq_dec m k); [subst; now rewrite upd_eq|]. rewrite upd_neq by lia. apply R1. lia.
      * rewrite upd_neq by lia. apply R2. lia.
    + change (T RN) with R in *. exists mom'. split; auto. split; auto.
      intros i j Hi Hj Hs. rewrite R1.
      * apply I2; lia.
      * pose proof (idx2_range po i j Hi Hj ltac:(lia)).
        assert (idx2 i j <> 0); [|lia]. intros X.
        destruct (idx2_inj i j 0 0) as (A & B'); auto; lia.
Qed.

(** the anti-diagonal sum is the double binomial sum *)
Lemma ssum_rect i j : 0 <= i -> 0 <= j ->
  ssum i j (i + j + 1) = lsum (zrange (i + 1)) (fun k => lsum (zrange (j + 1)) (fun l =>
    (Cz i k * Cz j l * vx c ^ Z.to_nat (i - k) * vy c ^ Z.to_nat (j - l) * mom (idx2 k l))%R)).
Proof.
  intros Hi Hj. unfold ssum.
  set (A := flat_map (fun q => map (pair q) (zrange (q + 1))) (zrange (i + j + 1))).
  set (Bq := flat_map (fun k => map (pair k) (zrange (j + 1))) (zrange (i + 1))).
  assert (InA : forall q t, In (q, t) A <-> 0 <= t <= q /\ q < i + j + 1).
  { intros q t. unfold A. rewrite in_flat_map. split.
    - intros (x & Hx & Hy). apply in_zrange in Hx. apply in_map_iff in Hy as (y & E & Hy). apply in_zrange in Hy.
      inversion E; subst. lia.
    - intros X. exists q. rewrite in_zrange. split; [lia|]. apply in_map. apply in_zrange. lia. }
  assert (InB : forall q t, In (q, t) Bq <-> 0 <= q <= i /\ 0 <= t <= j).
  { intros q t. unfold Bq. rewrite in_flat_map. split.
    - intros (x & Hx & Hy). apply in_zrange in Hx. apply in_map_iff in Hy as (y & E & Hy). apply in_zrange in Hy.
      inversion E; subst. lia.
    - intros X. exists q. rewrite in_zrange. split; [lia|]. apply in_map. apply in_zrange. lia. }
  assert (ND : forall g n, NoDup (flat_map (fun q => map (pair q) (zrange (g q))) (zrange n))).
  { intros g n. generalize (NoDup_zrange n). induction (zrange n) as [|a l IH]; cbn; intros X; [constructor|].
    inversion X; subst. clear X.
    assert (forall (a b : list (Z * Z)), NoDup a -> NoDup b -> (forall x, In x a -> ~ In x b) -> NoDup (a ++ b)) as NA.
    { clear. induction a; cbn; intros b Na Nb D; auto. inversion Na; subst. constructor.
      - rewrite in_app_iff. intros [?|?]; auto. eapply D; eauto.
      - apply IHa; auto. }
    apply NA; auto.
    - apply FinFun.Injective_map_NoDup; [intros x y E; congruence|apply NoDup_zrange].
    - intros [x y] Hx Hy. apply in_map_iff in Hx as (z & E & _). inversion E; subst.
      apply in_flat_map in Hy as (w & Hw & Hy). apply in_map_iff in Hy as (z' & E' & _). inversion E'; subst. auto. }
  transitivity (lsum A (fun d => sterm i j (fst d - snd d) (snd d))).
  { unfold A. rewrite lsum_flat_map. apply lsum_ext. intros q _. rewrite lsum_map. reflexivity. }
  transitivity (lsum (filter (fun d => (fst d - snd d <=? i) && (snd d <=? j)) A)
                 (fun d => sterm i j (fst d - snd d) (snd d))).
  { rewrite lsum_filter. apply lsum_ext. intros [q t] _. cbn [fst snd]. unfold sterm.
    destruct ((q - t <=? i) && (t <=? j)); reflexivity. }
  transitivity (lsum Bq (fun d => sterm i j (fst d) (snd d))).
  - apply (lsum_bij (fun d => (fst d - snd d, snd d)) _ Bq (fun d => sterm i j (fst d) (snd d))).
    + apply NoDup_filter, ND.
    + apply ND.
    + intros [q t] X. apply filter_In in X as (X & Y). apply InA in X. cbn [fst snd] in *.
      apply andb_true_iff in Y as (Y1 & Y2). apply Z.leb_le in Y1. apply Z.leb_le in Y2. apply InB. lia.
    + intros [q t] [q' t'] _ _ X. cbn [fst snd] in X. apply pair_equal_spec in X. f_equal; lia.
    + intros [k l] X. apply InB in X. exists (k + l, l). cbn [fst snd]. split; [|f_equal; lia].
      apply filter_In. cbn [fst snd]. rewrite InA, andb_true_iff, !Z.leb_le. lia.
  - unfold Bq. rewrite lsum_flat_map. apply lsum_ext. intros k Hk. apply in_zrange in Hk.
    rewrite lsum_map. apply lsum_ext. intros l Hl. apply in_zrange in Hl. cbn [fst snd]. unfold sterm.
    rewrite !(proj2 (Z.leb_le _ _)) by lia. reflexivity.
Qed.
End Shift.

(** ** The change of origin *)
Open Scope R_scope.

Lemma lsum_sum_f f n : lsum (zrange (Z.of_nat n + 1)) (fun k => f (Z.to_nat k)) = sum_f_R0 f n.
Proof.
  induction n.
  - change (f 0%nat + 0 = f 0%nat). ring.
  - rewrite Nat2Z.inj_succ. unfold Z.succ. rewrite (zrange_succ (Z.of_nat n + 1)) by lia. rewrite lsum_app, IHn.
    cbn [lsum sum_f_R0]. replace (Z.to_nat (Z.of_nat n + 1)) with (S n) by lia. ring.
Qed.

Lemma sum_rev f n : sum_f_R0 f n = sum_f_R0 (fun a => f (n - a)%nat) n.
Proof.
  revert f. induction n; intros f; auto.
  rewrite tech5. rewrite (decomp_sum (fun a => f (S n - a)%nat)) by lia. cbn [pred].
  rewrite Nat.sub_0_r, (IHn f). rewrite Rplus_comm. f_equal.
Qed.

(** moments of the polygon translated by [-c] *)
Definition moment2_at (c : rvec2 R) (p : poly (rvec2 R)) (i j : nat) : R :=
  lsum (zrange (nv p)) (fun v => edge2 i j (vsub2 RN (ps (vb p) v) c) (vsub2 RN (ps (vb p) (nb (vb p) v 0%Z)) c)).

Lemma SS_flat (c : rvec2 R) A i j :
  SS (pt2 c) A i j 0%nat = sum_f_R0 (fun k => sum_f_R0 (fun l =>
     vx c ^ (i - k) / INR (fact (i - k)) * (vy c ^ (j - l) / INR (fact (j - l))) * A k l 0%nat) j) i.
Proof.
  unfold SS, S1, S2, S3. cbn [px py pz pt2 sum_f_R0].
  rewrite sum_rev. apply sum_eq. intros a Ha.
  rewrite sum_rev, scal_sum. apply sum_eq. intros b Hb.
  replace (i - (i - a))%nat with a by lia. replace (j - (j - b))%nat with b by lia.
  unfold ex. cbn [pow fact Nat.sub]. change (INR 1) with 1. field. split; apply fact_neq.
Qed.

Lemma edge2_shift (c a b : rvec2 R) i j :
  sum_f_R0 (fun k => sum_f_R0 (fun l =>
     Binomial.C i k * Binomial.C j l * vx c ^ (i - k) * vy c ^ (j - l) * edge2 k l (vsub2 RN a c) (vsub2 RN b c)) j) i
  = edge2 i j c a + edge2 i j a b + edge2 i j b c.
Proof.
  set (A := fun i j k => Hn 2 [P3 0 0 0; pt2 (vsub2 RN a c); pt2 (vsub2 RN b c)] i j k).
  set (X := cross (pt2 (vsub2 RN a c)) (pt2 (vsub2 RN b c))).
  transitivity (INR (fact i) * INR (fact j) * X * SS (pt2 c) A i j 0%nat).
  - rewrite SS_flat. rewrite scal_sum. apply sum_eq. intros k Hk.
    rewrite Rmult_comm, scal_sum. apply sum_eq. intros l Hl.
    unfold edge2. rewrite tri_int_Hn. fold X. unfold A, Hn.
    rewrite (H_zero [pt2 (vsub2 RN a c); pt2 (vsub2 RN b c)] k l 0%nat).
    unfold Binomial.C. field. repeat split; apply fact_neq.
  - pose proof (Hn_shift (pt2 c) [pt2 (vsub2 RN a c); pt2 (vsub2 RN b c)] (P3 0 0 0) i j 0%nat) as E.
    cbn [length map] in E. unfold A. change (fun i0 j0 k : nat => Hn 2 ?l i0 j0 k) with (Hn 2 l).
    rewrite <- E.
    assert (E0 : padd (pt2 c) (P3 0 0 0) = pt2 c) by (unfold padd, pt2; cbn; apply pt_eq; ring).
    assert (E1 : forall q, padd (pt2 c) (pt2 (vsub2 RN q c)) = pt2 q) by (intros q; unfold padd, pt2, vsub2; cbn; apply pt_eq; ring).
    rewrite E0, !E1. unfold edge2. rewrite !tri_int_Hn. unfold Hn.
    pose proof (cross_cocycle (pt2 c) (pt2 a) (pt2 b) i j) as CC.
    replace (cross (psub (pt2 a) (pt2 c)) (psub (pt2 b) (pt2 c))) with X in CC
      by (unfold X, cross, psub, pt2, vsub2; cbn; ring).
    transitivity (INR (fact i) * INR (fact j) / INR (fact (deg i j 0 + 2)) * (X * H [pt2 c; pt2 a; pt2 b] i j 0%nat)).
    + field. apply fact_neq.
    + rewrite <- CC. field. apply fact_neq.
Qed.

Lemma moment2_shift (c : rvec2 R) (p : poly (rvec2 R)) i j : linked (nb (vb p)) (nv p) ->
  sum_f_R0 (fun k => sum_f_R0 (fun l =>
     Binomial.C i k * Binomial.C j l * vx c ^ (i - k) * vy c ^ (j - l) * moment2_at c p k l) j) i
  = moment2 p i j.
Proof.
  intros HL.
  transitivity (lsum (zrange (nv p)) (fun v =>
     edge2 i j c (ps (vb p) v) + edge2 i j (ps (vb p) v) (ps (vb p) (nb (vb p) v 0%Z))
       - edge2 i j c (ps (vb p) (nb (vb p) v 0%Z)))).
  - transitivity (lsum (zrange (nv p)) (fun v => sum_f_R0 (fun k => sum_f_R0 (fun l =>
       Binomial.C i k * Binomial.C j l * vx c ^ (i - k) * vy c ^ (j - l)
       * edge2 k l (vsub2 RN (ps (vb p) v) c) (vsub2 RN (ps (vb p) (nb (vb p) v 0%Z)) c)) j) i)).
    + unfold moment2_at. clear HL. induction (zrange (nv p)) as [|v r IH].
      * cbn [lsum]. apply sum_eq_R0. intros. apply sum_eq_R0. intros. ring.
      * cbn [lsum]. rewrite <- IH. rewrite <- plus_sum. apply sum_eq. intros k Hk.
        rewrite <- plus_sum. apply sum_eq. intros l Hl. ring.
    + apply lsum_ext. intros v _. rewrite edge2_shift. rewrite (edge2_anti i j c (ps (vb p) (nb (vb p) v 0%Z))). ring.
  - rewrite lsum_sub, lsum_add.
    assert (N : lsum (zrange (nv p)) (fun v => edge2 i j c (ps (vb p) (nb (vb p) v 0%Z)))
      = lsum (zrange (nv p)) (fun v => edge2 i j c (ps (vb p) v))).
    { apply (lsum_bij (fun v => nb (vb p) v 0%Z) _ _ (fun v => edge2 i j c (ps (vb p) v))); try apply NoDup_zrange.
      - intros v Hv. apply in_zrange in Hv. apply in_zrange. apply HL; auto.
      - intros u v Hu Hv E. apply in_zrange in Hu. apply in_zrange in Hv.
        destruct (HL u Hu) as (_ & _ & A & _). destruct (HL v Hv) as (_ & _ & B & _). congruence.
      - intros v Hv. apply in_zrange in Hv. exists (nb (vb p) v 1%Z).
        destruct (HL v Hv) as (_ & A & _ & B). split; auto. now apply in_zrange. }
    rewrite N. unfold moment2. ring.
Qed.

(** [r2d_shift_moments] turns moments about [c] into moments about the origin. *)
Lemma shift_moments_exact (p : poly (rvec2 R)) c po mom : (0 <= po)%Z -> linked (nb (vb p)) (nv p) ->
  (forall i j, (i + j <= Z.to_nat po)%nat -> mom (idx2 (Z.of_nat i) (Z.of_nat j)) = moment2_at c p i j) ->
  exists mom' : Z -> R, r2d_shift_moments RN mom po c = OK mom'
  /\ (forall i j, (i + j <= Z.to_nat po)%nat -> mom' (idx2 (Z.of_nat i) (Z.of_nat j)) = moment2 p i j)
  /\ (forall m, ~ (0 <= m < num_moments2 po)%Z -> mom' m = mom m).
Proof.
  intros Hpo HL Hm. destruct (shift_spec po Hpo mom c) as (mom' & E & R1 & R2). change (T RN) with R in *.
  exists mom'. split; auto. split.
  2: { intros m X. apply R2. lia. }
  intros i j Hs. rewrite <- (moment2_shift c p i j HL).
  transitivity (ssum mom c (Z.of_nat i) (Z.of_nat j) (Z.of_nat i + Z.of_nat j + 1)).
  - destruct (Nat.eq_dec (i + j) 0) as [Z0|Z0].
    + assert (i = 0%nat) as -> by lia. assert (j = 0%nat) as -> by lia. rewrite R2.
      * change (mom 0%Z = Cz 0 0 * Cz 0 0 * 1 * 1 * mom 0%Z + 0 + 0). rewrite Cz_0 by lia. ring.
      * cbn. lia.
    + apply R1; lia.
  - rewrite ssum_rect by lia. rewrite <- lsum_sum_f. apply lsum_ext. intros k Hk. apply in_zrange in Hk.
    rewrite <- lsum_sum_f. apply lsum_ext. intros l Hl. apply in_zrange in Hl.
    rewrite <- Hm by lia. rewrite !Z2Nat.id by lia. unfold Cz. rewrite !Nat2Z.id.
    replace (Z.to_nat (Z.of_nat i - k)) with (i - Z.to_nat k)%nat by lia.
    replace (Z.to_nat (Z.of_nat j - l)) with (j - Z.to_nat l)%nat by lia. reflexivity.
Qed.

(** [r2d_reduce] with SHIFT_POLY. *)
Lemma reduce_shift_moment2 MX (p : poly (rvec2 R)) mom po : (0 <= po)%Z -> wf2 p -> (nv p <= MX)%Z ->
  exists mom', r2d_reduce RN MX true p mom po = OK mom'
  /\ (forall i j, (i + j <= Z.to_nat po)%nat -> mom' (idx2 (Z.of_nat i) (Z.of_nat j)) = moment2 p i j)
  /\ (forall m, ~ (0 <= m < num_moments2 po)%Z -> mom' m = mom m).
Proof.
  intros Hpo Hw HM. unfold r2d_reduce.
  assert (Hnm : (0 <= num_moments2 po)%Z) by (rewrite num_moments2_tri; apply tri2_nonneg; lia).
  destruct (zero_loop RN (num_moments2 po) mom Hnm) as (mom0 & E0 & Z1 & Z2).
  change (T RN) with R in *. rewrite E0. cbn [bind]. pose proof Hw as (Hn & HL).
  destruct (Z.leb_spec (nv p) 0) as [L|L].
  { exists mom0. split; auto. split; auto. intros i j Hs. unfold moment2.
    assert (nv p = 0%Z) as -> by lia. rewrite Z1 by (apply idx2_range; lia). reflexivity. }
  destruct (poly_center_ok RN MX p) as (c & Ec); [change (T RN) with R; lia|]. change (T RN) with R in *. rewrite Ec. cbn [bind].
  destruct (reduce_loops RN MX po (Some c) p mom0) as (s1 & cc & s2 & E1 & E2 & E3 & R1 & R2); auto.
  change (T RN) with R in *.
  rewrite E1. cbn [bind]. rewrite E2. cbn [bind]. rewrite E3. cbn [bind].
  destruct (shift_moments_exact p c po (r_mom RN s2) Hpo HL) as (mom' & E & Q1 & Q2).
  { intros i j Hs. rewrite R1 by lia. rewrite mom_entry_R by lia. rewrite !Nat2Z.id. reflexivity. }
  exists mom'. split; auto. split; auto. intros m Hm. rewrite Q2, R2 by auto. auto.
Qed.
