(** * RndM2: the moments of [r2d_reduce] in rounded arithmetic. *)
From Coq Require Import Reals ZArith List Bool Lia Lra Psatz.
From Verif Require Import Base Lib SumR ModelCommon CommonFacts RealNum Model2 Spec2 Spec2R Struct2 Reduce2 Mom2 Cons2 RndNum SpecR2.
Import ListNotations.
Open Scope R_scope.

(** the tables at a point with equal coordinates *)
Definition binR (i j : nat) : R := Bg RN i j.
Lemma binR_00 : binR 0 0 = 1. Proof. reflexivity. Qed.
Lemma binR_0S j : binR 0 (S j) = binR 0 j. Proof. unfold binR. change (0 + Bg RN 0 j = Bg RN 0 j). apply Rplus_0_l. Qed.
Lemma binR_S0 i : binR (S i) 0 = binR i 0. Proof. unfold binR. change (0 + Bg RN i 0 = Bg RN i 0). apply Rplus_0_l. Qed.
Lemma binR_SS i j : binR (S i) (S j) = binR i (S j) + binR (S i) j.
Proof. unfold binR. change (0 + Bg RN i (S j) + Bg RN (S i) j = Bg RN i (S j) + Bg RN (S i) j). rn. lra. Qed.
Lemma binR_ge : forall i j, 1 <= binR i j.
Proof.
  induction i; induction j; rewrite ?binR_00, ?binR_0S, ?binR_S0, ?binR_SS; try lra; auto.
  pose proof (IHi (S j)). lra.
Qed.

Section Rnd.
Context (u : R) (rnd : R -> R) (HA : accurate u rnd) (Hu : 0 <= u <= 1 / 10).
Notation FR := (FN rnd).
Notation near := (near u).

Lemma near_div i j a' a m y' y : near i a' a m -> near j y' y y -> 0 < y -> (1 + u) ^ j <= 3 / 2 -> near (S (i + 2 * j)) (rnd (a' / y')) (a / y) (m / y).
Proof.
  intros Ha (H1 & _) Hy Ht. apply (near_rnd u rnd HA Hu). unfold Rdiv. apply (near_times u); [auto|].
  set (t := (1 + u) ^ j) in *. assert (T1 : 1 <= t) by (apply (pow_ge u Hu)). apply rabs_inv in H1.
  assert (Y' : (2 - t) * y <= y') by lra. assert (Yp : 0 < (2 - t) * y) by (apply Rmult_lt_0_compat; lra).
  assert (P : (1 + u) ^ (2 * j) = t * t). { unfold t. rewrite <- pow_add. f_equal. lia. }
  split; [|rewrite Rabs_pos_eq; [lra|left; now apply Rinv_0_lt_compat]].
  rewrite P. replace (/ y' - / y) with ((y - y') * / (y * y')) by (field; lra). rewrite Rabs_mult.
  assert (I0 : 0 < / (y * y')) by (apply Rinv_0_lt_compat, Rmult_lt_0_compat; lra). rewrite (Rabs_pos_eq (/ (y * y'))) by lra.
  assert (A : Rabs (y - y') <= (t - 1) * y) by (apply Rabs_le; lra).
  apply Rle_trans with ((t - 1) * y * / (y * y')); [apply Rmult_le_compat_r; lra|].
  replace ((t - 1) * y * / (y * y')) with ((t - 1) / y') by (field; lra).
  apply Rmult_le_reg_r with y'; [lra|]. unfold Rdiv. rewrite Rmult_assoc, Rinv_l, Rmult_1_r by lra.
  apply Rle_trans with ((t * t - 1) * / y * ((2 - t) * y)).
  - replace ((t * t - 1) * / y * ((2 - t) * y)) with ((t - 1) * ((t + 1) * (2 - t))) by (field; lra).
    rewrite <- (Rmult_1_r (t - 1)) at 1. apply Rmult_le_compat_l; [lra|]. nra.
  - apply Rmult_le_compat_l; auto. apply Rmult_le_pos; [nra|]. left. now apply Rinv_0_lt_compat.
Qed.
Lemma near_IZR z : (0 <= z)%Z -> near 1 (rnd (IZR z)) (IZR z) (IZR z).
Proof. intros H. apply (near_rnd u rnd HA Hu), near_exact. rewrite Rabs_pos_eq; [lra|]. now apply IZR_le. Qed.
Lemma near_up i j x' x m : near i x' x m -> (i <= j)%nat -> near j x' x m.
Proof. intros H L. exact (near_mono u Hu i j x' x m m H L (Rle_refl m)). Qed.
Lemma near_fit i j x' x m m' : near i x' x m -> (i <= j)%nat -> m = m' -> near j x' x m'.
Proof. intros H L <-. now apply (near_up i). Qed.
Lemma near_eq i x' x m m' : near i x' x m -> m = m' -> near i x' x m'.
Proof. now intros H <-. Qed.

(** one step of the recurrence; [lf] levels are added by the multiplications *)
Lemma Bg_near : forall i j, near (2 * (i + j)) (Bg FR i j) (binR i j) (binR i j).
Proof.
  set (g := Bg FR : nat -> nat -> R).
  induction i; induction j.
  - rewrite binR_00. apply near_exact. change (g 0%nat 0%nat) with 1. rewrite Rabs_R1. lra.
  - change (g 0%nat (S j)) with (rnd (0 + g 0%nat j)). rewrite binR_0S, Rplus_0_l. eapply near_up; [apply (near_rnd u rnd HA Hu); exact IHj|lia].
  - change (g (S i) 0%nat) with (rnd (0 + g i 0%nat)). rewrite binR_S0, Rplus_0_l. eapply near_up; [apply (near_rnd u rnd HA Hu); apply IHi|lia].
  - change (g (S i) (S j)) with (rnd (rnd (0 + g i (S j)) + g (S i) j)). rewrite binR_SS, Rplus_0_l.
    replace (2 * (S i + S j))%nat with (S (S (2 * (i + S j)))) by lia. apply (near_add u rnd HA Hu).
    + apply (near_rnd u rnd HA Hu), IHi.
    + eapply near_up; [exact IHj|lia].
Qed.

Section Vert.
Context (m : R).
Let cb (i j : nat) : R := binR i j * m ^ (i + j).
Let db (i j : nat) : R := INR (S (i + j)) * binR i j * m ^ (i + j).

Lemma Cg_near v : within_abs2 m v -> forall i j, near (3 * (i + j)) (Cg FR v i j) (Cg RN v i j) (cb i j).
Proof.
  destruct v as [x y]. intros (Hx & Hy). cbn [vx vy] in *. unfold cb.
  set (g := Cg FR (V2 x y) : nat -> nat -> R). set (h := Cg RN (V2 x y) : nat -> nat -> R).
  induction i; induction j.
  - rewrite binR_00. apply near_exact. change (h 0%nat 0%nat) with 1. cbn. rewrite Rabs_R1. lra.
  - change (g 0%nat (S j)) with (rnd (0 + rnd (y * g 0%nat j))). change (h 0%nat (S j)) with (0 + y * h 0%nat j). rewrite !Rplus_0_l.
    eapply near_fit; [exact (near_rnd u rnd HA Hu _ _ _ _ (near_mul u rnd HA Hu 0 _ _ _ _ _ _ _ (near_exact u y m Hy) IHj))|lia|].
    rewrite binR_0S. cbn [Nat.add pow]. ring.
  - change (g (S i) 0%nat) with (rnd (0 + rnd (x * g i 0%nat))). change (h (S i) 0%nat) with (0 + x * h i 0%nat). rewrite !Rplus_0_l.
    eapply near_fit; [exact (near_rnd u rnd HA Hu _ _ _ _ (near_mul u rnd HA Hu 0 _ _ _ _ _ _ _ (near_exact u x m Hx) (IHi 0%nat)))|lia|].
    rewrite binR_S0. cbn [Nat.add pow]. ring.
  - change (g (S i) (S j)) with (rnd (rnd (0 + rnd (x * g i (S j))) + rnd (y * g (S i) j))). change (h (S i) (S j)) with (0 + x * h i (S j) + y * h (S i) j).
    rewrite !Rplus_0_l.
    pose proof (near_rnd u rnd HA Hu _ _ _ _ (near_mul u rnd HA Hu 0 _ _ _ _ _ _ _ (near_exact u x m Hx) (IHi (S j)))) as N1.
    pose proof (near_mul u rnd HA Hu 0 _ _ _ _ _ _ _ (near_exact u y m Hy) IHj) as N2.
    pose proof (near_up _ (3 * (i + j) + 5) _ _ _ N1 ltac:(lia)) as N1'. pose proof (near_up _ (3 * (i + j) + 5) _ _ _ N2 ltac:(lia)) as N2'.
    eapply near_fit; [exact (near_add u rnd HA Hu _ _ _ _ _ _ _ N1' N2')|lia|].
    rewrite binR_SS. replace (S i + S j)%nat with (S (i + S j)) by lia. replace (S i + j)%nat with (i + S j)%nat by lia. cbn [pow]. ring.
Qed.
Lemma Dg_near a b : within_abs2 m a -> within_abs2 m b -> forall i j, near (4 * (i + j)) (Dg FR a b i j) (Dg RN a b i j) (db i j).
Proof.
  destruct a as [x y]. intros (Hx & Hy) Hb. cbn [vx vy] in *. unfold db. pose proof (Cg_near b Hb) as CN. unfold cb in CN.
  set (g := Dg FR (V2 x y) b : nat -> nat -> R). set (h := Dg RN (V2 x y) b : nat -> nat -> R).
  set (g' := Cg FR b : nat -> nat -> R) in *. set (h' := Cg RN b : nat -> nat -> R) in *.
  induction i; induction j.
  - rewrite binR_00. apply near_exact. change (h 0%nat 0%nat) with 1. cbn. rewrite Rabs_R1. lra.
  - change (g 0%nat (S j)) with (rnd (rnd (0 + rnd (y * g 0%nat j)) + g' 0%nat (S j))). change (h 0%nat (S j)) with (0 + y * h 0%nat j + h' 0%nat (S j)).
    rewrite !Rplus_0_l.
    pose proof (near_up _ (4 * j + 3) _ _ _ (near_rnd u rnd HA Hu _ _ _ _ (near_mul u rnd HA Hu 0 _ _ _ _ _ _ _ (near_exact u y m Hy) IHj)) ltac:(lia)) as N1.
    pose proof (near_up _ (4 * j + 3) _ _ _ (CN 0%nat (S j)) ltac:(lia)) as N3.
    eapply near_fit; [exact (near_add u rnd HA Hu _ _ _ _ _ _ _ N1 N3)|lia|].
    rewrite !binR_0S. cbn [Nat.add pow]. rewrite !S_INR. ring.
  - change (g (S i) 0%nat) with (rnd (rnd (0 + rnd (x * g i 0%nat)) + g' (S i) 0%nat)). change (h (S i) 0%nat) with (0 + x * h i 0%nat + h' (S i) 0%nat).
    rewrite !Rplus_0_l.
    pose proof (near_up _ (4 * i + 3) _ _ _ (near_rnd u rnd HA Hu _ _ _ _ (near_mul u rnd HA Hu 0 _ _ _ _ _ _ _ (near_exact u x m Hx) (IHi 0%nat))) ltac:(lia)) as N1.
    pose proof (near_up _ (4 * i + 3) _ _ _ (CN (S i) 0%nat) ltac:(lia)) as N3.
    eapply near_fit; [exact (near_add u rnd HA Hu _ _ _ _ _ _ _ N1 N3)|lia|].
    rewrite !binR_S0. cbn [Nat.add pow]. rewrite !S_INR. ring.
  - change (g (S i) (S j)) with (rnd (rnd (rnd (0 + rnd (x * g i (S j))) + rnd (y * g (S i) j)) + g' (S i) (S j))).
    change (h (S i) (S j)) with (0 + x * h i (S j) + y * h (S i) j + h' (S i) (S j)).
    rewrite !Rplus_0_l.
    pose proof (near_up _ (4 * (i + j) + 6) _ _ _ (near_rnd u rnd HA Hu _ _ _ _ (near_mul u rnd HA Hu 0 _ _ _ _ _ _ _ (near_exact u x m Hx) (IHi (S j)))) ltac:(lia)) as N1.
    pose proof (near_up _ (4 * (i + j) + 6) _ _ _ (near_mul u rnd HA Hu 0 _ _ _ _ _ _ _ (near_exact u y m Hy) IHj) ltac:(lia)) as N2.
    pose proof (near_up _ (S (4 * (i + j) + 6)) _ _ _ (CN (S i) (S j)) ltac:(lia)) as N3.
    eapply near_fit; [exact (near_add u rnd HA Hu _ _ _ _ _ _ _ (near_add u rnd HA Hu _ _ _ _ _ _ _ N1 N2) N3)|lia|].
    rewrite binR_SS. replace (S i + S j)%nat with (S (i + S j)) by lia. replace (S i + j)%nat with (i + S j)%nat by lia. rewrite !S_INR. cbn [pow]. ring.
Qed.

(** one edge *)
Lemma eg_near a b i j : 0 <= m -> within_abs2 m a -> within_abs2 m b ->
  near (4 * (i + j) + 4) (eg FR a b (Z.of_nat i) (Z.of_nat j)) (eg RN a b (Z.of_nat i) (Z.of_nat j))
    (if (i + j =? 0)%nat then m * m else 2 * (m * m) * db i j).
Proof.
  intros Hm Ha Hb. pose proof (Dg_near a b Ha Hb i j) as ND.
  destruct Ha as (A1 & A2). destruct Hb as (B1 & B2).
  pose proof (near_mul u rnd HA Hu 0 0 _ _ _ _ _ _ (near_exact u _ m A1) (near_exact u _ m B2)) as N1.
  pose proof (near_mul u rnd HA Hu 0 0 _ _ _ _ _ _ (near_exact u _ m A2) (near_exact u _ m B1)) as N2.
  pose proof (near_sub u rnd HA Hu _ _ _ _ _ _ _ N1 N2) as N3. cbn [Nat.add] in N3.
  unfold eg, zz. rewrite !Nat2Z.id. destruct (Nat.eqb_spec (i + j) 0) as [E|E]; destruct (Z.eqb_spec (Z.of_nat i + Z.of_nat j) 0) as [E'|E']; try lia.
  - assert (NH : near 1 (rnd (/ 2)) (/ 2) (/ 2)). { apply (near_rnd u rnd HA Hu), near_exact. rewrite Rabs_pos_eq; lra. }
    rewrite E. eapply near_fit; [exact (near_mul u rnd HA Hu _ _ _ _ _ _ _ _ NH N3)|lia|field].
  - eapply near_fit; [exact (near_mul u rnd HA Hu _ _ _ _ _ _ _ _ N3 ND)|lia|ring].
Qed.

Lemma sum_near L E (f' f : Z -> R) : forall l, (forall v, In v l -> near L (f' v) (f v) E) -> forall k acc' acc, near (L + k) acc' acc (INR k * E) ->
  near (L + k + length l) (fold_left (fun q v => rnd (q + f' v)) l acc') (fold_left (fun q v => q + f v) l acc) (INR (k + length l) * E).
Proof.
  induction l as [|v l IH]; intros HI k acc' acc HN; cbn [fold_left length].
  - now rewrite !Nat.add_0_r.
  - replace (L + k + S (length l))%nat with (L + S k + length l)%nat by lia. replace (k + S (length l))%nat with (S k + length l)%nat by lia.
    apply (IH (fun w H => HI w (or_intror H)) (S k)). replace (L + S k)%nat with (S (L + k)) by lia. rewrite S_INR.
    eapply near_eq; [apply (near_add u rnd HA Hu); [exact HN|]; eapply near_up; [apply HI; now left|lia]|]. ring.
Qed.

Lemma mom_near (b : vbuf (rvec2 R)) n i j : 0 <= m -> (0 <= n)%Z -> linked (nb b) n -> (forall v, (0 <= v < n)%Z -> within_abs2 m (ps b v)) ->
  (1 + u) ^ (2 * (i + j) + 4) <= 3 / 2 ->
  near (8 * (i + j) + Z.to_nat n + 13) (mom_entry FR (fun q => q) b n (Z.of_nat i) (Z.of_nat j)) (mom_entry RN (fun q => q) b n (Z.of_nat i) (Z.of_nat j))
    (IZR n * (2 / INR (i + j + 2) * m ^ (i + j + 2))).
Proof.
  intros Hm Hn HL HB HP. unfold mom_entry.
  set (E := if (i + j =? 0)%nat then m * m else 2 * (m * m) * db i j).
  assert (NS : near (4 * (i + j) + 4 + Z.to_nat n) (esum FR (fun q => q) b n (Z.of_nat i) (Z.of_nat j)) (esum RN (fun q => q) b n (Z.of_nat i) (Z.of_nat j)) (IZR n * E)).
  { unfold esum. pose proof (sum_near (4 * (i + j) + 4) E (fun v => eg FR (ps b v) (ps b (nb b v 0)) (Z.of_nat i) (Z.of_nat j)) (fun v => eg RN (ps b v) (ps b (nb b v 0)) (Z.of_nat i) (Z.of_nat j)) (zrange n)) as X.
    assert (LZ : length (zrange n) = Z.to_nat n) by (unfold zrange; now rewrite map_length, seq_length).
    specialize (X ltac:(intros v Hv; apply in_zrange in Hv; apply eg_near; [auto|apply HB; auto|apply HB; apply HL; auto]) 0%nat 0 0).
    rewrite LZ, Nat.add_0_r in X. replace (IZR n) with (INR (0 + Z.to_nat n)) by (cbn [Nat.add]; rewrite INR_IZR_INZ, Z2Nat.id; auto).
    apply X. cbn [INR]. rewrite Rmult_0_l. eapply near_up; [apply near_exact; rewrite Rabs_R0; lra|lia]. }
  unfold bdiv. destruct (Z.eqb_spec (Z.of_nat i + Z.of_nat j) 0) as [Z0|Z0].
  - assert (i = 0%nat) as -> by lia. assert (j = 0%nat) as -> by lia. eapply near_up; [eapply near_eq; [exact NS|]|lia]. unfold E. cbn [Nat.eqb Nat.add pow]. change (INR 2) with 2. field.
  - assert (NB : near (2 * (i + j) + 4) (nmul FR (nmul FR (zz FR (Bg FR) (Z.of_nat i) (Z.of_nat j)) (nofZ FR (Z.of_nat i + Z.of_nat j + 1))) (nofZ FR (Z.of_nat i + Z.of_nat j + 2)))
       (binR i j * IZR (Z.of_nat i + Z.of_nat j + 1) * IZR (Z.of_nat i + Z.of_nat j + 2)) (binR i j * IZR (Z.of_nat i + Z.of_nat j + 1) * IZR (Z.of_nat i + Z.of_nat j + 2))).
    { unfold zz. rewrite !Nat2Z.id. cbn [nmul nofZ FN].
      pose proof (near_mul u rnd HA Hu _ _ _ _ _ _ _ _ (Bg_near i j) (near_IZR (Z.of_nat i + Z.of_nat j + 1) ltac:(lia))) as Y1.
      pose proof (near_mul u rnd HA Hu _ _ _ _ _ _ _ _ Y1 (near_IZR (Z.of_nat i + Z.of_nat j + 2) ltac:(lia))) as Y2.
      eapply near_up; [exact Y2|lia]. }
    pose proof (binR_ge i j) as B1.
    assert (K1 : IZR (Z.of_nat i + Z.of_nat j + 1) = INR (S (i + j))) by (rewrite INR_IZR_INZ; f_equal; lia).
    assert (K2 : IZR (Z.of_nat i + Z.of_nat j + 2) = INR (i + j + 2)) by (rewrite INR_IZR_INZ; f_equal; lia).
    pose proof (lt_0_INR (S (i + j)) ltac:(lia)) as P1. pose proof (lt_0_INR (i + j + 2) ltac:(lia)) as P2.
    assert (DP : 0 < binR i j * INR (S (i + j)) * INR (i + j + 2)) by (repeat apply Rmult_lt_0_compat; lra).
    rewrite K1, K2 in NB.
    pose proof (near_div _ _ _ _ _ _ _ NS NB DP HP) as ND. eapply near_up; [eapply near_eq|].
    + assert (XX : zz RN (Bg RN) (Z.of_nat i) (Z.of_nat j) = binR i j) by (unfold zz, binR; now rewrite !Nat2Z.id).
      change (ndiv RN) with Rdiv. change (nmul RN) with Rmult. change (nofZ RN) with IZR. rn. rewrite XX, K1, K2. exact ND.
    + unfold E. destruct (Nat.eqb_spec (i + j) 0); [lia|]. unfold db. rewrite (pow_add m (i + j) 2). cbn [pow]. field. lra.
    + lia.
Qed.
End Vert.

Lemma reduce_F MX (p : pol2) mom po m : 0 <= m -> (0 <= po)%Z -> wf2 p -> (nv p <= MX)%Z ->
  (forall v, (0 <= v < nv p)%Z -> within_abs2 m (ps (vb p) v)) ->
  exists mom', r2d_reduce FR MX false p mom po = OK mom'
  /\ (forall i j, (i + j <= Z.to_nat po)%nat -> (1 + u) ^ (2 * (i + j) + 4) <= 3 / 2 ->
       near (8 * (i + j) + Z.to_nat (nv p) + 13) (mom' (idx2 (Z.of_nat i) (Z.of_nat j))) (moment2 p i j) (IZR (nv p) * (2 / INR (i + j + 2) * m ^ (i + j + 2))))
  /\ (forall k, ~ (0 <= k < num_moments2 po)%Z -> mom' k = mom k).
Proof.
  intros Hm Hpo Hw HM HB. destruct (reduce_spec FR MX po p mom) as (mom' & E & R1 & R2); auto.
  change (T FR) with R in *. exists mom'. split; auto. split; auto. intros i j L HP. rewrite R1 by lia. pose proof Hw as (Hn & HL).
  destruct (Z.eqb_spec (nv p) 0) as [E0|E0].
  - unfold moment2. rewrite E0. cbn [Z.to_nat]. change (zrange 0) with (@nil Z). cbn [lsum]. rewrite Rmult_0_l. eapply near_up; [apply near_exact; rewrite Rabs_R0; lra|lia].
  - pose proof (mom_near m (vb p) (nv p) i j Hm Hn HL HB HP) as X. rewrite mom_entry_R in X by lia. rewrite !Nat2Z.id in X. exact X.
Qed.
End Rnd.

(** ** Linear form of the bounds *)
Lemma pow_linear u n : 0 <= u -> 2 * u * INR n <= 1 -> (1 + u) ^ n <= 1 + 2 * u * INR n.
Proof.
  intros Hu. induction n as [|n IH]; [cbn; lra|]. rewrite S_INR. intros H. pose proof (pos_INR n) as P.
  assert (H' : 2 * u * INR n <= 1) by nra. specialize (IH H'). cbn [pow]. set (x := 2 * u * INR n) in *.
  apply Rle_trans with ((1 + u) * (1 + x)); [apply Rmult_le_compat_l; lra|]. replace (2 * u * (INR n + 1)) with (x + 2 * u) by (unfold x; ring). nra.
Qed.
Lemma reduce_linear u rnd MX (p : pol2) mom po m : accurate u rnd -> 0 <= u <= 1 / 10 -> 0 <= m -> (0 <= po)%Z -> wf2 p -> (nv p <= MX)%Z ->
  (forall v, (0 <= v < nv p)%Z -> within_abs2 m (ps (vb p) v)) ->
  exists mom', r2d_reduce (FN rnd) MX false p mom po = OK mom'
  /\ (forall i j, (i + j <= Z.to_nat po)%nat -> 2 * u * INR (8 * (i + j) + Z.to_nat (nv p) + 13) <= 1 ->
       Rabs (mom' (idx2 (Z.of_nat i) (Z.of_nat j)) - moment2 p i j)
         <= 2 * u * INR (8 * (i + j) + Z.to_nat (nv p) + 13) * (IZR (nv p) * (2 / INR (i + j + 2) * m ^ (i + j + 2))))
  /\ (forall k, ~ (0 <= k < num_moments2 po)%Z -> mom' k = mom k).
Proof.
  intros HA Hu Hm Hpo Hw HM HB. destruct (reduce_F u rnd HA Hu MX p mom po m Hm Hpo Hw HM HB) as (mom' & E & R1 & R2).
  exists mom'. split; [auto|]. split; [|auto]. intros i j L H.
  assert (L2 : INR (2 * (2 * (i + j) + 4)) <= INR (8 * (i + j) + Z.to_nat (nv p) + 13)) by (apply le_INR; lia).
  rewrite (mult_INR 2) in L2. change (INR 2) with 2 in L2.
  assert (HP : (1 + u) ^ (2 * (i + j) + 4) <= 3 / 2).
  { pose proof (pow_linear u (2 * (i + j) + 4) (proj1 Hu)) as X. nra. }
  destruct (R1 i j L HP) as (X & _). eapply Rle_trans; [exact X|]. apply Rmult_le_compat_r.
  - apply Rmult_le_pos; [apply IZR_le; apply Hw|]. apply Rmult_le_pos; [|now apply pow_le].
    pose proof (lt_0_INR (i + j + 2) ltac:(lia)) as P. apply Rmult_le_pos; [lra|]. left. now apply Rinv_0_lt_compat.
  - pose proof (pow_linear u _ (proj1 Hu) H). lra.
Qed.
