(** * RndM3: the moments of [r3d_reduce] in rounded arithmetic. *)
From Coq Require Import Reals ZArith List Bool Lia Lra Psatz Permutation.
From Verif Require Import Base Lib SumR ModelCommon CommonFacts RealNum Model3 Spec3 Spec3R Struct3 Orb3 Cut3 FaceSpec3 HPoly HShift HInt Face3 Reduce2 Reduce3 Mom3 RndNum SpecR3.
From Verif Require RndM2.
Import ListNotations.
Open Scope R_scope.

(** the multinomial coefficients *)
Definition mulR (i j k : nat) : R := B3 RN i j k.
Definition pz (n : nat) (b : R) : R := match n with O => 0 | S _ => b end.
Lemma mulR_step i j k : (0 < i + j + k)%nat -> mulR i j k = pz i (mulR (pred i) j k) + pz j (mulR i (pred j) k) + pz k (mulR i j (pred k)).
Proof.
  intros H. unfold mulR. set (g := B3 RN : nat -> nat -> nat -> R).
  assert (E : g i j k = pstep3 RN (fun a => a) (fun a => a) (fun a => a) i j k (match i with O => 0 | S i' => g i' j k end) (match j with O => 0 | S j' => g i j' k end) (match k with O => 0 | S k' => g i j k' end)).
  { destruct i, j, k; try lia; reflexivity. }
  rewrite E. unfold pstep3, pz. change (nadd RN) with Rplus. change (n0 RN) with 0. destruct i, j, k; cbn [pred]; rn; ring.
Qed.
Lemma mulR_000 : mulR 0 0 0 = 1. Proof. reflexivity. Qed.
Lemma mulR_ge : forall K i j k, (i + j + k = K)%nat -> 1 <= mulR i j k.
Proof.
  induction K; intros i j k E.
  - assert (i = 0 /\ j = 0 /\ k = 0)%nat as (-> & -> & ->) by lia. rewrite mulR_000. lra.
  - rewrite mulR_step by lia.
    assert (P : forall x y z, (x + y + z = K)%nat -> 1 <= mulR x y z) by auto.
    destruct i, j, k; cbn [pz pred]; try lia;
      repeat match goal with |- context [mulR ?a ?b ?c] =>
        lazymatch goal with H : 1 <= mulR a b c |- _ => fail | _ => pose proof (P a b c ltac:(lia)) end end; lra.
Qed.

Lemma darts3_length n : (0 <= n)%Z -> Z.of_nat (length (darts 3 n)) = (3 * n)%Z.
Proof.
  intros Hn. pattern n. apply zrange_ind; auto. intros m Hm IH.
  rewrite darts_succ, app_length, map_length by auto. change (length (zrange 3)) with 3%nat. lia.
Qed.
(** the exact moment with the triangles of the fans in any order *)
Lemma moment_order (p : pol3) l : wf3 p -> NoDup l -> (forall d, In d l <-> fan RN (vb p) (nv p) d) ->
  forall i j k, (0 <= i)%Z -> (0 <= j)%Z -> (0 <= k)%Z ->
  mdiv RN (tsum RN (vb p) (nv p) None l (n0 RN) i j k) i j k = moment3 p (Z.to_nat i) (Z.to_nat j) (Z.to_nat k).
Proof.
  intros (Hn & HL & HP) ND FA i j k Hi Hj Hk. unfold tsum. change (nadd RN) with Rplus. change (n0 RN) with 0. rn.
  pose proof (fold_left_lsum l (fun d => trig RN (vb p) (nv p) None d i j k : R) 0) as FL. rn. rewrite FL. clear FL. rewrite Rplus_0_l.
  rewrite mdiv_lin. unfold moment3.
  set (f := nb (vb p)) in *. set (n := nv p) in *.
  set (t := fun d => tet3 (Z.to_nat i) (Z.to_nat j) (Z.to_nat k) (ps (vb p) (fst (lead f n d))) (ps (vb p) (dtgt f d)) (ps (vb p) (fst d))).
  transitivity (lsum l t).
  { apply lsum_ext. intros d _. unfold trig. rewrite mdiv_tg by auto. reflexivity. }
  set (F := fun d : Z * Z => negb (fst d =? fst (lead f n d))%Z && negb (dtgt f d =? fst (lead f n d))%Z).
  change (lsum l t = lsum (darts 3 n) t).
  rewrite (lsum_split F (darts 3 n)).
  rewrite (lsum_0 (filter (fun d => negb (F d)) (darts 3 n))).
  - rewrite Rplus_0_r. apply lsum_perm. apply NoDup_Permutation; auto.
    + apply NoDup_filter, NoDup_darts. auto.
    + intros d. rewrite FA, filter_In. unfold fan. fold f. fold n. rewrite <- (isd_in n) .
      unfold F. rewrite andb_true_iff, !negb_true_iff, !Z.eqb_neq. tauto.
  - intros d Hd. apply filter_In in Hd as (_ & Hd). apply negb_true_iff, andb_false_iff in Hd.
    rewrite !negb_false_iff, !Z.eqb_eq in Hd. unfold t. destruct Hd as [Hd|Hd]; rewrite Hd.
    + apply tet3_same3.
    + apply tet3_same1.
Qed.

Section Rnd.
Context (u : R) (rnd : R -> R) (HA : accurate u rnd) (Hu : 0 <= u <= 1 / 10).
Notation FR := (FN rnd).
Notation near := (near u).
Notation near_up := (RndM2.near_up u Hu).
Notation near_fit := (RndM2.near_fit u Hu).

Lemma pstep_near L (fx' fy' fz' fx fy fz : R -> R) i j k (x' x y' y z' z bx by_ bz : R) :
  (i <> 0%nat -> near L (fx' x') (fx x) bx) -> (j <> 0%nat -> near L (fy' y') (fy y) by_) -> (k <> 0%nat -> near L (fz' z') (fz z) bz) ->
  near (L + 3) (pstep3 FR fx' fy' fz' i j k x' y' z') (pstep3 RN fx fy fz i j k x y z) (pz i bx + pz j by_ + pz k bz).
Proof.
  intros Hx Hy Hz. unfold pstep3. change (nadd RN) with Rplus. change (n0 RN) with 0. change (n0 FR) with 0.
  set (a1' := match i with O => 0 | S _ => nadd FR 0 (fx' x') end : R). set (a1 := match i with O => 0 | S _ => 0 + fx x end : R).
  assert (N1 : near (L + 1) a1' a1 (pz i bx)).
  { unfold a1', a1, pz. destruct i.
    - apply (near_up 0); [|lia]. apply near_exact. rewrite Rabs_R0. lra.
    - change (nadd FR 0 (fx' x')) with (rnd (0 + fx' x')). rewrite !Rplus_0_l. replace (L + 1)%nat with (S L) by lia. apply (near_rnd u rnd HA Hu). auto. }
  set (a2' := match j with O => a1' | S _ => nadd FR a1' (fy' y') end : R). set (a2 := match j with O => a1 | S _ => a1 + fy y end : R).
  assert (N2 : near (L + 2) a2' a2 (pz i bx + pz j by_)).
  { unfold a2', a2. destruct j; cbn [pz].
    - rewrite Rplus_0_r. apply (near_up (L + 1)); [auto|lia].
    - change (nadd FR a1' (fy' y')) with (rnd (a1' + fy' y')). replace (L + 2)%nat with (S (L + 1)) by lia. apply (near_add u rnd HA Hu); [auto|]. apply (near_up L); [auto|lia]. }
  change (near (L + 3) (match k with O => a2' | S _ => nadd FR a2' (fz' z') end) (match k with O => a2 | S _ => a2 + fz z end) (pz i bx + pz j by_ + pz k bz)).
  destruct k; cbn [pz].
  - rewrite Rplus_0_r. apply (near_up (L + 2)); [auto|lia].
  - change (nadd FR a2' (fz' z')) with (rnd (a2' + fz' z')). replace (L + 3)%nat with (S (L + 2)) by lia. apply (near_add u rnd HA Hu); [auto|]. apply (near_up L); [auto|lia].
Qed.

Lemma cpas3_eq NN fx fy fz i j k : (0 < i + j + k)%nat -> cpas3 NN fx fy fz i j k
  = pstep3 NN fx fy fz i j k (match i with O => n0 NN | S i' => cpas3 NN fx fy fz i' j k end)
      (match j with O => n0 NN | S j' => cpas3 NN fx fy fz i j' k end) (match k with O => n0 NN | S k' => cpas3 NN fx fy fz i j k' end).
Proof. intros. destruct i, j, k; try lia; reflexivity. Qed.
Lemma dpas3_eq NN fx fy fz c i j k : (0 < i + j + k)%nat -> dpas3 NN fx fy fz c i j k
  = nadd NN (pstep3 NN fx fy fz i j k (match i with O => n0 NN | S i' => dpas3 NN fx fy fz c i' j k end)
      (match j with O => n0 NN | S j' => dpas3 NN fx fy fz c i j' k end) (match k with O => n0 NN | S k' => dpas3 NN fx fy fz c i j k' end)) (c i j k).
Proof. intros. destruct i, j, k; try lia; reflexivity. Qed.

Lemma pz_mul n c b : pz n (c * b) = c * pz n b. Proof. destruct n; cbn; ring. Qed.

Lemma B3_near : forall K i j k, (i + j + k = K)%nat -> near (3 * K) (B3 FR i j k) (mulR i j k) (mulR i j k).
Proof.
  induction K; intros i j k E.
  - assert (i = 0 /\ j = 0 /\ k = 0)%nat as (-> & -> & ->) by lia. rewrite mulR_000. apply near_exact. change (B3 FR 0%nat 0%nat 0%nat) with 1. rewrite Rabs_R1. lra.
  - unfold mulR at 1. unfold B3 at 1 2. rewrite !cpas3_eq by lia. fold (B3 FR) (B3 RN).
    eapply near_fit; [apply (pstep_near (3 * K) (fun a => a) (fun a => a) (fun a => a) (fun a => a) (fun a => a) (fun a => a)) with
       (bx := mulR (pred i) j k) (by_ := mulR i (pred j) k) (bz := mulR i j (pred k))|lia|symmetry; apply mulR_step; lia].
    + destruct i; [congruence|]. intros _. apply IHK. lia.
    + destruct j; [congruence|]. intros _. apply IHK. lia.
    + destruct k; [congruence|]. intros _. apply IHK. lia.
Qed.

Section Vert.
Context (m : R).

Lemma C3_near v : within_abs m v -> forall K i j k, (i + j + k = K)%nat -> near (4 * K) (C3 FR v i j k) (C3 RN v i j k) (mulR i j k * m ^ K).
Proof.
  destruct v as [x y z]. intros (Hx & Hy & Hz). cbn [x3 y3 z3] in *.
  induction K; intros i j k E.
  - assert (i = 0 /\ j = 0 /\ k = 0)%nat as (-> & -> & ->) by lia. rewrite mulR_000. apply near_exact. change (C3 RN (V3 x y z) 0%nat 0%nat 0%nat) with 1. cbn. rewrite Rabs_R1. lra.
  - unfold C3 at 1 2. rewrite !cpas3_eq by lia. fold (C3 FR (V3 x y z)) (C3 RN (V3 x y z)).
    eapply near_fit; [apply (pstep_near (4 * K + 1)) with
       (bx := m * (mulR (pred i) j k * m ^ K)) (by_ := m * (mulR i (pred j) k * m ^ K)) (bz := m * (mulR i j (pred k) * m ^ K))|lia|].
    + destruct i; [congruence|]. intros _. eapply near_fit; [exact (near_mul u rnd HA Hu 0 _ _ _ _ _ _ _ (near_exact u x m Hx) (IHK i j k ltac:(lia)))|lia|reflexivity].
    + destruct j; [congruence|]. intros _. eapply near_fit; [exact (near_mul u rnd HA Hu 0 _ _ _ _ _ _ _ (near_exact u y m Hy) (IHK i j k ltac:(lia)))|lia|reflexivity].
    + destruct k; [congruence|]. intros _. eapply near_fit; [exact (near_mul u rnd HA Hu 0 _ _ _ _ _ _ _ (near_exact u z m Hz) (IHK i j k ltac:(lia)))|lia|reflexivity].
    + rewrite (mulR_step i j k) by lia. rewrite !pz_mul. destruct i, j, k; cbn [pz pow]; ring.
Qed.

(** one more vertex: the levels [ld] and the factors [ed] from those of the table [c] *)
Lemma dpas3_near (v : rvec3 R) (c' c : nat -> nat -> nat -> R) (lc ld : nat -> nat) (ec ed : nat -> R) : within_abs m v ->
  (forall K i j k, (i + j + k = K)%nat -> near (lc K) (c' i j k) (c i j k) (ec K * mulR i j k * m ^ K)) ->
  (forall K, (ld K + 5 <= ld (S K))%nat) -> (forall K, (lc (S K) + 1 <= ld (S K))%nat) ->
  ed 0%nat = 1 -> (forall K, ed (S K) = ed K + ec (S K)) ->
  forall K i j k, (i + j + k = K)%nat ->
    near (ld K) (dpas3 FR (nmul FR (x3 v)) (nmul FR (y3 v)) (nmul FR (z3 v)) c' i j k) (dpas3 RN (nmul RN (x3 v)) (nmul RN (y3 v)) (nmul RN (z3 v)) c i j k) (ed K * mulR i j k * m ^ K).
Proof.
  destruct v as [x y z]. intros (Hx & Hy & Hz) HC L1 L2 D0 D1. cbn [x3 y3 z3] in *.
  set (g := dpas3 FR (nmul FR x) (nmul FR y) (nmul FR z) c'). set (h := dpas3 RN (nmul RN x) (nmul RN y) (nmul RN z) c).
  induction K; intros i j k E.
  - assert (i = 0 /\ j = 0 /\ k = 0)%nat as (-> & -> & ->) by lia. rewrite mulR_000, D0. apply (near_up 0); [|lia]. apply near_exact. change (h 0%nat 0%nat 0%nat) with 1. cbn. rewrite Rabs_R1. lra.
  - unfold g, h. rewrite !dpas3_eq by lia. fold g h.
    pose proof (L1 K) as l1. pose proof (L2 K) as l2. pose proof (HC (S K) i j k E) as NC.
    set (a' := pstep3 FR (nmul FR x) (nmul FR y) (nmul FR z) i j k _ _ _ : R). set (a := pstep3 RN (nmul RN x) (nmul RN y) (nmul RN z) i j k _ _ _ : R).
    assert (NA : near (ld K + 4) a' a (ed K * mulR i j k * m ^ S K)).
    { eapply near_fit; [apply (pstep_near (ld K + 1)) with
         (bx := m * (ed K * mulR (pred i) j k * m ^ K)) (by_ := m * (ed K * mulR i (pred j) k * m ^ K)) (bz := m * (ed K * mulR i j (pred k) * m ^ K))|lia|].
      + destruct i; [congruence|]. intros _. eapply near_fit; [exact (near_mul u rnd HA Hu 0 _ _ _ _ _ _ _ (near_exact u x m Hx) (IHK i j k ltac:(lia)))|lia|reflexivity].
      + destruct j; [congruence|]. intros _. eapply near_fit; [exact (near_mul u rnd HA Hu 0 _ _ _ _ _ _ _ (near_exact u y m Hy) (IHK i j k ltac:(lia)))|lia|reflexivity].
      + destruct k; [congruence|]. intros _. eapply near_fit; [exact (near_mul u rnd HA Hu 0 _ _ _ _ _ _ _ (near_exact u z m Hz) (IHK i j k ltac:(lia)))|lia|reflexivity].
      + rewrite (mulR_step i j k) by lia. rewrite !pz_mul. destruct i, j, k; cbn [pz pow]; ring. }
    change (near (ld (S K)) (rnd (a' + c' i j k)) (a + c i j k) (ed (S K) * mulR i j k * m ^ S K)).
    set (L := Nat.max (ld K + 4) (lc (S K))).
    pose proof (near_up _ L _ _ _ NA ltac:(lia)) as NA'. pose proof (near_up _ L _ _ _ NC ltac:(lia)) as NC'.
    eapply near_fit; [exact (near_add u rnd HA Hu _ _ _ _ _ _ _ NA' NC')|lia|rewrite D1; ring].
Qed.

Definition e3 (K : nat) : R := (INR K + 1) * (INR K + 2) / 2.
Lemma E3_near v0 v1 v2 : within_abs m v0 -> within_abs m v1 -> within_abs m v2 ->
  forall K i j k, (i + j + k = K)%nat -> near (6 * K) (E3 FR v0 v1 v2 i j k) (E3 RN v0 v1 v2 i j k) (e3 K * mulR i j k * m ^ K).
Proof.
  intros H0 H1 H2.
  assert (NC : forall K i j k, (i + j + k = K)%nat -> near (4 * K) (C3 FR v2 i j k) (C3 RN v2 i j k) ((fun _ => 1) K * mulR i j k * m ^ K)).
  { intros K i j k E. eapply near_fit; [exact (C3_near v2 H2 K i j k E)|lia|ring]. }
  pose proof (dpas3_near v1 _ _ (fun K => (4 * K)%nat) (fun K => (5 * K)%nat) (fun _ => 1) (fun K => INR K + 1) H1 NC
    ltac:(intros; cbv beta; lia) ltac:(intros; cbv beta; lia) ltac:(cbn; ring) ltac:(intros K; cbv beta; rewrite S_INR; ring)) as ND. cbv beta in ND.
  fold (D3 FR v1 v2) (D3 RN v1 v2) in ND.
  exact (dpas3_near v0 _ _ (fun K => (5 * K)%nat) (fun K => (6 * K)%nat) (fun K => INR K + 1) e3 H0 ND
    ltac:(intros; cbv beta; lia) ltac:(intros; cbv beta; lia) ltac:(unfold e3; cbn; field) ltac:(intros K; unfold e3; cbv beta; rewrite S_INR; field)).
Qed.

Lemma prod_near a b c : Rabs a <= m -> Rabs b <= m -> Rabs c <= m -> near 2 (rnd (rnd (a * b) * c)) (a * b * c) (m * m * m).
Proof. intros Ha Hb Hc. exact (near_mul u rnd HA Hu 1 0 _ _ _ _ _ _ (near_mul u rnd HA Hu 0 0 _ _ _ _ _ _ (near_exact u a m Ha) (near_exact u b m Hb)) (near_exact u c m Hc)). Qed.
Lemma sixv_near v0 v1 v2 : within_abs m v0 -> within_abs m v1 -> within_abs m v2 -> near 7 (sixv3 FR v0 v1 v2) (sixv3 RN v0 v1 v2) (6 * (m * m * m)).
Proof.
  destruct v0 as [a0 b0 c0], v1 as [a1 b1 c1], v2 as [a2 b2 c2]. intros (H1 & H2 & H3) (H4 & H5 & H6) (H7 & H8 & H9). cbn [x3 y3 z3] in *.
  assert (H7' : Rabs (- a2) <= m) by now rewrite Rabs_Ropp.
  pose proof (prod_near _ _ _ H7' H5 H3) as N1. pose proof (prod_near _ _ _ H4 H8 H3) as N2. pose proof (prod_near _ _ _ H7 H2 H6) as N3.
  pose proof (prod_near _ _ _ H1 H8 H6) as N4. pose proof (prod_near _ _ _ H4 H2 H9) as N5. pose proof (prod_near _ _ _ H1 H5 H9) as N6.
  pose proof (near_add u rnd HA Hu _ _ _ _ _ _ _ N1 N2) as M1.
  pose proof (near_add u rnd HA Hu _ _ _ _ _ _ _ M1 (near_up _ 3 _ _ _ N3 ltac:(lia))) as M2.
  pose proof (near_sub u rnd HA Hu _ _ _ _ _ _ _ M2 (near_up _ 4 _ _ _ N4 ltac:(lia))) as M3.
  pose proof (near_sub u rnd HA Hu _ _ _ _ _ _ _ M3 (near_up _ 5 _ _ _ N5 ltac:(lia))) as M4.
  pose proof (near_add u rnd HA Hu _ _ _ _ _ _ _ M4 (near_up _ 6 _ _ _ N6 ltac:(lia))) as M5.
  eapply near_fit; [exact M5|lia|ring].
Qed.

(** one triangle of a fan *)
Lemma tg_near v0 v1 v2 i j k : within_abs m v0 -> within_abs m v1 -> within_abs m v2 ->
  near (6 * (i + j + k) + 9) (tg FR v0 v1 v2 (Z.of_nat i) (Z.of_nat j) (Z.of_nat k)) (tg RN v0 v1 v2 (Z.of_nat i) (Z.of_nat j) (Z.of_nat k))
    (if (i + j + k =? 0)%nat then m * m * m else 6 * (m * m * m) * (e3 (i + j + k) * mulR i j k * m ^ (i + j + k))).
Proof.
  intros H0 H1 H2. pose proof (sixv_near _ _ _ H0 H1 H2) as NS. pose proof (E3_near _ _ _ H0 H1 H2 _ i j k eq_refl) as NE.
  unfold tg, zz3. rewrite !Nat2Z.id. destruct (Nat.eqb_spec (i + j + k) 0) as [E|E]; destruct (Z.eqb_spec (Z.of_nat i + Z.of_nat j + Z.of_nat k) 0) as [E'|E']; try lia.
  - assert (NH : near 1 (rnd (/ 6)) (/ 6) (/ 6)). { apply (near_rnd u rnd HA Hu), near_exact. rewrite Rabs_pos_eq; lra. }
    eapply near_fit; [exact (near_mul u rnd HA Hu _ _ _ _ _ _ _ _ NH NS)|lia|field].
  - eapply near_fit; [exact (near_mul u rnd HA Hu _ _ _ _ _ _ _ _ NS NE)|lia|ring].
Qed.

Lemma sum_near3 L E {A} (f' f : A -> R) : forall l, (forall v, In v l -> near L (f' v) (f v) E) -> forall k acc' acc, near (L + k) acc' acc (INR k * E) ->
  near (L + k + length l) (fold_left (fun q v => rnd (q + f' v)) l acc') (fold_left (fun q v => q + f v) l acc) (INR (k + length l) * E).
Proof.
  induction l as [|v l IH]; intros HI k acc' acc HN; cbn [fold_left length].
  - now rewrite !Nat.add_0_r.
  - replace (L + k + S (length l))%nat with (L + S k + length l)%nat by lia. replace (k + S (length l))%nat with (S k + length l)%nat by lia.
    apply (IH (fun w H => HI w (or_intror H)) (S k)). replace (L + S k)%nat with (S (L + k)) by lia. rewrite S_INR.
    eapply near_fit; [apply (near_add u rnd HA Hu); [exact HN|]; eapply near_up; [apply HI; now left|lia]|lia|ring].
Qed.

Lemma mdiv_near (L : nat) q' q i j k Q : near L q' q Q -> (1 + u) ^ (3 * (i + j + k) + 6) <= 3 / 2 ->
  near (L + 6 * (i + j + k) + 13) (mdiv FR q' (Z.of_nat i) (Z.of_nat j) (Z.of_nat k)) (mdiv RN q (Z.of_nat i) (Z.of_nat j) (Z.of_nat k))
    (if (i + j + k =? 0)%nat then Q else Q / (mulR i j k * INR (i + j + k + 1) * INR (i + j + k + 2) * INR (i + j + k + 3))).
Proof.
  intros NQ HP. unfold mdiv. destruct (Nat.eqb_spec (i + j + k) 0) as [E|E]; destruct (Z.eqb_spec (Z.of_nat i + Z.of_nat j + Z.of_nat k) 0) as [E'|E']; try lia.
  - eapply near_up; [exact NQ|lia].
  - unfold zz3. rewrite !Nat2Z.id. set (K := (i + j + k)%nat) in *.
    assert (Z1 : forall c, IZR (Z.of_nat i + Z.of_nat j + Z.of_nat k + Z.of_nat c) = INR (K + c)) by (intros; unfold K; rewrite INR_IZR_INZ; f_equal; lia).
    pose proof (Z1 1%nat) as K1. pose proof (Z1 2%nat) as K2. pose proof (Z1 3%nat) as K3. cbn [Z.of_nat Pos.of_succ_nat Pos.succ] in K1, K2, K3.
    pose proof (RndM2.near_IZR u rnd HA Hu (Z.of_nat i + Z.of_nat j + Z.of_nat k + 1) ltac:(lia)) as I1.
    pose proof (RndM2.near_IZR u rnd HA Hu (Z.of_nat i + Z.of_nat j + Z.of_nat k + 2) ltac:(lia)) as I2.
    pose proof (RndM2.near_IZR u rnd HA Hu (Z.of_nat i + Z.of_nat j + Z.of_nat k + 3) ltac:(lia)) as I3.
    rewrite K1 in I1 at 2 3. rewrite K2 in I2 at 2 3. rewrite K3 in I3 at 2 3.
    pose proof (near_mul u rnd HA Hu _ _ _ _ _ _ _ _ (near_mul u rnd HA Hu _ _ _ _ _ _ _ _ (near_mul u rnd HA Hu _ _ _ _ _ _ _ _ (B3_near K i j k eq_refl) I1) I2) I3) as NB.
    pose proof (near_up _ (3 * K + 6) _ _ _ NB ltac:(lia)) as NB'.
    pose proof (mulR_ge K i j k eq_refl) as B1.
    pose proof (lt_0_INR (K + 1) ltac:(lia)) as P1. pose proof (lt_0_INR (K + 2) ltac:(lia)) as P2. pose proof (lt_0_INR (K + 3) ltac:(lia)) as P3.
    assert (DP : 0 < mulR i j k * INR (K + 1) * INR (K + 2) * INR (K + 3)) by (repeat apply Rmult_lt_0_compat; lra).
    pose proof (RndM2.near_div u rnd HA Hu _ _ _ _ _ _ _ NQ NB' DP HP) as ND.
    change (ndiv RN) with Rdiv. change (nmul RN) with Rmult. change (nofZ RN) with IZR. rn. fold (mulR i j k). rewrite K1, K2, K3.
    eapply near_fit; [exact ND|lia|reflexivity].
Qed.
End Vert.

Lemma reduce3_F MX (p : pol3) mom po m : 0 <= m -> (0 <= po)%Z -> wf3 p -> (nv p <= MX)%Z ->
  (forall v, (0 <= v < nv p)%Z -> within_abs m (ps (vb p) v)) ->
  exists mom', r3d_reduce FR MX false p mom po = OK mom'
  /\ (forall i j k, (i + j + k <= Z.to_nat po)%nat -> (1 + u) ^ (3 * (i + j + k) + 6) <= 3 / 2 ->
       near (12 * (i + j + k) + 3 * Z.to_nat (nv p) + 22) (mom' (idx3 (Z.of_nat i) (Z.of_nat j) (Z.of_nat k))) (moment3 p i j k)
         (3 * IZR (nv p) * (3 / INR (i + j + k + 3) * m ^ (i + j + k + 3))))
  /\ (forall k, ~ (0 <= k < num_moments3 po)%Z -> mom' k = mom k).
Proof.
  intros Hm Hpo Hw HM HB. pose proof Hw as (Hn & HL & HP).
  destruct (Z.eq_dec (nv p) 0) as [E0|E0].
  - destruct (reduce3_empty FR MX false po p mom Hpo) as (mom' & E & R1 & R2); [change (T FR) with R; lia|]. change (T FR) with R in *.
    exists mom'. split; [auto|]. split; [|auto]. intros i j k L _. rewrite moment3_empty by lia. rewrite R1 by (apply idx3_range; lia).
    apply (near_up 0); [|lia]. apply near_exact. rewrite E0, Rabs_R0. lra.
  - destruct (reduce3_spec FR MX false po p mom Hpo Hw) as (vc & l & m1 & -> & S1 & E); [change (T FR) with R in *; lia|]. change (T FR) with R in *.
    exists m1. split; [auto|]. destruct S1 as (ND & FA & EQ & EX). split; [|auto]. intros i j k L HPW.
    rewrite EQ by lia. change (T FR) with R in *.
    rewrite <- (Nat2Z.id i), <- (Nat2Z.id j), <- (Nat2Z.id k). rewrite <- (moment_order p l Hw ND FA (Z.of_nat i) (Z.of_nat j) (Z.of_nat k)) by lia. rewrite !Nat2Z.id.
    set (E' := if (i + j + k =? 0)%nat then m * m * m else 6 * (m * m * m) * (e3 (i + j + k) * mulR i j k * m ^ (i + j + k))).
    assert (LL : (length l <= 3 * Z.to_nat (nv p))%nat).
    { assert (length l <= length (darts 3 (nv p)))%nat.
      { apply NoDup_incl_length; auto. intros d Hd. apply FA in Hd as (Hd & _). apply isd_in in Hd. exact Hd. }
      pose proof (darts3_length (nv p) Hn). lia. }
    assert (NS : near (6 * (i + j + k) + 9 + length l) (tsum FR (vb p) (nv p) None l (n0 FR) (Z.of_nat i) (Z.of_nat j) (Z.of_nat k))
       (tsum RN (vb p) (nv p) None l (n0 RN) (Z.of_nat i) (Z.of_nat j) (Z.of_nat k)) (INR (length l) * E')).
    { unfold tsum.
      pose proof (sum_near3 (6 * (i + j + k) + 9) E' (fun d => trig FR (vb p) (nv p) None d (Z.of_nat i) (Z.of_nat j) (Z.of_nat k))
        (fun d => trig RN (vb p) (nv p) None d (Z.of_nat i) (Z.of_nat j) (Z.of_nat k)) l) as X.
      specialize (X ltac:(intros d Hd; apply FA in Hd as (Hd & _); unfold trig; cbn [shifted3]; apply tg_near; apply HB;
        [apply lead_isd; auto|apply HL; apply Hd|apply Hd]) 0%nat 0 0).
      rewrite Nat.add_0_r in X. apply X. cbn [INR]. rewrite Rmult_0_l. apply (near_up 0); [|lia]. apply near_exact. rewrite Rabs_R0. lra. }
    pose proof (mdiv_near _ _ _ i j k _ NS HPW) as NM.
    set (K := (i + j + k)%nat) in *.
    assert (LI : INR (length l) <= 3 * IZR (nv p)).
    { apply le_INR in LL. rewrite mult_INR in LL. change (INR 3) with (1 + 1 + 1) in LL. rewrite (INR_IZR_INZ (Z.to_nat (nv p))), Z2Nat.id in LL by auto. lra. }
    apply (near_mono u Hu) with (1 := NM); [lia|].
    pose proof (mulR_ge K i j k eq_refl) as B1. pose proof (pos_INR K) as K0.
    assert (EQ' : (if (K =? 0)%nat then INR (length l) * E' else INR (length l) * E' / (mulR i j k * INR (K + 1) * INR (K + 2) * INR (K + 3))) = INR (length l) * (3 / INR (K + 3) * m ^ (K + 3))).
    { unfold E'. destruct (Nat.eqb_spec K 0) as [KE|KE].
      - rewrite KE. cbn. field.
      - unfold e3. rewrite (pow_add m K 3), !plus_INR. change (INR 1) with 1. change (INR 2) with (1 + 1). change (INR 3) with (1 + 1 + 1). cbn [pow]. field. lra. }
    rewrite EQ'. apply Rmult_le_compat_r; [|auto]. apply Rmult_le_pos; [|now apply pow_le].
    pose proof (lt_0_INR (K + 3) ltac:(lia)). apply Rmult_le_pos; [lra|]. left. now apply Rinv_0_lt_compat.
Qed.
End Rnd.

Lemma reduce3_linear u rnd MX (p : pol3) mom po m : accurate u rnd -> 0 <= u <= 1 / 10 -> 0 <= m -> (0 <= po)%Z -> wf3 p -> (nv p <= MX)%Z ->
  (forall v, (0 <= v < nv p)%Z -> within_abs m (ps (vb p) v)) ->
  exists mom', r3d_reduce (FN rnd) MX false p mom po = OK mom'
  /\ (forall i j k, (i + j + k <= Z.to_nat po)%nat -> let L := INR (12 * (i + j + k) + 3 * Z.to_nat (nv p) + 22) in 2 * u * L <= 1 ->
       Rabs (mom' (idx3 (Z.of_nat i) (Z.of_nat j) (Z.of_nat k)) - moment3 p i j k)
         <= 2 * u * L * (3 * IZR (nv p) * (3 / INR (i + j + k + 3) * m ^ (i + j + k + 3))))
  /\ (forall k, ~ (0 <= k < num_moments3 po)%Z -> mom' k = mom k).
Proof.
  intros HA Hu Hm Hpo Hw HM HB. destruct (reduce3_F u rnd HA Hu MX p mom po m Hm Hpo Hw HM HB) as (mom' & E & R1 & R2).
  exists mom'. split; [auto|]. split; [|auto]. intros i j k Lo L H.
  assert (L2 : INR (2 * (3 * (i + j + k) + 6)) <= L) by (apply le_INR; lia).
  rewrite (mult_INR 2) in L2. change (INR 2) with 2 in L2.
  assert (HP : (1 + u) ^ (3 * (i + j + k) + 6) <= 3 / 2).
  { pose proof (RndM2.pow_linear u (3 * (i + j + k) + 6) (proj1 Hu)) as X. nra. }
  destruct (R1 i j k Lo HP) as (X & _). eapply Rle_trans; [exact X|]. apply Rmult_le_compat_r.
  - apply Rmult_le_pos. { assert (0 <= IZR (nv p)) by (apply IZR_le; apply Hw). lra. } apply Rmult_le_pos; [|now apply pow_le].
    pose proof (lt_0_INR (i + j + k + 3) ltac:(lia)) as P. apply Rmult_le_pos; [lra|]. left. now apply Rinv_0_lt_compat.
  - pose proof (RndM2.pow_linear u _ (proj1 Hu) H). unfold L. lra.
Qed.
