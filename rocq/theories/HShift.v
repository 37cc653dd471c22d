(** * HShift: translating coefficient arrays, and their integral form

    [Hn K ps] is [H ps] divided by [(degree + K)!].  For a simplex with vertices
    [ps] (one of them may be the origin) the mean of [x^i y^j z^k] over the
    simplex is [K! i! j! k! Hn K ps i j k] with [K = length ps - 1]. *)
From Coq Require Import Reals List Arith Lia Lra.
From Coquelicot Require Import Coquelicot.
From Verif Require Import HPoly.
Import ListNotations.
Open Scope R_scope.

Definition deg (i j k : nat) : nat := (i + j + k)%nat.
Definition Hn (K : nat) (ps : list pt) : arr := fun i j k => H ps i j k / INR (fact (deg i j k + K)).

Definition ex (d : R) (n : nat) : R := d ^ n / INR (fact n).

(** exponential of a shift along each axis *)
Definition S1 (d : R) (A : arr) : arr := fun i j k => sum_f_R0 (fun a => ex d a * A (i - a)%nat j k) i.
Definition S2 (d : R) (A : arr) : arr := fun i j k => sum_f_R0 (fun a => ex d a * A i (j - a)%nat k) j.
Definition S3 (d : R) (A : arr) : arr := fun i j k => sum_f_R0 (fun a => ex d a * A i j (k - a)%nat) k.
Definition SS (d : pt) (A : arr) : arr := S1 (px d) (S2 (py d) (S3 (pz d) A)).

Lemma fact_neq n : INR (fact n) <> 0.
Proof. apply INR_fact_neq_0. Qed.
Lemma ex_S d n : INR (S n) * ex d (S n) = d * ex d n.
Proof.
  unfold ex. rewrite fact_simpl, mult_INR. cbn [pow]. field. split; [apply fact_neq|apply not_0_INR; lia].
Qed.
Lemma ex_0 d : ex d 0 = 1.
Proof. unfold ex. cbn. field. Qed.

(** one-dimensional convolution [conv d f n = sum_a d^a/a! f(n-a)] *)
Definition conv (d : R) (f : nat -> R) (n : nat) : R := sum_f_R0 (fun a => ex d a * f (n - a)%nat) n.
Definition dn (f : nat -> R) (n : nat) : R := match n with O => 0 | S n' => f n' end.

Lemma conv_ext d f g n : (forall i, (i <= n)%nat -> f i = g i) -> conv d f n = conv d g n.
Proof. intros E. unfold conv. apply sum_eq. intros. rewrite E by lia. reflexivity. Qed.
Lemma conv_lin d c f e g n : conv d (fun i => c * f i + e * g i) n = c * conv d f n + e * conv d g n.
Proof. unfold conv. rewrite !scal_sum, <- sum_plus. apply sum_eq. intros. ring. Qed.
Lemma conv_dn d f n : conv d (dn f) n = dn (conv d f) n.
Proof.
  destruct n; cbn [dn].
  - unfold conv. cbn. ring.
  - unfold conv. cbn [sum_f_R0]. rewrite Nat.sub_diag. cbn [dn]. rewrite Rmult_0_r, Rplus_0_r.
    apply sum_eq. intros a Ha. rewrite Nat.sub_succ_l by lia. reflexivity.
Qed.
(** the degree operator does not commute with the shift *)
Lemma conv_deg d f n : INR n * conv d f n = conv d (fun i => INR i * f i) n + d * dn (conv d f) n.
Proof.
  destruct n as [|n].
  - unfold conv. cbn. ring.
  - cbn [dn]. unfold conv. rewrite !scal_sum.
    rewrite (decomp_sum _ (S n)), (decomp_sum (fun a => ex d a * (_ * _)) (S n)) by lia.
    cbn [Init.Nat.pred].
    rewrite Nat.sub_0_r.
    transitivity (ex d 0 * (INR (S n) * f (S n)) +
       (sum_f_R0 (fun i => ex d (S i) * (INR (S n - S i) * f (S n - S i)%nat)) n
      + sum_f_R0 (fun i => ex d i * f (n - i)%nat * d) n)); [|ring].
    rewrite <- sum_plus. f_equal; [ring|]. apply sum_eq. intros a Ha.
    cbn [Nat.sub]. rewrite minus_INR by lia.
    transitivity (ex d (S a) * ((INR n - INR a) * f (n - a)%nat) + INR (S a) * ex d (S a) * f (n - a)%nat).
    { rewrite !S_INR. ring. }
    rewrite ex_S. ring.
Qed.

Lemma S1_conv d A i j k : S1 d A i j k = conv d (fun i => A i j k) i.
Proof. reflexivity. Qed.
Lemma S2_conv d A i j k : S2 d A i j k = conv d (fun j => A i j k) j.
Proof. reflexivity. Qed.
Lemma S3_conv d A i j k : S3 d A i j k = conv d (fun k => A i j k) k.
Proof. reflexivity. Qed.

Lemma S1_ext d A B : A == B -> S1 d A == S1 d B.
Proof. intros E i j k. rewrite !S1_conv. apply conv_ext. intros. apply E. Qed.
Lemma S2_ext d A B : A == B -> S2 d A == S2 d B.
Proof. intros E i j k. rewrite !S2_conv. apply conv_ext. intros. apply E. Qed.
Lemma S3_ext d A B : A == B -> S3 d A == S3 d B.
Proof. intros E i j k. rewrite !S3_conv. apply conv_ext. intros. apply E. Qed.
Lemma SS_ext d A B : A == B -> SS d A == SS d B.
Proof. intros E. now apply S1_ext, S2_ext, S3_ext. Qed.

Lemma S1_lin d c A e B : S1 d (aadd (ascal c A) (ascal e B)) == aadd (ascal c (S1 d A)) (ascal e (S1 d B)).
Proof. intros i j k. apply (conv_lin d c (fun i => A i j k) e (fun i => B i j k)). Qed.
Lemma S2_lin d c A e B : S2 d (aadd (ascal c A) (ascal e B)) == aadd (ascal c (S2 d A)) (ascal e (S2 d B)).
Proof. intros i j k. apply (conv_lin d c (fun j => A i j k) e (fun j => B i j k)). Qed.
Lemma S3_lin d c A e B : S3 d (aadd (ascal c A) (ascal e B)) == aadd (ascal c (S3 d A)) (ascal e (S3 d B)).
Proof. intros i j k. apply (conv_lin d c (fun k => A i j k) e (fun k => B i j k)). Qed.
Lemma SS_lin d c A e B : SS d (aadd (ascal c A) (ascal e B)) == aadd (ascal c (SS d A)) (ascal e (SS d B)).
Proof.
  unfold SS. eapply aeq_trans; [apply S1_ext|apply S1_lin].
  eapply aeq_trans; [apply S2_ext|apply S2_lin]. apply S3_lin.
Qed.

(** shifts commute with index lowering *)
Lemma S1_s1 d A : S1 d (s1 A) == s1 (S1 d A).
Proof. intros i j k. rewrite S1_conv. rewrite <- (conv_ext d (dn (fun i => A i j k))).
  - rewrite conv_dn. destruct i; reflexivity.
  - intros [|a] _; reflexivity.
Qed.
Lemma S2_s2 d A : S2 d (s2 A) == s2 (S2 d A).
Proof. intros i j k. rewrite S2_conv. rewrite <- (conv_ext d (dn (fun j => A i j k))).
  - rewrite conv_dn. destruct j; reflexivity.
  - intros [|a] _; reflexivity.
Qed.
Lemma S3_s3 d A : S3 d (s3 A) == s3 (S3 d A).
Proof. intros i j k. rewrite S3_conv. rewrite <- (conv_ext d (dn (fun k => A i j k))).
  - rewrite conv_dn. destruct k; reflexivity.
  - intros [|a] _; reflexivity.
Qed.
Lemma conv_zero d n : conv d (fun _ => 0) n = 0.
Proof. unfold conv. rewrite (sum_eq _ (fun _ => 0)) by (intros; ring). induction n; cbn; lra. Qed.
Lemma S1_s2 d A : S1 d (s2 A) == s2 (S1 d A).
Proof. intros i [|j] k; [apply conv_zero|reflexivity]. Qed.
Lemma S1_s3 d A : S1 d (s3 A) == s3 (S1 d A).
Proof. intros i j [|k]; [apply conv_zero|reflexivity]. Qed.
Lemma S2_s1 d A : S2 d (s1 A) == s1 (S2 d A).
Proof. intros [|i] j k; [apply (conv_zero d j)|reflexivity]. Qed.
Lemma S2_s3 d A : S2 d (s3 A) == s3 (S2 d A).
Proof. intros i j [|k]; [apply (conv_zero d j)|reflexivity]. Qed.
Lemma S3_s1 d A : S3 d (s1 A) == s1 (S3 d A).
Proof. intros [|i] j k; [apply (conv_zero d k)|reflexivity]. Qed.
Lemma S3_s2 d A : S3 d (s2 A) == s2 (S3 d A).
Proof. intros i [|j] k; [apply (conv_zero d k)|reflexivity]. Qed.

Lemma s1_ext A B : A == B -> s1 A == s1 B.
Proof. intros E [|i] j k; cbn; auto. Qed.
Lemma s2_ext A B : A == B -> s2 A == s2 B.
Proof. intros E i [|j] k; cbn; auto. Qed.
Lemma s3_ext A B : A == B -> s3 A == s3 B.
Proof. intros E i j [|k]; cbn; auto. Qed.

Lemma SS_s1 d A : SS d (s1 A) == s1 (SS d A).
Proof.
  unfold SS. eapply aeq_trans; [apply S1_ext, S2_ext, S3_s1|].
  eapply aeq_trans; [apply S1_ext, S2_s1|]. apply S1_s1.
Qed.
Lemma SS_s2 d A : SS d (s2 A) == s2 (SS d A).
Proof.
  unfold SS. eapply aeq_trans; [apply S1_ext, S2_ext, S3_s2|].
  eapply aeq_trans; [apply S1_ext, S2_s2|]. apply S1_s2.
Qed.
Lemma SS_s3 d A : SS d (s3 A) == s3 (SS d A).
Proof.
  unfold SS. eapply aeq_trans; [apply S1_ext, S2_ext, S3_s3|].
  eapply aeq_trans; [apply S1_ext, S2_s3|]. apply S1_s3.
Qed.

Lemma SS_M d p A : SS d (M p A) == M p (SS d A).
Proof.
  eapply aeq_trans.
  - apply (SS_ext d _ (aadd (ascal 1 (aadd (ascal (px p) (s1 A)) (ascal (py p) (s2 A)))) (ascal (pz p) (s3 A)))).
    intros i j k. unfold M, aadd, ascal. ring.
  - eapply aeq_trans; [apply SS_lin|]. intros i j k. unfold aadd, ascal.
    pose proof (SS_lin d (px p) (s1 A) (py p) (s2 A) i j k) as E. unfold aadd, ascal in E.
    rewrite E. rewrite (SS_s1 d A i j k), (SS_s2 d A i j k), (SS_s3 d A i j k). unfold M. ring.
Qed.

(** degree operator *)
Definition degA (A : arr) : arr := fun i j k => INR (deg i j k) * A i j k.

Lemma SS_deg d A : degA (SS d A) == aadd (SS d (degA A)) (M d (SS d A)).
Proof.
  set (d1 := fun A : arr => (fun i j k => INR i * A i j k) : arr).
  set (d2 := fun A : arr => (fun i j k => INR j * A i j k) : arr).
  set (d3 := fun A : arr => (fun i j k => INR k * A i j k) : arr).
  assert (D : forall A, degA A == aadd (aadd (d1 A) (d2 A)) (d3 A)).
  { intros B i j k. unfold degA, d1, d2, d3, aadd, deg. rewrite !plus_INR. ring. }
  assert (E1 : forall c B, d1 (S1 c B) == aadd (S1 c (d1 B)) (ascal c (s1 (S1 c B)))).
  { intros c B i j k. unfold d1, aadd, ascal. rewrite !S1_conv, conv_deg.
    destruct i; reflexivity. }
  assert (E2 : forall c B, d2 (S2 c B) == aadd (S2 c (d2 B)) (ascal c (s2 (S2 c B)))).
  { intros c B i j k. unfold d2, aadd, ascal. rewrite !S2_conv, conv_deg.
    destruct j; reflexivity. }
  assert (E3 : forall c B, d3 (S3 c B) == aadd (S3 c (d3 B)) (ascal c (s3 (S3 c B)))).
  { intros c B i j k. unfold d3, aadd, ascal. rewrite !S3_conv, conv_deg.
    destruct k; reflexivity. }
  assert (C12 : forall c B, d2 (S1 c B) == S1 c (d2 B)).
  { intros c B i j k. unfold d2. rewrite !S1_conv. unfold conv. rewrite scal_sum. apply sum_eq. intros; ring. }
  assert (C13 : forall c B, d3 (S1 c B) == S1 c (d3 B)).
  { intros c B i j k. unfold d3. rewrite !S1_conv. unfold conv. rewrite scal_sum. apply sum_eq. intros; ring. }
  assert (C23 : forall c B, d3 (S2 c B) == S2 c (d3 B)).
  { intros c B i j k. unfold d3. rewrite !S2_conv. unfold conv. rewrite scal_sum. apply sum_eq. intros; ring. }
  assert (C21 : forall c B, d1 (S2 c B) == S2 c (d1 B)).
  { intros c B i j k. unfold d1. rewrite !S2_conv. unfold conv. rewrite scal_sum. apply sum_eq. intros; ring. }
  assert (C31 : forall c B, d1 (S3 c B) == S3 c (d1 B)).
  { intros c B i j k. unfold d1. rewrite !S3_conv. unfold conv. rewrite scal_sum. apply sum_eq. intros; ring. }
  assert (C32 : forall c B, d2 (S3 c B) == S3 c (d2 B)).
  { intros c B i j k. unfold d2. rewrite !S3_conv. unfold conv. rewrite scal_sum. apply sum_eq. intros; ring. }
  assert (X1 : d1 (SS d A) == aadd (SS d (d1 A)) (ascal (px d) (s1 (SS d A)))).
  { unfold SS. eapply aeq_trans; [apply E1|]. intros i j k. unfold aadd. f_equal.
    apply S1_ext. eapply aeq_trans; [apply C21|]. apply S2_ext, C31. }
  assert (L1 : forall c e B C, S1 c (aadd B (ascal e C)) == aadd (S1 c B) (ascal e (S1 c C))).
  { intros c e B C i j k.
    pose proof (S1_lin c 1 B e C i j k) as E. unfold aadd, ascal in *.
    rewrite <- (Rmult_1_l (S1 c B i j k)). rewrite <- E. apply S1_ext. intros x y z. ring. }
  assert (L2 : forall c e B C, S2 c (aadd B (ascal e C)) == aadd (S2 c B) (ascal e (S2 c C))).
  { intros c e B C i j k.
    pose proof (S2_lin c 1 B e C i j k) as E. unfold aadd, ascal in *.
    rewrite <- (Rmult_1_l (S2 c B i j k)). rewrite <- E. apply S2_ext. intros x y z. ring. }
  assert (X2 : d2 (SS d A) == aadd (SS d (d2 A)) (ascal (py d) (s2 (SS d A)))).
  { unfold SS. eapply aeq_trans; [apply C12|]. eapply aeq_trans; [apply S1_ext, E2|].
    eapply aeq_trans; [apply L1|]. intros i j k. unfold aadd, ascal. f_equal.
    - apply S1_ext, S2_ext, C32.
    - f_equal. apply S1_s2. }
  assert (X3 : d3 (SS d A) == aadd (SS d (d3 A)) (ascal (pz d) (s3 (SS d A)))).
  { unfold SS. eapply aeq_trans; [apply C13|]. eapply aeq_trans; [apply S1_ext, C23|].
    eapply aeq_trans; [apply S1_ext, S2_ext, E3|]. eapply aeq_trans; [apply S1_ext, L2|].
    eapply aeq_trans; [apply L1|]. intros i j k. unfold aadd, ascal. f_equal. f_equal.
    rewrite (S1_ext _ _ _ (S2_s3 _ _) i j k). apply S1_s3. }
  intros i j k. rewrite (D (SS d A) i j k). unfold aadd at 1 2.
  rewrite (X1 i j k), (X2 i j k), (X3 i j k). unfold aadd, ascal, M.
  assert (F : SS d (degA A) i j k = SS d (d1 A) i j k + SS d (d2 A) i j k + SS d (d3 A) i j k).
  { rewrite (SS_ext d _ _ (D A) i j k).
    rewrite (SS_ext d _ (aadd (ascal 1 (aadd (ascal 1 (d1 A)) (ascal 1 (d2 A)))) (ascal 1 (d3 A)))).
    2: { intros x y z. unfold aadd, ascal. ring. }
    pose proof (SS_lin d 1 (aadd (ascal 1 (d1 A)) (ascal 1 (d2 A))) 1 (d3 A) i j k) as E.
    pose proof (SS_lin d 1 (d1 A) 1 (d2 A) i j k) as E'. unfold aadd, ascal in *.
    rewrite E, E'. ring. }
  rewrite F. ring.
Qed.

(** ** recurrences of the normalised arrays *)
Lemma Hn_step K p ps i j k :
  INR (deg i j k + S K) * Hn (S K) (p :: ps) i j k
  = Hn K ps i j k + M p (Hn (S K) (p :: ps)) i j k.
Proof.
  assert (E : H (p :: ps) i j k = H ps i j k + M p (H (p :: ps)) i j k) by apply (geo_eq p (H ps)).
  assert (F : INR (fact (deg i j k + S K)) = INR (deg i j k + S K) * INR (fact (deg i j k + K))).
  { rewrite Nat.add_succ_r. rewrite fact_simpl, mult_INR. reflexivity. }
  assert (G : INR (deg i j k + S K) <> 0) by (apply not_0_INR; lia).
  assert (M1 : M p (Hn (S K) (p :: ps)) i j k = M p (H (p :: ps)) i j k / INR (fact (deg i j k + K))).
  { unfold M, s1, s2, s3, Hn. set (A := H (p :: ps)). unfold deg.
    assert (Q : forall x y, x = y -> INR (fact x) = INR (fact y)) by congruence.
    destruct i as [|i], j as [|j], k as [|k];
     repeat match goal with |- context [INR (fact ?a)] =>
       lazymatch a with
       | (?x + S K)%nat => rewrite (Q (x + S K)%nat (S (x + K))%nat) by lia end end;
     cbn [Nat.add]; rewrite ?Nat.add_succ_r; cbn [Nat.add];
     unfold Rdiv; ring. }
  rewrite M1. unfold Hn. rewrite F, E. field. split; auto. apply fact_neq.
Qed.

Lemma step_unique (c : nat) q B X Y : (0 < c)%nat ->
  (forall i j k, INR (deg i j k + c) * X i j k = B i j k + M q X i j k) ->
  (forall i j k, INR (deg i j k + c) * Y i j k = B i j k + M q Y i j k) -> X == Y.
Proof.
  intros Hc HX HY.
  assert (G : forall n i j k, (deg i j k < n)%nat -> X i j k = Y i j k).
  { induction n; intros i j k L; [lia|].
    assert (N : INR (deg i j k + c) <> 0) by (apply not_0_INR; lia).
    apply (Rmult_eq_reg_l (INR (deg i j k + c))); auto.
    rewrite HX, HY. f_equal. unfold M, s1, s2, s3. unfold deg in *.
    destruct i, j, k; rewrite ?IHn by lia; reflexivity. }
  intros i j k. apply (G (S (deg i j k))). lia.
Qed.

Lemma SS_000 d A : SS d A 0%nat 0%nat 0%nat = A 0%nat 0%nat 0%nat.
Proof. unfold SS, S1, S2, S3. cbn. rewrite !ex_0. ring. Qed.

(** one point: the exponential of its linear form *)
Lemma Hn1_step p i j k :
  INR (deg i j k) * Hn 0 [p] i j k = M p (Hn 0 [p]) i j k.
Proof.
  assert (E : H [p] i j k = aone i j k + M p (H [p]) i j k) by apply (geo_eq p aone).
  destruct (Nat.eq_dec (deg i j k) 0) as [Z|Z].
  { unfold deg in Z. assert (i = 0 /\ j = 0 /\ k = 0)%nat as (-> & -> & ->) by lia.
    unfold M, s1, s2, s3. cbn [deg Nat.add INR]. ring. }
  assert (A0 : aone i j k = 0) by (unfold deg in Z; destruct i, j, k; auto; lia).
  rewrite A0, Rplus_0_l in E.
  unfold Hn at 1. rewrite E.
  destruct (deg i j k) as [|m] eqn:Em; [lia|].
  replace (S m + 0)%nat with (S m) by lia. rewrite fact_simpl, mult_INR.
  assert (M p (Hn 0 [p]) i j k = M p (H [p]) i j k / INR (fact m)) as ->.
  { unfold M, s1, s2, s3, Hn. set (A := H [p]). unfold deg in *.
    destruct i as [|i], j as [|j], k as [|k];
      rewrite ?(f_equal fact (ltac:(lia) : (i + 0 + 0 + 0 = m)%nat));
      repeat match goal with |- context [fact ?a] =>
        lazymatch a with m => fail | _ => replace a with m by lia end end;
      unfold Rdiv; ring. }
  field. split; [apply fact_neq|apply not_0_INR; lia].
Qed.

Lemma step0_unique q X Y : X 0%nat 0%nat 0%nat = Y 0%nat 0%nat 0%nat ->
  (forall i j k, INR (deg i j k) * X i j k = M q X i j k) ->
  (forall i j k, INR (deg i j k) * Y i j k = M q Y i j k) -> X == Y.
Proof.
  intros H0 HX HY.
  assert (G : forall n i j k, (deg i j k < n)%nat -> X i j k = Y i j k).
  { induction n; intros i j k L; [lia|].
    destruct (Nat.eq_dec (deg i j k) 0) as [Z|Z].
    { unfold deg in Z. assert (i = 0 /\ j = 0 /\ k = 0)%nat as (-> & -> & ->) by lia. auto. }
    assert (N : INR (deg i j k) <> 0) by (apply not_0_INR; lia).
    apply (Rmult_eq_reg_l (INR (deg i j k))); auto.
    rewrite HX, HY. unfold M, s1, s2, s3. unfold deg in *.
    destruct i, j, k; rewrite ?IHn by lia; reflexivity. }
  intros i j k. apply (G (S (deg i j k))). lia.
Qed.

(** ** translation *)
Lemma Hn_shift d ps : forall p, Hn (length ps) (map (padd d) (p :: ps)) == SS d (Hn (length ps) (p :: ps)).
Proof.
  induction ps as [|q ps IH]; intros p.
  - cbn [length map]. apply (step0_unique (padd d p)).
    + rewrite SS_000. unfold Hn. rewrite !H_000. reflexivity.
    + intros. apply Hn1_step.
    + intros i j k. pose proof (SS_deg d (Hn 0 [p]) i j k) as E. unfold degA at 1 in E. rewrite E.
      unfold aadd. rewrite (SS_ext d (degA (Hn 0 [p])) (M p (Hn 0 [p]))).
      * rewrite (SS_M d p (Hn 0 [p]) i j k). unfold M. cbn [px py pz padd]. ring.
      * intros x y z. apply Hn1_step.
  - change (length (q :: ps)) with (S (length ps)).
    change (map (padd d) (p :: q :: ps)) with (padd d p :: map (padd d) (q :: ps)).
    apply (step_unique (S (length ps)) (padd d p) (Hn (length ps) (map (padd d) (q :: ps)))); [lia| |].
    + intros. apply Hn_step.
    + intros i j k. rewrite (IH q i j k).
      set (A := Hn (S (length ps)) (p :: q :: ps)).
      pose proof (SS_deg d A i j k) as E. unfold degA at 1 in E. unfold aadd in E.
      rewrite plus_INR, Rmult_plus_distr_r, E.
      assert (F : SS d (Hn (length ps) (q :: ps)) i j k
        = SS d (degA A) i j k + INR (S (length ps)) * SS d A i j k - M p (SS d A) i j k).
      { rewrite <- (SS_M d p A i j k).
        rewrite (SS_ext d _ (aadd (ascal 1 (aadd (ascal 1 (degA A)) (ascal (INR (S (length ps))) A)))
                               (ascal (-1) (M p A)))).
        2: { intros x y z. pose proof (Hn_step (length ps) p (q :: ps) x y z) as G. fold A in G.
             unfold aadd, ascal, degA. rewrite plus_INR in G. lra. }
        pose proof (SS_lin d 1 (aadd (ascal 1 (degA A)) (ascal (INR (S (length ps))) A)) (-1) (M p A) i j k) as E1.
        pose proof (SS_lin d 1 (degA A) (INR (S (length ps))) A i j k) as E2.
        unfold aadd, ascal in *. rewrite E1, E2. ring. }
      rewrite F. unfold M. cbn [px py pz padd]. ring.
Qed.
