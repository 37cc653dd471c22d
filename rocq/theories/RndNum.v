(** * RndNum: arithmetic over the reals with a rounding after every operation.

    [r3d_real] is [double] (src/r3d.h:31-36).  [FN rnd] applies [rnd] to the exact result of
    every operation, conversion and literal; comparisons and negation are exact.  [accurate u rnd]
    says that the relative error of one rounding is at most [u]: so does rounding to nearest
    with 53 bits and [u = 2^-53], as long as no result overflows or underflows.  Overflow,
    underflow and NaN are not in this instance (the theorems for every [num] do cover them). *)
From Coq Require Import Reals ZArith Lra Psatz.
From Flocq Require Import Core Relative.
From Verif Require Import Base RealNum.
Open Scope R_scope.

Definition FN (rnd : R -> R) : num := {|
  T := R; n0 := 0; n1 := 1;
  nadd := fun a b => rnd (a + b); nsub := fun a b => rnd (a - b); nmul := fun a b => rnd (a * b);
  ndiv := fun a b => rnd (a / b); nopp := Ropp;
  nlt := Rltb; nle := Rleb; nofZ := fun z => rnd (IZR z);
  nsqrt := fun x => rnd (sqrt x); nsin := fun x => rnd (sin x); ncos := fun x => rnd (cos x);
  npow := fun x n => rnd (x ^ Z.to_nat n);
  nfloor := fun x => Some (Rfloor x);
  nceil := fun x => Some (Rceil x);
  nbig := rnd (10 ^ 30); ntiny := rnd (/ 10 ^ 299);
  nhalf := rnd (/ 2); nthird := rnd (/ 3); nsixth := rnd (/ 6) |}.

Definition accurate (u : R) (rnd : R -> R) : Prop := forall x, Rabs (rnd x - x) <= u * Rabs x.

(** rounding to nearest even with 53 bits *)
Definition rnd53 : R -> R := round radix2 (FLX_exp 53) ZnearestE.
Definition u53 : R := / 2 * bpow radix2 (-53 + 1).
Lemma rnd53_accurate : accurate u53 rnd53.
Proof. intros x. apply (relative_error_N_FLX radix2 53 ltac:(reflexivity) (fun x => negb (Z.even x)) x). Qed.
Lemma u53_small : 0 <= u53 <= 1 / 10.
Proof. unfold u53. cbn. lra. Qed.

Lemma rabs_inv a b : Rabs a <= b -> - b <= a <= b.
Proof. apply Rabs_le_inv. Qed.

Section Acc.
Context (u : R) (rnd : R -> R) (HA : accurate u rnd) (Hu : 0 <= u <= 1 / 10).

Lemma rnd_near x m : Rabs x <= m -> Rabs (rnd x - x) <= u * m.
Proof. intros H. eapply Rle_trans; [apply HA|]. apply Rmult_le_compat_l; lra. Qed.
Lemma rnd_pos x : 0 < x -> 0 < rnd x.
Proof. intros H. pose proof (rnd_near x x ltac:(rewrite Rabs_pos_eq; lra)) as X. apply Rabs_le_inv in X. nra. Qed.
Lemma rnd_sum a b a' b' ea eb m : Rabs (a' - a) <= ea -> Rabs (b' - b) <= eb -> Rabs (a' + b') <= m -> Rabs (rnd (a' + b') - (a + b)) <= u * m + (ea + eb).
Proof.
  intros H1 H2 H3. pose proof (rnd_near _ _ H3). replace (rnd (a' + b') - (a + b)) with ((rnd (a' + b') - (a' + b')) + ((a' - a) + (b' - b))) by ring.
  eapply Rle_trans; [apply Rabs_triang|]. apply Rplus_le_compat; auto. eapply Rle_trans; [apply Rabs_triang|]. lra.
Qed.

(** [x'] has been computed with [i] roundings in a row from values bounded by [m] *)
Definition near (i : nat) (x' x m : R) : Prop := Rabs (x' - x) <= ((1 + u) ^ i - 1) * m /\ Rabs x <= m.
Lemma pow_ge i : 1 <= (1 + u) ^ i.
Proof. apply pow_R1_Rle. lra. Qed.
Lemma near_bound i x' x m : near i x' x m -> Rabs x' <= (1 + u) ^ i * m.
Proof. intros (H1 & H2). replace x' with ((x' - x) + x) by ring. eapply Rle_trans; [apply Rabs_triang|]. lra. Qed.
Lemma near_exact x m : Rabs x <= m -> near 0 x x m.
Proof. intros H. split; auto. cbn. unfold Rminus. rewrite !Rplus_opp_r, Rabs_R0. lra. Qed.
Lemma near_mono i j x' x m k : near i x' x m -> (i <= j)%nat -> m <= k -> near j x' x k.
Proof.
  intros (H1 & H2) Hij Hm. split; [|lra]. eapply Rle_trans; [exact H1|].
  pose proof (Rabs_pos x). pose proof (Rle_pow (1 + u) i j ltac:(lra) Hij). pose proof (pow_ge i). apply Rmult_le_compat; lra.
Qed.
Lemma near_rnd i x' x m : near i x' x m -> near (S i) (rnd x') x m.
Proof.
  intros H. pose proof (near_bound _ _ _ _ H) as B. destruct H as (H1 & H2). split; auto. pose proof (rnd_near _ _ B) as E.
  replace (rnd x' - x) with ((rnd x' - x') + (x' - x)) by ring. eapply Rle_trans; [apply Rabs_triang|]. cbn [pow]. lra.
Qed.
Lemma near_plus i a' a m b' b k : near i a' a m -> near i b' b k -> near i (a' + b') (a + b) (m + k).
Proof.
  intros (H1 & H2) (H3 & H4). split.
  - replace (a' + b' - (a + b)) with ((a' - a) + (b' - b)) by ring. eapply Rle_trans; [apply Rabs_triang|]. lra.
  - eapply Rle_trans; [apply Rabs_triang|]. lra.
Qed.
Lemma near_opp i a' a m : near i a' a m -> near i (- a') (- a) m.
Proof. intros (H1 & H2). split; [replace (- a' - - a) with (- (a' - a)) by ring|]; now rewrite Rabs_Ropp. Qed.
Lemma near_times i j a' a m b' b k : near i a' a m -> near j b' b k -> near (i + j) (a' * b') (a * b) (m * k).
Proof.
  intros H H'. pose proof (near_bound _ _ _ _ H') as B. destruct H as (H1 & H2). destruct H' as (H3 & H4).
  pose proof (Rabs_pos a). pose proof (Rabs_pos b). pose proof (Rabs_pos b'). pose proof (Rabs_pos (a' - a)). pose proof (Rabs_pos (b' - b)).
  split; [|rewrite Rabs_mult; now apply Rmult_le_compat].
  replace (a' * b' - a * b) with ((a' - a) * b' + a * (b' - b)) by ring. eapply Rle_trans; [apply Rabs_triang|]. rewrite !Rabs_mult.
  apply Rle_trans with ((((1 + u) ^ i - 1) * m) * ((1 + u) ^ j * k) + m * (((1 + u) ^ j - 1) * k)).
  - apply Rplus_le_compat; apply Rmult_le_compat; auto.
  - rewrite pow_add. lra.
Qed.
Lemma near_add i a' a m b' b k : near i a' a m -> near i b' b k -> near (S i) (rnd (a' + b')) (a + b) (m + k).
Proof. intros. now apply near_rnd, near_plus. Qed.
Lemma near_sub i a' a m b' b k : near i a' a m -> near i b' b k -> near (S i) (rnd (a' - b')) (a - b) (m + k).
Proof. intros. apply near_rnd. apply near_plus; auto. now apply near_opp. Qed.
Lemma near_mul i j a' a m b' b k : near i a' a m -> near j b' b k -> near (S (i + j)) (rnd (a' * b')) (a * b) (m * k).
Proof. intros. now apply near_rnd, near_times. Qed.
Lemma pow4 : (1 + u) ^ 4 - 1 <= 5 * u.
Proof. cbn [pow]. nra. Qed.

(** the weighted average of the macro [wav]; [p1], [p2], [N1], [D] and [r] are its rounded steps *)
Lemma wav_core A B a b M p1 p2 N1 D r : 0 <= A -> 0 <= B -> 0 < A + B -> Rabs a <= M -> Rabs b <= M ->
  Rabs (p1 - A * a) <= u * Rabs (A * a) -> Rabs (p2 - B * b) <= u * Rabs (B * b) -> Rabs (N1 - (p1 + p2)) <= u * Rabs (p1 + p2) ->
  Rabs (D - (A + B)) <= u * Rabs (A + B) -> Rabs (r - N1 / D) <= u * Rabs (N1 / D) ->
  Rabs (r - (A * a + B * b) / (A + B)) <= 5 * u * M.
Proof.
  intros HAp HB S0 Ha Hb F1 F2 F3 F4 F5. assert (M0 : 0 <= M) by (pose proof (Rabs_pos a); lra).
  set (S := A + B) in *.
  assert (E1 : Rabs (p1 - A * a) <= u * (A * M)).
  { eapply Rle_trans; [exact F1|]. apply Rmult_le_compat_l; [lra|]. rewrite Rabs_mult, (Rabs_pos_eq A) by lra. apply Rmult_le_compat_l; lra. }
  assert (E2 : Rabs (p2 - B * b) <= u * (B * M)).
  { eapply Rle_trans; [exact F2|]. apply Rmult_le_compat_l; [lra|]. rewrite Rabs_mult, (Rabs_pos_eq B) by lra. apply Rmult_le_compat_l; lra. }
  set (N0 := A * a + B * b). assert (HN : Rabs N0 <= S * M).
  { unfold N0, S. eapply Rle_trans; [apply Rabs_triang|]. rewrite !Rabs_mult, (Rabs_pos_eq A), (Rabs_pos_eq B) by lra. rewrite Rmult_plus_distr_r. apply Rplus_le_compat; apply Rmult_le_compat_l; lra. }
  set (s1 := p1 + p2) in *.
  assert (E3 : Rabs (s1 - N0) <= u * (S * M)).
  { unfold s1, N0. replace (p1 + p2 - (A * a + B * b)) with ((p1 - A * a) + (p2 - B * b)) by ring.
    eapply Rle_trans; [apply Rabs_triang|]. unfold S. replace (u * ((A + B) * M)) with (u * (A * M) + u * (B * M)) by ring. lra. }
  assert (SM : 0 <= S * M) by (apply Rmult_le_pos; lra).
  set (P := S * M) in *.
  assert (E4 : Rabs s1 <= (1 + u) * P). { replace s1 with ((s1 - N0) + N0) by ring. eapply Rle_trans; [apply Rabs_triang|]. lra. }
  assert (E5 : Rabs (N1 - s1) <= u * ((1 + u) * P)). { eapply Rle_trans; [exact F3|]. apply Rmult_le_compat_l; lra. }
  assert (E6 : Rabs (N1 - N0) <= (2 * u + u * u) * P). { replace (N1 - N0) with ((N1 - s1) + (s1 - N0)) by ring. eapply Rle_trans; [apply Rabs_triang|]. lra. }
  assert (E7 : Rabs (D - S) <= u * S). { rewrite (Rabs_pos_eq S) in F4 by lra. exact F4. }
  assert (HD : (1 - u) * S <= D). { apply rabs_inv in E7. lra. }
  assert (D0 : 0 < D) by nra.
  set (t := N0 / S). assert (Et : t * S = N0) by (unfold t; field; lra).
  assert (Ht : Rabs t <= M). { apply Rmult_le_reg_r with S; auto. rewrite <- (Rabs_pos_eq S) at 1 by lra. rewrite <- Rabs_mult, Et. unfold P in HN. lra. }
  set (k := N1 / D) in *. assert (Ek : k * D = N1) by (unfold k; field; lra).
  assert (KT : Rabs (k - t) * (1 - u) <= (3 * u + u * u) * M).
  { assert (X : Rabs (k - t) * D <= (3 * u + u * u) * P).
    { rewrite <- (Rabs_pos_eq D) at 1 by lra. rewrite <- Rabs_mult. replace ((k - t) * D) with ((N1 - N0) + t * (S - D)) by (rewrite <- Ek, <- Et; ring).
      eapply Rle_trans; [apply Rabs_triang|]. rewrite Rabs_mult, (Rabs_minus_sym S). 
      assert (Rabs t * Rabs (D - S) <= M * (u * S)) by (apply Rmult_le_compat; auto; apply Rabs_pos). unfold P in *. lra. }
    apply Rmult_le_reg_r with S; auto. eapply Rle_trans; [|unfold P in X; rewrite <- Rmult_assoc in X; replace ((3 * u + u * u) * M * S) with ((3 * u + u * u) * S * M) by ring; exact X].
    rewrite Rmult_assoc. apply Rmult_le_compat_l; [apply Rabs_pos|lra]. }
  set (e := Rabs (k - t)) in *. assert (e0 : 0 <= e) by apply Rabs_pos.
  assert (Hk : Rabs k <= M + e). { replace k with (t + (k - t)) by ring. eapply Rle_trans; [apply Rabs_triang|]. unfold e. lra. }
  assert (E8 : Rabs (r - k) <= u * (M + e)). { eapply Rle_trans; [exact F5|]. apply Rmult_le_compat_l; lra. }
  fold N0 S t. replace (r - t) with ((r - k) + (k - t)) by ring. eapply Rle_trans; [apply Rabs_triang|]. fold e.
  assert ((1 + u) * e <= 4 * u * M). 2: lra.
  assert (U1 : (3 * u + u * u) * (1 + u) <= 4 * u * (1 - u)) by nra.
  apply Rmult_le_reg_r with (1 - u); [lra|]. apply Rle_trans with ((1 + u) * ((3 * u + u * u) * M)).
  - rewrite Rmult_assoc. apply Rmult_le_compat_l; lra.
  - replace ((1 + u) * ((3 * u + u * u) * M)) with (((3 * u + u * u) * (1 + u)) * M) by ring. replace (4 * u * M * (1 - u)) with (4 * u * (1 - u) * M) by ring. apply Rmult_le_compat_r; auto.
Qed.
Lemma wav_near A B a b M : (0 <= A /\ 0 <= B) \/ (A <= 0 /\ B <= 0) -> A + B <> 0 -> Rabs a <= M -> Rabs b <= M ->
  Rabs (rnd (rnd (rnd (A * a) + rnd (B * b)) / rnd (A + B)) - (A * a + B * b) / (A + B)) <= 5 * u * M.
Proof.
  intros [(PA & PB)|(PA & PB)] NZ Ha Hb.
  - apply (wav_core A B a b M (rnd (A * a)) (rnd (B * b)) (rnd (rnd (A * a) + rnd (B * b))) (rnd (A + B))); auto. lra.
  - set (p1 := rnd (A * a)). set (p2 := rnd (B * b)). set (N1 := rnd (p1 + p2)). set (D := rnd (A + B)).
    assert (OP : forall x y, Rabs (- x - - y) = Rabs (x - y)) by (intros; rewrite <- (Rabs_Ropp (x - y)); f_equal; ring).
    assert (DN : D <> 0).
    { intros Z. pose proof (HA (A + B)) as X. fold D in X. rewrite Z in X. replace (0 - (A + B)) with (- (A + B)) in X by ring. rewrite Rabs_Ropp in X.
      assert (0 < Rabs (A + B)) by now apply Rabs_pos_lt. nra. }
    replace ((A * a + B * b) / (A + B)) with ((- A * a + - B * b) / (- A + - B)) by (field; lra).
    apply (wav_core (- A) (- B) a b M (- p1) (- p2) (- N1) (- D)); try lra; auto.
    + replace (- A * a) with (- (A * a)) by ring. rewrite OP, Rabs_Ropp. apply HA.
    + replace (- B * b) with (- (B * b)) by ring. rewrite OP, Rabs_Ropp. apply HA.
    + replace (- p1 + - p2) with (- (p1 + p2)) by ring. rewrite OP, Rabs_Ropp. apply HA.
    + replace (- A + - B) with (- (A + B)) by ring. rewrite OP, Rabs_Ropp. apply HA.
    + replace (- N1 / - D) with (N1 / D) by (field; auto). apply HA.
Qed.
End Acc.
