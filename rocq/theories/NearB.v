(** * NearB: binomial sums and integrals over small simplices, compared with their first term. *)
From Coq Require Import Reals ZArith List Bool Lia Lra Psatz.
From Coquelicot Require Import Coquelicot.
From Verif Require NearN Trans3.
From Verif Require Import Base Lib SumR ModelCommon Model3 Model2 RealNum HPoly HShift HInt Shift2 Shift3 Spec3R Spec2R.
Import ListNotations.
Open Scope R_scope.

Lemma sum_first f N : (forall n, (n <= N)%nat -> 0 <= f n) -> f 0%nat <= sum_f_R0 f N.
Proof.
  induction N as [|N IH]; intros H; cbn [sum_f_R0]; [lra|]. assert (f 0%nat <= sum_f_R0 f N) by (apply IH; intros; apply H; lia). specialize (H (S N) ltac:(lia)). lra.
Qed.
Lemma sum_pos_ f N : (forall n, (n <= N)%nat -> 0 <= f n) -> 0 <= sum_f_R0 f N.
Proof. intros H. pose proof (sum_first f N H). specialize (H 0%nat ltac:(lia)). lra. Qed.
Lemma C_pos n k : 0 < Binomial.C n k.
Proof. unfold Binomial.C. apply Rdiv_lt_0_compat; [|apply Rmult_lt_0_compat]; apply INR_fact_lt_0. Qed.
Lemma C_0 n : Binomial.C n 0 = 1.
Proof. unfold Binomial.C. rewrite Nat.sub_0_r. cbn [fact]. change (INR 1) with 1. field. apply INR_fact_neq_0. Qed.
Lemma pow_abs_le x M n : Rabs x <= M -> Rabs (x ^ n) <= M ^ n.
Proof. intros H. rewrite <- RPow_abs. apply pow_incr. split; [apply Rabs_pos|auto]. Qed.
Lemma bin1 n x y : sum_f_R0 (fun a => Binomial.C n a * x ^ (n - a) * y ^ a) n = (x + y) ^ n.
Proof. rewrite Rplus_comm, binomial. apply sum_eq. intros a _. ring. Qed.

Lemma lin_sum x y f g n : x * sum_f_R0 f n + y * sum_f_R0 g n = sum_f_R0 (fun a => x * f a + y * g a) n.
Proof. rewrite !scal_sum, <- plus_sum. apply sum_eq. intros. ring. Qed.
(** the sum of the products of three coordinates *)
Lemma bsum3_pow c i j k u1 u2 u3 : bsum3 c i j k (fun a b d => u1 ^ a * u2 ^ b * u3 ^ d) = (x3 c + u1) ^ i * (y3 c + u2) ^ j * (z3 c + u3) ^ k.
Proof.
  unfold bsum3. rewrite <- (bin1 i), <- (bin1 j), <- (bin1 k).
  set (F := fun a => Binomial.C i a * x3 c ^ (i - a) * u1 ^ a). set (G := fun b => Binomial.C j b * y3 c ^ (j - b) * u2 ^ b). set (H := fun d => Binomial.C k d * z3 c ^ (k - d) * u3 ^ d).
  transitivity (sum_f_R0 (fun a => F a * (sum_f_R0 G j * sum_f_R0 H k)) i).
  - apply sum_eq. intros a _. transitivity (sum_f_R0 (fun b => F a * G b * sum_f_R0 H k) j).
    + apply sum_eq. intros b _. rewrite scal_sum. apply sum_eq. intros d _. unfold F, G, H. ring.
    + rewrite (Rmult_comm (sum_f_R0 G j)), <- Rmult_assoc, scal_sum. apply sum_eq. intros b _. ring.
  - rewrite Rmult_assoc, (Rmult_comm (sum_f_R0 F i)). symmetry. apply scal_sum.
Qed.
Lemma bsum3_lin c i j k (x y : R) A B : bsum3 c i j k (fun a b d => x * A a b d + y * B a b d) = x * bsum3 c i j k A + y * bsum3 c i j k B.
Proof.
  unfold bsum3. rewrite !lin_sum. apply sum_eq. intros a _. rewrite !lin_sum. apply sum_eq. intros b _.
  rewrite !lin_sum. apply sum_eq. intros d _. ring.
Qed.
Definition spread (M s : R) (n : nat) : R := (M + s) ^ n - M ^ n.
Lemma bsum3_near c i j k s M A : 0 <= s -> Rabs (x3 c) <= M -> Rabs (y3 c) <= M -> Rabs (z3 c) <= M -> 0 <= A 0%nat 0%nat 0%nat ->
  (forall a b d, Rabs (A a b d) <= s ^ a * s ^ b * s ^ d * A 0%nat 0%nat 0%nat) ->
  Rabs (bsum3 c i j k A - x3 c ^ i * y3 c ^ j * z3 c ^ k * A 0%nat 0%nat 0%nat) <= spread M s (i + j + k) * A 0%nat 0%nat 0%nat.
Proof.
  intros Hs H1 H2 H3 H0 HA. set (A0 := A 0%nat 0%nat 0%nat) in *. assert (HM : 0 <= M) by (pose proof (Rabs_pos (x3 c)); lra).
  assert (G : forall o, o = 1 \/ o = -1 -> o * bsum3 c i j k A - o * (x3 c ^ i * y3 c ^ j * z3 c ^ k) * A0 + spread M s (i + j + k) * A0 >= 0).
  { intros o Ho.
    set (W := fun a b d => Binomial.C i a * Binomial.C j b * Binomial.C k d * (A0 * (M ^ (i - a) * M ^ (j - b) * M ^ (k - d)) * (s ^ a * s ^ b * s ^ d) + o * (x3 c ^ (i - a) * y3 c ^ (j - b) * z3 c ^ (k - d)) * A a b d)).
    assert (WP : forall a b d, 0 <= W a b d).
    { intros a b d. unfold W. apply Rmult_le_pos; [apply Rmult_le_pos; [apply Rmult_le_pos|]; left; apply C_pos|]. specialize (HA a b d).
      assert (X : Rabs (x3 c ^ (i - a) * y3 c ^ (j - b) * z3 c ^ (k - d)) <= M ^ (i - a) * M ^ (j - b) * M ^ (k - d)).
      { rewrite !Rabs_mult. apply Rmult_le_compat; [apply Rmult_le_pos; apply Rabs_pos|apply Rabs_pos| |now apply pow_abs_le].
        apply Rmult_le_compat; try apply Rabs_pos; now apply pow_abs_le. }
      set (u := x3 c ^ (i - a) * y3 c ^ (j - b) * z3 c ^ (k - d)) in *. set (P := M ^ (i - a) * M ^ (j - b) * M ^ (k - d)) in *. set (S := s ^ a * s ^ b * s ^ d) in *.
      assert (Y : Rabs (u * A a b d) <= P * (S * A0)). { rewrite Rabs_mult. apply Rmult_le_compat; auto; apply Rabs_pos. }
      apply NearN.Rabs_le_inv in Y. destruct Ho as [-> | ->]; lra. }
    assert (WS : W 0%nat 0%nat 0%nat <= sum_f_R0 (fun a => sum_f_R0 (fun b => sum_f_R0 (fun d => W a b d) k) j) i).
    { eapply Rle_trans; [|apply (sum_first (fun a => sum_f_R0 (fun b => sum_f_R0 (fun d => W a b d) k) j)); intros; apply sum_pos_; intros; apply sum_pos_; intros; apply WP].
      eapply Rle_trans; [|apply (sum_first (fun b => sum_f_R0 (fun d => W 0%nat b d) k)); intros; apply sum_pos_; intros; apply WP]. apply (sum_first (fun d => W 0%nat 0%nat d)). intros; apply WP. }
    assert (WE : sum_f_R0 (fun a => sum_f_R0 (fun b => sum_f_R0 (fun d => W a b d) k) j) i = A0 * ((M + s) ^ i * (M + s) ^ j * (M + s) ^ k) + o * bsum3 c i j k A).
    { pose proof (bsum3_pow (V3 M M M) i j k s s s) as BP. cbn [x3 y3 z3] in BP. rewrite <- BP. unfold bsum3. cbn [x3 y3 z3]. rewrite !lin_sum. apply sum_eq. intros a _. rewrite !lin_sum. apply sum_eq. intros b _.
      rewrite !lin_sum. apply sum_eq. intros d _. unfold W. ring. }
    rewrite WE in WS. unfold W in WS. rewrite !C_0, !Nat.sub_0_r in WS. fold A0 in WS. cbn [pow] in WS. unfold spread. rewrite !pow_add. lra. }
  apply Rabs_le. pose proof (G 1 (or_introl eq_refl)). pose proof (G (-1) (or_intror eq_refl)). lra.
Qed.
(** a monomial near a point *)
Lemma mono3_near c x i j k s M : 0 <= s -> Rabs (x3 c) <= M -> Rabs (y3 c) <= M -> Rabs (z3 c) <= M ->
  Rabs (x3 x - x3 c) <= s -> Rabs (y3 x - y3 c) <= s -> Rabs (z3 x - z3 c) <= s ->
  Rabs (x3 x ^ i * y3 x ^ j * z3 x ^ k - x3 c ^ i * y3 c ^ j * z3 c ^ k) <= spread M s (i + j + k).
Proof.
  intros Hs H1 H2 H3 X Y Z. pose proof (bsum3_near c i j k s M (fun a b d => (x3 x - x3 c) ^ a * (y3 x - y3 c) ^ b * (z3 x - z3 c) ^ d) Hs H1 H2 H3) as B. rewrite bsum3_pow in B. cbn [pow] in B.
  replace (x3 c + (x3 x - x3 c)) with (x3 x) in B by ring. replace (y3 c + (y3 x - y3 c)) with (y3 x) in B by ring. replace (z3 c + (z3 x - z3 c)) with (z3 x) in B by ring.
  rewrite !Rmult_1_r in B. apply B; [lra|]. intros a b d. rewrite !Rmult_1_r, !Rabs_mult. repeat apply Rmult_le_compat; try apply Rmult_le_pos; try apply Rabs_pos; now apply pow_abs_le.
Qed.
Lemma spread_0 M s n : 0 <= M -> 0 <= s -> 0 <= spread M s n.
Proof. intros. unfold spread. assert (M ^ n <= (M + s) ^ n) by (apply pow_incr; lra). lra. Qed.
Lemma spread_small M n e : 0 <= M -> 0 < e -> exists s, 0 < s /\ forall u, 0 <= u <= s -> spread M u n <= e.
Proof.
  intros HM He. assert (CT : continuous (fun x => x ^ n) M) by (apply continuity_pt_filterlim, derivable_continuous_pt, derivable_pt_pow).
  apply continuity_pt_filterlim in CT. destruct (CT e He) as (a & Ha & H). exists (a / 2). split; [lra|]. intros u Hu. unfold spread.
  destruct (Req_dec u 0) as [->|N]; [rewrite Rplus_0_r; lra|]. specialize (H (M + u)). cbn in H. unfold Rfunctions.R_dist in H.
  assert (Rabs ((M + u) ^ n - M ^ n) < e). { apply H. split; [split; [exact I|lra]|]. replace (M + u - M) with u by ring. rewrite Rabs_right; lra. }
  apply Rabs_def2 in H0. lra.
Qed.

(** ** Integrals over triangles and tetrahedra *)
Lemma is_RInt_abs (f g : R -> R) If Ig : is_RInt f 0 1 If -> is_RInt g 0 1 Ig -> (forall x, 0 < x < 1 -> Rabs (f x) <= g x) -> Rabs If <= Ig.
Proof.
  intros Hf Hg H. apply Rabs_le. split.
  - apply (is_RInt_le (fun x => - g x) f 0 1); auto; [lra|apply (is_RInt_opp (V := R_NormedModule)) in Hg; exact Hg|]. intros x Hx. specialize (H x Hx). apply NearN.Rabs_le_inv in H. lra.
  - apply (is_RInt_le f g 0 1); auto; [lra|]. intros x Hx. specialize (H x Hx). apply NearN.Rabs_le_inv in H. lra.
Qed.
Lemma lin_RInt c n : is_RInt (fun x => c * x ^ n) 0 1 (c / INR (S n)).
Proof. pose proof (is_RInt_scal (V := R_NormedModule) _ _ _ c _ (is_RInt_pow n)) as H. exact H. Qed.
Lemma seg_abs x y t s : 0 <= t <= 1 -> Rabs x <= s -> Rabs y <= s -> Rabs ((1 - t) * x + t * y) <= s.
Proof. intros Ht A B. apply NearN.Rabs_le_inv in A. apply NearN.Rabs_le_inv in B. apply Rabs_le. nra. Qed.
Lemma scal_abs r x s : 0 <= r <= 1 -> Rabs x <= s -> Rabs (r * x) <= s.
Proof. intros Hr A. rewrite Rabs_mult, (Rabs_right r) by lra. pose proof (Rabs_pos x). nra. Qed.

Lemma tri_inner a b i j r : is_RInt (tri_param a b i j r) 0 1 (INR (fact i) * INR (fact j) * (r * Hn 1 (map (pscal r) [a; b]) i j 0%nat)).
Proof.
  pose proof (cone_int (pscal r a) (pscal r b) [] i j 0%nat) as C.
  apply (is_RInt_scal (V := R_NormedModule) _ _ _ (INR (fact i) * INR (fact j) * r)) in C.
  replace (INR (fact i) * INR (fact j) * (r * Hn 1 (map (pscal r) [a; b]) i j 0%nat))
    with (scal (INR (fact i) * INR (fact j) * r) (Hn (S (length (@nil pt))) [pscal r a; pscal r b] i j 0%nat))
    by (unfold scal; cbn -[Hn fact INR]; unfold mult; cbn -[Hn fact INR]; ring).
  eapply is_RInt_ext; [|exact C]. intros t _. cbn -[Hn fact INR]. rewrite Hn0_mono.
  unfold scal, mult; cbn -[fact INR]. unfold mult; cbn -[fact INR]. rewrite ex_0. unfold ex, tri_param.
  replace (r * px a + t * (r * px b - r * px a)) with (r * ((1 - t) * px a + t * px b)) by ring.
  replace (r * py a + t * (r * py b - r * py a)) with (r * ((1 - t) * py a + t * py b)) by ring.
  field. split; apply fact_neq.
Qed.
Lemma tri_outer a b i j : is_RInt (fun r => INR (fact i) * INR (fact j) * (r * Hn 1 (map (pscal r) [a; b]) i j 0%nat)) 0 1 (INR (fact i) * INR (fact j) * Hn 2 [a; b] i j 0%nat).
Proof.
  apply (is_RInt_scal (V := R_NormedModule)).
  pose proof (cone_int (P3 0 0 0) a [b] i j 0%nat) as C.
  replace (Hn 2 [a; b] i j 0%nat) with (Hn (S (length [b])) [P3 0 0 0; a; b] i j 0%nat).
  2: { cbn [length]. unfold Hn. now rewrite (H_zero [a; b] i j 0%nat). }
  eapply is_RInt_ext; [|exact C]. intros r _. cbn [length pow]. rewrite Rmult_1_r. f_equal.
  assert (E : forall q, lerp (P3 0 0 0) r q = pscal r q).
  { intros [x y z]. unfold lerp, padd, pscal, psub. cbn. apply pt_eq; ring. }
  cbn [map]. now rewrite !E.
Qed.
Lemma tri_bound a b i j s : 0 <= cross a b -> Rabs (px a) <= s -> Rabs (py a) <= s -> Rabs (px b) <= s -> Rabs (py b) <= s ->
  Rabs (tri_int a b i j) <= s ^ i * s ^ j * (cross a b / 2).
Proof.
  intros Hc A1 A2 B1 B2. assert (Hs : 0 <= s) by (pose proof (Rabs_pos (px a)); lra). rewrite tri_int_Hn, Rabs_mult, (Rabs_right (cross a b)) by lra.
  set (S := s ^ i * s ^ j). assert (HS : 0 <= S) by (apply Rmult_le_pos; now apply pow_le).
  assert (X : Rabs (INR (fact i) * INR (fact j) * Hn 2 [a; b] i j 0%nat) <= S / INR 2).
  { apply (is_RInt_abs _ (fun r => S * r ^ 1) _ _ (tri_outer a b i j) (lin_RInt S 1)). intros r Hr.
    replace (S * r ^ 1) with (S * r / INR 1) by (cbn; field).
    apply (is_RInt_abs _ (fun t => S * r * t ^ 0) _ _ (tri_inner a b i j r) (lin_RInt (S * r) 0)). intros t Ht.
    unfold tri_param, S. rewrite !Rabs_mult, (Rabs_right r) by lra.
    assert (P1 : Rabs ((r * ((1 - t) * px a + t * px b)) ^ i) <= s ^ i) by (apply pow_abs_le, scal_abs; [lra|]; apply seg_abs; auto; lra).
    assert (P2 : Rabs ((r * ((1 - t) * py a + t * py b)) ^ j) <= s ^ j) by (apply pow_abs_le, scal_abs; [lra|]; apply seg_abs; auto; lra).
    cbn [pow]. rewrite Rmult_1_r. set (u := Rabs (_ ^ i)) in *. set (w := Rabs (_ ^ j)) in *.
    assert (0 <= u) by apply Rabs_pos. assert (0 <= w) by apply Rabs_pos. assert (u * w <= s ^ i * s ^ j) by (apply Rmult_le_compat; auto). nra. }
  change (INR 2) with (1 + 1) in X. assert (cross a b * Rabs (INR (fact i) * INR (fact j) * Hn 2 [a; b] i j 0%nat) <= cross a b * (S / (1 + 1))) by (apply Rmult_le_compat_l; auto). lra.
Qed.

Section Tet.
Context (a b c : pt) (i j k : nat).
Let F := INR (fact i) * INR (fact j) * INR (fact k).
Lemma tet_inner r s : is_RInt (tet_param a b c i j k r s) 0 1 (F * (r ^ 2 * s * Hn 1 (map (lerp (pscal r c) s) (map (pscal r) [a; b])) i j k)).
Proof.
    pose proof (cone_int (lerp (pscal r c) s (pscal r a)) (lerp (pscal r c) s (pscal r b)) [] i j k) as C.
    apply (is_RInt_scal (V := R_NormedModule) _ _ _ (F * (r ^ 2 * s))) in C.
    replace (F * (r ^ 2 * s * Hn 1 (map (lerp (pscal r c) s) (map (pscal r) [a; b])) i j k))
      with (scal (F * (r ^ 2 * s)) (Hn (S (length (@nil pt)))
           [lerp (pscal r c) s (pscal r a); lerp (pscal r c) s (pscal r b)] i j k))
      by (unfold scal; cbn -[Hn fact INR pow]; unfold mult; cbn -[Hn fact INR pow]; ring).
    eapply is_RInt_ext; [|exact C]. intros t _. cbn -[Hn fact INR F]. rewrite Hn0_mono.
    unfold scal, mult; cbn -[fact INR F pow]. unfold mult; cbn -[fact INR F pow]. unfold ex, tet_param, F.
    cbn [px py pz lerp padd psub pscal].
    match goal with |- context [?x ^ i / _] => replace x with (r * ((1 - s) * px c + s * ((1 - t) * px a + t * px b))) by ring end.
    match goal with |- context [?x ^ j / _] => replace x with (r * ((1 - s) * py c + s * ((1 - t) * py a + t * py b))) by ring end.
    match goal with |- context [?x ^ k / _] => replace x with (r * ((1 - s) * pz c + s * ((1 - t) * pz a + t * pz b))) by ring end.
    field. repeat split; apply fact_neq.
Qed.
Lemma tet_middle r : is_RInt (fun s => F * (r ^ 2 * s * Hn 1 (map (lerp (pscal r c) s) (map (pscal r) [a; b])) i j k)) 0 1 (F * (r ^ 2 * Hn 2 (map (pscal r) [c; a; b]) i j k)).
Proof.
    pose proof (cone_int (pscal r c) (pscal r a) [pscal r b] i j k) as C.
    apply (is_RInt_scal (V := R_NormedModule) _ _ _ (F * r ^ 2)) in C.
    replace (F * (r ^ 2 * Hn 2 (map (pscal r) [c; a; b]) i j k))
      with (scal (F * r ^ 2) (Hn (S (length [pscal r b])) [pscal r c; pscal r a; pscal r b] i j k))
      by (unfold scal; cbn -[Hn fact INR pow]; unfold mult; cbn -[Hn fact INR pow]; ring).
    eapply is_RInt_ext; [|exact C]. intros s _. cbn [length map].
    unfold scal; cbn -[Hn fact INR F]. unfold mult; cbn -[Hn fact INR F]. ring.
Qed.
Lemma tet_outer : is_RInt (fun r => F * (r ^ 2 * Hn 2 (map (pscal r) [c; a; b]) i j k)) 0 1 (F * Hn 3 [a; b; c] i j k).
Proof.
  apply (is_RInt_scal (V := R_NormedModule)).
  pose proof (cone_int (P3 0 0 0) c [a; b] i j k) as C.
  replace (Hn 3 [a; b; c] i j k) with (Hn (S (length [a; b])) [P3 0 0 0; c; a; b] i j k).
  2: { cbn [length]. unfold Hn. rewrite (H_zero [c; a; b] i j k). f_equal.
       rewrite (H_perm3 b c a i j k). symmetry. rewrite (H_perm3 a b c i j k). reflexivity. }
  eapply is_RInt_ext; [|exact C]. intros r _. cbn [length]. f_equal.
  assert (E : forall q, lerp (P3 0 0 0) r q = pscal r q).
  { intros [x y z]. unfold lerp, padd, pscal, psub. cbn. apply pt_eq; ring. }
  cbn [map]. now rewrite !E.
Qed.
Lemma tet_bound s : 0 <= det3 a b c -> (forall q, In q [a; b; c] -> Rabs (px q) <= s /\ Rabs (py q) <= s /\ Rabs (pz q) <= s) ->
  Rabs (tet_int a b c i j k) <= s ^ i * s ^ j * s ^ k * (det3 a b c / 6).
Proof.
  intros Hc H. destruct (H a ltac:(cbn; auto)) as (A1 & A2 & A3). destruct (H b ltac:(cbn; auto)) as (B1 & B2 & B3). destruct (H c ltac:(cbn; auto)) as (C1 & C2 & C3).
  assert (Hs : 0 <= s) by (pose proof (Rabs_pos (px a)); lra). rewrite tet_int_Hn, Rabs_mult, (Rabs_right (det3 a b c)) by lra. fold F.
  set (S := s ^ i * s ^ j * s ^ k). assert (HS : 0 <= S) by (apply Rmult_le_pos; [apply Rmult_le_pos|]; now apply pow_le).
  assert (X : Rabs (F * Hn 3 [a; b; c] i j k) <= S / 2 / INR 3).
  { apply (is_RInt_abs _ (fun r => S / 2 * r ^ 2) _ _ tet_outer (lin_RInt (S / 2) 2)). intros r Hr.
    replace (S / 2 * r ^ 2) with (S * r ^ 2 / INR 2) by (cbn; field).
    apply (is_RInt_abs _ (fun w => S * r ^ 2 * w ^ 1) _ _ (tet_middle r) (lin_RInt (S * r ^ 2) 1)). intros w Hw.
    replace (S * r ^ 2 * w ^ 1) with (S * r ^ 2 * w / INR 1) by (cbn; field).
    apply (is_RInt_abs _ (fun t => S * r ^ 2 * w * t ^ 0) _ _ (tet_inner r w) (lin_RInt (S * r ^ 2 * w) 0)). intros t Ht.
    unfold tet_param, S. rewrite !Rabs_mult, (Rabs_right w), (Rabs_right (r ^ 2)) by (try apply Rle_ge, pow_le; lra).
    assert (P1 : Rabs ((r * ((1 - w) * px c + w * ((1 - t) * px a + t * px b))) ^ i) <= s ^ i) by (apply pow_abs_le, scal_abs; [lra|]; apply seg_abs; auto; [lra|]; apply seg_abs; auto; lra).
    assert (P2 : Rabs ((r * ((1 - w) * py c + w * ((1 - t) * py a + t * py b))) ^ j) <= s ^ j) by (apply pow_abs_le, scal_abs; [lra|]; apply seg_abs; auto; [lra|]; apply seg_abs; auto; lra).
    assert (P3 : Rabs ((r * ((1 - w) * pz c + w * ((1 - t) * pz a + t * pz b))) ^ k) <= s ^ k) by (apply pow_abs_le, scal_abs; [lra|]; apply seg_abs; auto; [lra|]; apply seg_abs; auto; lra).
    rewrite pow_O, Rmult_1_r. set (u := Rabs (_ ^ i)) in *. set (v := Rabs (_ ^ j)) in *. set (y := Rabs (_ ^ k)) in *.
    assert (0 <= u) by apply Rabs_pos. assert (0 <= v) by apply Rabs_pos. assert (0 <= y) by apply Rabs_pos. assert (0 <= r ^ 2) by (apply pow_le; lra).
    assert (u * v * y <= s ^ i * s ^ j * s ^ k) by (repeat apply Rmult_le_compat; auto; now apply Rmult_le_pos).
    replace (r ^ 2 * w * u * v * y) with (r ^ 2 * w * (u * v * y)) by ring. replace (s ^ i * s ^ j * s ^ k * r ^ 2 * w) with (r ^ 2 * w * (s ^ i * s ^ j * s ^ k)) by ring.
    apply Rmult_le_compat_l; auto. apply Rmult_le_pos; lra. }
  replace (S / 2 / INR 3) with (S / 6) in X by (cbn; field).
  assert (det3 a b c * Rabs (F * Hn 3 [a; b; c] i j k) <= det3 a b c * (S / 6)) by (apply Rmult_le_compat_l; auto). lra.
Qed.
End Tet.
