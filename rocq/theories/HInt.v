(** * HInt: the coefficient arrays as iterated integrals over simplices *)
From Coq Require Import Reals List Arith Lia Lra.
From Coquelicot Require Import Coquelicot.
From Verif Require Import HPoly HShift.
Import ListNotations.
Open Scope R_scope.

Lemma H_scal r ps : H (map (pscal r) ps) == (fun i j k => r ^ deg i j k * H ps i j k).
Proof.
  induction ps as [|p ps IH].
  - cbn. intros [|i] [|j] [|k]; cbn; ring.
  - apply aeq_sym. apply (geo_unique (pscal r p) (H (map (pscal r) ps))). intros i j k. unfold aadd. rewrite (IH i j k).
    assert (E : H (p :: ps) i j k = H ps i j k + M p (H (p :: ps)) i j k) by apply (geo_eq p (H ps)).
    rewrite E. unfold M, s1, s2, s3, deg.
    destruct i as [|i], j as [|j], k as [|k]; cbn [px py pz pscal];
      rewrite ?Nat.add_succ_r, ?Nat.add_0_r; cbn [Nat.add pow]; ring.
Qed.

Lemma Hn0_mono p i j k : Hn 0 [p] i j k = ex (px p) i * ex (py p) j * ex (pz p) k.
Proof.
  revert i j k. change (Hn 0 [p] == (fun i j k => ex (px p) i * ex (py p) j * ex (pz p) k)).
  apply (step0_unique p).
  - unfold Hn. rewrite H_000, !ex_0. cbn. lra.
  - intros. apply Hn1_step.
  - intros i j k. unfold deg. rewrite !plus_INR. unfold M, s1, s2, s3.
    pose proof (fun n => ex_S (px p) n) as E1. pose proof (fun n => ex_S (py p) n) as E2.
    pose proof (fun n => ex_S (pz p) n) as E3.
    replace ((INR i + INR j + INR k) * (ex (px p) i * ex (py p) j * ex (pz p) k))
      with ((INR i * ex (px p) i) * (ex (py p) j * ex (pz p) k)
          + (INR j * ex (py p) j) * (ex (px p) i * ex (pz p) k)
          + (INR k * ex (pz p) k) * (ex (px p) i * ex (py p) j)) by ring.
    destruct i, j, k; rewrite ?E1, ?E2, ?E3; cbn [INR]; ring.
Qed.

Lemma is_RInt_sum (f : nat -> R -> R) (l : nat -> R) n :
  (forall a, (a <= n)%nat -> is_RInt (f a) 0 1 (l a)) ->
  is_RInt (fun r => sum_f_R0 (fun a => f a r) n) 0 1 (sum_f_R0 l n).
Proof.
  induction n; intros Hf; cbn [sum_f_R0].
  - apply Hf. lia.
  - apply (is_RInt_plus (V := R_NormedModule)); [apply IHn; intros; apply Hf; lia|apply Hf; lia].
Qed.
Lemma is_RInt_conv d (f : nat -> R -> R) (l : nat -> R) n :
  (forall a, (a <= n)%nat -> is_RInt (f a) 0 1 (l a)) ->
  is_RInt (fun r => conv d (fun i => f i r) n) 0 1 (conv d l n).
Proof.
  intros Hf. unfold conv. apply is_RInt_sum. intros a Ha.
  apply (is_RInt_scal (V := R_NormedModule)). apply Hf. lia.
Qed.
Lemma is_RInt_SS d (F : R -> arr) (L : arr) i j k :
  (forall i j k, is_RInt (fun r => F r i j k) 0 1 (L i j k)) ->
  is_RInt (fun r => SS d (F r) i j k) 0 1 (SS d L i j k).
Proof.
  intros HF. unfold SS.
  apply (is_RInt_conv (px d) (fun i r => S2 (py d) (S3 (pz d) (F r)) i j k)
    (fun i => S2 (py d) (S3 (pz d) L) i j k) i). intros a _.
  apply (is_RInt_conv (py d) (fun j r => S3 (pz d) (F r) a j k)
    (fun j => S3 (pz d) L a j k) j). intros b _.
  apply (is_RInt_conv (pz d) (fun k r => F r a b k) (fun k => L a b k) k). intros c _. apply HF.
Qed.

Lemma is_RInt_pow n : is_RInt (fun r => r ^ n) 0 1 (/ INR (S n)).
Proof.
  replace (/ INR (S n)) with (minus (1 ^ S n / INR (S n)) (0 ^ S n / INR (S n))).
  2: { unfold minus, plus, opp. cbn -[INR]. rewrite pow1. field. apply not_0_INR. lia. }
  apply (is_RInt_derive (fun r => r ^ S n / INR (S n)) (fun r => r ^ n)).
  - intros x _. auto_derive; auto. cbn [Init.Nat.pred]. field.
    apply (not_0_INR (S n)). lia.
  - intros x _. apply (ex_derive_continuous (fun r => r ^ n)). auto_derive. auto.
Qed.

(** point at parameter [r] between [c] and [p] *)
Definition lerp (c : pt) (r : R) (p : pt) : pt := padd c (pscal r (psub p c)).

Lemma pt_eq a b c a' b' c' : a = a' -> b = b' -> c = c' -> P3 a b c = P3 a' b' c'.
Proof. congruence. Qed.

(** Coning: integrating over the parameter adds the apex. *)
Lemma cone_int c p ps i j k :
  is_RInt (fun r => r ^ length ps * Hn (length ps) (map (lerp c r) (p :: ps)) i j k) 0 1
    (Hn (S (length ps)) (c :: p :: ps) i j k).
Proof.
  set (K := length ps). set (qs := map (fun q => psub q c) (p :: ps)).
  assert (EL : Hn (S K) (c :: p :: ps) i j k = SS c (Hn (S K) qs) i j k).
  { pose proof (Hn_shift c qs (P3 0 0 0) i j k) as E.
    assert (Lq : length qs = S K) by (unfold qs; rewrite map_length; reflexivity).
    rewrite Lq in E.
    replace (map (padd c) (P3 0 0 0 :: qs)) with (c :: p :: ps) in E.
    - rewrite E. apply SS_ext. intros x y z. unfold Hn. now rewrite (H_zero qs x y z).
    - cbn [map]. f_equal; [destruct c; unfold padd; cbn; apply pt_eq; ring|].
      unfold qs. rewrite map_map. rewrite <- (map_id (p :: ps)) at 1. apply map_ext.
      intros [x y z]. unfold padd, psub. cbn. apply pt_eq; ring. }
  rewrite EL.
  apply (is_RInt_ext (fun r => SS c (fun i j k => r ^ (deg i j k + K) * Hn K qs i j k) i j k)).
  - intros r _.
    assert (EM : map (lerp c r) (p :: ps) = map (padd c) (map (pscal r) qs)).
    { unfold qs. rewrite !map_map. reflexivity. }
    rewrite EM. destruct (map (pscal r) qs) as [|p' ps'] eqn:Eq; [discriminate|].
    assert (L : length ps' = K).
    { assert (length (p' :: ps') = S K) by (rewrite <- Eq; unfold qs; now rewrite !map_length). cbn in H. lia. }
    rewrite <- L, (Hn_shift c ps' p' i j k). rewrite L.
    assert (LN : forall a A, a * SS c A i j k = SS c (ascal a A) i j k).
    { intros a A. pose proof (SS_lin c a A 0 A i j k) as E. unfold aadd in E.
      rewrite (SS_ext c (ascal a A) (aadd (ascal a A) (ascal 0 A))).
      - unfold aadd. rewrite E. unfold ascal. ring.
      - intros x y z. unfold aadd, ascal. ring. }
    rewrite LN. apply SS_ext. intros x y z. unfold ascal, Hn.
    rewrite <- Eq, (H_scal r qs x y z), pow_add. unfold Rdiv. ring.
  - apply is_RInt_SS. intros x y z.
    replace (Hn (S K) qs x y z) with (Hn K qs x y z * / INR (S (deg x y z + K))).
    + apply (is_RInt_ext (fun r => scal (Hn K qs x y z) (r ^ (deg x y z + K)))).
      * intros r _. unfold scal. cbn. unfold mult. cbn. ring.
      * apply (is_RInt_scal (V := R_NormedModule)), is_RInt_pow.
    + unfold Hn. rewrite Nat.add_succ_r, fact_simpl, mult_INR.
      field. split; [apply fact_neq|apply not_0_INR; lia].
Qed.

(** ** Triangle with the origin (2D) *)
Definition tri_param (a b : pt) (i j : nat) (r t : R) : R :=
  r * (r * ((1 - t) * px a + t * px b)) ^ i * (r * ((1 - t) * py a + t * py b)) ^ j.
(** The integral of [x^i y^j] over the triangle with vertices origin, [a], [b],
    positive when [a] to [b] turns counter-clockwise, as an iterated integral
    with Jacobian determinant [r * cross a b]. *)
Definition tri_int (a b : pt) (i j : nat) : R :=
  cross a b * RInt (fun r => RInt (tri_param a b i j r) 0 1) 0 1.

Lemma tri_int_Hn a b i j :
  tri_int a b i j = cross a b * (INR (fact i) * INR (fact j) * Hn 2 [a; b] i j 0%nat).
Proof.
  unfold tri_int. f_equal.
  assert (IN : forall r, is_RInt (tri_param a b i j r) 0 1
     (INR (fact i) * INR (fact j) * (r * Hn 1 (map (pscal r) [a; b]) i j 0%nat))).
  { intros r.
    pose proof (cone_int (pscal r a) (pscal r b) [] i j 0%nat) as C.
    apply (is_RInt_scal (V := R_NormedModule) _ _ _ (INR (fact i) * INR (fact j) * r)) in C.
    replace (INR (fact i) * INR (fact j) * (r * Hn 1 (map (pscal r) [a; b]) i j 0%nat))
      with (scal (INR (fact i) * INR (fact j) * r) (Hn (S (length (@nil pt))) [pscal r a; pscal r b] i j 0%nat))
      by (unfold scal; cbn -[Hn fact INR]; unfold mult; cbn -[Hn fact INR]; ring).
    eapply is_RInt_ext; [|exact C]. intros t _. cbn -[Hn fact INR]. rewrite Hn0_mono.
    unfold scal, mult; cbn -[fact INR]. unfold mult; cbn -[fact INR]. rewrite ex_0. unfold ex, tri_param.
    replace (r * px a + t * (r * px b - r * px a)) with (r * ((1 - t) * px a + t * px b)) by ring.
    replace (r * py a + t * (r * py b - r * py a)) with (r * ((1 - t) * py a + t * py b)) by ring.
    field. split; apply fact_neq. }
  rewrite (RInt_ext _ (fun r => INR (fact i) * INR (fact j) * (r * Hn 1 (map (pscal r) [a; b]) i j 0%nat))).
  2: { intros r _. apply is_RInt_unique, IN. }
  apply is_RInt_unique. apply (is_RInt_scal (V := R_NormedModule)).
  pose proof (cone_int (P3 0 0 0) a [b] i j 0%nat) as C.
  replace (Hn 2 [a; b] i j 0%nat) with (Hn (S (length [b])) [P3 0 0 0; a; b] i j 0%nat).
  2: { cbn [length]. unfold Hn. now rewrite (H_zero [a; b] i j 0%nat). }
  eapply is_RInt_ext; [|exact C]. intros r _. cbn [length pow]. rewrite Rmult_1_r. f_equal.
  assert (E : forall q, lerp (P3 0 0 0) r q = pscal r q).
  { intros [x y z]. unfold lerp, padd, pscal, psub. cbn. apply pt_eq; ring. }
  cbn [map]. now rewrite !E.
Qed.

(** ** Tetrahedron with the origin (3D) *)
Definition tet_param (a b c : pt) (i j k : nat) (r s t : R) : R :=
  let m f := r * ((1 - s) * f c + s * ((1 - t) * f a + t * f b)) in
  r ^ 2 * s * m px ^ i * m py ^ j * m pz ^ k.
(** Integral of [x^i y^j z^k] over the tetrahedron with vertices origin, [a],
    [b], [c], with the sign of [det3 a b c]. *)
Definition tet_int (a b c : pt) (i j k : nat) : R :=
  det3 a b c * RInt (fun r => RInt (fun s => RInt (tet_param a b c i j k r s) 0 1) 0 1) 0 1.

Lemma tet_int_Hn a b c i j k :
  tet_int a b c i j k
  = det3 a b c * (INR (fact i) * INR (fact j) * INR (fact k) * Hn 3 [a; b; c] i j k).
Proof.
  unfold tet_int. f_equal.
  set (F := INR (fact i) * INR (fact j) * INR (fact k)).
  assert (I1 : forall r s, is_RInt (tet_param a b c i j k r s) 0 1
     (F * (r ^ 2 * s * Hn 1 (map (lerp (pscal r c) s) (map (pscal r) [a; b])) i j k))).
  { intros r s.
    pose proof (cone_int (lerp (pscal r c) s (pscal r a)) (lerp (pscal r c) s (pscal r b)) [] i j k) as C.
    apply (is_RInt_scal (V := R_NormedModule) _ _ _ (F * (r ^ 2 * s))) in C.
    replace (F * (r ^ 2 * s * Hn 1 (map (lerp (pscal r c) s) (map (pscal r) [a; b])) i j k))
      with (scal (F * (r ^ 2 * s)) (Hn (S (length (@nil pt)))
           [lerp (pscal r c) s (pscal r a); lerp (pscal r c) s (pscal r b)] i j k))
      by (unfold scal; cbn -[Hn fact INR pow]; unfold mult; cbn -[Hn fact INR pow]; ring).
    eapply is_RInt_ext; [|exact C]. intros t _. cbn -[Hn fact INR F]. rewrite Hn0_mono.
    unfold scal, mult; cbn -[fact INR F pow]. unfold mult; cbn -[fact INR F pow]. unfold ex, tet_param, F.
    cbn [px py pz lerp padd psub pscal].
    match goal with |- context [?x ^ i / _] => replace x with (r * ((1 - s) * px c + s * ((1 - t) * px a + t * px b))) by ring end.
    match goal with |- context [?x ^ j / _] => replace x with (r * ((1 - s) * py c + s * ((1 - t) * py a + t * py b))) by ring end.
    match goal with |- context [?x ^ k / _] => replace x with (r * ((1 - s) * pz c + s * ((1 - t) * pz a + t * pz b))) by ring end.
    field. repeat split; apply fact_neq. }
  assert (I2 : forall r, is_RInt (fun s => RInt (tet_param a b c i j k r s) 0 1) 0 1
     (F * (r ^ 2 * Hn 2 (map (pscal r) [c; a; b]) i j k))).
  { intros r.
    eapply is_RInt_ext; [intros s _; symmetry; apply is_RInt_unique, I1|].
    pose proof (cone_int (pscal r c) (pscal r a) [pscal r b] i j k) as C.
    apply (is_RInt_scal (V := R_NormedModule) _ _ _ (F * r ^ 2)) in C.
    replace (F * (r ^ 2 * Hn 2 (map (pscal r) [c; a; b]) i j k))
      with (scal (F * r ^ 2) (Hn (S (length [pscal r b])) [pscal r c; pscal r a; pscal r b] i j k))
      by (unfold scal; cbn -[Hn fact INR pow]; unfold mult; cbn -[Hn fact INR pow]; ring).
    eapply is_RInt_ext; [|exact C]. intros s _. cbn [length map].
    unfold scal; cbn -[Hn fact INR F]. unfold mult; cbn -[Hn fact INR F]. ring. }
  rewrite (RInt_ext _ (fun r => F * (r ^ 2 * Hn 2 (map (pscal r) [c; a; b]) i j k))).
  2: { intros r _. apply is_RInt_unique, I2. }
  apply is_RInt_unique. apply (is_RInt_scal (V := R_NormedModule)).
  pose proof (cone_int (P3 0 0 0) c [a; b] i j k) as C.
  replace (Hn 3 [a; b; c] i j k) with (Hn (S (length [a; b])) [P3 0 0 0; c; a; b] i j k).
  2: { cbn [length]. unfold Hn. rewrite (H_zero [c; a; b] i j k). f_equal.
       rewrite (H_perm3 b c a i j k). symmetry. rewrite (H_perm3 a b c i j k). reflexivity. }
  eapply is_RInt_ext; [|exact C]. intros r _. cbn [length]. f_equal.
  assert (E : forall q, lerp (P3 0 0 0) r q = pscal r q).
  { intros [x y z]. unfold lerp, padd, pscal, psub. cbn. apply pt_eq; ring. }
  cbn [map]. now rewrite !E.
Qed.
