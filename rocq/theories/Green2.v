(** * Green2: the moment of a polygon as a boundary integral, and the moments of a box. *)
From Coq Require Import Reals ZArith List Bool Lia Lra.
From Coquelicot Require Import Coquelicot.
From Verif Require Import Base Lib ModelCommon Model2 Spec2 HPoly HShift HInt RealNum SumR Spec2R.
Import ListNotations.
Open Scope R_scope.

(** points of the segment from [a] to [b] *)
Definition segx (a b : rvec2 R) (t : R) : R := (1 - t) * vx a + t * vx b.
Definition segy (a b : rvec2 R) (t : R) : R := (1 - t) * vy a + t * vy b.

(** the line integral of [x^(i+1) y^j / (i+1) dy] along the segment *)
Definition green (i j : nat) (a b : rvec2 R) : R :=
  RInt (fun t => segx a b t ^ S i / INR (S i) * segy a b t ^ j * (vy b - vy a)) 0 1.

Lemma ex_seg (a b : rvec2 R) i j c : ex_RInt (fun t => segx a b t ^ i * segy a b t ^ j * c) 0 1.
Proof.
  apply (ex_RInt_continuous (V := R_CompleteNormedModule)). intros z _. apply (ex_derive_continuous (K := R_AbsRing) (V := R_NormedModule)).
  unfold segx, segy. auto_derive. auto.
Qed.

Lemma edge2_line i j a b :
  edge2 i j a b = (vx a * vy b - vy a * vx b) / INR (i + j + 2)
     * RInt (fun t => segx a b t ^ i * segy a b t ^ j) 0 1.
Proof.
  unfold edge2, tri_int. set (I := RInt (fun t => segx a b t ^ i * segy a b t ^ j) 0 1).
  assert (E : RInt (fun r => RInt (tri_param (pt2 a) (pt2 b) i j r) 0 1) 0 1 = I * / INR (S (i + j + 1))).
  { apply is_RInt_unique.
    apply (is_RInt_ext (fun r => scal I (r ^ (i + j + 1)))).
    - intros r _. symmetry. apply is_RInt_unique.
      apply (is_RInt_ext (fun t => scal (r ^ (i + j + 1)) (segx a b t ^ i * segy a b t ^ j))).
      + intros t _. unfold tri_param, pt2, segx, segy, scal. cbn. unfold mult. cbn.
        rewrite !Rpow_mult_distr, !pow_add. cbn. ring.
      + replace (scal I (r ^ (i + j + 1))) with (scal (r ^ (i + j + 1)) I)
          by (unfold scal; cbn; unfold mult; cbn; ring).
        apply (is_RInt_scal (V := R_NormedModule)). apply (RInt_correct (V := R_CompleteNormedModule)).
        pose proof (ex_seg a b i j 1) as X. eapply ex_RInt_ext; [|exact X]. intros; cbn; ring.
    - apply (is_RInt_scal (V := R_NormedModule)), is_RInt_pow. }
  rewrite E. unfold cross, pt2. cbn [px py pz].
  replace (i + j + 2)%nat with (S (i + j + 1)) by lia. field. apply not_0_INR. lia.
Qed.

(** potential: differs between the two forms of the boundary integral *)
Definition potG (i j : nat) (q : rvec2 R) : R := - (vx q ^ S i * vy q ^ S j) / (INR (S i) * INR (i + j + 2)).

Lemma edge2_green i j a b : edge2 i j a b = green i j a b + (potG i j b - potG i j a).
Proof.
  rewrite edge2_line. unfold green.
  assert (N1 : INR (S i) <> 0) by (apply not_0_INR; lia).
  assert (N2 : INR (i + j + 2) <> 0) by (apply not_0_INR; lia).
  set (c := - / (INR (S i) * INR (i + j + 2))).
  set (dx := vx b - vx a). set (dy := vy b - vy a).
  assert (D : is_RInt (fun t => c * (INR (S i) * dx * segx a b t ^ i * segy a b t ^ S j
       + INR (S j) * dy * segx a b t ^ S i * segy a b t ^ j)) 0 1 (potG i j b - potG i j a)).
  { replace (potG i j b - potG i j a) with
      (minus (c * (segx a b 1 ^ S i * segy a b 1 ^ S j)) (c * (segx a b 0 ^ S i * segy a b 0 ^ S j))).
    2: { unfold minus, plus, opp, potG, segx, segy, c. cbn -[INR pow].
         replace ((1 - 1) * vx a + 1 * vx b) with (vx b) by ring. replace ((1 - 1) * vy a + 1 * vy b) with (vy b) by ring.
         replace ((1 - 0) * vx a + 0 * vx b) with (vx a) by ring. replace ((1 - 0) * vy a + 0 * vy b) with (vy a) by ring.
         field. split; auto. }
    apply (is_RInt_derive (fun t => c * (segx a b t ^ S i * segy a b t ^ S j))).
    - intros t _. unfold segx, segy. auto_derive; auto. cbn [Init.Nat.pred]. unfold dx, dy.
      change (match i with 0%nat => 1 | S _ => INR i + 1 end) with (INR (S i)).
      change (match j with 0%nat => 1 | S _ => INR j + 1 end) with (INR (S j)). cbn [pow]. change (1 + - t) with (1 - t). generalize ((1 - t) * vx a + t * vx b) ((1 - t) * vy a + t * vy b). intros. generalize (INR (S i)) (INR (S j)). intros. ring.
    - intros t _. apply (ex_derive_continuous (K := R_AbsRing) (V := R_NormedModule)). unfold segx, segy. auto_derive. auto. }
  apply (is_RInt_unique (V := R_CompleteNormedModule)) in D. rewrite <- D.
  rewrite <- (RInt_plus (V := R_CompleteNormedModule)).
  2: { eapply ex_RInt_ext; [|exact (ex_seg a b (S i) j (dy / INR (S i)))]. intros t _. cbn -[INR pow]. unfold dy. field. auto. }
  2: { apply (ex_RInt_continuous (V := R_CompleteNormedModule)). intros z _. apply (ex_derive_continuous (K := R_AbsRing) (V := R_NormedModule)).
       unfold segx, segy. auto_derive. auto. }
  rewrite <- (RInt_scal (V := R_CompleteNormedModule)).
  2: { eapply ex_RInt_ext; [|exact (ex_seg a b i j 1)]. intros t _. cbn. ring. }
  apply RInt_ext. intros t _. unfold scal, plus. cbn -[INR pow]. unfold mult. cbn -[INR pow].
  replace (vx a * vy b - vy a * vx b) with (segx a b t * dy - segy a b t * dx) by (unfold segx, segy, dx, dy; ring).
  fold dy. unfold c.
  assert (NI : INR (i + j + 2) = INR (S i) + INR (S j)) by (rewrite <- plus_INR; f_equal; lia).
  assert (INR (S i) + INR (S j) <> 0) by (rewrite <- NI; auto).
  rewrite NI. cbn [pow]. field. auto.
Qed.

(** Green's theorem form of the moment *)
Lemma moment2_green (p : poly (rvec2 R)) i j : linked (nb (vb p)) (nv p) ->
  moment2 p i j = lsum (zrange (nv p)) (fun v => green i j (ps (vb p) v) (ps (vb p) (nb (vb p) v 0%Z))).
Proof.
  intros HL. unfold moment2. rewrite (lsum_ext _ _ (fun v => green i j (ps (vb p) v) (ps (vb p) (nb (vb p) v 0%Z))
     + (potG i j (ps (vb p) (nb (vb p) v 0%Z)) - potG i j (ps (vb p) v)))) by (intros; apply edge2_green).
  rewrite lsum_add, lsum_sub.
  assert (N : lsum (zrange (nv p)) (fun v => potG i j (ps (vb p) (nb (vb p) v 0%Z)))
      = lsum (zrange (nv p)) (fun v => potG i j (ps (vb p) v))).
  { apply (lsum_bij (fun v => nb (vb p) v 0%Z) _ _ (fun v => potG i j (ps (vb p) v))); try apply NoDup_zrange.
    - intros v Hv. apply in_zrange in Hv. apply in_zrange. apply HL; auto.
    - intros u v Hu Hv E. apply in_zrange in Hu. apply in_zrange in Hv.
      destruct (HL u Hu) as (_ & _ & A & _). destruct (HL v Hv) as (_ & _ & B & _). congruence.
    - intros v Hv. apply in_zrange in Hv. exists (nb (vb p) v 1%Z).
      destruct (HL v Hv) as (_ & A & _ & B). split; auto. now apply in_zrange. }
  rewrite N. ring.
Qed.

Lemma RInt_pow_ab a b n : RInt (fun x => x ^ n) a b = (b ^ S n - a ^ S n) / INR (S n).
Proof.
  apply is_RInt_unique.
  replace ((b ^ S n - a ^ S n) / INR (S n)) with (minus (b ^ S n / INR (S n)) (a ^ S n / INR (S n))).
  2: { unfold minus, plus, opp. cbn -[INR pow]. field. apply not_0_INR. lia. }
  apply (is_RInt_derive (fun r => r ^ S n / INR (S n)) (fun r => r ^ n)).
  - intros x _. auto_derive; auto. cbn [Init.Nat.pred]. field. apply (not_0_INR (S n)). lia.
  - intros x _. apply (ex_derive_continuous (fun r => r ^ n)). auto_derive. auto.
Qed.

Lemma green_h i j a b : vy a = vy b -> green i j a b = 0.
Proof.
  intros E. unfold green. rewrite (RInt_ext _ (fun _ => 0)); [rewrite RInt_const; unfold scal; cbn; unfold mult; cbn; ring|].
  intros t _. rewrite E. match goal with |- ?x = ?y => change (@eq R x y) end. ring.
Qed.
Lemma green_v i j a b : vx a = vx b ->
  green i j a b = vx a ^ S i / INR (S i) * ((vy b ^ S j - vy a ^ S j) / INR (S j)).
Proof.
  intros E. unfold green. apply is_RInt_unique.
  assert (NI : INR (S i) <> 0) by (apply not_0_INR; lia).
  assert (NJ : INR (S j) <> 0) by (apply not_0_INR; lia).
  set (k := vx a ^ S i / INR (S i) / INR (S j)).
  replace (vx a ^ S i / INR (S i) * ((vy b ^ S j - vy a ^ S j) / INR (S j)))
    with (minus (k * segy a b 1 ^ S j) (k * segy a b 0 ^ S j)).
  2: { unfold minus, plus, opp, segy, k. cbn -[INR pow].
       replace ((1 - 1) * vy a + 1 * vy b) with (vy b) by ring.
       replace ((1 - 0) * vy a + 0 * vy b) with (vy a) by ring. field. auto. }
  apply (is_RInt_derive (fun t => k * segy a b t ^ S j)).
  - intros t _. unfold segy, segx. auto_derive; auto. cbn [Init.Nat.pred]. rewrite <- E.
    replace ((1 - t) * vx a + t * vx a) with (vx a) by ring. unfold k.
    change (match j with 0%nat => 1 | S _ => INR j + 1 end) with (INR (S j)).
    change (1 + - t) with (1 - t). generalize dependent (INR (S j)). generalize dependent (INR (S i)). intros. cbn [pow]. generalize ((1 - t) * vy a + t * vy b). intros. field. auto.
  - intros t _. apply (ex_derive_continuous (K := R_AbsRing) (V := R_NormedModule)). unfold segx, segy. auto_derive. auto.
Qed.
