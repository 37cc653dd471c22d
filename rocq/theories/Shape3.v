(** * Shape3: moments of the tetrahedron and of the box (r3d.c:645-724), orientation (r3d.c:1030-1046). *)
From Coq Require Import Reals ZArith List Bool Lia Lra Psatz.
From Coquelicot Require Import Coquelicot.
From Verif Require Import Base Lib ModelCommon CommonFacts Model3 Spec3 Orb3 Cut3 FaceSpec3 Face3 HPoly HShift HInt
  RealNum SumR Spec3R Mom3 Geo3 Cons3 Green2 Shift2 Shift3 Graph3 Small3 Trans3.
Import ListNotations.
Open Scope R_scope.

Definition fan_tab (f : Z -> Z -> Z) (n : Z) : list (Z * Z * Z) :=
  map (fun d => (fst (lead f n d), dtgt f d, fst d)) (darts 3 n).
Lemma moment3_of_table (h : rvec3 R -> rvec3 R) (p : pol3) f i j k : agree f (nb (vb p)) (nv p) -> (0 <= nv p)%Z ->
  links f (below (nv p)) ->
  moment3_of h p i j k = lsum (fan_tab f (nv p)) (fun t => let '(a, b, c) := t in
    tet3 i j k (h (ps (vb p) a)) (h (ps (vb p) b)) (h (ps (vb p) c))).
Proof.
  intros A Hn L. unfold moment3_of, fan_tab. rewrite lsum_map. apply lsum_ext. intros d Hd. apply isd_in in Hd.
  rewrite <- (lead_ext f (nb (vb p)) (nv p) A L d Hd). rewrite <- (dtgt_ext f (nb (vb p)) (nv p) A d Hd). reflexivity.
Qed.

(** integral of [x^i y^j z^k] over the tetrahedron [a b c d], with the sign of its orientation *)
Definition tetra_param (a b c d : rvec3 R) (i j k : nat) (r s t : R) : R :=
  let m g := g a + r * ((1 - s) * (g d - g a) + s * ((1 - t) * (g b - g a) + t * (g c - g a))) in
  r ^ 2 * s * m (@x3 R) ^ i * m (@y3 R) ^ j * m (@z3 R) ^ k.
Definition tetra_int (a b c d : rvec3 R) (i j k : nat) : R :=
  vol6 a b c d * RInt (fun r => RInt (fun s => RInt (tetra_param a b c d i j k r s) 0 1) 0 1) 0 1.

Lemma tetra_int_Hn a b c d i j k :
  tetra_int a b c d i j k
  = vol6 a b c d * (INR (fact i) * INR (fact j) * INR (fact k) * Hn 3 [pt3 a; pt3 d; pt3 b; pt3 c] i j k).
Proof.
  unfold tetra_int. f_equal.
  set (F := INR (fact i) * INR (fact j) * INR (fact k)).
  set (L := fun r q => lerp (pt3 a) r (pt3 q)).
  assert (I1 : forall r s, is_RInt (tetra_param a b c d i j k r s) 0 1
     (F * (r ^ 2 * s * Hn 1 (map (lerp (L r d) s) [L r b; L r c]) i j k))).
  { intros r s.
    pose proof (cone_int (lerp (L r d) s (L r b)) (lerp (L r d) s (L r c)) [] i j k) as C.
    apply (is_RInt_scal (V := R_NormedModule) _ _ _ (F * (r ^ 2 * s))) in C.
    replace (F * (r ^ 2 * s * Hn 1 (map (lerp (L r d) s) [L r b; L r c]) i j k))
      with (scal (F * (r ^ 2 * s)) (Hn (S (length (@nil pt)))
           [lerp (L r d) s (L r b); lerp (L r d) s (L r c)] i j k))
      by (unfold scal; cbn -[Hn fact INR pow]; unfold mult; cbn -[Hn fact INR pow]; ring).
    eapply is_RInt_ext; [|exact C]. intros t _. cbn -[Hn fact INR F]. rewrite Hn0_mono.
    unfold scal, mult; cbn -[fact INR F pow]. unfold mult; cbn -[fact INR F pow]. unfold ex, tetra_param, F.
    unfold L. cbn [px py pz lerp padd psub pscal pt3].
    match goal with |- context [?x ^ i / _] => replace x with (x3 a + r * ((1 - s) * (x3 d - x3 a) + s * ((1 - t) * (x3 b - x3 a) + t * (x3 c - x3 a)))) by ring end.
    match goal with |- context [?x ^ j / _] => replace x with (y3 a + r * ((1 - s) * (y3 d - y3 a) + s * ((1 - t) * (y3 b - y3 a) + t * (y3 c - y3 a)))) by ring end.
    match goal with |- context [?x ^ k / _] => replace x with (z3 a + r * ((1 - s) * (z3 d - z3 a) + s * ((1 - t) * (z3 b - z3 a) + t * (z3 c - z3 a)))) by ring end.
    field. repeat split; apply fact_neq. }
  assert (I2 : forall r, is_RInt (fun s => RInt (tetra_param a b c d i j k r s) 0 1) 0 1
     (F * (r ^ 2 * Hn 2 [L r d; L r b; L r c] i j k))).
  { intros r.
    eapply is_RInt_ext; [intros s _; symmetry; apply is_RInt_unique, I1|].
    pose proof (cone_int (L r d) (L r b) [L r c] i j k) as C.
    apply (is_RInt_scal (V := R_NormedModule) _ _ _ (F * r ^ 2)) in C.
    replace (F * (r ^ 2 * Hn 2 [L r d; L r b; L r c] i j k))
      with (scal (F * r ^ 2) (Hn (S (length [L r c])) [L r d; L r b; L r c] i j k))
      by (unfold scal; cbn -[Hn fact INR pow]; unfold mult; cbn -[Hn fact INR pow]; ring).
    eapply is_RInt_ext; [|exact C]. intros s _. cbn [length map].
    unfold scal; cbn -[Hn fact INR F]. unfold mult; cbn -[Hn fact INR F]. ring. }
  rewrite (RInt_ext _ (fun r => F * (r ^ 2 * Hn 2 [L r d; L r b; L r c] i j k))).
  2: { intros r _. apply is_RInt_unique, I2. }
  apply is_RInt_unique. apply (is_RInt_scal (V := R_NormedModule)).
  pose proof (cone_int (pt3 a) (pt3 d) [pt3 b; pt3 c] i j k) as C.
  eapply is_RInt_ext; [|exact C]. intros r _. cbn [length map]. reflexivity.
Qed.

Lemma tetra_int_tet3 a b c d i j k :
  tetra_int a b c d i j k = tet3 i j k b c d - tet3 i j k a c d + tet3 i j k a b d - tet3 i j k a b c.
Proof.
  rewrite tetra_int_Hn. unfold tet3. rewrite !tet_int_Hn. unfold Hn.
  pose proof (det_cocycle (pt3 a) (pt3 b) (pt3 c) (pt3 d) i j k) as CC.
  change (det3 (psub (pt3 b) (pt3 a)) (psub (pt3 c) (pt3 a)) (psub (pt3 d) (pt3 a))) with (vol6 a b c d) in CC.
  assert (EH : H [pt3 a; pt3 d; pt3 b; pt3 c] i j k = H [pt3 a; pt3 b; pt3 c; pt3 d] i j k).
  { apply (geo_ext (pt3 a)). intros x y z. symmetry. apply (H_perm3 (pt3 d) (pt3 b) (pt3 c) x y z). }
  rewrite EH. clear EH.
  transitivity (INR (fact i) * INR (fact j) * INR (fact k) / INR (fact (deg i j k + 3))
       * - (- vol6 a b c d * H [pt3 a; pt3 b; pt3 c; pt3 d] i j k)).
  - field. apply fact_neq.
  - rewrite <- CC. field. apply fact_neq.
Qed.

(** ** tetrahedron *)
Lemma moment3_id (p : pol3) i j k : moment3 p i j k = moment3_of (fun q => q) p i j k.
Proof. reflexivity. Qed.

Lemma tet_moment (p : pol3) (q0 q1 q2 q3 : rvec3 R) i j k : nv p = 4%Z -> agree tet_tab (nb (vb p)) 4 ->
  map (ps (vb p)) (zrange 4) = [q0; q1; q2; q3] ->
  moment3 p i j k = tetra_int q0 q1 q2 q3 i j k.
Proof.
  intros En A Ep. rewrite moment3_id. rewrite (moment3_of_table _ p tet_tab); rewrite ?En; [|auto|lia|apply links_b_ok; vm_compute; reflexivity].
  change (zrange 4) with [0; 1; 2; 3]%Z in Ep. cbn [map] in Ep. injection Ep as E0 E1 E2 E3.
  let x := eval vm_compute in (fan_tab tet_tab 4) in replace (fan_tab tet_tab 4) with x by (vm_compute; reflexivity).
  cbn [lsum]. rewrite E0, E1, E2, E3. 
  rewrite !tet3_same1, !tet3_same3, tetra_int_tet3.
  rewrite (tet3_swap2 i j k q0 q1 q2), (tet3_swap2 i j k q0 q2 q3). ring.
Qed.

Lemma orient3_vol (a b c d : rvec3 R) : @eq R (r3d_orient RN a b c d) (vol6 a b c d / 6).
Proof. unfold r3d_orient, vol6, det3, psub, vsub3, pt3. cbn. field. Qed.
Lemma tetra_int_000 a b c d : tetra_int a b c d 0 0 0 = vol6 a b c d / 6.
Proof. rewrite tetra_int_Hn. unfold Hn. rewrite H_000. unfold deg. cbn. field. Qed.

(** ** box *)
Ltac rr := match goal with |- @eq _ ?a ?b => change (@eq R a b) end.
Lemma RInt_pow01 n : RInt (fun r => r ^ n) 0 1 = / INR (S n).
Proof. apply is_RInt_unique, is_RInt_pow. Qed.
Lemma RInt_pow01_scal c n : RInt (fun r => c * r ^ n) 0 1 = c * / INR (S n).
Proof. apply is_RInt_unique. apply (is_RInt_scal (V := R_NormedModule)). apply is_RInt_pow. Qed.
Lemma kuhn_int a b c i j k A B C n1 n2 n3 :
  (forall r s t, tet_param a b c i j k r s t = r ^ 2 * s * (r * A) ^ n1 * (r * s * B) ^ n2 * (r * s * t * C) ^ n3) ->
  tet_int a b c i j k = det3 a b c * (A ^ n1 * B ^ n2 * C ^ n3
     * / INR (S n3) * / INR (S (S (n2 + n3))) * / INR (S (S (S (n1 + n2 + n3))))).
Proof.
  intros E. unfold tet_int. f_equal.
  rewrite (RInt_ext _ (fun r => A ^ n1 * B ^ n2 * C ^ n3 * / INR (S n3) * / INR (S (S (n2 + n3))) * r ^ S (S (n1 + n2 + n3)))).
  { apply RInt_pow01_scal. }
  intros r _.
  rewrite (RInt_ext _ (fun s => A ^ n1 * B ^ n2 * C ^ n3 * / INR (S n3) * r ^ S (S (n1 + n2 + n3)) * s ^ S (n2 + n3))).
  { rewrite RInt_pow01_scal. rr. ring. }
  intros s _.
  rewrite (RInt_ext _ (fun t => A ^ n1 * B ^ n2 * C ^ n3 * r ^ S (S (n1 + n2 + n3)) * s ^ S (n2 + n3) * t ^ n3)).
  { rewrite RInt_pow01_scal. rr. ring. }
  intros t _. rewrite E. rr. rewrite !Rpow_mult_distr. cbn [pow]. rewrite !pow_add. ring.
Qed.

Lemma six_kuhn (x y z : R) : 0 <= x -> 0 <= y -> 0 <= z ->
  / (z + 1) * / (y + z + 2) * / (x + y + z + 3) + / (y + 1) * / (y + z + 2) * / (x + y + z + 3)
  + / (z + 1) * / (x + z + 2) * / (x + y + z + 3) + / (x + 1) * / (x + z + 2) * / (x + y + z + 3)
  + / (y + 1) * / (x + y + 2) * / (x + y + z + 3) + / (x + 1) * / (x + y + 2) * / (x + y + z + 3)
  = / (x + 1) * / (y + 1) * / (z + 1).
Proof. intros. field. repeat split; lra. Qed.

Lemma pow_int_shift (lo hi : R) n :
  sum_f_R0 (fun a => Binomial.C n a * lo ^ (n - a) * ((hi - lo) ^ S a * / INR (S a))) n = RInt (fun x => x ^ n) lo hi.
Proof.
  rewrite RInt_pow_ab.
  assert (E : forall a, (a <= n)%nat -> Binomial.C n a * lo ^ (n - a) * ((hi - lo) ^ S a * / INR (S a))
     = (Binomial.C (S n) (S a) * (hi - lo) ^ S a * lo ^ (S n - S a)) * / INR (S n)).
  { intros a Ha. replace (S n - S a)%nat with (n - a)%nat by lia. unfold Binomial.C.
    replace (S n - S a)%nat with (n - a)%nat by lia. rewrite !fact_simpl, !mult_INR. field.
    repeat split; try apply fact_neq; apply not_0_INR; lia. }
  rewrite (sum_eq _ _ _ E). rewrite <- scal_sum.
  pose proof (binomial (hi - lo) lo (S n)) as B. rewrite decomp_sum in B by lia. cbn [pred] in B.
  replace (hi - lo + lo) with hi in B by ring.
  assert (C0 : Binomial.C (S n) 0 = 1).
  { unfold Binomial.C. rewrite Nat.sub_0_r. change (INR (fact 0)) with 1. field. apply fact_neq. }
  rewrite C0, Nat.sub_0_r in B. rewrite B. change ((hi - lo) ^ 0) with 1. field. apply not_0_INR. lia.
Qed.

Definition hprod (i j k : nat) (A B C : R) : R :=
  A ^ S i * B ^ S j * C ^ S k * (/ INR (S i) * / INR (S j) * / INR (S k)).

Ltac kt i j k A B C := let r := fresh "r" in let s := fresh "s" in let t := fresh "t" in
  intros r s t; repeat match goal with q := V3 _ _ _ |- _ => subst q end; unfold tet_param; cbv zeta; cbn [pt3 px py pz x3 y3 z3];
  match goal with |- _ * ?x ^ i * ?y ^ j * ?z ^ k = _ =>
    (first [replace x with (r * A) by ring | replace x with (r * s * A) by ring | replace x with (r * s * t * A) by ring]);
    (first [replace y with (r * B) by ring | replace y with (r * s * B) by ring | replace y with (r * s * t * B) by ring]);
    (first [replace z with (r * C) by ring | replace z with (r * s * C) by ring | replace z with (r * s * t * C) by ring]) end; ring.

Lemma box0_moment i j k (A B C : R) :
  let q1 := V3 A 0 0 in let q2 := V3 A B 0 in let q3 := V3 0 B 0 in
  let q4 := V3 0 0 C in let q5 := V3 A 0 C in let q6 := V3 A B C in let q7 := V3 0 B C in
  tet3 i j k q1 q6 q5 + tet3 i j k q1 q2 q6 + tet3 i j k q2 q7 q6 + tet3 i j k q2 q3 q7
  + tet3 i j k q4 q5 q6 + tet3 i j k q4 q6 q7 = hprod i j k A B C.
Proof.
  intros q1 q2 q3 q4 q5 q6 q7.
  assert (D : tet3 i j k q2 q7 q6 + tet3 i j k q2 q3 q7 = tet3 i j k q3 q7 q6 + tet3 i j k q2 q3 q6).
  { assert (V : vol6 q2 q3 q7 q6 = 0) by (unfold vol6, det3, psub, pt3, q2, q3, q6, q7; cbn; ring).
    pose proof (tet3_cocycle i j k _ _ _ _ V). lra. }
  rewrite <- (tet3_rot i j k q1 q6 q5), (tet3_swap1 i j k q5 q6), <- (tet3_rot i j k q1 q2 q6).
  replace (- tet3 i j k q5 q6 q1 + tet3 i j k q2 q6 q1 + tet3 i j k q2 q7 q6 + tet3 i j k q2 q3 q7 + tet3 i j k q4 q5 q6 + tet3 i j k q4 q6 q7)
    with (tet3 i j k q2 q6 q1 - tet3 i j k q5 q6 q1 + tet3 i j k q7 q6 q3 - tet3 i j k q2 q6 q3 + tet3 i j k q5 q6 q4 - tet3 i j k q7 q6 q4).
  2: { rewrite <- (tet3_rot i j k q4 q5 q6), <- (tet3_rot i j k q4 q6 q7).
       rewrite (tet3_swap1 i j k q7 q6).
       assert (D1 : tet3 i j k q3 q7 q6 = tet3 i j k q7 q6 q3) by (symmetry; apply tet3_rot).
       assert (D2 : tet3 i j k q2 q3 q6 = - tet3 i j k q2 q6 q3) by (apply tet3_swap2).
       lra. }
  unfold tet3.
  rewrite (kuhn_int (pt3 q2) (pt3 q6) (pt3 q1) i j k A B C i j k) by kt i j k A B C.
  rewrite (kuhn_int (pt3 q5) (pt3 q6) (pt3 q1) i j k A C B i k j) by kt i j k A B C.
  rewrite (kuhn_int (pt3 q7) (pt3 q6) (pt3 q3) i j k B C A j k i) by kt i j k A B C.
  rewrite (kuhn_int (pt3 q2) (pt3 q6) (pt3 q3) i j k B A C j i k) by kt i j k A B C.
  rewrite (kuhn_int (pt3 q5) (pt3 q6) (pt3 q4) i j k C A B k i j) by kt i j k A B C.
  rewrite (kuhn_int (pt3 q7) (pt3 q6) (pt3 q4) i j k C B A k j i) by kt i j k A B C.
  unfold hprod.
  replace (det3 (pt3 q2) (pt3 q6) (pt3 q1)) with (A * B * C) by (unfold det3, q1, q2, q6; cbn; ring).
  replace (det3 (pt3 q5) (pt3 q6) (pt3 q1)) with (- (A * B * C)) by (unfold det3, q1, q5, q6; cbn; ring).
  replace (det3 (pt3 q7) (pt3 q6) (pt3 q3)) with (A * B * C) by (unfold det3, q7, q3, q6; cbn; ring).
  replace (det3 (pt3 q2) (pt3 q6) (pt3 q3)) with (- (A * B * C)) by (unfold det3, q2, q3, q6; cbn; ring).
  replace (det3 (pt3 q5) (pt3 q6) (pt3 q4)) with (A * B * C) by (unfold det3, q4, q5, q6; cbn; ring).
  replace (det3 (pt3 q7) (pt3 q6) (pt3 q4)) with (- (A * B * C)) by (unfold det3, q4, q7, q6; cbn; ring).
  rewrite !S_INR, !plus_INR.
  pose proof (six_kuhn (INR i) (INR j) (INR k) (pos_INR i) (pos_INR j) (pos_INR k)) as S6.
  rewrite <- S6. cbn [pow].
  pose proof (pos_INR i). pose proof (pos_INR j). pose proof (pos_INR k).
  field. repeat split; lra.
Qed.

Lemma sum_prod2 (Y Z : nat -> R) j k :
  sum_f_R0 Y j * sum_f_R0 Z k = sum_f_R0 (fun b => sum_f_R0 (fun d => Y b * Z d) k) j.
Proof.
  rewrite Rmult_comm, scal_sum. apply sum_eq. intros b _. rewrite scal_sum. apply sum_eq. intros. ring.
Qed.
Lemma sum_prod3 (X Y Z : nat -> R) i j k :
  sum_f_R0 X i * sum_f_R0 Y j * sum_f_R0 Z k
  = sum_f_R0 (fun a => sum_f_R0 (fun b => sum_f_R0 (fun d => X a * Y b * Z d) k) j) i.
Proof.
  rewrite Rmult_assoc, sum_prod2, Rmult_comm, scal_sum. apply sum_eq. intros a _. rewrite scal_sum.
  apply sum_eq. intros b _. rewrite Rmult_comm, scal_sum. apply sum_eq. intros. ring.
Qed.

Lemma box_moment3 (p : pol3) (lo hi : rvec3 R) i j k : nv p = 8%Z -> agree box_tab (nb (vb p)) 8 ->
  map (ps (vb p)) (zrange 8) =
     [V3 (x3 lo) (y3 lo) (z3 lo); V3 (x3 hi) (y3 lo) (z3 lo); V3 (x3 hi) (y3 hi) (z3 lo); V3 (x3 lo) (y3 hi) (z3 lo);
      V3 (x3 lo) (y3 lo) (z3 hi); V3 (x3 hi) (y3 lo) (z3 hi); V3 (x3 hi) (y3 hi) (z3 hi); V3 (x3 lo) (y3 hi) (z3 hi)] ->
  moment3 p i j k = RInt (fun x => x ^ i) (x3 lo) (x3 hi) * RInt (fun y => y ^ j) (y3 lo) (y3 hi)
     * RInt (fun z => z ^ k) (z3 lo) (z3 hi).
Proof.
  intros En A Ep.
  assert (L : links box_tab (below 8)) by (apply links_b_ok; vm_compute; reflexivity).
  pose proof (box_wf RN p En A) as (Hn & Lp & _).
  rewrite <- (moment3_shift lo p i j k Hn Lp).
  assert (E : forall a b d, moment3_at lo p a b d = hprod a b d (x3 hi - x3 lo) (y3 hi - y3 lo) (z3 hi - z3 lo)).
  { intros a b d. unfold moment3_at. rewrite (moment3_of_table _ p box_tab); rewrite ?En; [|auto|lia|auto].
    change (zrange 8) with [0; 1; 2; 3; 4; 5; 6; 7]%Z in Ep. cbn [map] in Ep. injection Ep as E0 E1 E2 E3 E4 E5 E6 E7.
    let x := eval vm_compute in (fan_tab box_tab 8) in replace (fan_tab box_tab 8) with x by (vm_compute; reflexivity).
    cbn [lsum]. rewrite E0, E1, E2, E3, E4, E5, E6, E7. rewrite !tet3_same1, !tet3_same3.
    unfold vsb. cbn [x3 y3 z3]. replace (x3 lo - x3 lo) with 0 by ring. replace (y3 lo - y3 lo) with 0 by ring. replace (z3 lo - z3 lo) with 0 by ring.
    assert (Z : forall u v, tet3 a b d (V3 0 0 0) u v = 0) by (intros; apply tet3_flat; unfold det3, pt3; cbn; ring).
    rewrite !Z. rewrite <- box0_moment. cbv zeta. ring. }
  rewrite <- (pow_int_shift (x3 lo) (x3 hi)), <- (pow_int_shift (y3 lo) (y3 hi)), <- (pow_int_shift (z3 lo) (z3 hi)).
  unfold bsum3.
  set (X := fun a => _ * ((x3 hi - x3 lo) ^ S a * _)). set (Y := fun a => _ * ((y3 hi - y3 lo) ^ S a * _)).
  set (Z := fun a => _ * ((z3 hi - z3 lo) ^ S a * _)).
  rewrite sum_prod3. apply sum_eq. intros a Ha. apply sum_eq. intros b Hb. apply sum_eq. intros d Hd.
  rewrite E. unfold X, Y, Z, hprod. ring.
Qed.
