(** * FlagC3: the sum over flags of a convex polyhedron in three dimensions is its volume
    by tetrahedra. *)
From Coq Require Import Reals ZArith List Bool Lia Lra.
From Verif Require Import Base Lib SumR RealNum SpecNR RedN FlagR SpecC3.
Import ListNotations.
Open Scope R_scope.

Notation vec := (Z -> R).
Definition dt (a b : vec) : R := a 0%Z * b 0%Z + a 1%Z * b 1%Z + a 2%Z * b 2%Z.
Definition cr (a b : vec) : vec := fun k =>
  if (k =? 0)%Z then a 1%Z * b 2%Z - a 2%Z * b 1%Z else if (k =? 1)%Z then a 2%Z * b 0%Z - a 0%Z * b 2%Z else a 0%Z * b 1%Z - a 1%Z * b 0%Z.
Lemma dotN3 (a b : vec) : dotN RN 3 a b = dt a b.
Proof. rewrite (dot_R 3). change (zrange 3) with [0; 1; 2]%Z. cbn [lsum]. unfold dt. match goal with |- @eq _ ?a ?b => change (@eq R a b) end. ring. Qed.
Lemma orth0 L (e : vec) : orthN RN 3 L 0 e = e. Proof. reflexivity. Qed.
Lemma orth1 L (e : vec) j : @eq R (orthN RN 3 L 1 e j) (e j - dt e (L 0%Z) * L 0%Z j).
Proof. unfold orthN. cbn [zrange Z.to_nat Pos.to_nat]. cbn. rewrite <- dotN3. reflexivity. Qed.
Lemma orth2 L (e : vec) j : @eq R (orthN RN 3 L 2 e j) (orthN RN 3 L 1 e j - dt (orthN RN 3 L 1 e) (L 1%Z) * L 1%Z j).
Proof. rewrite <- dotN3. reflexivity. Qed.
Lemma unit3 (a : vec) j : @eq R (unitN RN 3 a j) (a j / sqrt (dt a a)).
Proof. unfold unitN. cbn [ndiv nsqrt RN]. now rewrite dotN3. Qed.
Lemma unit3_spec (a : vec) : dt a a <> 0 -> exists n, 0 < n /\ dt (unitN RN 3 a) (unitN RN 3 a) = 1
  /\ (a 0%Z = n * unitN RN 3 a 0%Z /\ a 1%Z = n * unitN RN 3 a 1%Z /\ a 2%Z = n * unitN RN 3 a 2%Z).
Proof.
  intros N. assert (P : 0 <= dt a a) by (unfold dt; nra). assert (S : 0 < sqrt (dt a a)) by (apply sqrt_lt_R0; lra).
  exists (sqrt (dt a a)). split; auto. split.
  - unfold dt at 1. rewrite !unit3. transitivity ((a 0%Z * a 0%Z + a 1%Z * a 1%Z + a 2%Z * a 2%Z) / (sqrt (dt a a) * sqrt (dt a a))); [field; lra|].
    rewrite sqrt_sqrt by lra. unfold dt in *. field. lra.
  - rewrite !unit3. repeat split; field; lra.
Qed.

(** the term of one ordering of three edges *)
Definition F3 (x a b : vec) (s : R) : R :=
  s * (dt a x * (dt b x * dt a a - dt a b * dt a x) * dt (cr a b) x) / (dt a a * dt (cr a b) (cr a b)).

(** an orthonormal triple *)
Lemma triple (a0 a1 a2 b0 b1 b2 c0 c1 c2 : R) :
  a0 * a0 + a1 * a1 + a2 * a2 = 1 -> b0 * b0 + b1 * b1 + b2 * b2 = 1 -> c0 * c0 + c1 * c1 + c2 * c2 = 1 ->
  a0 * b0 + a1 * b1 + a2 * b2 = 0 -> a0 * c0 + a1 * c1 + a2 * c2 = 0 -> b0 * c0 + b1 * c1 + b2 * c2 = 0 ->
  let t := c0 * (a1 * b2 - a2 * b1) + c1 * (a2 * b0 - a0 * b2) + c2 * (a0 * b1 - a1 * b0) in
  t * t = 1 /\ a1 * b2 - a2 * b1 = t * c0 /\ a2 * b0 - a0 * b2 = t * c1 /\ a0 * b1 - a1 * b0 = t * c2.
Proof.
  intros A B C AB AC BC t.
  set (w0 := a1 * b2 - a2 * b1) in *. set (w1 := a2 * b0 - a0 * b2) in *. set (w2 := a0 * b1 - a1 * b0) in *.
  assert (WW : w0 * w0 + w1 * w1 + w2 * w2 = 1).
  { transitivity ((a0 * a0 + a1 * a1 + a2 * a2) * (b0 * b0 + b1 * b1 + b2 * b2) - (a0 * b0 + a1 * b1 + a2 * b2) * (a0 * b0 + a1 * b1 + a2 * b2)); [unfold w0, w1, w2; ring|]. rewrite A, B, AB. ring. }
  (* c x w = c x (a x b) = a (c.b) - b (c.a) = 0 *)
  assert (X0 : c1 * w2 - c2 * w1 = 0) by (transitivity (a0 * (b0 * c0 + b1 * c1 + b2 * c2) - b0 * (a0 * c0 + a1 * c1 + a2 * c2)); [unfold w1, w2; ring|]; rewrite BC, AC; ring).
  assert (X1 : c2 * w0 - c0 * w2 = 0) by (transitivity (a1 * (b0 * c0 + b1 * c1 + b2 * c2) - b1 * (a0 * c0 + a1 * c1 + a2 * c2)); [unfold w0, w2; ring|]; rewrite BC, AC; ring).
  assert (X2 : c0 * w1 - c1 * w0 = 0) by (transitivity (a2 * (b0 * c0 + b1 * c1 + b2 * c2) - b2 * (a0 * c0 + a1 * c1 + a2 * c2)); [unfold w0, w1; ring|]; rewrite BC, AC; ring).
  assert (E : w0 = t * c0 /\ w1 = t * c1 /\ w2 = t * c2).
  { unfold t. repeat split.
    - transitivity (w0 * (c0 * c0 + c1 * c1 + c2 * c2)); [rewrite C; ring|]. transitivity ((c0 * w0 + c1 * w1 + c2 * w2) * c0 + c2 * (c2 * w0 - c0 * w2) - c1 * (c0 * w1 - c1 * w0)); [ring|]. rewrite X1, X2. ring.
    - transitivity (w1 * (c0 * c0 + c1 * c1 + c2 * c2)); [rewrite C; ring|]. transitivity ((c0 * w0 + c1 * w1 + c2 * w2) * c1 + c0 * (c0 * w1 - c1 * w0) - c2 * (c1 * w2 - c2 * w1)); [ring|]. rewrite X0, X2. ring.
    - transitivity (w2 * (c0 * c0 + c1 * c1 + c2 * c2)); [rewrite C; ring|]. transitivity ((c0 * w0 + c1 * w1 + c2 * w2) * c2 + c1 * (c1 * w2 - c2 * w1) - c0 * (c2 * w0 - c0 * w2)); [ring|]. rewrite X0, X1. ring. }
  split; auto. destruct E as (E0 & E1 & E2). transitivity (t * t * (c0 * c0 + c1 * c1 + c2 * c2)); [rewrite C; ring|]. rewrite <- WW, E0, E1, E2. ring.
Qed.

Lemma flag3_term (x e1 e2 e3 : vec) L s : s * s = 1 -> 0 < s * det3 e1 e2 e3 ->
  let L1 := upd L 0%Z (unitN RN 3 (orthN RN 3 L 0 e1)) in
  let L2 := upd L1 1%Z (unitN RN 3 (orthN RN 3 L1 1 e2)) in
  let L3 := upd L2 2%Z (unitN RN 3 (orthN RN 3 L2 2 e3)) in
  @eq R (termN RN 3 x L3) (F3 x e1 e2 s / 6).
Proof.
  intros Ss HD. cbv zeta. rewrite orth0. set (u1 := unitN RN 3 e1).
  assert (N1 : dt e1 e1 <> 0).
  { intros N. unfold dt in N. assert (e1 0%Z = 0 /\ e1 1%Z = 0 /\ e1 2%Z = 0) as (A & B & C) by (repeat split; nra). unfold det3 in HD. rewrite A, B, C in HD. lra. }
  destruct (unit3_spec e1 N1) as (n1 & P1 & U1 & A0 & A1 & A2). fold u1 in U1, A0, A1, A2.
  set (L1 := upd L 0%Z u1). set (a2 := orthN RN 3 L1 1 e2). set (u2 := unitN RN 3 a2).
  assert (Q2 : forall j, @eq R (a2 j) (e2 j - dt e2 u1 * u1 j)) by (intros j; unfold a2; rewrite orth1; unfold L1; now rewrite upd_eq).
  assert (N2 : dt a2 a2 <> 0).
  { intros N. unfold dt in N. assert (a2 0%Z = 0 /\ a2 1%Z = 0 /\ a2 2%Z = 0) as (A & B & C) by (repeat split; nra).
    rewrite Q2 in A, B, C. set (t := dt e2 u1) in *. assert (A' : e2 0%Z = t * u1 0%Z) by lra. assert (B' : e2 1%Z = t * u1 1%Z) by lra. assert (C' : e2 2%Z = t * u1 2%Z) by lra.
    unfold det3 in HD. rewrite A0, A1, A2, A', B', C' in HD.
    assert (0 < 0); [|lra]. eapply Rlt_le_trans; [exact HD|]. right. ring. }
  destruct (unit3_spec a2 N2) as (n2 & P2 & U2 & B0 & B1 & B2). fold u2 in U2, B0, B1, B2.
  assert (O12 : dt u1 u2 = 0).
  { assert (n2 * dt u1 u2 = 0); [|nra]. transitivity (dt u1 a2); [unfold dt; rewrite B0, B1, B2; ring|].
    transitivity (dt e2 u1 - dt e2 u1 * dt u1 u1); [unfold dt at 1; rewrite !Q2; unfold dt; ring|]. rewrite U1. ring. }
  set (L2 := upd L1 1%Z u2). set (a3 := orthN RN 3 L2 2 e3). set (u3 := unitN RN 3 a3).
  assert (L20 : L2 0%Z = u1) by reflexivity. assert (L21 : L2 1%Z = u2) by reflexivity.
  assert (Q3' : forall j, @eq R (orthN RN 3 L2 1 e3 j) (e3 j - dt e3 u1 * u1 j)) by (intros j; rewrite orth1; now rewrite L20).
  assert (Q3d : dt (orthN RN 3 L2 1 e3) u2 = dt e3 u2).
  { unfold dt at 1. rewrite !Q3'. transitivity (dt e3 u2 - dt e3 u1 * dt u1 u2); [unfold dt; ring|]. rewrite O12. ring. }
  assert (Q3 : forall j, @eq R (a3 j) (e3 j - dt e3 u1 * u1 j - dt e3 u2 * u2 j)).
  { intros j. unfold a3. rewrite orth2, L21, Q3d, Q3'. reflexivity. }
  set (al := dt e2 u1) in *. set (be := dt e3 u1) in *. set (ga := dt e3 u2) in *.
  assert (F0 : e2 0%Z = al * u1 0%Z + n2 * u2 0%Z) by (rewrite <- B0, Q2; ring).
  assert (F1 : e2 1%Z = al * u1 1%Z + n2 * u2 1%Z) by (rewrite <- B1, Q2; ring).
  assert (F2 : e2 2%Z = al * u1 2%Z + n2 * u2 2%Z) by (rewrite <- B2, Q2; ring).
  assert (N3 : dt a3 a3 <> 0).
  { intros N. unfold dt in N. assert (a3 0%Z = 0 /\ a3 1%Z = 0 /\ a3 2%Z = 0) as (A & B & C) by (repeat split; nra).
    rewrite Q3 in A, B, C. assert (A' : e3 0%Z = be * u1 0%Z + ga * u2 0%Z) by lra. assert (B' : e3 1%Z = be * u1 1%Z + ga * u2 1%Z) by lra. assert (C' : e3 2%Z = be * u1 2%Z + ga * u2 2%Z) by lra.
    unfold det3 in HD. rewrite A0, A1, A2, A', B', C', F0, F1, F2 in HD.
    assert (0 < 0); [|lra]. eapply Rlt_le_trans; [exact HD|]. right. ring. }
  destruct (unit3_spec a3 N3) as (n3 & P3 & U3 & C0 & C1 & C2). fold u3 in U3, C0, C1, C2.
  assert (O13 : dt u1 u3 = 0).
  { assert (n3 * dt u1 u3 = 0); [|nra]. transitivity (dt u1 a3); [unfold dt; rewrite C0, C1, C2; ring|].
    transitivity (dt e3 u1 - be * dt u1 u1 - ga * dt u1 u2); [unfold dt at 1; rewrite !Q3; unfold dt; ring|]. rewrite U1, O12. unfold be. ring. }
  assert (O23 : dt u2 u3 = 0).
  { assert (n3 * dt u2 u3 = 0); [|nra]. transitivity (dt u2 a3); [unfold dt; rewrite C0, C1, C2; ring|].
    transitivity (dt e3 u2 - be * dt u1 u2 - ga * dt u2 u2); [unfold dt at 1; rewrite !Q3; unfold dt; ring|]. rewrite U2, O12. unfold ga. ring. }
  assert (G0 : e3 0%Z = be * u1 0%Z + ga * u2 0%Z + n3 * u3 0%Z) by (rewrite <- C0, Q3; ring).
  assert (G1 : e3 1%Z = be * u1 1%Z + ga * u2 1%Z + n3 * u3 1%Z) by (rewrite <- C1, Q3; ring).
  assert (G2 : e3 2%Z = be * u1 2%Z + ga * u2 2%Z + n3 * u3 2%Z) by (rewrite <- C2, Q3; ring).
  destruct (triple (u1 0%Z) (u1 1%Z) (u1 2%Z) (u2 0%Z) (u2 1%Z) (u2 2%Z) (u3 0%Z) (u3 1%Z) (u3 2%Z) U1 U2 U3 O12 O13 O23) as (TT & W0 & W1 & W2).
  set (t := u3 0%Z * _ + _ + _) in *.
  assert (DE : det3 e1 e2 e3 = n1 * n2 * n3 * t).
  { unfold det3. rewrite A0, A1, A2, F0, F1, F2, G0, G1, G2. unfold t. ring. }
  assert (St : s * t = 1).
  { rewrite DE in HD. assert (0 < n1 * n2 * n3) by (repeat apply Rmult_lt_0_compat; auto). assert (0 < s * t) by (apply (Rmult_lt_reg_l (n1 * n2 * n3)); lra).
    assert ((s * t) * (s * t) = 1) by (transitivity ((s * s) * (t * t)); [ring|rewrite Ss, TT; ring]). nra. }
  rewrite (term_R 3). change (zrange 3) with [0; 1; 2]%Z. cbn [lprod]. rewrite !dotN3.
  replace (upd L2 2%Z u3 0%Z) with u1 by reflexivity. replace (upd L2 2%Z u3 1%Z) with u2 by reflexivity. replace (upd L2 2%Z u3 2%Z) with u3 by reflexivity.
  change (0 + 1)%Z with 1%Z. change (1 + 1)%Z with 2%Z. change (2 + 1)%Z with 3%Z.
  transitivity (dt u1 x * dt u2 x * dt u3 x / 6); [match goal with |- @eq _ ?a ?b => change (@eq R a b) end; field|].
  f_equal. unfold F3.
  assert (D1 : dt e1 x = n1 * dt u1 x) by (unfold dt; rewrite A0, A1, A2; ring).
  assert (D2 : dt e1 e1 = n1 * n1) by (transitivity (n1 * n1 * dt u1 u1); [unfold dt; rewrite A0, A1, A2; ring|rewrite U1; ring]).
  assert (D3 : dt e2 x = al * dt u1 x + n2 * dt u2 x) by (unfold dt; rewrite F0, F1, F2; ring).
  assert (D4 : dt e1 e2 = n1 * al) by (transitivity (n1 * al * dt u1 u1 + n1 * n2 * dt u1 u2); [unfold dt; rewrite A0, A1, A2, F0, F1, F2; ring|rewrite U1, O12; ring]).
  assert (R0 : cr e1 e2 0%Z = n1 * n2 * (t * u3 0%Z)) by (rewrite <- W0; unfold cr; cbn [Z.eqb Pos.eqb]; rewrite A1, A2, F1, F2; ring).
  assert (R1 : cr e1 e2 1%Z = n1 * n2 * (t * u3 1%Z)) by (rewrite <- W1; unfold cr; cbn [Z.eqb Pos.eqb]; rewrite A0, A2, F0, F2; ring).
  assert (R2 : cr e1 e2 2%Z = n1 * n2 * (t * u3 2%Z)) by (rewrite <- W2; unfold cr; cbn [Z.eqb Pos.eqb]; rewrite A1, A0, F1, F0; ring).
  assert (D5 : dt (cr e1 e2) x = n1 * n2 * t * dt u3 x) by (unfold dt; rewrite R0, R1, R2; ring).
  assert (D6 : dt (cr e1 e2) (cr e1 e2) = n1 * n1 * n2 * n2) by (transitivity (n1 * n1 * n2 * n2 * (t * t) * dt u3 u3); [unfold dt; rewrite R0, R1, R2; ring|rewrite U3, TT; ring]).
  rewrite D1, D2, D3, D4, D5, D6. transitivity ((s * t) * (dt u1 x * dt u2 x * dt u3 x)); [rewrite St; ring|]. field. lra.
Qed.

Lemma free3 : free 3 (fun _ => false) = [0; 1; 2]%Z. Proof. reflexivity. Qed.
Definition V3f (x : vec) (E : Z -> vec) (i : Z) : R :=
  F3 x (E i) (E ((i + 1) mod 3)%Z) 1 + F3 x (E i) (E ((i + 2) mod 3)%Z) (-1).
(** all flags of a vertex *)
Lemma vertex3 (x : vec) (E : Z -> vec) : 0 < det3 (E 0%Z) (E 1%Z) (E 2%Z) ->
  @eq R (vertexN RN 3 x E) ((V3f x E 0 + V3f x E 1 + V3f x E 2) / 6).
Proof.
  intros HD. set (L := fun _ _ : Z => 0).
  assert (T : forall s i j k, s * s = 1 -> 0 < s * det3 (E i) (E j) (E k) -> 
     @eq R (flagsN RN 3 0 x E (upd (upd (upd (fun _ => false) i true) j true) k true)
       (upd (upd (upd L 0%Z (unitN RN 3 (orthN RN 3 L 0 (E i)))) 1%Z (unitN RN 3 (orthN RN 3 (upd L 0%Z (unitN RN 3 (orthN RN 3 L 0 (E i)))) 1 (E j)))) 2%Z
         (unitN RN 3 (orthN RN 3 (upd (upd L 0%Z (unitN RN 3 (orthN RN 3 L 0 (E i)))) 1%Z (unitN RN 3 (orthN RN 3 (upd L 0%Z (unitN RN 3 (orthN RN 3 L 0 (E i)))) 1 (E j)))) 2 (E k)))))
      (F3 x (E i) (E j) s / 6)).
  { intros s i j k Ss H. exact (flag3_term x (E i) (E j) (E k) L s Ss H). }
  unfold vertexN. change (Z.to_nat 3) with 3%nat. change (n0 RN) with 0. fold L.
  rewrite (flags_S 3). change (3 - Z.of_nat 3)%Z with 0%Z. rewrite free3. cbn [lsum].
  assert (T2 : forall s i j k, s * s = 1 -> 0 < s * det3 (E i) (E j) (E k) -> free 3 (upd (fun _ => false) i true) = [j; k] \/ free 3 (upd (fun _ => false) i true) = [k; j] ->
     free 3 (upd (upd (fun _ => false) i true) j true) = [k] -> free 3 (upd (upd (fun _ => false) i true) k true) = [j] ->
     @eq R (flagsN RN 3 2 x E (upd (fun _ => false) i true) (upd L 0%Z (unitN RN 3 (orthN RN 3 L 0 (E i))))) (F3 x (E i) (E j) s / 6 + F3 x (E i) (E k) (- s) / 6)).
  { intros s i j k Ss H F1 F2 F3'. rewrite (flags_S 3). change (3 - Z.of_nat 2)%Z with 1%Z.
    assert (H' : 0 < - s * det3 (E i) (E k) (E j)) by (replace (- s * det3 (E i) (E k) (E j)) with (s * det3 (E i) (E j) (E k)) by (unfold det3; ring); auto).
    assert (G : forall j k s, s * s = 1 -> 0 < s * det3 (E i) (E j) (E k) -> free 3 (upd (upd (fun _ => false) i true) j true) = [k] ->
      @eq R (flagsN RN 3 1 x E (upd (upd (fun _ => false) i true) j true) (upd (upd L 0%Z (unitN RN 3 (orthN RN 3 L 0 (E i)))) 1%Z (unitN RN 3 (orthN RN 3 (upd L 0%Z (unitN RN 3 (orthN RN 3 L 0 (E i)))) 1 (E j))))) (F3 x (E i) (E j) s / 6)).
    { intros j' k' s' Ss' HH FF. rewrite (flags_S 3), FF. cbn [lsum]. change (3 - Z.of_nat 1)%Z with 2%Z. rewrite (T s') by auto.
      match goal with |- @eq _ ?a ?b => change (@eq R a b) end. ring. }
    pose proof (G j k s Ss H F2) as G1. pose proof (G k j (- s) ltac:(transitivity (s * s); auto; ring) H' F3') as G2.
    destruct F1 as [F1|F1]; rewrite F1; cbn [lsum].
    - transitivity (F3 x (E i) (E j) s / 6 + (F3 x (E i) (E k) (- s) / 6 + 0)); [|ring]. apply (f_equal2 Rplus); [exact G1|apply (f_equal2 Rplus); [exact G2|reflexivity]].
    - transitivity (F3 x (E i) (E k) (- s) / 6 + (F3 x (E i) (E j) s / 6 + 0)); [|ring]. apply (f_equal2 Rplus); [exact G2|apply (f_equal2 Rplus); [exact G1|reflexivity]]. }
  assert (H1 : 0 < 1 * det3 (E 0%Z) (E 1%Z) (E 2%Z)) by lra.
  assert (H2 : 0 < 1 * det3 (E 1%Z) (E 2%Z) (E 0%Z)) by (replace (1 * det3 (E 1%Z) (E 2%Z) (E 0%Z)) with (det3 (E 0%Z) (E 1%Z) (E 2%Z)) by (unfold det3; ring); auto).
  assert (H3 : 0 < 1 * det3 (E 2%Z) (E 0%Z) (E 1%Z)) by (replace (1 * det3 (E 2%Z) (E 0%Z) (E 1%Z)) with (det3 (E 0%Z) (E 1%Z) (E 2%Z)) by (unfold det3; ring); auto).
  assert (S1 : 1 * 1 = 1) by ring.
  pose proof (T2 1 0%Z 1%Z 2%Z S1 H1 (or_introl eq_refl) eq_refl eq_refl) as A0.
  pose proof (T2 1 1%Z 2%Z 0%Z S1 H2 (or_intror eq_refl) eq_refl eq_refl) as A1.
  pose proof (T2 1 2%Z 0%Z 1%Z S1 H3 (or_introl eq_refl) eq_refl eq_refl) as A2.
  etransitivity; [apply (f_equal2 Rplus); [exact A0|apply (f_equal2 Rplus); [exact A1|apply (f_equal2 Rplus); [exact A2|reflexivity]]]|].
  unfold V3f. change ((0 + 1) mod 3)%Z with 1%Z. change ((0 + 2) mod 3)%Z with 2%Z. change ((1 + 1) mod 3)%Z with 2%Z. change ((1 + 2) mod 3)%Z with 0%Z.
  change ((2 + 1) mod 3)%Z with 0%Z. change ((2 + 2) mod 3)%Z with 1%Z. replace (Ropp 1) with (-1) by ring. field.
Qed.
