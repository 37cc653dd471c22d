(** * HPoly: complete homogeneous coefficient arrays

    [H ps i j k] is the coefficient of [s^i t^j u^k] in the product over the
    points [p] of [ps] of [1 / (1 - p.x s - p.y t - p.z u)].  The 2D code uses
    the slice [k = 0].  Pure algebra over [R]; no part of the program. *)
From Coq Require Import Reals List Arith Lia Lra.
Import ListNotations.
Open Scope R_scope.

Record pt := P3 { px : R; py : R; pz : R }.
Definition arr := nat -> nat -> nat -> R.
Definition aeq (A B : arr) := forall i j k, A i j k = B i j k.
Infix "==" := aeq (at level 70).

Definition s1 (A : arr) : arr := fun i j k => match i with O => 0 | S i' => A i' j k end.
Definition s2 (A : arr) : arr := fun i j k => match j with O => 0 | S j' => A i j' k end.
Definition s3 (A : arr) : arr := fun i j k => match k with O => 0 | S k' => A i j k' end.
(** multiplication by the linear form of [p] *)
Definition M (p : pt) (A : arr) : arr :=
  fun i j k => px p * s1 A i j k + py p * s2 A i j k + pz p * s3 A i j k.
Definition aadd (A B : arr) : arr := fun i j k => A i j k + B i j k.
Definition ascal (c : R) (A : arr) : arr := fun i j k => c * A i j k.
Definition aone : arr := fun i j k => match i, j, k with O, O, O => 1 | _, _, _ => 0 end.

(** division by [1 - p] *)
Definition geo (p : pt) (A : arr) : arr :=
  fix gi i := fix gj j := fix gk k :=
    A i j k + (match i with O => 0 | S i' => px p * gi i' j k end)
            + (match j with O => 0 | S j' => py p * gj j' k end)
            + (match k with O => 0 | S k' => pz p * gk k' end).

Fixpoint H (ps : list pt) : arr :=
  match ps with [] => aone | p :: r => geo p (H r) end.

Lemma geo_eq p A : geo p A == aadd A (M p (geo p A)).
Proof.
  intros i j k. unfold aadd, M, s1, s2, s3.
  destruct i, j, k; cbn; ring.
Qed.

Lemma aeq_refl A : A == A. Proof. intros i j k. reflexivity. Qed.
Lemma aeq_sym A B : A == B -> B == A. Proof. intros E i j k. now rewrite E. Qed.
Lemma aeq_trans A B C : A == B -> B == C -> A == C.
Proof. intros E F i j k. now rewrite E, F. Qed.

Lemma M_ext p A B : A == B -> M p A == M p B.
Proof. intros E [|i] [|j] [|k]; unfold M, s1, s2, s3; rewrite ?E; reflexivity. Qed.
Lemma M_lin p c A d B : M p (aadd (ascal c A) (ascal d B)) == aadd (ascal c (M p A)) (ascal d (M p B)).
Proof. intros [|i] [|j] [|k]; unfold M, s1, s2, s3, aadd, ascal; ring. Qed.
Lemma M_comm p q A : M p (M q A) == M q (M p A).
Proof. intros [|[|i]] [|[|j]] [|[|k]]; unfold M, s1, s2, s3; ring. Qed.

(** [X = B + p X] has one solution. *)
Lemma geo_unique p A X : X == aadd A (M p X) -> X == geo p A.
Proof.
  intros EX.
  assert (G : forall n i j k, (i + j + k < n)%nat -> X i j k = geo p A i j k).
  { induction n; intros i j k L; [lia|].
    rewrite (EX i j k), (geo_eq p A i j k). unfold aadd, M, s1, s2, s3.
    destruct i, j, k; rewrite ?IHn by lia; reflexivity. }
  intros i j k. apply (G (S (i + j + k))). lia.
Qed.

Lemma geo_ext p A B : A == B -> geo p A == geo p B.
Proof.
  intros E. apply geo_unique. intros i j k. rewrite geo_eq. unfold aadd. now rewrite E.
Qed.
Lemma geo_lin p c A d B :
  geo p (aadd (ascal c A) (ascal d B)) == aadd (ascal c (geo p A)) (ascal d (geo p B)).
Proof.
  apply aeq_sym, geo_unique. intros i j k. unfold aadd at 1 2.
  rewrite (M_lin p c (geo p A) d (geo p B) i j k). unfold ascal, aadd.
  rewrite (geo_eq p A i j k), (geo_eq p B i j k). unfold aadd. ring.
Qed.

Definition sub1 (p : pt) (A : arr) : arr := fun i j k => A i j k - M p A i j k.
Lemma sub1_geo p A : sub1 p (geo p A) == A.
Proof. intros i j k. unfold sub1. rewrite (geo_eq p A i j k). unfold aadd. ring. Qed.
Lemma geo_sub1 p A : geo p (sub1 p A) == A.
Proof. apply aeq_sym, geo_unique. intros i j k. unfold aadd, sub1. ring. Qed.
Lemma sub1_ext p A B : A == B -> sub1 p A == sub1 p B.
Proof. intros E i j k. unfold sub1. rewrite E. now rewrite (M_ext p A B E). Qed.
Lemma sub1_inj p A B : sub1 p A == sub1 p B -> A == B.
Proof.
  intros E. eapply aeq_trans; [apply aeq_sym, (geo_sub1 p)|].
  eapply aeq_trans; [apply geo_ext; eauto|apply geo_sub1].
Qed.
Lemma sub1_M p q A : sub1 p (M q A) == M q (sub1 p A).
Proof. intros [|[|i]] [|[|j]] [|[|k]]; unfold sub1, M, s1, s2, s3; ring. Qed.

Lemma geo_M p q A : geo p (M q A) == M q (geo p A).
Proof.
  apply (sub1_inj p). eapply aeq_trans; [apply sub1_geo|].
  eapply aeq_trans; [|apply aeq_sym, sub1_M]. apply M_ext, aeq_sym, sub1_geo.
Qed.

Lemma geo_comm p q A : geo p (geo q A) == geo q (geo p A).
Proof.
  apply geo_unique.
  eapply aeq_trans; [apply (geo_ext p), (geo_eq q A)|].
  intros a b c.
  transitivity (aadd (ascal 1 (geo p A)) (ascal 1 (geo p (M q (geo q A)))) a b c).
  - rewrite <- (geo_lin p 1 A 1 (M q (geo q A)) a b c). apply geo_ext.
    intros x y z. unfold aadd, ascal. ring.
  - unfold aadd, ascal. rewrite (geo_M p q (geo q A) a b c). ring.
Qed.

Lemma H_swap p q ps : H (p :: q :: ps) == H (q :: p :: ps).
Proof. apply geo_comm. Qed.
Lemma H_drop p ps : H ps == sub1 p (H (p :: ps)).
Proof. apply aeq_sym, sub1_geo. Qed.
Lemma H_zero ps : H (P3 0 0 0 :: ps) == H ps.
Proof.
  intros i j k. change (H (P3 0 0 0 :: ps) i j k) with (geo (P3 0 0 0) (H ps) i j k).
  rewrite geo_eq. unfold aadd, M. cbn. ring.
Qed.

(** Value at degree 0. *)
Lemma H_000 ps : H ps 0%nat 0%nat 0%nat = 1.
Proof. induction ps; cbn; auto. rewrite IHps. ring. Qed.

(** ** Triangles: the 2D cocycle *)
Definition cross (a b : pt) := px a * py b - py a * px b.
Definition psub (a b : pt) := P3 (px a - px b) (py a - py b) (pz a - pz b).
Definition padd (a b : pt) := P3 (px a + px b) (py a + py b) (pz a + pz b).
Definition pscal (c : R) (a : pt) := P3 (c * px a) (c * py a) (c * pz a).
Definition flat (A : arr) (i j : nat) := A i j 0%nat.

Lemma H_perm3 a b c : H [b; c; a] == H [a; b; c].
Proof.
  eapply aeq_trans; [apply (geo_ext b), (H_swap c a [])|].
  apply (H_swap b a [c]).
Qed.

Lemma cross_cocycle a b c i j :
  cross a b * H [a; b] i j 0%nat + cross b c * H [b; c] i j 0%nat + cross c a * H [c; a] i j 0%nat
  = cross (psub b a) (psub c a) * H [a; b; c] i j 0%nat.
Proof.
  pose proof (H_drop c [a; b] i j 0%nat) as E1.
  pose proof (H_drop a [b; c] i j 0%nat) as E2.
  pose proof (H_drop b [c; a] i j 0%nat) as E3.
  assert (F1 : H [c; a; b] == H [a; b; c]).
  { apply aeq_sym. eapply aeq_trans; [apply aeq_sym, (H_perm3 a b c)|apply aeq_sym, (H_perm3 b c a)]. }
  assert (F3 : H [b; c; a] == H [a; b; c]) by apply H_perm3.
  rewrite E1, E2, E3.
  rewrite (sub1_ext c _ _ F1 i j 0%nat), (sub1_ext b _ _ F3 i j 0%nat).
  unfold sub1, M, cross, s1, s2, s3. cbn [px py pz psub].
  generalize (H [a; b; c]). intros A. destruct i, j; ring.
Qed.

(** ** Tetrahedra: the 3D cocycle *)
Definition det3 (a b c : pt) :=
  px a * (py b * pz c - pz b * py c) - py a * (px b * pz c - pz b * px c)
  + pz a * (px b * py c - py b * px c).

Lemma H_rot4 a b c d : H [b; c; d; a] == H [a; b; c; d].
Proof.
  eapply aeq_trans; [apply (geo_ext b), (geo_ext c), (H_swap d a [])|].
  eapply aeq_trans; [apply (geo_ext b), (H_swap c a [d])|]. apply (H_swap b a [c; d]).
Qed.

Lemma det_cocycle a b c d :
  forall i j k,
  det3 a b c * H [a; b; c] i j k - det3 a b d * H [a; b; d] i j k
  + det3 a c d * H [a; c; d] i j k - det3 b c d * H [b; c; d] i j k
  = - det3 (psub b a) (psub c a) (psub d a) * H [a; b; c; d] i j k.
Proof.
  intros i j k.
  assert (F1 : H [d; a; b; c] == H [a; b; c; d]) by (apply aeq_sym, H_rot4).
  assert (F2 : H [c; a; b; d] == H [a; b; c; d]).
  { eapply aeq_trans; [apply (H_swap c a [b; d])|]. apply (geo_ext a), (H_swap c b [d]). }
  assert (F3 : H [b; a; c; d] == H [a; b; c; d]) by apply (H_swap b a [c; d]).
  rewrite (H_drop d [a; b; c] i j k), (H_drop c [a; b; d] i j k),
    (H_drop b [a; c; d] i j k), (H_drop a [b; c; d] i j k).
  rewrite (sub1_ext d _ _ F1 i j k), (sub1_ext c _ _ F2 i j k), (sub1_ext b _ _ F3 i j k).
  unfold sub1, M, det3, s1, s2, s3. cbn [px py pz psub].
  generalize (H [a; b; c; d]). intros A. destruct i, j, k; ring.
Qed.
