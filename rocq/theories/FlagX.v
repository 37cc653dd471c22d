(** * FlagX: sums over flags, abstractly.

    Flags [a] with orthonormal frames [u 0 a, u 1 a, ...] and exchanges [T j]: [T 0] moves
    along the first edge, [T (j+1)] swaps the edges [j] and [j+1].  The sum over all flags
    of the products of the heights of [x a] along the frame does not change when [x] is
    shifted, and is not negative. *)
From Coq Require Import Reals ZArith List Bool Lia Lra.
From Verif Require Import Lib SumR PolyN.
Import ListNotations.
Open Scope R_scope.

Section X.
Context {A : Type} (fl : list A) (D : Z) (T : nat -> A -> A) (u : nat -> A -> Z -> R) (x : A -> Z -> R) (M : nat).
Definition dotR (a c : Z -> R) : R := lsum (zrange D) (fun j => a j * c j).
Lemma dotR_sub a b c : dotR a (fun k => b k - c k) = dotR a b - dotR a c.
Proof. unfold dotR. rewrite <- lsum_sub. apply lsum_ext. intros. ring. Qed.
Fixpoint pr (m : nat) (y : A -> Z -> R) (a : A) : R := match m with O => 1 | S k => pr k y a * dotR (u k a) (y a) end.

Hypothesis ND : NoDup fl.
Hypothesis Tin : forall j a, (j < M)%nat -> In a fl -> In (T j a) fl.
Hypothesis Tinv : forall j a, (j < M)%nat -> In a fl -> T j (T j a) = a.
Hypothesis Uj : forall j k a y, (j < M)%nat -> (k < M)%nat -> In a fl -> k <> j -> S k <> j -> dotR (u k (T j a)) y = dotR (u k a) y.
Hypothesis U0 : forall a y, In a fl -> dotR (u 0 (T 0 a)) y = - dotR (u 0 a) y.
Hypothesis W : forall j a y t, (S j < M)%nat -> In a fl ->
  dotR (u j (T (S j) a)) y * dotR (u (S j) (T (S j) a)) t - dotR (u (S j) (T (S j) a)) y * dotR (u j (T (S j) a)) t
  = - (dotR (u j a) y * dotR (u (S j) a) t - dotR (u (S j) a) y * dotR (u j a) t).
Hypothesis Xj : forall j a, (S j < M)%nat -> In a fl -> x (T (S j) a) = x a.
Hypothesis X0 : forall k a, (0 < k < M)%nat -> In a fl -> dotR (u k a) (x (T 0 a)) = dotR (u k a) (x a).

Definition inv {B} (m : nat) (F : A -> B) : Prop := forall j a, (j < m)%nat -> In a fl -> F (T j a) = F a.

Lemma sumT j F : (j < M)%nat -> lsum fl (fun a => F (T j a)) = lsum fl F.
Proof.
  intros Hj. apply lsum_bij; auto.
  - intros a b Ha Hb E. rewrite <- (Tinv j a), <- (Tinv j b), E; auto.
  - intros b Hb. exists (T j b). auto.
Qed.
Lemma sum_odd j F : (j < M)%nat -> (forall a, In a fl -> F (T j a) = - F a) -> lsum fl F = 0.
Proof.
  intros Hj H. pose proof (sumT j F Hj) as E. rewrite (lsum_ext fl _ (fun a => -1 * F a)) in E by (intros; rewrite H by auto; ring).
  rewrite lsum_scal in E. lra.
Qed.
(** the height of [x] along [u m] is the same all over an [m]-face *)
Lemma height_inv m (t : A -> Z -> R) : (m < M)%nat -> inv m t -> inv m (fun a => dotR (u m a) (fun k => x a k - t a k)).
Proof.
  intros Hm Ht j a Hj Ha. cbv beta. rewrite Uj by (auto; lia). rewrite !dotR_sub. rewrite Ht by auto. f_equal.
  destruct j; [apply X0; auto; lia|]. rewrite Xj; auto. lia.
Qed.
Lemma pr_swap m a : (S m < M)%nat -> In a fl -> pr m x (T (S m) a) = pr m x a.
Proof.
  intros Hm Ha. assert (G : forall k, (k <= m)%nat -> pr k x (T (S m) a) = pr k x a); [|apply G; lia].
  induction k as [|k IH]; intros Hk; cbn [pr]; auto. rewrite IH by lia. rewrite Xj, Uj by (auto; lia). reflexivity.
Qed.

Lemma stokes m : forall (psi : A -> R) (t : A -> Z -> R), (m < M)%nat -> inv (S m) psi -> inv (S m) t ->
  lsum fl (fun a => psi a * pr m x a * dotR (u m a) (t a)) = 0.
Proof.
  induction m as [|m IH]; intros psi t Hm Hp Ht.
  - apply (sum_odd 0); auto. intros a Ha. cbn [pr]. rewrite U0, Hp, Ht by (auto; lia). ring.
  - assert (B : lsum fl (fun a => psi a * pr m x a * (dotR (u m a) (x a) * dotR (u (S m) a) (t a) - dotR (u (S m) a) (x a) * dotR (u m a) (t a))) = 0).
    { apply (sum_odd (S m)); auto. intros a Ha. rewrite pr_swap, Xj, Hp, Ht by (auto; lia). rewrite W by auto. ring. }
    assert (C : lsum fl (fun a => (psi a * dotR (u (S m) a) (x a)) * pr m x a * dotR (u m a) (t a)) = 0).
    { apply (IH (fun a => psi a * dotR (u (S m) a) (x a))); [lia| |].
      - intros j a Hj Ha. cbv beta. rewrite Hp by (auto; lia). f_equal. rewrite Uj by (auto; lia). destruct j; [apply X0; auto; lia|]. rewrite Xj; auto. lia.
      - intros j a Hj Ha. apply Ht; auto. }
    rewrite <- (Rplus_0_r 0). rewrite <- B at 1. rewrite <- C, <- lsum_add. apply lsum_ext. intros a _. cbn [pr]. ring.
Qed.

Lemma pr_shift m : forall (psi : A -> R) (t : A -> Z -> R), (m <= M)%nat -> inv m psi -> inv m t ->
  lsum fl (fun a => psi a * pr m (fun a k => x a k - t a k) a) = lsum fl (fun a => psi a * pr m x a).
Proof.
  induction m as [|m IH]; intros psi t Hm Hp Ht; [reflexivity|]. cbn [pr].
  transitivity (lsum fl (fun a => (psi a * dotR (u m a) (fun k => x a k - t a k)) * pr m (fun a k => x a k - t a k) a)); [apply lsum_ext; intros; ring|].
  rewrite (IH (fun a => psi a * dotR (u m a) (fun k => x a k - t a k))); [|lia| |].
  - rewrite (lsum_ext fl _ (fun a => psi a * (pr m x a * dotR (u m a) (x a)) - psi a * pr m x a * dotR (u m a) (t a))).
    + rewrite lsum_sub, stokes by (auto; lia). ring.
    + intros a _. rewrite dotR_sub. ring.
  - intros j a Hj Ha. cbv beta. rewrite Hp by (auto; lia). f_equal. apply (height_inv m t); auto; intros j' a' Hj' Ha'; apply Ht; auto.
  - intros j a Hj Ha. apply Ht; auto.
Qed.

Lemma pr_nonneg (o : nat -> A -> Z -> R) m : forall psi : A -> R, (m <= M)%nat -> inv m psi -> (forall a, In a fl -> 0 <= psi a) ->
  (forall k, (k < M)%nat -> inv (S k) (o k)) -> (forall k a, (k < M)%nat -> In a fl -> 0 <= dotR (u k a) (fun i => x a i - o k a i)) ->
  0 <= lsum fl (fun a => psi a * pr m x a).
Proof.
  induction m as [|m IH]; intros psi Hm Hp H0 Ho Hx.
  - apply lsum_nonneg. intros a Ha. cbn [pr]. specialize (H0 a Ha). lra.
  - rewrite <- (pr_shift (S m) psi (o m)) by auto. cbn [pr].
    rewrite (lsum_ext fl _ (fun a => (psi a * dotR (u m a) (fun k => x a k - o m a k)) * pr m (fun a k => x a k - o m a k) a)) by (intros; ring).
    assert (Ho' : inv m (o m)) by (intros j a Hj Ha; apply Ho; auto).
    assert (Hi : inv m (fun a => psi a * dotR (u m a) (fun k => x a k - o m a k))).
    { intros j a Hj Ha. cbv beta. rewrite Hp by (auto; lia). f_equal. apply (height_inv m (o m)); auto. }
    rewrite (pr_shift m (fun a => psi a * dotR (u m a) (fun k => x a k - o m a k)) (o m)) by (auto; lia).
    apply IH; auto; try lia. intros a Ha. apply Rmult_le_pos; auto.
Qed.
End X.
