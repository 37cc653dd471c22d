(** * SumR: finite real sums over lists, and sums over permuted index sets. *)
From Coq Require Import Reals ZArith List Bool Lia Lra Permutation.
From Verif Require Import Base Lib.
Import ListNotations.
Open Scope R_scope.

Section S.
Context {A : Type}.
Fixpoint lsum (l : list A) (f : A -> R) : R := match l with [] => 0 | a :: r => f a + lsum r f end.

Lemma lsum_app l l' f : lsum (l ++ l') f = lsum l f + lsum l' f.
Proof. induction l; cbn; [lra|]. rewrite IHl. lra. Qed.
Lemma lsum_ext l f g : (forall a, In a l -> f a = g a) -> lsum l f = lsum l g.
Proof. intros E. induction l; cbn; auto. rewrite IHl, E; auto; intros; try apply E; cbn; auto. Qed.
Lemma lsum_add l f g : lsum l (fun a => f a + g a) = lsum l f + lsum l g.
Proof. induction l; cbn; lra. Qed.
Lemma lsum_sub l f g : lsum l (fun a => f a - g a) = lsum l f - lsum l g.
Proof. induction l; cbn; lra. Qed.
Lemma lsum_scal l c f : lsum l (fun a => c * f a) = c * lsum l f.
Proof. induction l; cbn; lra. Qed.
Lemma lsum_0 l f : (forall a, In a l -> f a = 0) -> lsum l f = 0.
Proof. intros E. induction l; cbn; auto. rewrite IHl, E; try lra; intros; try apply E; cbn; auto. Qed.
Lemma lsum_perm l l' f : Permutation l l' -> lsum l f = lsum l' f.
Proof. induction 1; cbn; lra. Qed.
Lemma lsum_filter (K : A -> bool) l f :
  lsum (filter K l) f = lsum l (fun a => if K a then f a else 0).
Proof. induction l; cbn; auto. destruct (K a); cbn; lra. Qed.
Lemma lsum_split (K : A -> bool) l f :
  lsum l f = lsum (filter K l) f + lsum (filter (fun a => negb (K a)) l) f.
Proof. induction l; cbn; [lra|]. destruct (K a); cbn; lra. Qed.
Lemma fold_left_lsum l f : forall q, fold_left (fun q a => q + f a) l q = q + lsum l f.
Proof. induction l; cbn; intros; [lra|]. rewrite IHl. lra. Qed.
End S.

Lemma lsum_map {A B} (h : A -> B) l f : lsum (map h l) f = lsum l (fun a => f (h a)).
Proof. induction l; cbn; auto. now rewrite IHl. Qed.
Lemma lsum_flat_map {A B} (h : A -> list B) l f : lsum (flat_map h l) f = lsum l (fun a => lsum (h a) f).
Proof. induction l; cbn; auto. now rewrite lsum_app, IHl. Qed.

(** [h] maps [l] onto [l'], one to one. *)
Lemma bij_perm {A B} (h : A -> B) l l' : NoDup l -> NoDup l' ->
  (forall a, In a l -> In (h a) l') ->
  (forall a b, In a l -> In b l -> h a = h b -> a = b) ->
  (forall b, In b l' -> exists a, In a l /\ h a = b) ->
  Permutation (map h l) l'.
Proof.
  intros N N' HI HJ HS. apply NoDup_Permutation; auto.
  - clear HI HS N'. induction l; cbn; constructor.
    + intros X. apply in_map_iff in X as (b & E & Hb). inversion N; subst.
      apply HJ in E; cbn; auto. subst. contradiction.
    + inversion N; subst. apply IHl; auto. intros. apply HJ; cbn; auto.
  - intros x. rewrite in_map_iff. split.
    + intros (a & <- & Ha). auto.
    + intros Hx. destruct (HS x Hx) as (a & Ha & <-). eauto.
Qed.
Lemma lsum_bij {A B} (h : A -> B) l l' (f : B -> R) : NoDup l -> NoDup l' ->
  (forall a, In a l -> In (h a) l') ->
  (forall a b, In a l -> In b l -> h a = h b -> a = b) ->
  (forall b, In b l' -> exists a, In a l /\ h a = b) ->
  lsum l (fun a => f (h a)) = lsum l' f.
Proof. intros. rewrite <- lsum_map. apply lsum_perm, bij_perm; auto. Qed.
