(** * FlagR: the sum over flags at a vertex, over the reals: scaling and reversing edge
    vectors, renumbering the edges, and edges along the axes. *)
From Coq Require Import Reals ZArith List Bool Lia Lra Permutation.
From Verif Require Import Base Lib SumR RealNum SpecNR RedN.
Import ListNotations.
Open Scope R_scope.

Ltac rr := match goal with |- @eq _ ?a ?b => change (@eq R a b) end; ring.
Fixpoint lprod {A} (l : list A) (f : A -> R) : R := match l with [] => 1 | a :: r => f a * lprod r f end.
Lemma lprod_app {A} (l l' : list A) f : lprod (l ++ l') f = lprod l f * lprod l' f.
Proof. induction l; cbn; [lra|]. rewrite IHl. lra. Qed.
Lemma lprod_ext {A} (l : list A) f g : (forall a, In a l -> f a = g a) -> lprod l f = lprod l g.
Proof. intros E. induction l; cbn; auto. rewrite IHl, E; auto; intros; try apply E; cbn; auto. Qed.
Lemma lprod_perm {A} (l l' : list A) f : Permutation l l' -> lprod l f = lprod l' f.
Proof. induction 1; cbn; [reflexivity|now rewrite IHPermutation|ring|congruence]. Qed.
Lemma lprod_mul {A} (l : list A) f g : lprod l (fun a => f a * g a) = lprod l f * lprod l g.
Proof. induction l; cbn; [lra|]. rewrite IHl. ring. Qed.
Lemma lprod_1 {A} (l : list A) f : (forall a, In a l -> f a = 1) -> lprod l f = 1.
Proof. intros E. induction l; cbn; auto. rewrite IHl, E; try lra; cbn; auto. intros. apply E. cbn. auto. Qed.
Lemma lprod_map {A B} (h : A -> B) l f : lprod (map h l) f = lprod l (fun a => f (h a)).
Proof. induction l; cbn; auto. now rewrite IHl. Qed.

Definition free (D : Z) (u : Z -> bool) : list Z := filter (fun i => negb (u i)) (zrange D).
Lemma in_free D u i : In i (free D u) <-> (0 <= i < D)%Z /\ u i = false.
Proof. unfold free. rewrite filter_In, in_zrange, negb_true_iff. reflexivity. Qed.
Lemma NoDup_free D u : NoDup (free D u).
Proof. apply NoDup_filter, NoDup_zrange. Qed.
Lemma free_upd D u i : In i (free D u) -> Permutation (free D u) (i :: free D (upd u i true)).
Proof.
  intros H. apply NoDup_Permutation; [apply NoDup_free| |].
  - constructor; [|apply NoDup_free]. rewrite in_free. intros (_ & X). rewrite upd_eq in X. discriminate.
  - intros j. cbn [In]. rewrite !in_free. apply in_free in H as (H1 & H2). unfold upd. destruct (Z.eqb_spec j i) as [->|].
    + split; [now left|]. intros [_|(_ & X)]; [auto|discriminate].
    + split; [intros X; now right|]. intros [X|X]; [congruence|auto].
Qed.
Lemma free_length D u i k : In i (free D u) -> length (free D u) = S k -> length (free D (upd u i true)) = k.
Proof. intros H E. pose proof (Permutation_length (free_upd D u i H)) as P. cbn in P. lia. Qed.

Section F.
Context (D : Z).
Hypothesis HD : (0 <= D)%Z.
Notation vec := (Z -> R).
Notation dotN := (dotN RN D).
Notation orthN := (orthN RN D).
Notation unitN := (unitN RN D).
Notation termN := (termN RN D).
Notation flagsN := (flagsN RN D).
Notation eqv := (eqv RN D).

Lemma dot_R (a c : vec) : dotN a c = lsum (zrange D) (fun j => a j * c j).
Proof. etransitivity; [exact (fold_left_lsum (zrange D) (fun j => a j * c j) 0)|]. apply Rplus_0_l. Qed.
Lemma dot_scal_l s (a c : vec) : dotN (fun j => s * a j) c = s * dotN a c.
Proof. rewrite !dot_R, <- lsum_scal. apply lsum_ext. intros. ring. Qed.
Lemma dot_comm (a c : vec) : dotN a c = dotN c a.
Proof. rewrite !dot_R. apply lsum_ext. intros. ring. Qed.
Lemma dot_scal_r s (a c : vec) : dotN a (fun j => s * c j) = s * dotN a c.
Proof. rewrite dot_comm, dot_scal_l, dot_comm. reflexivity. Qed.
Lemma dot_pos (a : vec) : 0 <= dotN a a.
Proof. rewrite dot_R. induction (zrange D) as [|j l IH]; cbn; [lra|]. nra. Qed.
Lemma dot_0 (a : vec) j : dotN a a = 0 -> (0 <= j < D)%Z -> a j = 0.
Proof.
  rewrite dot_R. intros H Hj. apply (proj2 (in_zrange D j)) in Hj. revert H Hj.
  assert (G : forall l, 0 <= lsum l (fun j => a j * a j)) by (induction l; cbn; nra).
  induction (zrange D) as [|k l IH]; cbn; [intros _ []|]. intros H [->|I]; specialize (G l); [nra|]. apply IH; auto. nra.
Qed.
Lemma term_R (x : vec) L : termN x L = lprod (zrange D) (fun dd => dotN (L dd) x / IZR (dd + 1)).
Proof.
  unfold SpecNR.termN. cbn [nmul ndiv n1 nofZ RN].
  assert (G : forall l q, fold_left (fun t dd => t * (1 * dotN (L dd) x / IZR (dd + 1))) l q = q * lprod l (fun dd => dotN (L dd) x / IZR (dd + 1))).
  { induction l as [|a l IH]; intros q; cbn [fold_left lprod]; [lra|]. rewrite IH. unfold Rdiv. ring. }
  rewrite G. lra.
Qed.
Lemma flags_S k x E u L : flagsN (S k) x E u L =
  lsum (free D u) (fun i => flagsN k x E (upd u i true) (upd L (D - Z.of_nat (S k))%Z (unitN (orthN L (D - Z.of_nat (S k))%Z (E i))))).
Proof.
  cbn [SpecNR.flagsN]. cbn [nadd n0 RN]. unfold free. rewrite lsum_filter.
  set (g := fun i => flagsN k x E (upd u i true) (upd L (D - Z.of_nat (S k))%Z (unitN (orthN L (D - Z.of_nat (S k))%Z (E i))))).
  rewrite <- (Rplus_0_l (lsum _ _)), <- (fold_left_lsum (zrange D)). apply fold_left_ext. intros s i _. destruct (u i); cbn; [lra|reflexivity].
Qed.

Lemma orth_scal L d s (e : vec) : eqv (orthN L d (fun j => s * e j)) (fun j => s * orthN L d e j).
Proof.
  unfold SpecNR.orthN. cbn [nsub nmul RN].
  assert (G : forall l (a a' : vec), eqv a' (fun j => s * a j) ->
    eqv (fold_left (fun a dd => let t := dotN a (L dd) in fun j => a j - t * L dd j) l a')
        (fun j => s * fold_left (fun a dd => let t := dotN a (L dd) in fun j => a j - t * L dd j) l a j)).
  { induction l as [|dd l IH]; intros a a' A; cbn [fold_left]; auto. apply IH. intros j Hj. cbn.
    rewrite (RedN.dot_ext RN D a' (fun j => s * a j) (L dd) (L dd) A) by (intros ? ?; reflexivity). rewrite dot_scal_l, A by auto. ring. }
  apply G. intros j Hj. reflexivity.
Qed.
(** the frame may be reversed vector by vector *)
Lemma orth_flip L L' s d (e : vec) : (forall dd, (0 <= dd < d)%Z -> s dd * s dd = 1 /\ eqv (L' dd) (fun j => s dd * L dd j)) -> eqv (orthN L' d e) (orthN L d e).
Proof.
  intros H. unfold SpecNR.orthN. cbn [nsub nmul RN].
  assert (G : forall l (a a' : vec), (forall dd, In dd l -> (0 <= dd < d)%Z) -> eqv a' a ->
    eqv (fold_left (fun a dd => let t := dotN a (L' dd) in fun j => a j - t * L' dd j) l a')
        (fold_left (fun a dd => let t := dotN a (L dd) in fun j => a j - t * L dd j) l a)).
  { induction l as [|dd l IH]; intros a a' I A; cbn [fold_left]; auto. apply IH; [intros; apply I; now right|]. intros j Hj. cbn.
    destruct (H dd (I dd (or_introl eq_refl))) as (S1 & S2).
    rewrite (RedN.dot_ext RN D a' a (L' dd) (fun j => s dd * L dd j) A S2), dot_scal_r, A by auto. rewrite S2 by auto. transitivity (a j - (s dd * s dd) * dotN a (L dd) * L dd j); [ring|]. rewrite S1. ring. }
  apply G; [intros dd I; now apply in_zrange|]. intros j Hj. reflexivity.
Qed.
Lemma unit_scal c s (a : vec) : 0 < c -> s * s = 1 -> eqv (unitN (fun j => c * s * a j)) (fun j => s * unitN a j).
Proof.
  intros Hc Hs j Hj. unfold SpecNR.unitN. cbv zeta. cbn [ndiv nsqrt RN]. rewrite dot_scal_l, dot_scal_r.
  replace (c * s * (c * s * dotN a a)) with (c * c * dotN a a) by (transitivity ((s * s) * (c * c * dotN a a)); [rewrite Hs|]; ring).
  pose proof (dot_pos a). rewrite sqrt_mult, sqrt_square by nra.
  destruct (Req_dec (dotN a a) 0) as [Z0|NZ].
  - rewrite (dot_0 a j Z0 Hj). unfold Rdiv. lra.
  - assert (0 < sqrt (dotN a a)) by (apply sqrt_lt_R0; lra). change (@eq R (c * s * a j / (c * sqrt (dotN a a))) (s * (a j / sqrt (dotN a a)))). field. lra.
Qed.

Lemma flags_scal k : forall x E E' c sg u L L' s, (Z.of_nat k <= D)%Z -> length (free D u) = k ->
  (forall i, (0 <= i < D)%Z -> 0 < c i /\ sg i * sg i = 1 /\ eqv (E' i) (fun j => c i * sg i * E i j)) ->
  (forall dd, (0 <= dd < D - Z.of_nat k)%Z -> s dd * s dd = 1 /\ eqv (L' dd) (fun j => s dd * L dd j)) ->
  flagsN k x E' u L' = lprod (zrange (D - Z.of_nat k)) s * lprod (free D u) sg * flagsN k x E u L.
Proof.
  induction k as [|k IH]; intros x E E' c sg u L L' s Hk Hu HE HL.
  - cbn [SpecNR.flagsN]. rewrite (proj1 (length_zero_iff_nil (free D u)) Hu). cbn [lprod]. rewrite !term_R.
    change (Z.of_nat 0) with 0%Z in *. replace (D - 0)%Z with D in * by lia. rewrite Rmult_1_r, <- lprod_mul. apply lprod_ext. intros dd Hd. apply in_zrange in Hd.
    destruct (HL dd Hd) as (_ & S2). rewrite (RedN.dot_ext RN D (L' dd) (fun j => s dd * L dd j) x x S2) by (intros ? ?; reflexivity).
    rewrite dot_scal_l. unfold Rdiv. ring.
  - rewrite !flags_S, <- lsum_scal. set (d := (D - Z.of_nat (S k))%Z) in *. apply lsum_ext. intros i Hi.
    pose proof (proj1 (in_free D u i) Hi) as (Hi1 & Hi2). destruct (HE i Hi1) as (C1 & C2 & C3).
    rewrite (IH x E E' c sg (upd u i true) (upd L d (unitN (orthN L d (E i)))) _ (upd s d (sg i))); auto; try lia.
    + rewrite (lprod_perm (free D u) _ sg (free_upd D u i Hi)). cbn [lprod]. replace (D - Z.of_nat k)%Z with (d + 1)%Z by lia.
      rewrite zrange_succ, lprod_app by lia. cbn [lprod]. rewrite upd_eq.
      rewrite (lprod_ext (zrange d) (upd s d (sg i)) s); [apply (fun a b c f : R => ltac:(ring) : a * (b * 1) * c * f = a * (b * c) * f)|]. intros dd I. apply in_zrange in I. now rewrite upd_neq by lia.
    + apply free_length; auto.
    + intros dd Hd. unfold upd. destruct (Z.eqb_spec dd d) as [->|].
      * split; auto. intros j Hj.
        assert (A : eqv (orthN L' d (E' i)) (fun j => c i * sg i * orthN L d (E i) j)).
        { intros j' Hj'. rewrite (orth_flip L L' s d) by auto. rewrite (orth_ext RN D L L d (E' i) (fun j => c i * sg i * E i j)); auto; [|intros ? ? ? ?; reflexivity]. now apply orth_scal. }
        rewrite (unit_ext RN D _ _ A j Hj). now apply unit_scal.
      * apply HL. lia.
Qed.

(** renumbering the edges *)
Lemma flags_perm k : forall x E (pi : Z -> Z) u L, (Z.of_nat k <= D)%Z ->
  (forall i, (0 <= i < D)%Z -> (0 <= pi i < D)%Z) -> (forall i j, (0 <= i < D)%Z -> (0 <= j < D)%Z -> pi i = pi j -> i = j) ->
  (forall j, (0 <= j < D)%Z -> exists i, (0 <= i < D)%Z /\ pi i = j) ->
  flagsN k x (fun i => E (pi i)) (fun i => u (pi i)) L = flagsN k x E u L.
Proof.
  induction k as [|k IH]; intros x E pi u L Hk P1 P2 P3; [reflexivity|]. rewrite !flags_S. set (d := (D - Z.of_nat (S k))%Z).
  rewrite <- (lsum_bij pi (free D (fun i => u (pi i))) (free D u)); try apply NoDup_free.
  - apply lsum_ext. intros i Hi. apply in_free in Hi as (Hi & _).
    rewrite <- (IH x E pi (upd u (pi i) true)); auto; try lia. refine (flags_ext RN D _ _ _ _ _ _ _ _ _ _ _ _ _ _); try lia.
    + intros ? ?; reflexivity.
    + intros ? ? ? ?; reflexivity.
    + intros j Hj. unfold upd. destruct (Z.eqb_spec j i) as [->|N]; [now rewrite Z.eqb_refl|]. destruct (Z.eqb_spec (pi j) (pi i)) as [E0|]; [exfalso; apply N, P2; auto|auto].
    + intros ? ? ? ?; reflexivity.
  - intros i Hi. apply in_free in Hi as (H1 & H2). apply in_free. auto.
  - intros i j Hi Hj. apply in_free in Hi as (Hi & _). apply in_free in Hj as (Hj & _). auto.
  - intros j Hj. apply in_free in Hj as (H1 & H2). destruct (P3 j H1) as (i & Hi & <-). exists i. split; auto. apply in_free. auto.
Qed.

Lemma free_all : free D (fun _ => false) = zrange D.
Proof. unfold free. induction (zrange D) as [|a l IH]; auto. cbn [filter negb]. f_equal. exact IH. Qed.
Lemma length_free_all : length (free D (fun _ => false)) = Z.to_nat D.
Proof. rewrite free_all. apply length_zrange_nat. Qed.

Lemma vertex_scal x E E' c sg : (forall i, (0 <= i < D)%Z -> 0 < c i /\ sg i * sg i = 1 /\ eqv (E' i) (fun j => c i * sg i * E i j)) ->
  vertexN RN D x E' = lprod (zrange D) sg * vertexN RN D x E.
Proof.
  intros H. unfold vertexN. rewrite (flags_scal (Z.to_nat D) x E E' c sg _ (fun _ _ => n0 RN) _ (fun _ => 1)); auto; try lia.
  - rewrite lprod_1 by auto. rewrite free_all. rr.
  - apply length_free_all.
Qed.
Lemma vertex_perm x E pi : (forall i, (0 <= i < D)%Z -> (0 <= pi i < D)%Z) -> (forall i j, (0 <= i < D)%Z -> (0 <= j < D)%Z -> pi i = pi j -> i = j) ->
  (forall j, (0 <= j < D)%Z -> exists i, (0 <= i < D)%Z /\ pi i = j) -> vertexN RN D x (fun i => E (pi i)) = vertexN RN D x E.
Proof. intros P1 P2 P3. apply (flags_perm (Z.to_nat D) x E pi (fun _ => false)); auto; lia. Qed.
Lemma vertex_ext x x' E E' : eqv x x' -> (forall i, (0 <= i < D)%Z -> eqv (E i) (E' i)) -> vertexN RN D x E = vertexN RN D x' E'.
Proof. intros X H. refine (flags_ext RN D _ _ _ _ _ _ _ _ _ _ _ _ _ _); auto; try lia. Qed.

(** edges along the axes *)
Definition axis (i j : Z) : R := if (j =? i)%Z then 1 else 0.
Lemma dot_axis (a : vec) i : (0 <= i < D)%Z -> dotN (axis i) a = a i.
Proof.
  intros Hi. rewrite dot_R. assert (G : forall l, NoDup l -> lsum l (fun j => axis i j * a j) = if in_dec Z.eq_dec i l then a i else 0).
  { induction l as [|b l IH]; intros ND; cbn [lsum]; [reflexivity|]. inversion ND; subst. rewrite IH by auto. unfold axis.
    destruct (Z.eqb_spec b i) as [->|]; destruct (in_dec Z.eq_dec i l); destruct (in_dec Z.eq_dec i (_ :: l)) as [I|I]; cbn in I; try tauto; try lra.
  }
  rewrite G by apply NoDup_zrange. destruct (in_dec Z.eq_dec i (zrange D)) as [|X]; auto. exfalso. apply X. now apply in_zrange.
Qed.
Lemma flags_axis k : forall x u L, (Z.of_nat k <= D)%Z -> length (free D u) = k ->
  (forall dd, (0 <= dd < D - Z.of_nat k)%Z -> exists i, (0 <= i < D)%Z /\ u i = true /\ eqv (L dd) (axis i)) ->
  flagsN k x axis u L = lprod (zrange (D - Z.of_nat k)) (fun dd => dotN (L dd) x) * lprod (free D u) x * INR (fact k) * lprod (zrange D) (fun dd => / IZR (dd + 1)).
Proof.
  induction k as [|k IH]; intros x u L Hk Hu HL.
  - cbn [SpecNR.flagsN]. rewrite (proj1 (length_zero_iff_nil (free D u)) Hu). cbn [lprod fact INR]. rewrite term_R. change (Z.of_nat 0) with 0%Z. rewrite Z.sub_0_r.
    unfold Rdiv. rewrite lprod_mul. rr.
  - rewrite flags_S. set (d := (D - Z.of_nat (S k))%Z) in *.
    rewrite (lsum_ext _ _ (fun i => INR (fact k) * lprod (zrange D) (fun dd => / IZR (dd + 1)) * lprod (zrange d) (fun dd => dotN (L dd) x) * lprod (free D u) x)).
    + assert (G : forall (l : list Z) c, lsum l (fun _ => c) = INR (length l) * c).
      { induction l as [|a l IHl]; intros c; cbn [lsum length]; [cbn; lra|]. rewrite IHl, S_INR. lra. }
      rewrite G, Hu. replace (fact (S k)) with (S k * fact k)%nat by reflexivity. rewrite mult_INR. rr.
    + intros i Hi. pose proof (proj1 (in_free D u i) Hi) as (Hi1 & Hi2).
      assert (U : eqv (unitN (orthN L d (axis i))) (axis i)).
      { assert (O : eqv (orthN L d (axis i)) (axis i)).
        { unfold SpecNR.orthN. cbn [nsub nmul RN].
          assert (G : forall l (a : vec), (forall dd, In dd l -> (0 <= dd < d)%Z) -> eqv a (axis i) ->
            eqv (fold_left (fun a dd => let t := dotN a (L dd) in fun j => a j - t * L dd j) l a) (axis i)).
          { induction l as [|dd l IHl]; intros a I A; cbn [fold_left]; auto. apply IHl; [intros; apply I; now right|]. intros j Hj. cbn.
            destruct (HL dd (I dd (or_introl eq_refl))) as (i' & Hi' & Ui' & Li').
            rewrite (RedN.dot_ext RN D a (axis i) (L dd) (axis i') A Li'), dot_axis by auto. unfold axis at 1. destruct (Z.eqb_spec i i'); [congruence|].
            rewrite A by auto. change (T RN) with R. lra. }
          apply G; [intros dd I; now apply in_zrange|]. intros ? ?; reflexivity. }
        intros j Hj. rewrite (unit_ext RN D _ _ O j Hj). unfold SpecNR.unitN. cbv zeta. cbn [ndiv nsqrt RN]. rewrite dot_axis by auto. unfold axis at 2. rewrite Z.eqb_refl, sqrt_1.
        change (T RN) with R. unfold Rdiv. rewrite Rinv_1. lra. }
      rewrite IH; try lia.
      * replace (D - Z.of_nat k)%Z with (d + 1)%Z by lia. rewrite zrange_succ, lprod_app by lia. cbn [lprod]. rewrite upd_eq.
        rewrite (RedN.dot_ext RN D _ (axis i) x x U) by (intros ? ?; reflexivity). rewrite dot_axis by auto.
        rewrite (lprod_ext (zrange d) (fun dd => dotN (upd L d (unitN (orthN L d (axis i))) dd) x) (fun dd => dotN (L dd) x)) by (intros dd I; apply in_zrange in I; now rewrite upd_neq by lia).
        rewrite (lprod_perm (free D u) _ x (free_upd D u i Hi)). cbn [lprod]. rr.
      * apply free_length; auto.
      * intros dd Hd. unfold upd. destruct (Z.eqb_spec dd d) as [->|].
        { exists i. split; auto. rewrite Z.eqb_refl. auto. }
        { destruct (HL dd ltac:(lia)) as (i' & H1 & H2 & H3). exists i'. split; auto. split; auto. destruct (i' =? i)%Z; auto. }
Qed.
Lemma prod_fact n : (0 <= n)%Z -> INR (fact (Z.to_nat n)) * lprod (zrange n) (fun dd => / IZR (dd + 1)) = 1.
Proof.
  intros Hn. revert n Hn. apply zrange_ind; [cbn; lra|]. intros n Hn IH. rewrite zrange_succ, lprod_app by lia. cbn [lprod].
  replace (Z.to_nat (n + 1)) with (S (Z.to_nat n)) by lia. replace (fact (S (Z.to_nat n))) with (S (Z.to_nat n) * fact (Z.to_nat n))%nat by reflexivity.
  rewrite mult_INR. replace (INR (S (Z.to_nat n))) with (IZR (n + 1)) by (rewrite INR_IZR_INZ; f_equal; lia).
  assert (IZR (n + 1) <> 0) by (apply not_0_IZR; lia).
  transitivity (INR (fact (Z.to_nat n)) * lprod (zrange n) (fun dd => / IZR (dd + 1)) * (IZR (n + 1) * / IZR (n + 1))); [ring|]. rewrite IH, Rinv_r; auto. lra.
Qed.
Lemma vertex_axis x : vertexN RN D x axis = lprod (zrange D) x.
Proof.
  unfold vertexN. rewrite (flags_axis (Z.to_nat D)); try lia.
  - replace (D - Z.of_nat (Z.to_nat D))%Z with 0%Z by lia. cbn [zrange]. rewrite free_all. change (lprod (zrange 0) _) with 1.
    rewrite Rmult_assoc, prod_fact by auto. lra.
  - apply length_free_all.
Qed.
End F.
