(** * Conn: facts about walks and components. *)
From Coq Require Import ZArith List Bool Lia.
From Verif Require Import Base Lib ModelCommon CommonFacts ModelGood SpecGood Flood.
Import ListNotations.
Open Scope Z_scope.

Section W.
Context (f : Z -> Z -> Z) (D : Z).
Lemma walk_end X u w : walk f D X u w -> ~ X w. Proof. now destruct 1. Qed.
Lemma walk_start X u w : walk f D X u w -> ~ X u. Proof. induction 1; auto. Qed.
Lemma walk_trans X u v w : walk f D X u v -> walk f D X v w -> walk f D X u w.
Proof. intros A B. induction B; auto. now apply walk_step. Qed.
Lemma walk_mono (X Y : Z -> Prop) u w : (forall x, Y x -> X x) -> walk f D X u w -> walk f D Y u w.
Proof. intros H A. induction A; [constructor; auto|apply walk_step; auto]. Qed.
Lemma walk_conn X u w : walk f D X u w -> conn f D u w.
Proof. apply walk_mono. intros x []. Qed.
Lemma conn_refl u : conn f D u u. Proof. constructor. auto. Qed.
Lemma conn_trans u v w : conn f D u v -> conn f D v w -> conn f D u w. Proof. apply walk_trans. Qed.
Lemma conn_link u i : 0 <= i < D -> conn f D u (f u i).
Proof. intros. apply walk_step; auto. apply conn_refl. Qed.
(** a walk that leaves a set has a first link out of it *)
Lemma walk_leaves (K : Z -> bool) X u w : walk f D X u w -> K u = true -> K w = false ->
  exists v i, walk f D X u v /\ K v = true /\ 0 <= i < D /\ K (f v i) = false /\ ~ X (f v i).
Proof.
  intros A Ku. induction A as [|v i A IH Hi Nx]; intros Kw; [congruence|].
  destruct (K v) eqn:Kv; [|auto]. exists v, i. auto.
Qed.
Lemma walk_closed (P : Z -> Prop) X u w : walk f D X u w -> P u ->
  (forall v i, P v -> 0 <= i < D -> ~ X (f v i) -> P (f v i)) -> P w.
Proof. intros A Pu Cl. induction A; auto. Qed.
Variable n : Z.
Hypothesis R : forall v i, 0 <= v < n -> 0 <= i < D -> 0 <= f v i < n.
Lemma walk_rng X u w : 0 <= u < n -> walk f D X u w -> 0 <= w < n.
Proof. intros Hu A. induction A; auto. Qed.

Lemma walk_dec (HD : 1 <= D) (X : Z -> bool) u : 0 <= u < n ->
  exists K : Z -> bool, forall x, K x = true <-> walk f D (fun x => X x = true) u x.
Proof.
  intros Hu. set (b := VB f (fun _ : Z => tt)).
  set (mk0 := fun x : Z => if X x then 1 else 0).
  assert (XE : forall x, mk0 x <> 0 <-> X x = true).
  { intros x. unfold mk0. destruct (X x); split; try lia; auto; discriminate. }
  assert (WE : forall x, walk f D (fun x => mk0 x <> 0) u x <-> walk f D (fun x => X x = true) u x).
  { intros x. split; apply walk_mono; intros y; apply XE. }
  destruct (flood_spec (1 + (D - 1) * n + n) D b n ltac:(lia) ltac:(nia) R 1 ltac:(lia) mk0 u Hu) as [(mk & E & H)|(_ & H)].
  2: nia.
  exists (fun x => negb (X x) && negb (mk x =? 0)). intros x. rewrite <- WE. destruct (H x) as (H1 & H2).
  destruct (X x) eqn:Xx.
  - split; [discriminate|]. intros W. apply walk_end in W. now rewrite XE in W.
  - assert (M0 : mk0 x = 0) by (unfold mk0; now rewrite Xx). cbn [negb andb].
    destruct (H2 M0) as [(M & _ & W)|(M & W)]; rewrite M; cbn; split; auto; discriminate.
Qed.

Lemma conn_dec (HD : 1 <= D) u : 0 <= u < n -> exists K : Z -> bool, forall x, K x = true <-> conn f D u x.
Proof.
  intros Hu. destruct (walk_dec HD (fun _ => false) u Hu) as (K & H). exists K. intros x. rewrite H.
  split; apply walk_mono; [intros y []|discriminate].
Qed.
End W.

Section Mut.
Context (f : Z -> Z -> Z) (D n : Z).
Hypothesis R : forall v i, 0 <= v < n -> 0 <= i < D -> 0 <= f v i < n.
Hypothesis M : mutual f D n.
Lemma walk_sym X u w : 0 <= u < n -> walk f D X u w -> walk f D X w u.
Proof.
  intros Hu A. induction A as [|v i A IH Hi Nx]; [now constructor|].
  assert (Hv : 0 <= v < n) by (apply (walk_rng f D n R X u); auto).
  apply walk_trans with v; auto. destruct (M v i Hv Hi) as (j & Hj & E).
  rewrite <- E at 2. apply walk_step; auto; [now constructor|]. rewrite E. now apply walk_end in A.
Qed.
End Mut.

(** ** In-degree equals out-degree: a set that no link leaves is entered by none. *)
Section Euler.
Context (f : Z -> Z -> Z) (D n : Z).
Hypothesis HD : 1 <= D.
Hypothesis Hn : 0 <= n.
Hypothesis R : forall v i, 0 <= v < n -> 0 <= i < D -> 0 <= f v i < n.
Hypothesis I : forall v, 0 <= v < n -> indeg f D n v = D.
Notation ds := (list_prod (zrange n) (zrange D)).

Lemma count_targets (K : Z -> bool) (l : list (Z * Z)) : (forall d, In d l -> 0 <= f (fst d) (snd d) < n) ->
  Z.of_nat (length (filter (fun d => K (f (fst d) (snd d))) l))
  = fold_right Z.add 0 (map (fun x => Z.of_nat (length (filter (fun d => f (fst d) (snd d) =? x) l))) (filter K (zrange n))).
Proof.
  induction l as [|d l IH]; intros H.
  - cbn. induction (filter K (zrange n)); cbn; auto.
  - cbn [filter]. set (t := f (fst d) (snd d)) in *.
    assert (Ht : 0 <= t < n) by (apply H; now left).
    assert (Q : forall (g : Z -> list (Z * Z)) xs, NoDup xs ->
      fold_right Z.add 0 (map (fun x => Z.of_nat (length (if t =? x then d :: g x else g x))) xs)
      = fold_right Z.add 0 (map (fun x => Z.of_nat (length (g x))) xs) + if existsb (Z.eqb t) xs then 1 else 0).
    { intros g xs ND. induction ND as [|x xs Nx ND IHx]; [reflexivity|]. cbn [map fold_right existsb]. rewrite IHx.
      destruct (Z.eqb_spec t x) as [<-|]; cbn [orb length].
      - replace (existsb (Z.eqb t) xs) with false; [lia|]. symmetry. apply not_true_iff_false. intros C.
        apply existsb_exists in C as (y & Hy & E). apply Z.eqb_eq in E. congruence.
      - lia. }
    rewrite Q by (apply NoDup_filter, NoDup_zrange). rewrite <- IH by (intros; apply H; now right).
    destruct (K t) eqn:Kt.
    + replace (existsb (Z.eqb t) (filter K (zrange n))) with true; [cbn [length]; lia|]. symmetry. apply existsb_exists.
      exists t. rewrite filter_In, in_zrange, Z.eqb_refl. auto.
    + replace (existsb (Z.eqb t) (filter K (zrange n))) with false; [lia|]. symmetry. apply not_true_iff_false. intros C.
      apply existsb_exists in C as (y & Hy & E). apply Z.eqb_eq in E. subst y. apply filter_In in Hy. destruct Hy. congruence.
Qed.

Lemma closed_back (K : Z -> bool) :
  (forall v i, 0 <= v < n -> 0 <= i < D -> K v = true -> K (f v i) = true) ->
  forall v i, 0 <= v < n -> 0 <= i < D -> K (f v i) = true -> K v = true.
Proof.
  intros Cl v i Hv Hi Kt.
  set (into := filter (fun d => K (f (fst d) (snd d))) ds). set (from := list_prod (filter K (zrange n)) (zrange D)).
  assert (Rd : forall d, In d ds -> 0 <= f (fst d) (snd d) < n).
  { intros (a, c) Hd. apply in_prod_iff in Hd. rewrite !in_zrange in Hd. apply R; tauto. }
  assert (L1 : Z.of_nat (length into) = D * cnt K n).
  { unfold into. rewrite count_targets by auto. unfold cnt.
    assert (A : forall x, In x (filter K (zrange n)) -> 0 <= x < n) by (intros x Hx; apply filter_In in Hx; now rewrite in_zrange in Hx).
    revert A. generalize (filter K (zrange n)). induction l as [|x l IH]; intros A; [cbn; lia|].
    cbn [map fold_right length]. rewrite IH by (intros; apply A; now right).
    pose proof (I x (A x (or_introl eq_refl))) as Ix. unfold indeg in Ix. rewrite Ix. lia. }
  assert (L2 : Z.of_nat (length from) = D * cnt K n).
  { unfold from. rewrite prod_length. rewrite Nat2Z.inj_mul. rewrite length_zrange by lia. unfold cnt. lia. }
  assert (ND : NoDup from).
  { unfold from. assert (G : forall l : list Z, NoDup l -> NoDup (list_prod l (zrange D))).
    { intros l N. induction N as [|x l Nx N IH]; cbn; [constructor|].
      assert (N1 : NoDup (map (fun y : Z => (x, y)) (zrange D))).
      { apply FinFun.Injective_map_NoDup; [intros ? ? E; congruence|apply NoDup_zrange]. }
      assert (N2 : forall d, In d (map (fun y : Z => (x, y)) (zrange D)) -> ~ In d (list_prod l (zrange D))).
      { intros (a, c) H1 H2. apply in_map_iff in H1 as (y & E & _). inversion E; subst. apply in_prod_iff in H2. tauto. }
      revert N1 N2. generalize (map (fun y : Z => (x, y)) (zrange D)). induction l0; cbn; auto. intros N1 N2. inversion N1; subst.
      constructor; [|apply IHl0; auto]. rewrite in_app_iff. intros [?|?]; auto. apply (N2 a); auto. }
    apply G, NoDup_filter, NoDup_zrange. }
  assert (Inc : incl from into).
  { intros (a, c) H. apply in_prod_iff in H as (Ha & Hc). apply filter_In in Ha as (Ha & Ka). apply filter_In.
    split; [now apply in_prod|]. apply in_zrange in Ha, Hc. apply Cl; auto. }
  assert (Inc2 : incl into from) by (apply NoDup_length_incl; auto; lia).
  assert (Hd : In (v, i) into).
  { apply filter_In. split; auto. apply in_prod; now apply in_zrange. }
  apply Inc2 in Hd. apply in_prod_iff in Hd as (Hd & _). apply filter_In in Hd. tauto.
Qed.

Lemma conn_sym u w : 0 <= u < n -> conn f D u w -> conn f D w u.
Proof.
  intros Hu C. assert (Hw : 0 <= w < n) by (apply (walk_rng f D n R _ u w Hu C)).
  destruct (conn_dec f D n R HD w Hw) as (K & HK).
  destruct (K u) eqn:Ku; [now apply HK|]. exfalso.
  destruct (walk_leaves f D (fun x => negb (K x)) (fun _ => False) u w C) as (v & i & Wv & Kv & Hi & Kt & _).
  - now rewrite Ku.
  - apply negb_false_iff. apply HK, conn_refl.
  - apply negb_true_iff in Kv. apply negb_false_iff in Kt.
    assert (Hv : 0 <= v < n) by (apply (walk_rng f D n R _ u v Hu Wv)).
    rewrite (closed_back K) with (i := i) in Kv; auto; [discriminate|].
    intros x j Hx Hj Kx. apply HK. apply HK in Kx. apply conn_trans with x; auto. now apply conn_link.
Qed.
End Euler.
