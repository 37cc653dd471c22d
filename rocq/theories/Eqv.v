(** * Eqv: two runs of the same loops on buffers that differ in their positions only. *)
From Coq Require Import Reals ZArith List Bool Lia Lra.
From Verif Require Import Base Lib ModelCommon RealNum RndNum.
Import ListNotations.
Open Scope Z_scope.

(** the same error, or results in relation [R] *)
Definition rr {A B} (R : A -> B -> Prop) (x : res A) (y : res B) : Prop :=
  match x, y with OK a, OK b => R a b | Err e, Err e' => e = e' | _, _ => False end.

Lemma rr_bind {A A' B B'} (R : A -> A' -> Prop) (Q : B -> B' -> Prop) m m' k k' :
  rr R m m' -> (forall a a', R a a' -> rr Q (k a) (k' a')) -> rr Q (bind m k) (bind m' k').
Proof. destruct m, m'; cbn; intros H HK; try contradiction; auto. Qed.
Lemma rr_refl {A} (m : res A) : rr eq m m.
Proof. destruct m; cbn; auto. Qed.
Lemma rr_same {A B B'} (Q : B -> B' -> Prop) (m : res A) k k' :
  (forall a, m = OK a -> rr Q (k a) (k' a)) -> rr Q (bind m k) (bind m k').
Proof. destruct m; cbn; auto. Qed.
Lemma rr_mono {A B} (R Q : A -> B -> Prop) x y : rr R x y -> (forall a b, R a b -> Q a b) -> rr Q x y.
Proof. destruct x, y; cbn; auto. Qed.
Lemma rr_forn {S S'} (R : Z -> S -> S' -> Prop) f g n : forall lo s s',
  (forall i s s', lo <= i < lo + Z.of_nat n -> R i s s' -> rr (R (i + 1)) (f i s) (g i s')) ->
  R lo s s' -> rr (R (lo + Z.of_nat n)) (forn n lo f s) (forn n lo g s').
Proof.
  induction n as [|n IH]; intros lo s s' H H0.
  - cbn [forn]. rewrite Z.add_0_r. exact H0.
  - cbn [forn]. eapply rr_bind; [apply H; auto; lia|]. intros a a' Ha.
    replace (lo + Z.of_nat (Datatypes.S n)) with (lo + 1 + Z.of_nat n) by lia. apply IH; auto. intros i t t' Hi. apply H. lia.
Qed.
Lemma rr_for {S S'} (R : Z -> S -> S' -> Prop) f g lo hi s s' : lo <= hi ->
  (forall i s s', lo <= i < hi -> R i s s' -> rr (R (i + 1)) (f i s) (g i s')) ->
  R lo s s' -> rr (R hi) (for_ lo hi f s) (for_ lo hi g s').
Proof.
  intros Hl H H0. unfold for_. pose proof (rr_forn R f g (Z.to_nat (hi - lo)) lo s s') as X.
  rewrite Z2Nat.id in X by lia. replace (lo + (hi - lo)) with hi in X by lia. auto.
Qed.
(** an invariant that does not depend on the index *)
Lemma rr_for' {S S'} (R : S -> S' -> Prop) f g lo hi s s' :
  (forall i s s', lo <= i < hi -> R s s' -> rr R (f i s) (g i s')) -> R s s' -> rr R (for_ lo hi f s) (for_ lo hi g s').
Proof.
  intros H H0. destruct (Z_le_gt_dec lo hi) as [L|L].
  - now apply (rr_for (fun _ => R)).
  - rewrite !for_empty by lia. exact H0.
Qed.

Section B.
Context {V : Type} (Dom : V -> Prop) (R : V -> V -> Prop) (MX : Z).

(** the same neighbours; the first [n] positions in relation *)
Definition brel (n : Z) (b b' : vbuf V) : Prop :=
  nb b' = nb b /\ forall v, 0 <= v < n -> R (ps b v) (ps b' v).

Lemma brel_nb n b b' D v i : brel n b b' -> rd_nb MX D b' v i = rd_nb MX D b v i.
Proof. intros (H & _). unfold rd_nb. now rewrite H. Qed.
Lemma brel_wr n b b' D v i x : brel n b b' -> rr (fun c c' => brel n c c' /\ ps c = ps b /\ ps c' = ps b') (wr_nb MX D b v i x) (wr_nb MX D b' v i x).
Proof. intros (H & H1). unfold wr_nb. destruct (inb MX v && inb D i); cbn; auto. rewrite H. repeat split; auto. Qed.
Lemma brel_ps n b b' x x' : brel n b b' -> R x x' -> 0 <= n ->
  rr (fun c c' => brel (n + 1) c c' /\ (forall v, 0 <= v < n -> ps c v = ps b v /\ ps c' v = ps b' v)) (wr_ps MX b n x) (wr_ps MX b' n x').
Proof.
  intros (H & H1) Hx Hn. unfold wr_ps. destruct (inb MX n); cbn; auto. split; [split; auto|].
  - intros v Hv. cbn. unfold upd. destruct (Z.eqb_spec v n) as [E|E]; auto. apply H1. lia.
  - intros v Hv. cbn. rewrite !upd_neq by lia. auto.
Qed.
Lemma brel_cp n b b' i j : brel n b b' -> 0 <= j < n -> rr (brel n) (cp_vert MX b i b j) (cp_vert MX b' i b' j).
Proof.
  intros (H & H1) Hj. unfold cp_vert. destruct (inb MX i && inb MX j); cbn; auto. rewrite H. split; auto. intros v Hv. cbn. unfold upd.
  destruct (Z.eqb_spec v i); auto.
Qed.
Lemma brel_mono n m b b' : brel n b b' -> m <= n -> brel m b b'.
Proof. intros (H & H1) Hm. split; auto. intros v Hv. apply H1. lia. Qed.

(** r2d.c:108-113, r3d.c:117-122 *)
Lemma compress_rel n b b' cl : 0 <= n -> brel n b b' ->
  rr (fun s s' => brel n (fst (fst s)) (fst (fst s')) /\ snd (fst s') = snd (fst s) /\ snd s' = snd s /\ 0 <= snd s <= n)
     (for_ 0 n (compress_body MX) (b, cl, 0)) (for_ 0 n (compress_body MX) (b', cl, 0)).
Proof.
  intros Hn HB. eapply rr_mono; [apply (rr_for (fun i s s' => brel n (fst (fst s)) (fst (fst s')) /\ snd (fst s') = snd (fst s) /\ snd s' = snd s /\ 0 <= snd s <= i))|]; auto.
  - intros i ((c, k), m) ((c', k'), m') Hi (H1 & H2 & H3 & H4). cbn [fst snd] in *. subst k' m'. unfold compress_body.
    apply rr_same. intros x _. destruct (x =? 0).
    + eapply rr_bind; [apply brel_cp; eauto|]. intros d d' Hd. apply rr_same. intros k1 _. cbn. split; auto. split; auto. split; auto. lia.
    + cbn. split; auto. split; auto. split; auto. lia.
  - cbn. split; auto. split; auto. split; auto. lia.
Qed.
Lemma reindex_rel n D cl m b b' : brel n b b' -> rr (brel n) (for_ 0 m (reindex_loop MX D cl) b) (for_ 0 m (reindex_loop MX D cl) b').
Proof.
  intros HB. apply rr_for'; auto. intros i c c' Hi Hc. unfold reindex_loop. apply rr_for'; auto. intros j d d' Hj Hd.
  rewrite (brel_nb n d d') by auto. apply rr_same. intros x _. apply rr_same. intros y _. eapply rr_mono; [exact (brel_wr n d d' D i j y Hd)|]. intros e e' (He & _). exact He.
Qed.
End B.

(** ** Smallest and largest distance *)
Lemma min_step (a m : R) : (0 <= (if Rltb a m then a else m))%R <-> (0 <= m /\ 0 <= a)%R.
Proof. destruct (Rltb a m) eqn:E; [apply Rltb_true in E|apply Rltb_false in E]; split; lra. Qed.
Lemma max_step (a m : R) : ((if Rltb m a then a else m) <= 0)%R <-> (m <= 0 /\ a <= 0)%R.
Proof. destruct (Rltb m a) eqn:E; [apply Rltb_true in E|apply Rltb_false in E]; split; lra. Qed.
Lemma all_step (P : Z -> Prop) i : 0 <= i -> (forall v, 0 <= v < i + 1 -> P v) <-> ((forall v, 0 <= v < i -> P v) /\ P i).
Proof. intros Hi. split; [intros H; split; [intros v Hv|]; apply H; lia|]. intros (H & H') v Hv. destruct (Z.eq_dec v i) as [->|]; auto. apply H. lia. Qed.
Lemma Rleb_iff a b c d : ((a <= b)%R <-> (c <= d)%R) -> Rleb a b = Rleb c d.
Proof. intros H. destruct (Rleb a b) eqn:E; symmetry; [apply Rleb_true in E; apply Rleb_true; tauto|]. destruct (Rleb c d) eqn:E'; auto. apply Rleb_true in E'. apply Rleb_false in E. apply H in E'. lra. Qed.
Lemma Rltb_iff a b c d : ((a < b)%R <-> (c < d)%R) -> Rltb a b = Rltb c d.
Proof. intros H. destruct (Rltb a b) eqn:E; symmetry; [apply Rltb_true in E; apply Rltb_true; tauto|]. destruct (Rltb c d) eqn:E'; auto. apply Rltb_true in E'. apply Rltb_false in E. apply H in E'. lra. Qed.
