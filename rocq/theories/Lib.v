(** * Lib: reasoning principles for loops, ranges, counting and finite maps.
    Pure proof infrastructure; nothing here models C code. *)
From Coq Require Import ZArith List Bool Lia Permutation.
From Verif Require Import Base.
Import ListNotations.
Open Scope Z_scope.

(** ** bind *)
Lemma bind_OK {A B} (m : res A) (k : A -> res B) b :
  bind m k = OK b -> exists a, m = OK a /\ k a = OK b.
Proof. destruct m; cbn; intros; [eauto|discriminate]. Qed.

Lemma inb_spec sz i : reflect (0 <= i < sz) (inb sz i).
Proof.
  unfold inb. apply iff_reflect. rewrite andb_true_iff, Z.leb_le, Z.ltb_lt. tauto.
Qed.
Lemma inb_true sz i : 0 <= i < sz -> inb sz i = true.
Proof. intros; destruct (inb_spec sz i); auto; lia. Qed.
Lemma inb_false sz i : ~ 0 <= i < sz -> inb sz i = false.
Proof. intros; destruct (inb_spec sz i); auto; lia. Qed.

Lemma upd_eq {A} (a : Z -> A) i x : upd a i x i = x.
Proof. unfold upd. now rewrite Z.eqb_refl. Qed.
Lemma upd_neq {A} (a : Z -> A) i j x : j <> i -> upd a i x j = a j.
Proof. unfold upd. intros. destruct (Z.eqb_spec j i); congruence. Qed.

Lemma rd_ok {A} sz (a : Z -> A) i : 0 <= i < sz -> rd sz a i = OK (a i).
Proof. intros. unfold rd. now rewrite inb_true. Qed.
Lemma wr_ok {A} sz (a : Z -> A) i x : 0 <= i < sz -> wr sz a i x = OK (upd a i x).
Proof. intros. unfold wr. now rewrite inb_true. Qed.

(** ** loops *)
Lemma forn_inv {S} (P : Z -> S -> Prop) body n : forall lo s,
  P lo s ->
  (forall i s, lo <= i < lo + Z.of_nat n -> P i s -> exists s', body i s = OK s' /\ P (i + 1) s') ->
  exists s', forn n lo body s = OK s' /\ P (lo + Z.of_nat n) s'.
Proof.
  induction n; intros lo s H0 Hs.
  - exists s. cbn. split; auto. now rewrite Z.add_0_r.
  - destruct (Hs lo s) as (s1 & E1 & P1); [lia|auto|].
    destruct (IHn (lo + 1) s1) as (s2 & E2 & P2); auto.
    { intros; apply Hs; auto; lia. }
    exists s2. cbn [forn]. rewrite E1. cbn [bind]. split; auto.
    replace (lo + Z.of_nat (Datatypes.S n)) with (lo + 1 + Z.of_nat n) by lia. auto.
Qed.

Lemma for_inv {S} (P : Z -> S -> Prop) lo hi body s :
  lo <= hi -> P lo s ->
  (forall i s, lo <= i < hi -> P i s -> exists s', body i s = OK s' /\ P (i + 1) s') ->
  exists s', for_ lo hi body s = OK s' /\ P hi s'.
Proof.
  intros. unfold for_.
  destruct (forn_inv P body (Z.to_nat (hi - lo)) lo s) as (s' & E & Q); auto.
  { intros; apply H1; auto; lia. }
  exists s'. split; auto. replace (lo + Z.of_nat (Z.to_nat (hi - lo))) with hi in Q by lia. auto.
Qed.

Lemma for_empty {S} lo hi (body : Z -> S -> res S) s : hi <= lo -> for_ lo hi body s = OK s.
Proof. intros. unfold for_. replace (Z.to_nat (hi - lo)) with O by lia. reflexivity. Qed.

(** Either the loop succeeds keeping [P], or fails with [Q]. *)
Lemma forn_inv3 {S} (P : Z -> S -> Prop) (Q : err -> Prop) body n : forall lo s,
  P lo s ->
  (forall i s, lo <= i < lo + Z.of_nat n -> P i s ->
     (exists s', body i s = OK s' /\ P (i + 1) s') \/ (exists e, body i s = Err e /\ Q e)) ->
  (exists s', forn n lo body s = OK s' /\ P (lo + Z.of_nat n) s')
  \/ (exists e, forn n lo body s = Err e /\ Q e).
Proof.
  induction n; intros lo s H0 Hs.
  - left. exists s. cbn. split; auto. now rewrite Z.add_0_r.
  - destruct (Hs lo s) as [(s1 & E1 & P1)|(e & E1 & Q1)]; [lia|auto| |].
    + destruct (IHn (lo + 1) s1) as [(s2 & E2 & P2)|(e & E2 & Q2)]; auto.
      { intros; apply Hs; auto; lia. }
      * left. exists s2. cbn [forn]. rewrite E1. cbn [bind]. split; auto.
        replace (lo + Z.of_nat (Datatypes.S n)) with (lo + 1 + Z.of_nat n) by lia. auto.
      * right. exists e. cbn [forn]. rewrite E1. cbn [bind]. auto.
    + right. exists e. cbn [forn]. rewrite E1. cbn [bind]. auto.
Qed.

Lemma for_inv3 {S} (P : Z -> S -> Prop) (Q : err -> Prop) lo hi body s :
  lo <= hi -> P lo s ->
  (forall i s, lo <= i < hi -> P i s ->
     (exists s', body i s = OK s' /\ P (i + 1) s') \/ (exists e, body i s = Err e /\ Q e)) ->
  (exists s', for_ lo hi body s = OK s' /\ P hi s') \/ (exists e, for_ lo hi body s = Err e /\ Q e).
Proof.
  intros. unfold for_.
  destruct (forn_inv3 P Q body (Z.to_nat (hi - lo)) lo s) as [(s' & E & R)|R]; auto.
  { intros; apply H1; auto; lia. }
  left. exists s'. split; auto.
  replace (lo + Z.of_nat (Z.to_nat (hi - lo))) with hi in R by lia. auto.
Qed.

(** Partial correctness. *)
Lemma for_inv_ok {S} (P : Z -> S -> Prop) lo hi body s s' :
  lo <= hi -> P lo s ->
  (forall i s s', lo <= i < hi -> P i s -> body i s = OK s' -> P (i + 1) s') ->
  for_ lo hi body s = OK s' -> P hi s'.
Proof.
  intros Hle H0 Hs E.
  destruct (for_inv3 P (fun _ => True) lo hi body s) as [(s2 & E2 & P2)|(e & E2 & _)]; auto.
  - intros i s1 Hi HP. destruct (body i s1) eqn:Eb; eauto.
  - congruence.
  - congruence.
Qed.

Lemma for_split {S} lo mid hi (body : Z -> S -> res S) s :
  lo <= mid <= hi ->
  for_ lo hi body s = bind (for_ lo mid body s) (for_ mid hi body).
Proof.
  intros. unfold for_.
  replace (Z.to_nat (hi - lo)) with (Z.to_nat (mid - lo) + Z.to_nat (hi - mid))%nat by lia.
  assert (G : forall n m i s, forn (n + m) i body s =
            bind (forn n i body s) (forn m (i + Z.of_nat n) body)).
  { induction n; intros; cbn [plus forn].
    - cbn. now rewrite Z.add_0_r.
    - destruct (body i s0); cbn; auto. rewrite IHn.
      destruct (forn n (i + 1) body a); cbn; auto. f_equal. lia. }
  rewrite G. destruct (forn (Z.to_nat (mid - lo)) lo body s); cbn; auto. f_equal. lia.
Qed.

Lemma for_first {S} lo hi (body : Z -> S -> res S) s :
  lo < hi -> for_ lo hi body s = bind (body lo s) (for_ (lo + 1) hi body).
Proof.
  intros. unfold for_. replace (Z.to_nat (hi - lo)) with (Datatypes.S (Z.to_nat (hi - (lo + 1)))) by lia.
  reflexivity.
Qed.
Lemma for_2 {S} (body : Z -> S -> res S) s :
  for_ 0 2 body s = bind (body 0 s) (body 1).
Proof.
  unfold for_. change (Z.to_nat (2 - 0)) with 2%nat. cbn [forn]. change (0 + 1) with 1.
  destruct (body 0 s) as [a|]; cbn [bind]; auto. destruct (body 1 a); reflexivity.
Qed.
Lemma for_3 {S} (body : Z -> S -> res S) s :
  for_ 0 3 body s = bind (body 0 s) (fun s => bind (body 1 s) (body 2)).
Proof.
  unfold for_. change (Z.to_nat (3 - 0)) with 3%nat. cbn [forn]. change (0 + 1) with 1.
  change (1 + 1) with 2.
  destruct (body 0 s) as [a|]; cbn [bind]; auto. destruct (body 1 a) as [a'|]; cbn [bind]; auto.
  destruct (body 2 a'); reflexivity.
Qed.

Lemma for_ext {S} lo hi (f g : Z -> S -> res S) s :
  (forall i s, lo <= i < hi -> f i s = g i s) -> for_ lo hi f s = for_ lo hi g s.
Proof.
  unfold for_. intros H.
  assert (G : forall n i s, lo <= i -> i + Z.of_nat n <= hi \/ n = O ->
             forn n i f s = forn n i g s).
  { induction n; intros; cbn [forn]; auto. rewrite H by lia. destruct (g i s0); cbn; auto.
    apply IHn; lia. }
  apply G; [lia|]. lia.
Qed.

(** ** ranges *)
Definition zrange (n : Z) : list Z := map Z.of_nat (seq 0 (Z.to_nat n)).

Lemma in_zrange n v : In v (zrange n) <-> 0 <= v < n.
Proof.
  unfold zrange. rewrite in_map_iff. split.
  - intros (k & <- & H). apply in_seq in H. lia.
  - intros. exists (Z.to_nat v). split; [lia|]. apply in_seq. lia.
Qed.
Lemma NoDup_zrange n : NoDup (zrange n).
Proof.
  unfold zrange. apply FinFun.Injective_map_NoDup; [|apply seq_NoDup].
  intros x y. lia.
Qed.
Lemma zrange_succ n : 0 <= n -> zrange (n + 1) = zrange n ++ [n].
Proof.
  intros. unfold zrange. replace (Z.to_nat (n + 1)) with (Datatypes.S (Z.to_nat n)) by lia.
  rewrite seq_S, map_app. cbn. repeat f_equal. lia.
Qed.
Lemma zrange_nonpos n : n <= 0 -> zrange n = [].
Proof. intros. unfold zrange. replace (Z.to_nat n) with O by lia. reflexivity. Qed.
Lemma length_zrange n : 0 <= n -> Z.of_nat (length (zrange n)) = n.
Proof. intros. unfold zrange. rewrite map_length, seq_length. lia. Qed.
Lemma length_zrange_nat n : length (zrange n) = Z.to_nat n.
Proof. intros. unfold zrange. now rewrite map_length, seq_length. Qed.

Lemma zrange_ind (P : Z -> Prop) : P 0 -> (forall n, 0 <= n -> P n -> P (n + 1)) ->
  forall n, 0 <= n -> P n.
Proof.
  intros. revert n H1. apply natlike_ind; auto.
Qed.

(** ** counting: [cnt K v] = number of [u < v] with [K u] *)
Definition cnt (K : Z -> bool) (v : Z) : Z := Z.of_nat (length (filter K (zrange v))).

Lemma cnt_0 K : cnt K 0 = 0.
Proof. reflexivity. Qed.
Lemma cnt_succ K v : 0 <= v -> cnt K (v + 1) = cnt K v + (if K v then 1 else 0).
Proof.
  intros. unfold cnt. rewrite zrange_succ, filter_app, app_length by auto. cbn.
  destruct (K v); cbn; lia.
Qed.
Lemma cnt_nonneg K v : 0 <= cnt K v.
Proof. unfold cnt. lia. Qed.
Lemma cnt_mono K u v : 0 <= u <= v -> cnt K u <= cnt K v <= cnt K u + (v - u).
Proof.
  intros. replace v with (u + (v - u)) by lia.
  assert (0 <= v - u) by lia. revert H0. generalize (v - u). clear v H.
  intros d Hd. intros. pattern d. apply zrange_ind; auto.
  - rewrite Z.add_0_r. lia.
  - intros n Hn IH. replace (u + (n + 1)) with (u + n + 1) by lia.
    assert (0 <= u \/ u < 0) as [Hu|Hu] by lia.
    + rewrite cnt_succ by lia. destruct (K (u + n)); lia.
    + assert (C : forall x, x <= 0 -> cnt K x = 0).
      { intros; unfold cnt. now rewrite zrange_nonpos. }
      destruct (Z.leb_spec 0 (u + n)).
      * rewrite cnt_succ by lia. destruct (K (u + n)); lia.
      * rewrite (C (u + n + 1)) by lia. rewrite (C (u+n)) in IH by lia. lia.
Qed.
Lemma cnt_le K v : 0 <= v -> cnt K v <= v.
Proof. intros. pose proof (cnt_mono K 0 v). rewrite cnt_0 in H0. lia. Qed.
Lemma cnt_lt K u v : 0 <= u < v -> K u = true -> cnt K u < cnt K v.
Proof.
  intros. pose proof (cnt_mono K (u + 1) v ltac:(lia)).
  rewrite (cnt_succ K u), H0 in H1 by lia. lia.
Qed.
Lemma cnt_inj K u v : 0 <= u -> 0 <= v -> K u = true -> K v = true ->
  cnt K u = cnt K v -> u = v.
Proof.
  intros. destruct (Z.lt_trichotomy u v) as [L|[L|L]]; auto.
  - pose proof (cnt_lt K u v ltac:(lia) H1). lia.
  - pose proof (cnt_lt K v u ltac:(lia) H2). lia.
Qed.
Lemma cnt_ext K K' v : (forall u, 0 <= u < v -> K u = K' u) -> cnt K v = cnt K' v.
Proof.
  intros. unfold cnt. do 2 f_equal. apply filter_ext_in. intros a Ha. apply in_zrange in Ha. auto.
Qed.

(** The kept elements are numbered 0, 1, 2, ... by [cnt]. *)
Lemma map_cnt_filter K n : 0 <= n -> map (cnt K) (filter K (zrange n)) = zrange (cnt K n).
Proof.
  intros Hn. pattern n. apply zrange_ind; auto.
  intros m Hm IH. rewrite zrange_succ, filter_app, map_app, IH, cnt_succ by auto.
  cbn. destruct (K m); cbn.
  - rewrite zrange_succ by apply cnt_nonneg. reflexivity.
  - now rewrite app_nil_r, Z.add_0_r.
Qed.
Lemma cnt_surj K n i : 0 <= n -> 0 <= i < cnt K n -> exists u, 0 <= u < n /\ K u = true /\ cnt K u = i.
Proof.
  intros Hn Hi. apply in_zrange in Hi. rewrite <- map_cnt_filter in Hi by auto.
  apply in_map_iff in Hi as (u & E & Hu). apply filter_In in Hu as (Hu & HK).
  apply in_zrange in Hu. eauto.
Qed.

(** ** pigeonhole *)
Lemma pigeonhole (f : nat -> Z) (n : Z) :
  0 <= n -> (forall i, (i <= Z.to_nat n)%nat -> 0 <= f i < n) ->
  exists i j, (i < j <= Z.to_nat n)%nat /\ f i = f j.
Proof.
  intros Hn Hf.
  set (l := map f (seq 0 (Datatypes.S (Z.to_nat n)))).
  assert (D : NoDup l \/ ~ NoDup l).
  { destruct (ListDec.NoDup_dec Z.eq_dec l); auto. }
  destruct D as [D|D].
  - exfalso.
    assert (I : incl l (zrange n)).
    { intros x Hx. apply in_map_iff in Hx as (k & <- & Hk). apply in_seq in Hk.
      apply in_zrange. apply Hf. lia. }
    pose proof (NoDup_incl_length D I) as L. unfold l in L.
    rewrite map_length, seq_length, length_zrange_nat in L. lia.
  - assert (G : forall m, (forall i j, (i < j < m)%nat -> f i <> f j) ->
                 NoDup (map f (seq 0 m))).
    { intros m. intros H. apply NoDup_nth with (d := 0).
      rewrite map_length, seq_length. intros i j Hi Hj E.
      rewrite !nth_indep with (d := 0) (d' := f O) in E by (rewrite map_length, seq_length; lia).
      rewrite !map_nth, !seq_nth in E by lia. cbn in E.
      destruct (Nat.lt_trichotomy i j) as [L|[L|L]]; auto.
      - exfalso; apply (H i j); auto.
      - exfalso; apply (H j i); auto. }
    assert (X : forall m, (exists i j, (i < j < m)%nat /\ f i = f j) \/
                          (forall i j, (i < j < m)%nat -> f i <> f j)).
    { induction m.
      - right; intros; lia.
      - destruct IHm as [(i & j & H & E)|H]; [left; exists i, j; split; auto; lia|].
        assert (Y : forall k, (k <= m)%nat -> (exists i, (i < k)%nat /\ f i = f m) \/
                              (forall i, (i < k)%nat -> f i <> f m)).
        { induction k; intros; [right; lia|].
          destruct IHk as [(i & H1 & E)|H1]; [lia|left; exists i; split; auto; lia|].
          destruct (Z.eq_dec (f k) (f m)); [left; exists k; split; auto|].
          right. intros. destruct (Nat.eq_dec i k); subst; auto. apply H1; lia. }
        destruct (Y m) as [(i & H1 & E)|H1]; [lia| |].
        + left. exists i, m. split; auto; lia.
        + right. intros i j Hij. destruct (Nat.eq_dec j m); subst; [apply H1; lia|apply H; lia]. }
    destruct (X (Datatypes.S (Z.to_nat n))) as [(i & j & H & E)|H].
    + exists i, j. split; auto; lia.
    + exfalso. apply D. apply G. auto.
Qed.

(** ** iteration *)
Fixpoint iter {A} (k : nat) (f : A -> A) (x : A) : A :=
  match k with O => x | Datatypes.S k' => f (iter k' f x) end.
Lemma iter_S {A} k (f : A -> A) x : iter (Datatypes.S k) f x = iter k f (f x).
Proof. induction k; cbn; auto. cbn in IHk. now rewrite IHk. Qed.
Lemma iter_add {A} a b (f : A -> A) x : iter (a + b) f x = iter a f (iter b f x).
Proof. induction a; cbn; auto. now rewrite IHa. Qed.

(** ** do-while *)
Lemma dowhile_iter {A} (body : A -> res (A * bool)) (f : A -> A) (k : nat) :
  forall fuel x, (k < fuel)%nat ->
  (forall j, (j < k)%nat -> body (iter j f x) = OK (iter (Datatypes.S j) f x, true)) ->
  body (iter k f x) = OK (iter (Datatypes.S k) f x, false) ->
  dowhile fuel body x = OK (iter (Datatypes.S k) f x).
Proof.
  induction k; intros fuel x Hf Hs Hk; (destruct fuel as [|fuel]; [lia|]); cbn [dowhile].
  - cbn in Hk. rewrite Hk. reflexivity.
  - pose proof (Hs O ltac:(lia)) as H0. cbn in H0. rewrite H0. cbn [bind].
    rewrite iter_S. apply IHk.
    + lia.
    + intros j Hj. rewrite <- !iter_S. apply (Hs (Datatypes.S j)). lia.
    + rewrite <- !iter_S. auto.
Qed.

(** First index where a decidable predicate holds. *)
Lemma first_true (P : nat -> bool) k : P k = true ->
  exists m, (m <= k)%nat /\ P m = true /\ forall j, (j < m)%nat -> P j = false.
Proof.
  induction k as [k IH] using lt_wf_ind. intros H.
  destruct (existsb P (seq 0 k)) eqn:E.
  - apply existsb_exists in E as (j & Hj & Pj). apply in_seq in Hj.
    destruct (IH j ltac:(lia) Pj) as (m & ? & ? & ?). exists m. repeat split; auto; lia.
  - exists k. repeat split; auto. intros j Hj.
    destruct (P j) eqn:Pj; auto. exfalso.
    assert (existsb P (seq 0 k) = true); [|congruence].
    apply existsb_exists. exists j. split; auto. apply in_seq; lia.
Qed.
