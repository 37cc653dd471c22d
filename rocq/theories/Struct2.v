(** * Struct2: linkage of the 2D operations, for every arithmetic. *)
From Coq Require Import ZArith List Bool Lia Permutation.
From Verif Require Import Base Lib ModelCommon Model2 CommonFacts Spec2.
Import ListNotations.
Open Scope Z_scope.

Lemma slot2 np : 0 <= np < 2 -> np = 0 \/ np = 1.
Proof. lia. Qed.

(** ** Walks between new vertices *)
Section Relink.
Context (f : Z -> Z -> Z) (n N : Z) (K : Z -> bool).
Hypothesis Hn : 0 <= n <= N.

Definition oldK v := 0 <= v < n /\ K v = true.
(** new vertex with its only link in slot [t] *)
Definition newT t v := n <= v < N /\ f v (1 - t) = -1 /\ oldK (f v t) /\ f (f v t) (1 - t) = v.

Hypothesis Hold : forall v np, oldK v -> 0 <= np < 2 ->
  0 <= f v np < N /\ K (f v np) = true /\ f (f v np) (1 - np) = v.
Hypothesis Hnew : forall v, n <= v < N -> K v = true /\ (newT 0 v \/ newT 1 v).

Definition it t e (j : nat) : Z := iter j (fun v => f v t) (f e t).
Definition Walk t e x := exists k : nat, (k < Z.to_nat n)%nat /\
  (forall j, (j <= k)%nat -> oldK (it t e j)) /\ x = it t e (S k) /\ n <= x < N.

Lemma it_S t e j : it t e (S j) = f (it t e j) t.
Proof. reflexivity. Qed.

Lemma newT_other t v w : (t = 0 \/ t = 1) -> oldK w -> v = f w t -> n <= v < N -> newT (1 - t) v.
Proof.
  intros Ht Hw -> Hv.
  destruct (Hold w t Hw) as (_ & _ & E); [lia|].
  destruct (Hnew _ Hv) as (_ & Hc).
  destruct Hw as (Hw & HKw).
  destruct Ht; subst t.
  - destruct Hc as [Hc|Hc]; auto. destruct Hc as (_ & Hc & _).
    change (1 - 0) with 1 in *. lia.
  - destruct Hc as [Hc|Hc]; auto. destruct Hc as (_ & Hc & _).
    change (1 - 1) with 0 in *. lia.
Qed.

Lemma walk_exists t e : (t = 0 \/ t = 1) -> newT t e ->
  exists x, Walk t e x /\ newT (1 - t) x.
Proof.
  intros Ht He.
  assert (Ht2 : 0 <= t < 2) by lia.
  destruct He as (He & _ & Ho & Hb).
  assert (NA : exists j, (j <= Z.to_nat n)%nat /\ inb n (it t e j) = false).
  { destruct (forallb (fun j => inb n (it t e j)) (seq 0 (S (Z.to_nat n)))) eqn:E.
    - exfalso.
      assert (A : forall j, (j <= Z.to_nat n)%nat -> 0 <= it t e j < n).
      { intros j Hj. rewrite forallb_forall in E. specialize (E j).
        destruct (inb_spec n (it t e j)); auto. rewrite in_seq in E.
        discriminate E. lia. }
      assert (AK : forall j, (j <= Z.to_nat n)%nat -> oldK (it t e j)).
      { induction j; intros Hj; [exact Ho|]. split; [apply A; auto|].
        rewrite it_S. apply Hold; [apply IHj; lia|auto]. }
      destruct (pigeonhole (it t e) n) as (i & j & Hij & E2); [lia|auto|].
      assert (Z0 : forall i, (i <= Z.to_nat n)%nat -> forall j, (i < j <= Z.to_nat n)%nat ->
                   it t e i = it t e j -> False).
      { clear i j Hij E2. induction i; intros Hi j Hj E2.
        - destruct j as [|j]; [lia|].
          destruct (Hold (it t e j) t) as (_ & _ & X); [apply AK; lia|auto|].
          rewrite <- it_S, <- E2 in X. change (it t e 0) with (f e t) in X. rewrite Hb in X.
          pose proof (A j ltac:(lia)). lia.
        - destruct j as [|j]; [lia|]. apply (IHi ltac:(lia) j ltac:(lia)).
          destruct (Hold (it t e j) t) as (_ & _ & X); [apply AK; lia|auto|].
          destruct (Hold (it t e i) t) as (_ & _ & Y); [apply AK; lia|auto|].
          rewrite <- it_S in X, Y. rewrite E2 in Y. congruence. }
      apply (Z0 i ltac:(lia) j Hij E2).
    - assert (exists j, In j (seq 0 (S (Z.to_nat n))) /\ inb n (it t e j) = false) as (j & Hj & Hf).
      { clear -E. revert E. generalize (seq 0 (S (Z.to_nat n))). induction l; cbn; [discriminate|].
        destruct (inb n (it t e a)) eqn:X; cbn; intros; [|eauto].
        destruct IHl as (j & ? & ?); eauto. }
      apply in_seq in Hj. exists j. split; auto; lia. }
  destruct NA as (j0 & Hj0 & Hf).
  destruct (first_true (fun j => negb (inb n (it t e j))) j0) as (m & Hm & Hmt & Hfirst).
  { now rewrite Hf. }
  destruct m as [|k].
  { exfalso. change (it t e 0) with (f e t) in Hmt. destruct Ho as (Ho & _).
    rewrite inb_true in Hmt by auto. discriminate. }
  assert (AK : forall j, (j <= k)%nat -> oldK (it t e j)).
  { induction j; intros Hj; [exact Ho|]. split.
    - specialize (Hfirst (S j) ltac:(lia)). destruct (inb_spec n (it t e (S j))); auto. discriminate.
    - rewrite it_S. apply Hold; [apply IHj; lia|auto]. }
  assert (X : n <= it t e (S k) < N).
  { destruct (inb_spec n (it t e (S k))); [discriminate|].
    destruct (Hold (it t e k) t) as (R & _); [apply AK; lia|auto|]. rewrite it_S in *. lia. }
  exists (it t e (S k)). split.
  - exists k. repeat split; auto; try lia; apply AK; auto.
  - apply newT_other with (w := it t e k); auto.
Qed.

Lemma walk_fun t e x x' : Walk t e x -> Walk t e x' -> x = x'.
Proof.
  intros (k & _ & A & -> & R) (k' & _ & A' & -> & R').
  destruct (Nat.lt_trichotomy k k') as [L|[L|L]].
  - destruct (A' (S k) ltac:(lia)). lia.
  - now subst.
  - destruct (A (S k') ltac:(lia)). lia.
Qed.

Lemma walk_rev t e x : (t = 0 \/ t = 1) -> newT t e -> Walk t e x -> Walk (1 - t) x e.
Proof.
  intros Ht He (k & Hk & A & Hx & R).
  assert (Ht2 : 0 <= t < 2) by lia.
  destruct He as (He & _ & Ho & Hb).
  assert (G : forall j, (j <= k)%nat -> it (1 - t) x j = it t e (k - j)).
  { induction j; intros Hj.
    - unfold it at 1. cbn [iter]. rewrite Hx, it_S, Nat.sub_0_r. apply Hold; auto.
    - rewrite it_S, IHj by lia. replace (k - j)%nat with (S (k - S j)) by lia.
      rewrite it_S. apply Hold; auto. apply A; lia. }
  exists k. split; auto. split; [|split].
  - intros. rewrite G by auto. apply A. lia.
  - rewrite it_S, G by auto. rewrite Nat.sub_diag. change (it t e 0) with (f e t). auto.
  - auto.
Qed.

Lemma walk_inj t e e' x : (t = 0 \/ t = 1) -> newT t e -> newT t e' ->
  Walk t e x -> Walk t e' x -> e = e'.
Proof.
  intros Ht He He' H H'. apply walk_rev in H; auto. apply walk_rev in H'; auto.
  eapply walk_fun; eauto.
Qed.

(** What relinking achieves. *)
Definition relinked (f' : Z -> Z -> Z) : Prop :=
  (forall v np, 0 <= v < N -> 0 <= np < 2 -> (v < n \/ f v np <> -1) -> f' v np = f v np)
  /\ (forall v np, n <= v < N -> 0 <= np < 2 -> f v np = -1 ->
        Walk (1 - np) v (f' v np) /\ newT np (f' v np) /\ newT (1 - np) v).

Lemma relinked_mutual f' : relinked f' ->
  forall v np, 0 <= v < N -> K v = true -> 0 <= np < 2 ->
    0 <= f' v np < N /\ K (f' v np) = true /\ f' (f' v np) (1 - np) = v.
Proof.
  intros (R1 & R2) v np Hv HK Hnp.
  assert (Hnp' : 0 <= 1 - np < 2) by lia.
  destruct (Z.lt_ge_cases v n) as [L|L].
  - rewrite R1 by auto. assert (oldK v) as Ho by (split; auto; lia).
    destruct (Hold v np Ho Hnp) as (X & Y & Z). split; auto. split; auto.
    destruct (Z.lt_ge_cases (f v np) n).
    + rewrite R1; auto.
    + rewrite R1; auto. right. lia.
  - destruct (Z.eq_dec (f v np) (-1)) as [E|E].
    + destruct (R2 v np) as (W & T1 & T2); auto; try lia.
      pose proof T1 as (X1 & X2 & X3 & X4).
      split; [lia|]. split; [apply Hnew; auto|].
      destruct (R2 (f' v np) (1 - np)) as (W' & T1' & T2'); auto.
      replace (1 - (1 - np)) with np in * by lia.
      apply walk_rev in W; auto; [|lia]. replace (1 - (1 - np)) with np in W by lia.
      eapply walk_fun; eauto.
    + rewrite R1 by auto. destruct (Hnew v) as (_ & [T|T]); [lia| |].
      * destruct T as (_ & T1 & T2 & T3).
        assert (np = 0) by (change (1 - 0) with 1 in *; destruct (slot2 np Hnp); subst; auto; congruence). subst.
        destruct T2 as (T2 & T4). split; [lia|]. split; auto.
        rewrite R1; auto; lia.
      * destruct T as (_ & T1 & T2 & T3).
        assert (np = 1) by (change (1 - 1) with 0 in *; destruct (slot2 np Hnp); subst; auto; congruence). subst.
        destruct T2 as (T2 & T4). split; [lia|]. split; auto.
        rewrite R1; auto; lia.
Qed.

(** Walks stay within a class that links respect. *)
Lemma walk_class (S : Z -> Prop) t e x : (t = 0 \/ t = 1) ->
  (forall v, oldK v -> S v -> S (f v t)) -> S (f e t) -> Walk t e x -> S x.
Proof.
  intros Ht HS H0 (k & _ & A & -> & _).
  assert (G : forall j, (j <= k)%nat -> S (it t e j)).
  { induction j; intros; auto. rewrite it_S. apply HS; [apply A; lia|apply IHj; lia]. }
  rewrite it_S. apply HS; [apply A; lia|apply G; lia].
Qed.

End Relink.

(** ** The relinking loop *)
Section RelinkLoop.
Context {NN : num} (MX : Z).
Notation buf := (vbuf (rvec2 (T NN))).

Lemma relink_spec (b : buf) n N K :
  0 <= n <= N -> N <= MX ->
  (forall v np, oldK n K v -> 0 <= np < 2 ->
     0 <= nb b v np < N /\ K (nb b v np) = true /\ nb b (nb b v np) (1 - np) = v) ->
  (forall v, n <= v < N -> K v = true /\ (newT (nb b) n N K 0 v \/ newT (nb b) n N K 1 v)) ->
  exists b', relink NN MX n N b = OK b' /\ ps b' = ps b /\ relinked (nb b) n N K (nb b').
Proof.
  intros Hn HN Hold Hnew. set (f := nb b) in *.
  destruct (for_inv (fun s (b' : buf) =>
     ps b' = ps b
     /\ (forall v np, 0 <= v < N -> 0 <= np < 2 -> (v < n \/ f v np <> -1) -> nb b' v np = f v np)
     /\ (forall e, s <= e < N -> newT f n N K 0 e -> nb b' e 1 = -1)
     /\ (forall e, n <= e < s -> newT f n N K 0 e ->
           Walk f n N K 0 e (nb b' e 1) /\ newT f n N K 1 (nb b' e 1) /\
           nb b' (nb b' e 1) 0 = e))
     n N (relink_body NN MX n) b) as (b' & E & Hp & H1 & _ & H3); try lia.
  - repeat split; auto; try lia.
    intros e He (_ & T & _). exact T.
  - intros s b1 Hs (Hp & H1 & H2 & H3).
    unfold relink_body. rewrite rd_nb_ok by lia. cbn [bind].
    destruct (Hnew s Hs) as (Ks & [Hs0|Hs1]).
    + rewrite (H2 s) by (auto; lia). cbn [Z.leb Z.compare].
      rewrite rd_nb_ok by lia. cbn [bind].
      destruct (walk_exists f n N K Hn Hold Hnew 0 s) as (x & W & Tx); auto.
      change (1 - 0) with 1 in Tx.
      pose proof Hs0 as (_ & S1 & S2 & S3). change (1 - 0) with 1 in *.
      pose proof Tx as (X0 & X1 & X2 & X3). change (1 - 1) with 0 in *.
      pose proof W as (k & Hk & A & Ex & Rx).
      rewrite (H1 s 0) by (auto; try lia; right; destruct S2; lia).
      assert (Ew : relink_walk NN MX b1 n (f s 0) = OK x).
      { unfold relink_walk. rewrite Ex. unfold it.
        apply (dowhile_iter _ (fun v => f v 0) k).
        - lia.
        - intros j Hj.
          destruct (A j ltac:(lia)) as (Aj & _). unfold it in Aj.
          rewrite rd_nb_ok by lia. cbn [bind]. rewrite (H1 _ 0) by lia.
          destruct (A (S j) ltac:(lia)) as (Aj' & _). unfold it in Aj'. cbn [iter] in Aj' |- *.
          destruct (Z.ltb_spec (f (iter j (fun v : Z => f v 0) (f s 0)) 0) n); auto; lia.
        - destruct (A k ltac:(lia)) as (Aj & _). unfold it in Aj.
          rewrite rd_nb_ok by lia. cbn [bind]. rewrite (H1 _ 0) by lia.
          unfold it in Ex. cbn [iter] in Ex |- *.
          destruct (Z.ltb_spec (f (iter k (fun v : Z => f v 0) (f s 0)) 0) n); auto; lia. }
      rewrite Ew. cbn [bind]. rewrite wr_nb_ok by lia. cbn [bind]. rewrite wr_nb_ok by lia.
      eexists. split; [reflexivity|]. cbn [ps nb]. split; auto.
      split; [|split].
      * intros v np Hv Hnp Hc.
        rewrite set_nb_neq by (intros EE; inversion EE; subst; destruct Hc; [lia|congruence]).
        rewrite set_nb_neq by (intros EE; inversion EE; subst; destruct Hc; [lia|congruence]).
        auto.
      * intros e He Te. rewrite set_nb_neq_p by lia. rewrite set_nb_neq_v by lia.
        apply H2; auto; lia.
      * intros e He Te. destruct (Z.eq_dec e s) as [Ees|Ees].
        { subst e.
          assert (Q1 : set_nb (set_nb (nb b1) s 1 x) x 0 s s 1 = x)
            by (rewrite set_nb_neq_p by lia; apply set_nb_eq).
          rewrite Q1. split; [auto|split; [auto|]]. apply set_nb_eq. }
        destruct (H3 e ltac:(lia) Te) as (W' & Tx' & Ex').
        assert (Q1 : set_nb (set_nb (nb b1) s 1 x) x 0 s e 1 = nb b1 e 1)
          by (rewrite set_nb_neq_p by lia; apply set_nb_neq_v; lia).
        rewrite Q1. split; auto. split; auto.
        rewrite set_nb_neq_v.
        { rewrite set_nb_neq_p by lia. auto. }
        intros EE. rewrite EE in W'. apply Ees.
        eapply (walk_inj f n N K) with (t := 0); eauto.
    + pose proof Hs1 as (_ & S1 & S2 & S3). change (1 - 1) with 0 in *.
      rewrite (H1 s 1) by (auto; try lia; right; destruct S2; lia).
      destruct S2 as (S2 & _).
      destruct (Z.leb_spec 0 (f s 1)); [|lia].
      eexists. split; [reflexivity|]. split; auto. split; auto. split.
      * intros; apply H2; auto; lia.
      * intros e He Te. destruct (Z.eq_dec e s); [|apply H3; auto; lia].
        subst e. destruct Te as (_ & Te & _). change (1 - 0) with 1 in *. lia.
  - exists b'. split; auto. split; auto. split; auto.
    intros v np Hv Hnp Hm.
    destruct (slot2 np Hnp); subst np.
    + change (1 - 0) with 1.
      assert (T : newT f n N K 1 v).
      { destruct (Hnew v Hv) as (_ & [T|T]); auto. destruct T as (_ & _ & (T & _) & _). lia. }
      destruct (walk_exists f n N K Hn Hold Hnew 1 v) as (e & W & Te); auto.
      change (1 - 1) with 0 in *.
      destruct (H3 e) as (W' & Tx' & Ex'); auto; [destruct Te; lia|].
      apply walk_rev in W; auto. change (1 - 1) with 0 in *.
      assert (EQ : nb b' e 1 = v) by (eapply walk_fun; eauto).
      rewrite EQ in Ex'. rewrite Ex'. split; auto.
      rewrite EQ in W'. apply walk_rev in W'; auto.
    + change (1 - 1) with 0.
      assert (T : newT f n N K 0 v).
      { destruct (Hnew v Hv) as (_ & [T|T]); auto. destruct T as (_ & _ & (T & _) & _). lia. }
      destruct (H3 v) as (W' & Tx' & Ex'); auto.
Qed.
End RelinkLoop.

(** ** What one cut achieves on the side [K] *)
Record cut2 {V} (b0 : vbuf V) (n N : Z) (K : Z -> bool) (newpos : Z -> Z -> V) (b' : vbuf V) : Prop := {
  c_n : 0 <= n <= N;
  c_ps : forall v, 0 <= v < n -> ps b' v = ps b0 v;
  c_keep : forall v np, 0 <= v < n -> 0 <= np < 2 -> K v = true -> K (nb b0 v np) = true ->
     nb b' v np = nb b0 v np;
  c_new : forall v np, 0 <= v < n -> 0 <= np < 2 -> K v = true -> K (nb b0 v np) = false ->
     n <= nb b' v np < N /\ ps b' (nb b' v np) = newpos v np;
  c_src : forall w, n <= w < N -> K w = true -> exists v np,
     0 <= v < n /\ 0 <= np < 2 /\ K v = true /\ K (nb b0 v np) = false /\
     nb b' v np = w /\ nb b' w (1 - np) = v /\ n <= nb b' w np < N;
  c_mut : forall v np, 0 <= v < N -> 0 <= np < 2 -> K v = true ->
     0 <= nb b' v np < N /\ K (nb b' v np) = true /\ nb b' (nb b' v np) (1 - np) = v
}.

Lemma cut2_closed {V} b0 n N K np (b' : vbuf V) : cut2 b0 n N K np b' -> closed_links 2 K N b'.
Proof.
  intros C u q Hu HK Hq. destruct (c_mut _ _ _ _ _ _ C u q Hu Hq HK) as (A & B & _). auto.
Qed.

Lemma compressed_linked {V} b0 n N K np (b' : vbuf V) p :
  cut2 b0 n N K np b' -> compressed 2 K N b' p -> wf2 p.
Proof.
  intros C (Hn & Hc). pose proof (c_n _ _ _ _ _ _ C). split; [rewrite Hn; apply cnt_nonneg|].
  intros i Hi. rewrite Hn in *. destruct (cnt_surj K N i) as (u & Hu & Ku & <-); try lia.
  destruct (Hc u Hu Ku) as (_ & Hl).
  rewrite !Hl by lia.
  destruct (c_mut _ _ _ _ _ _ C u 0 Hu ltac:(lia) Ku) as (A0 & B0 & C0).
  destruct (c_mut _ _ _ _ _ _ C u 1 Hu ltac:(lia) Ku) as (A1 & B1 & C1).
  change (1 - 0) with 1 in *. change (1 - 1) with 0 in *.
  destruct (Hc _ A0 B0) as (_ & Hl0). destruct (Hc _ A1 B1) as (_ & Hl1).
  rewrite (Hl0 1), (Hl1 0), C0, C1 by lia.
  pose proof (cnt_lt K _ N A0 B0). pose proof (cnt_lt K _ N A1 B1).
  pose proof (cnt_nonneg K (nb b' u 0)). pose proof (cnt_nonneg K (nb b' u 1)).
  repeat split; auto; lia.
Qed.

Lemma compressed_distinct {V} b0 n N K np (b' : vbuf V) p :
  cut2 b0 n N K np b' -> compressed 2 K N b' p ->
  linked (nb b0) n -> distinct2 (nb b0) n -> distinct2 (nb (vb p)) (nv p).
Proof.
  intros C (Hn & Hc) HL HD i Hi. rewrite Hn in Hi. pose proof (c_n _ _ _ _ _ _ C).
  destruct (cnt_surj K N i) as (u & Hu & Ku & <-); try lia.
  destruct (Hc u Hu Ku) as (_ & Hl). rewrite !Hl by lia.
  destruct (c_mut _ _ _ _ _ _ C u 0 Hu ltac:(lia) Ku) as (A0 & B0 & C0).
  destruct (c_mut _ _ _ _ _ _ C u 1 Hu ltac:(lia) Ku) as (A1 & B1 & C1).
  change (1 - 0) with 1 in *. change (1 - 1) with 0 in *.
  intros E. apply cnt_inj in E; auto; try lia.
  destruct (Z.lt_ge_cases u n) as [L|L].
  - destruct (K (nb b0 u 0)) eqn:K0', (K (nb b0 u 1)) eqn:K1'.
    + rewrite !(c_keep _ _ _ _ _ _ C) in E by (auto; lia). apply (HD u); auto; lia.
    + rewrite (c_keep _ _ _ _ _ _ C) in E by (auto; lia).
      destruct (c_new _ _ _ _ _ _ C u 1) as (X & _); auto; try lia.
      destruct (HL u); [lia|]. lia.
    + destruct (c_new _ _ _ _ _ _ C u 0) as (X & _); auto; try lia.
      rewrite (c_keep _ _ _ _ _ _ C u 1) in E by (auto; lia).
      destruct (HL u); [lia|]. lia.
    + destruct (c_new _ _ _ _ _ _ C u 0) as (X & _); auto; try lia.
      destruct (c_src _ _ _ _ _ _ C (nb b' u 0)) as (v & q & Hv & Hq & _ & _ & E1 & E2 & E3); auto.
      destruct (slot2 q Hq); subst q.
      * change (1 - 0) with 1 in *. rewrite E in E3. rewrite C1 in E3. lia.
      * change (1 - 1) with 0 in *. rewrite C0 in E3. lia.
  - destruct (c_src _ _ _ _ _ _ C u) as (v & q & Hv & Hq & _ & _ & E1 & E2 & E3); auto; [lia|].
    destruct (slot2 q Hq); subst q; [change (1 - 0) with 1 in *|change (1 - 1) with 0 in *]; lia.
Qed.

(** ** r2d_clip: inserting vertices *)
Section Clip.
Context (NN : num) (MX : Z).
Notation rv := (rvec2 (T NN)).
Notation buf := (vbuf rv).

Definition crossb (cl : Z -> Z) (f : Z -> Z -> Z) (d : dart) : bool :=
  (cl (fst d) =? 0) && negb (cl (f (fst d) (snd d)) =? 0).
(** number of bisected (vertex, slot) pairs *)
Definition ncross D (cl : Z -> Z) (f : Z -> Z -> Z) (n : Z) : Z :=
  Z.of_nat (length (filter (crossb cl f) (darts D n))).

Section Ins.
Variables (b0 : buf) (n : Z) (sds : Z -> option (T NN)) (sd : Z -> T NN) (cl : Z -> Z).
Hypothesis Hn : 0 <= n <= MX.
Hypothesis HL : linked (nb b0) n.
Hypothesis Hsd : forall v, 0 <= v < n -> sds v = Some (sd v).
Let f0 := nb b0.
Definition newpos2 (v np : Z) : rv :=
  wav2 NN (ps b0 v) (nopp NN (sd (nb b0 v np))) (ps b0 (nb b0 v np)) (sd v).

Lemma L0 v np : 0 <= v < n -> 0 <= np < 2 -> 0 <= f0 v np < n.
Proof. intros Hv Hnp. destruct (HL v Hv) as (A & B & _). unfold f0. destruct (slot2 np Hnp); subst; auto. Qed.
Lemma L1 v np : 0 <= v < n -> 0 <= np < 2 -> f0 (f0 v np) (1 - np) = v.
Proof. intros Hv Hnp. destruct (HL v Hv) as (_ & _ & A & B). unfold f0. destruct (slot2 np Hnp); subst; auto. Qed.

Definition DescC (xs : list dart) (s : buf * Z) : Prop :=
  let '(b, N) := s in
  N = n + Z.of_nat (length xs) /\ N <= MX /\ NoDup xs
  /\ (forall v np, 0 <= v < n -> 0 <= np < 2 -> ~ In (v, np) xs -> nb b v np = f0 v np)
  /\ (forall v, 0 <= v < n -> ps b v = ps b0 v)
  /\ (forall k v np, nth_error xs k = Some (v, np) ->
       nb b v np = n + Z.of_nat k /\ nb b (n + Z.of_nat k) (1 - np) = v
       /\ nb b (n + Z.of_nat k) np = -1 /\ ps b (n + Z.of_nat k) = newpos2 v np).

Lemma clip_ins_spec :
  (exists b N, for_ 0 n (clip_ins_v NN MX sds cl) (b0, n) = OK (b, N)
     /\ DescC (filter (crossb cl f0) (darts 2 n)) (b, N))
  \/ (for_ 0 n (clip_ins_v NN MX sds cl) (b0, n) = Err OutOfBounds
      /\ MX < n + ncross 2 cl f0 n).
Proof.
  destruct (ins_loop 2 n (fun v => cl v =? 0) (crossb cl f0) DescC
    (fun e => e = OutOfBounds /\ MX < n + ncross 2 cl f0 n)
    (clip_ins_v NN MX sds cl) (clip_ins_np NN MX sds cl) (b0, n)) as [([b N] & E & HD)|(e & E & -> & HQ)];
    try lia; eauto.
  - intros v np Hk. unfold crossb. cbn. now rewrite Hk.
  - intros v xs s Hv HD. unfold clip_ins_v. rewrite rd_ok by lia. reflexivity.
  - intros v np xs [b N] Hv Hnp Hk Hxs (HN & HM & ND & H1 & H2 & H3).
    assert (Hni : ~ In (v, np) xs).
    { intros Hi. apply Hxs in Hi. cbn in Hi. lia. }
    pose proof (L0 v np Hv Hnp) as Hr.
    unfold crossb. cbn [fst snd]. rewrite Hk. cbn [andb].
    unfold clip_ins_np. rewrite rd_nb_ok by lia. cbn [bind].
    rewrite H1 by auto. rewrite rd_ok by lia. cbn [bind].
    destruct (Z.eqb_spec (cl (f0 v np)) 0) as [E0|E0]; cbn [negb].
    { eexists. split; [reflexivity|]. unfold DescC. auto 10. }
    destruct (Z.lt_ge_cases N MX) as [LT|GE].
    + left. rewrite wr_nb_ok by lia. cbn [bind]. rewrite wr_nb_ok by lia. cbn [bind].
      rewrite wr_nb_ok by lia. cbn [bind]. rewrite rd_ps_ok by lia. cbn [bind].
      unfold rdi. rewrite !inb_true by lia. rewrite !Hsd by lia. cbn [bind].
      rewrite rd_ps_ok by lia. cbn [bind]. rewrite wr_ps_ok by lia. cbn [bind].
      eexists. split; [reflexivity|]. unfold DescC. cbn [nb ps]. rewrite app_length. cbn [length].
      split; [lia|]. split; [lia|].
      assert (forall k d, nth_error (xs ++ [(v, np)]) k = Some d ->
         nth_error xs k = Some d /\ n + Z.of_nat k < N \/ d = (v, np) /\ n + Z.of_nat k = N).
      { intros k d Hk'. destruct (Nat.lt_ge_cases k (length xs)).
        - rewrite nth_error_app1 in Hk' by auto. left. split; auto. lia.
        - rewrite nth_error_app2 in Hk' by auto.
          destruct (k - length xs)%nat as [|q] eqn:Eq; [|destruct q; discriminate].
          cbn in Hk'. inversion Hk'. right. split; auto. lia. }
      split; [|split; [|split]].
      * apply Permutation_NoDup with (l := (v, np) :: xs).
        { apply Permutation_cons_append. }
        constructor; auto.
      * intros u q Hu Hq Hi. rewrite in_app_iff in Hi.
        assert ((u, q) <> (v, np)) by (intros EE; apply Hi; right; left; auto).
        rewrite set_nb_neq by auto. rewrite !set_nb_neq_v by lia. apply H1; auto.
      * intros u Hu. rewrite upd_neq by lia. auto.
      * intros k u q Hk'. destruct (H k _ Hk') as [(Hk2 & Hlt)|(EE & ->)].
        { destruct (H3 k u q Hk2) as (A1 & A2 & A3 & A4).
          assert (In (u, q) xs) by (eapply nth_error_In; eauto).
          assert ((u, q) <> (v, np)) by congruence.
          destruct (Hxs _ H0) as (Hd & _). apply in_darts in Hd.
          rewrite (set_nb_neq _ _ _ _ u q) by auto.
          rewrite !(set_nb_neq_v _ _ _ _ u q) by lia.
          rewrite !(set_nb_neq_v _ _ _ _ (n + Z.of_nat k)) by lia.
          rewrite upd_neq by lia. auto. }
        { inversion EE; subst u q.
          rewrite set_nb_eq. split; auto.
          rewrite (set_nb_neq_v _ _ _ _ N) by lia. rewrite (set_nb_neq_p _ _ _ _ N (1 - np)) by lia.
          rewrite set_nb_eq. split; auto.
          rewrite (set_nb_neq_v _ _ _ _ N) by lia. rewrite set_nb_eq. split; auto.
          rewrite upd_eq. unfold newpos2. rewrite !H2 by lia. reflexivity. }
    + right. exists OutOfBounds. rewrite wr_nb_oob by lia. cbn [bind]. split; auto. split; auto.
      unfold ncross.
      assert (NoDup ((v, np) :: xs)) as ND2 by (constructor; auto).
      assert (incl ((v, np) :: xs) (filter (crossb cl f0) (darts 2 n))) as INC.
      { intros d [<-|Hd].
        - apply filter_In. rewrite in_darts. split; auto. unfold crossb. cbn [fst snd].
          rewrite Hk. cbn [andb]. destruct (Z.eqb_spec (cl (f0 v np)) 0); auto; contradiction.
        - apply filter_In. apply Hxs in Hd. tauto. }
      pose proof (NoDup_incl_length ND2 INC) as LL. cbn [length] in LL. lia.
  - unfold DescC. split; [cbn; lia|]. split; [lia|]. split; [constructor|].
    split; [auto|]. split; [auto|]. intros k v np Hk. destruct k; discriminate.
Qed.

Lemma crossb_in v np : In (v, np) (filter (crossb cl f0) (darts 2 n)) <->
  (0 <= v < n /\ 0 <= np < 2) /\ cl v = 0 /\ cl (f0 v np) <> 0.
Proof.
  rewrite filter_In, in_darts. unfold crossb. cbn [fst snd].
  rewrite andb_true_iff, negb_true_iff, Z.eqb_eq, Z.eqb_neq. tauto.
Qed.

Hypothesis Hcl : forall v, n <= v -> cl v = 0.
Let K v := cl v =? 0.

(** r2d.c:76-119 in one statement. *)
Lemma clip_cut_spec :
  (exists p N b', clip_cut NN MX b0 n sds cl = OK p
     /\ N = n + ncross 2 cl f0 n /\ N <= MX
     /\ cut2 b0 n N K newpos2 b' /\ compressed 2 K N b' p)
  \/ (clip_cut NN MX b0 n sds cl = Err OutOfBounds /\ MX < n + ncross 2 cl f0 n).
Proof.
  destruct clip_ins_spec as [(b & N & E & HD)|(E & HQ)].
  2: { right. unfold clip_cut. rewrite E. auto. }
  left. destruct HD as (HN & HM & ND & H1 & H2 & H3).
  set (xs := filter (crossb cl f0) (darts 2 n)) in *.
  assert (HX : forall v np, 0 <= v < n -> 0 <= np < 2 -> cl v = 0 -> cl (f0 v np) <> 0 ->
     exists k, nth_error xs k = Some (v, np)).
  { intros. apply In_nth_error. apply crossb_in. auto. }
  assert (HXk : forall k v np, nth_error xs k = Some (v, np) ->
     0 <= v < n /\ 0 <= np < 2 /\ cl v = 0 /\ cl (f0 v np) <> 0 /\ n + Z.of_nat k < N).
  { intros k v np Hk. pose proof (nth_error_In _ _ Hk) as HI. apply crossb_in in HI.
    assert (k < length xs)%nat by (apply nth_error_Some; congruence).
    repeat split; try tauto; lia. }
  assert (HW : forall w, n <= w < N -> exists k v np, w = n + Z.of_nat k /\ nth_error xs k = Some (v, np)).
  { intros w Hw. assert (Z.to_nat (w - n) < length xs)%nat by lia.
    apply nth_error_Some in H. destruct (nth_error xs (Z.to_nat (w - n))) as [[v np]|] eqn:EE; [|congruence].
    exists (Z.to_nat (w - n)), v, np. split; auto. lia. }
  assert (HKn : forall w, n <= w -> K w = true) by (intros; unfold K; rewrite Hcl; auto).
  assert (Ho : forall v, K v = true <-> cl v = 0) by (intros; unfold K; apply Z.eqb_eq).
  assert (Ho' : forall v, K v = false <-> cl v <> 0) by (intros; unfold K; apply Z.eqb_neq).
  (* links before relinking *)
  assert (Hold : forall v np, oldK n K v -> 0 <= np < 2 ->
     0 <= nb b v np < N /\ K (nb b v np) = true /\ nb b (nb b v np) (1 - np) = v).
  { intros v np (Hv & Kv) Hnp. apply Ho in Kv.
    destruct (Z.eq_dec (cl (f0 v np)) 0) as [E0|E0].
    - rewrite H1; auto.
      + pose proof (L0 v np Hv Hnp). split; [lia|]. split; [now apply Ho|].
        rewrite H1; auto; [apply L1; auto|lia|].
        intros HI. apply crossb_in in HI. rewrite L1 in HI by auto. tauto.
      + intros HI. apply crossb_in in HI. tauto.
    - destruct (HX v np) as (k & Hk); auto. destruct (H3 k v np Hk) as (A1 & A2 & A3 & A4).
      destruct (HXk _ _ _ Hk) as (_ & _ & _ & _ & Hlt).
      rewrite A1, A2. split; [lia|]. split; auto. apply HKn. lia. }
  assert (Hnew : forall v, n <= v < N -> K v = true /\
      (newT (nb b) n N K 0 v \/ newT (nb b) n N K 1 v)).
  { intros w Hw. split; [apply HKn; lia|].
    destruct (HW w Hw) as (k & v & np & -> & Hk).
    destruct (H3 k v np Hk) as (A1 & A2 & A3 & A4).
    destruct (HXk _ _ _ Hk) as (Hv & Hnp & Hc1 & Hc2 & Hlt).
    assert (Kv : K v = true) by now apply Ho.
    destruct (slot2 np Hnp); subst np; [right|left].
    - change (1 - 0) with 1 in *. unfold newT. change (1 - 1) with 0. rewrite A2.
      repeat split; auto; lia.
    - change (1 - 1) with 0 in *. unfold newT. change (1 - 0) with 1. rewrite A2.
      repeat split; auto; lia. }
  destruct (relink_spec MX b n N K) as (b' & E2 & Hps & HR); auto; try lia.
  assert (HnN : 0 <= n <= N) by lia.
  pose proof (relinked_mutual (nb b) n N K HnN Hold Hnew (nb b') HR) as HM'.
  destruct HR as (R1 & R2).
  assert (C : cut2 b0 n N K newpos2 b').
  { constructor; try lia.
    - intros. rewrite Hps. auto.
    - intros v np Hv Hnp Kv Kw. rewrite R1 by (auto; lia). apply H1; auto.
      intros HI. apply crossb_in in HI. apply Ho in Kw. tauto.
    - intros v np Hv Hnp Kv Kw. apply Ho in Kv. apply Ho' in Kw.
      destruct (HX v np) as (k & Hk); auto. destruct (H3 k v np Hk) as (A1 & A2 & A3 & A4).
      destruct (HXk _ _ _ Hk) as (_ & _ & _ & _ & Hlt).
      rewrite R1 by (auto; lia). rewrite A1, Hps. split; auto. lia.
    - intros w Hw _. destruct (HW w Hw) as (k & v & np & -> & Hk).
      destruct (H3 k v np Hk) as (A1 & A2 & A3 & A4).
      destruct (HXk _ _ _ Hk) as (Hv & Hnp & Hc1 & Hc2 & Hlt).
      exists v, np. split; auto. split; auto. split; [now apply Ho|]. split; [now apply Ho'|].
      rewrite R1 by (auto; lia). split; auto.
      rewrite R1 by (auto; try lia; right; lia). split; auto.
      destruct (R2 (n + Z.of_nat k) np) as (_ & (X & _) & _); auto.
    - intros v np Hv Hnp Kv. apply HM'; auto. }
  destruct (compress_reindex_spec MX 2 b' cl N) as (p & E3 & HC); try lia.
  { eapply cut2_closed; eauto. }
  exists p, N, b'. split; [|split; [auto|split; [auto|split; auto]]].
  unfold clip_cut. rewrite E. cbn [bind]. rewrite E2. cbn [bind].
  rewrite <- E3. destruct (for_ 0 N (compress_body MX) (b', cl, 0)) as [[[b2 cl2] num]|]; auto.
  cbn [bind].
  rewrite (for_ext 0 num (reindex_body NN MX cl2) (reindex_loop MX 2 cl2)); auto.
  intros i s _. unfold reindex_loop. rewrite for_2. unfold reindex_body.
  destruct (rd_nb MX 2 s i 0); cbn [bind]; auto.
  destruct (rd MX cl2 a); cbn [bind]; auto.
Qed.
End Ins.
End Clip.

(** ** r2d_split / r2d_split_coord: inserting vertices on both sides *)
Section SplitIns.
Context (NN : num) (MX : Z).
Notation rv := (rvec2 (T NN)).
Notation buf := (vbuf rv).
Variables (b0 : buf) (n : Z) (sds : Z -> option (T NN)) (sd : Z -> T NN) (side : Z -> Z).
Hypothesis Hn : 0 <= n <= MX.
Hypothesis HL : linked (nb b0) n.
Hypothesis Hsd : forall v, 0 <= v < n -> sds v = Some (sd v).
Hypothesis Hside : forall v, 0 <= v < n -> side v = 0 \/ side v = 1.
Hypothesis Hside0 : forall v, n <= v -> side v = 0.
Let f0 := nb b0.
Notation newpos := (newpos2 NN b0 sd).

Definition DescS (xs : list dart) (s : buf * (Z -> Z) * Z) : Prop :=
  let '(b, sde, N) := s in
  N = n + 2 * Z.of_nat (length xs) /\ N <= MX /\ NoDup xs
  /\ (forall v np, 0 <= v < n -> 0 <= np < 2 -> ~ In (v, np) xs -> ~ In (f0 v np, 1 - np) xs ->
        nb b v np = f0 v np)
  /\ (forall v, 0 <= v < n -> ps b v = ps b0 v /\ sde v = side v)
  /\ (forall v, N <= v -> sde v = 0)
  /\ (forall k v np, nth_error xs k = Some (v, np) ->
       let m := n + 2 * Z.of_nat k in
       nb b v np = m /\ nb b m (1 - np) = v /\ nb b m np = -1 /\ ps b m = newpos v np /\ sde m = 0
       /\ nb b (f0 v np) (1 - np) = m + 1 /\ nb b (m + 1) np = f0 v np
       /\ nb b (m + 1) (1 - np) = -1 /\ ps b (m + 1) = newpos v np /\ sde (m + 1) = 1).

Lemma split_ins_spec :
  (exists b sde N, for_ 0 n (split_ins_v NN MX sds) (b0, side, n) = OK (b, sde, N)
     /\ DescS (filter (crossb side f0) (darts 2 n)) (b, sde, N))
  \/ (for_ 0 n (split_ins_v NN MX sds) (b0, side, n) = Err OutOfBounds
      /\ MX < n + 2 * ncross 2 side f0 n).
Proof.
  destruct (ins_loop 2 n (fun v => side v =? 0) (crossb side f0) DescS
    (fun e => e = OutOfBounds /\ MX < n + 2 * ncross 2 side f0 n)
    (split_ins_v NN MX sds) (split_ins_np NN MX sds) (b0, side, n))
    as [([[b sde] N] & E & HD)|(e & E & -> & HQ)];
    try lia; eauto 6.
  - intros v np Hk. unfold crossb. cbn. now rewrite Hk.
  - intros v xs [[b sde] N] Hv (_ & _ & _ & _ & HD & _).
    unfold split_ins_v. rewrite rd_ok by lia. cbn [bind].
    destruct (HD v Hv) as (_ & ->). reflexivity.
  - intros v np xs [[b sde] N] Hv Hnp Hk Hxs (HN & HM & ND & H1 & H2 & H4 & H3).
    assert (Hni : ~ In (v, np) xs).
    { intros Hi. apply Hxs in Hi. cbn in Hi. lia. }
    assert (Hxc : forall d, In d xs -> side (fst d) = 0 /\ side (f0 (fst d) (snd d)) <> 0
              /\ 0 <= fst d < n /\ 0 <= snd d < 2).
    { intros [u q] Hd. apply Hxs in Hd as (Hd & Hc & _). apply in_darts in Hd.
      unfold crossb in Hc. cbn [fst snd] in *. apply andb_true_iff in Hc as (Hc1 & Hc2).
      apply negb_true_iff, Z.eqb_neq in Hc2. apply Z.eqb_eq in Hc1. tauto. }
    assert (Hr : 0 <= f0 v np < n) by exact (L0 NN b0 n HL v np Hv Hnp).
    assert (Hr1 : f0 (f0 v np) (1 - np) = v) by exact (L1 NN b0 n HL v np Hv Hnp).
    apply Z.eqb_eq in Hk.
    unfold crossb. cbn [fst snd]. rewrite Hk. cbn [andb Z.eqb].
    unfold split_ins_np. rewrite rd_nb_ok by lia. cbn [bind].
    assert (Hni2 : ~ In (f0 v np, 1 - np) xs).
    { intros Hi. apply Hxc in Hi. cbn [fst snd] in Hi. rewrite Hr1 in Hi. tauto. }
    rewrite H1 by auto. rewrite rd_ok by lia. cbn [bind].
    destruct (H2 (f0 v np)) as (_ & ->); auto.
    destruct (Z.eqb_spec (side (f0 v np)) 0) as [E0|E0]; cbn [negb].
    { eexists. split; [reflexivity|]. unfold DescS. auto 10. }
    assert (Hover : N + 1 >= MX -> MX < n + 2 * ncross 2 side f0 n).
    { intros Hge. unfold ncross.
      assert (NoDup ((v, np) :: xs)) as ND2 by (constructor; auto).
      assert (incl ((v, np) :: xs) (filter (crossb side f0) (darts 2 n))) as INC.
      { intros d [<-|Hd].
        - apply filter_In. rewrite in_darts. split; auto. unfold crossb. cbn [fst snd].
          rewrite Hk. cbn [andb Z.eqb]. destruct (Z.eqb_spec (side (f0 v np)) 0); auto; contradiction.
        - apply filter_In. apply Hxs in Hd. tauto. }
      pose proof (NoDup_incl_length ND2 INC) as LL. cbn [length] in LL. lia. }
    rewrite rd_ps_ok by lia. cbn [bind].
    unfold rdi. rewrite !inb_true by lia. rewrite !Hsd by lia. cbn [bind].
    rewrite rd_ps_ok by lia. cbn [bind].
    set (q := f0 v np) in *.
    destruct (Z.lt_ge_cases N MX) as [LT|GE].
    2: { right. exists OutOfBounds. rewrite wr_ps_oob by lia. cbn [bind]. split; auto. split; auto. apply Hover. lia. }
    rewrite wr_ps_ok by lia. cbn [bind].
    rewrite wr_nb_ok by lia. cbn [bind]. rewrite wr_nb_ok by lia. cbn [bind].
    rewrite wr_nb_ok by lia. cbn [bind].
    destruct (Z.lt_ge_cases (N + 1) MX) as [LT1|GE1].
    2: { right. exists OutOfBounds. rewrite wr_oob by lia. cbn [bind]. split; auto. split; auto. apply Hover. lia. }
    left. rewrite wr_ok by lia. cbn [bind]. rewrite wr_ps_ok by lia. cbn [bind].
    rewrite wr_nb_ok by lia. cbn [bind]. rewrite wr_nb_ok by lia. cbn [bind].
    rewrite wr_nb_ok by lia. cbn [bind].
    eexists. split; [reflexivity|]. unfold DescS. cbn [nb ps]. rewrite app_length. cbn [length].
    split; [lia|]. split; [lia|].
    assert (forall k d, nth_error (xs ++ [(v, np)]) k = Some d ->
       nth_error xs k = Some d /\ n + 2 * Z.of_nat k < N /\ n + 2 * Z.of_nat k + 1 < N
       \/ d = (v, np) /\ n + 2 * Z.of_nat k = N) as Hnth.
    { intros k d Hk'. destruct (Nat.lt_ge_cases k (length xs)).
      - rewrite nth_error_app1 in Hk' by auto. left. split; auto. lia.
      - rewrite nth_error_app2 in Hk' by auto.
        destruct (k - length xs)%nat as [|q'] eqn:Eq; [|destruct q'; discriminate].
        cbn in Hk'. inversion Hk'. right. split; auto. lia. }
    split; [|split; [|split; [|split]]].
    + apply Permutation_NoDup with (l := (v, np) :: xs).
      { apply Permutation_cons_append. }
      constructor; auto.
    + intros u r Hu Hr' Hi Hi2. rewrite in_app_iff in Hi, Hi2.
      assert ((u, r) <> (v, np)) by (intros EE; apply Hi; right; left; auto).
      assert ((u, r) <> (q, 1 - np)).
      { intros EE. apply pair_equal_spec in EE as (E1 & E2). apply Hi2. right. left.
        assert (X : f0 u r = v) by (rewrite E1, E2; exact Hr1). rewrite X. f_equal. lia. }
      rewrite set_nb_neq by auto. rewrite !(set_nb_neq_v _ (N + 1)) by lia.
      rewrite !(set_nb_neq_v _ N) by lia. rewrite set_nb_neq by auto. apply H1; tauto.
    + intros u Hu. rewrite !upd_neq by lia. auto.
    + intros u Hu. rewrite !upd_neq by lia. apply H4; lia.
    + intros k u r Hk'. cbn zeta. destruct (Hnth k _ Hk') as [(Hk2 & Hlt & Hlt2)|(EE & ->)].
      * destruct (H3 k u r Hk2) as (A1 & A2 & A3 & A4 & A5 & B1 & B2 & B3 & B4 & B5).
        assert (In (u, r) xs) as HI by (eapply nth_error_In; eauto).
        assert ((u, r) <> (v, np)) by congruence.
        destruct (Hxc _ HI) as (Hc1 & Hc2 & Hc3 & Hc4). cbn [fst snd] in *.
        assert (Hru : 0 <= f0 u r < n) by exact (L0 NN b0 n HL u r Hc3 Hc4).
        assert ((u, r) <> (q, 1 - np))
          by (intros EE; apply pair_equal_spec in EE as (E1 & E2); congruence).
        assert ((f0 u r, 1 - r) <> (q, 1 - np)).
        { intros EE. apply pair_equal_spec in EE as (E1 & E2). assert (r = np) by lia. subst r.
          assert (Y : f0 (f0 u np) (1 - np) = u) by exact (L1 NN b0 n HL u np Hc3 Hnp). rewrite E1 in Y.
          rewrite Hr1 in Y. congruence. }
        assert ((f0 u r, 1 - r) <> (v, np))
          by (intros EE; apply pair_equal_spec in EE as (E1 & E2); congruence).
        rewrite (set_nb_neq _ q (1 - np) _ u r) by auto.
        rewrite (set_nb_neq _ q (1 - np) _ (f0 u r) (1 - r)) by auto.
        rewrite !(set_nb_neq_v _ q _ _ (n + _)) by lia.
        rewrite !(set_nb_neq_v _ q _ _ (n + _ + 1)) by lia.
        rewrite !(set_nb_neq_v _ (N + 1)) by lia.
        rewrite !(set_nb_neq_v _ N) by lia.
        rewrite (set_nb_neq _ v np _ u r) by auto.
        rewrite (set_nb_neq _ v np _ (f0 u r) (1 - r)) by auto.
        rewrite !(set_nb_neq_v _ v _ _ (n + _)) by lia.
        rewrite !(set_nb_neq_v _ v _ _ (n + _ + 1)) by lia.
        rewrite !upd_neq by lia. auto 12.
      * inversion EE; subst u r. fold q.
        assert (NP : newpos v np = wav2 NN (ps b v) (nopp NN (sd q)) (ps (VB (nb b) (ps b)) q) (sd v)).
        { unfold newpos2. fold f0. fold q. cbn [ps]. destruct (H2 v) as (-> & _); auto.
          destruct (H2 q) as (-> & _); auto. }
        rewrite (set_nb_neq_v _ q _ _ v) by congruence.
        rewrite !(set_nb_neq_v _ q _ _ N) by lia.
        rewrite !(set_nb_neq_v _ q _ _ (N + 1)) by lia.
        rewrite !(set_nb_neq_v _ (N + 1) _ _ v) by lia.
        rewrite !(set_nb_neq_v _ (N + 1) _ _ N) by lia.
        rewrite !(set_nb_neq_v _ N _ _ v) by lia.
        rewrite set_nb_eq. split; auto.
        rewrite set_nb_eq. split; auto.
        rewrite (set_nb_neq_p _ N (1 - np) _ N np) by lia.
        rewrite set_nb_eq. split; auto.
        rewrite (upd_neq _ (N + 1) N) by lia. rewrite upd_eq. split; auto.
        rewrite (upd_neq _ (N + 1) N) by lia. rewrite (H4 N) by lia. split; auto.
        rewrite set_nb_eq. split; auto. rewrite set_nb_eq. split; auto.
        rewrite (set_nb_neq_p _ (N + 1) np _ (N + 1) (1 - np)) by lia.
        rewrite set_nb_eq. split; auto. rewrite !upd_eq. auto.
  - unfold DescS. split; [cbn; lia|]. split; [lia|]. split; [constructor|].
    split; [auto|]. split; [auto|]. split; [auto|]. intros k v np Hk. destruct k; discriminate.
Qed.

(** Position of the twin of a new vertex, seen from the other end of the edge. *)
Definition newpos2' (w q : Z) : rv := newpos (nb b0 w q) (1 - q).

Lemma split_cut_spec :
  (exists b sde N b', for_ 0 n (split_ins_v NN MX sds) (b0, side, n) = OK (b, sde, N)
     /\ relink NN MX n N b = OK b'
     /\ N = n + 2 * ncross 2 side f0 n /\ N <= MX
     /\ (forall v, 0 <= v < N -> sde v = 0 \/ sde v = 1)
     /\ (forall v, 0 <= v < n -> sde v = side v)
     /\ cut2 b0 n N (K0 sde) newpos b' /\ cut2 b0 n N (K1 sde) newpos2' b')
  \/ (for_ 0 n (split_ins_v NN MX sds) (b0, side, n) = Err OutOfBounds
      /\ MX < n + 2 * ncross 2 side f0 n).
Proof.
  destruct split_ins_spec as [(b & sde & N & E & HD)|HQ]; [left|right; auto].
  exists b, sde, N.
  destruct HD as (HN & HM & ND & H1 & H2 & H4 & H3).
  set (xs := filter (crossb side f0) (darts 2 n)) in *.
  assert (HI : forall v np, In (v, np) xs <->
     (0 <= v < n /\ 0 <= np < 2) /\ side v = 0 /\ side (f0 v np) <> 0).
  { intros v np. unfold xs. rewrite filter_In, in_darts. unfold crossb. cbn [fst snd].
    rewrite andb_true_iff, negb_true_iff, Z.eqb_eq, Z.eqb_neq. tauto. }
  assert (HX : forall v np, 0 <= v < n -> 0 <= np < 2 -> side v = 0 -> side (f0 v np) <> 0 ->
     exists k, nth_error xs k = Some (v, np)).
  { intros. apply In_nth_error. apply HI. auto. }
  assert (HXk : forall k v np, nth_error xs k = Some (v, np) ->
     0 <= v < n /\ 0 <= np < 2 /\ side v = 0 /\ side (f0 v np) <> 0 /\ n + 2 * Z.of_nat k + 1 < N).
  { intros k v np Hk. pose proof (nth_error_In _ _ Hk) as HI'. apply HI in HI'.
    assert (k < length xs)%nat by (apply nth_error_Some; congruence).
    repeat split; try tauto; lia. }
  assert (HW : forall w, n <= w < N -> exists k v np, (w = n + 2 * Z.of_nat k \/ w = n + 2 * Z.of_nat k + 1)
            /\ nth_error xs k = Some (v, np)).
  { intros w Hw. assert (Z.to_nat ((w - n) / 2) < length xs)%nat as HH.
    { apply Nat2Z.inj_lt. rewrite Z2Nat.id by (apply Z.div_pos; lia).
      apply Z.div_lt_upper_bound; lia. }
    apply nth_error_Some in HH.
    destruct (nth_error xs (Z.to_nat ((w - n) / 2))) as [[v np]|] eqn:EE; [|congruence].
    exists (Z.to_nat ((w - n) / 2)), v, np. split; auto.
    rewrite Z2Nat.id by (apply Z.div_pos; lia).
    pose proof (Z.div_mod (w - n) 2 ltac:(lia)). pose proof (Z.mod_pos_bound (w - n) 2 ltac:(lia)). lia. }
  assert (R0 : forall v np, 0 <= v < n -> 0 <= np < 2 -> 0 <= f0 v np < n)
    by (intros; apply (L0 NN b0 n HL); auto).
  assert (R1 : forall v np, 0 <= v < n -> 0 <= np < 2 -> f0 (f0 v np) (1 - np) = v)
    by (intros; apply (L1 NN b0 n HL); auto).
  set (K := fun _ : Z => true).
  (* an old link is either kept or leads to the new vertex of its side *)
  assert (HO : forall v np, 0 <= v < n -> 0 <= np < 2 ->
     (side v = side (f0 v np) /\ nb b v np = f0 v np)
     \/ (side v <> side (f0 v np) /\ n <= nb b v np < N /\ nb b (nb b v np) (1 - np) = v
         /\ nb b (nb b v np) np = -1 /\ sde (nb b v np) = side v
         /\ ps b (nb b v np) = (if side v =? 0 then newpos v np else newpos2' v np))).
  { intros v np Hv Hnp. pose proof (R0 v np Hv Hnp) as Hr. pose proof (R1 v np Hv Hnp) as Hr1.
    assert (Hnp' : 0 <= 1 - np < 2) by lia.
    destruct (Hside v Hv) as [Sv|Sv], (Hside _ Hr) as [Sw|Sw].
    - left. split; [congruence|]. apply H1; auto; intros Hi; apply HI in Hi; rewrite ?Hr1 in Hi; lia.
    - right. split; [lia|]. destruct (HX v np) as (k & Hk); auto; [lia|].
      destruct (H3 k v np Hk) as (A1 & A2 & A3 & A4 & A5 & _).
      destruct (HXk k v np Hk) as (_ & _ & _ & _ & Hlt). rewrite A1, A2, A3, A4, A5, Sv.
      repeat split; auto; lia.
    - right. split; [lia|]. destruct (HX (f0 v np) (1 - np)) as (k & Hk); auto; [rewrite Hr1; lia|].
      destruct (H3 k _ _ Hk) as (_ & _ & _ & _ & _ & A1 & A2 & A3 & A4 & A5).
      destruct (HXk k _ _ Hk) as (_ & _ & _ & _ & Hlt).
      rewrite Hr1 in *. replace (1 - (1 - np)) with np in * by lia.
      rewrite A1, A2, A3, A4, A5, Sv. repeat split; auto; lia.
    - left. split; [congruence|]. apply H1; auto; intros Hi; apply HI in Hi; rewrite ?Hr1 in Hi; lia. }
  assert (Hold : forall v np, oldK n K v -> 0 <= np < 2 ->
     0 <= nb b v np < N /\ K (nb b v np) = true /\ nb b (nb b v np) (1 - np) = v).
  { intros v np (Hv & _) Hnp. pose proof (R0 v np Hv Hnp) as Hr. pose proof (R1 v np Hv Hnp) as Hr1.
    destruct (HO v np Hv Hnp) as [(S & ->)|(S & X & Y & _)].
    - split; [lia|]. split; auto.
      destruct (HO (f0 v np) (1 - np)) as [(S' & ->)|(S' & _)]; auto; try lia.
      rewrite Hr1 in S'. congruence.
    - split; [lia|]. split; auto. }
  assert (HNW : forall w, n <= w < N -> exists v np, 0 <= v < n /\ 0 <= np < 2 /\
      side v <> side (f0 v np) /\ nb b v np = w).
  { intros w Hw. destruct (HW w Hw) as (k & v & np & Hw' & Hk).
    destruct (H3 k v np Hk) as (A1 & A2 & A3 & A4 & A5 & B1 & B2 & B3 & B4 & B5).
    destruct (HXk _ _ _ Hk) as (Hv & Hnp & Hc1 & Hc2 & Hlt).
    pose proof (R0 v np Hv Hnp) as Hr. pose proof (R1 v np Hv Hnp) as Hr1.
    destruct Hw' as [->| ->].
    - exists v, np. repeat split; auto; lia.
    - exists (f0 v np), (1 - np). rewrite Hr1. repeat split; auto; lia. }
  assert (Hnew : forall v, n <= v < N -> K v = true /\
      (newT (nb b) n N K 0 v \/ newT (nb b) n N K 1 v)).
  { intros w Hw. split; [reflexivity|].
    destruct (HNW w Hw) as (v & np & Hv & Hnp & S & Ew).
    destruct (HO v np Hv Hnp) as [(S' & _)|(_ & X & Y & Z & _)]; [congruence|].
    rewrite Ew in *.
    destruct (slot2 np Hnp); subst np; [right|left].
    - change (1 - 0) with 1 in *. unfold newT. change (1 - 1) with 0. rewrite Y.
      repeat split; auto; lia.
    - change (1 - 1) with 0 in *. unfold newT. change (1 - 0) with 1. rewrite Y.
      repeat split; auto; lia. }
  destruct (relink_spec MX b n N K) as (b' & E2 & Hps & HR); auto; try lia.
  exists b'. split; auto. split; auto. split; [unfold ncross; fold xs; lia|]. split; auto.
  assert (HnN : 0 <= n <= N) by lia.
  pose proof (relinked_mutual (nb b) n N K HnN Hold Hnew (nb b') HR) as HM'.
  destruct HR as (Q1 & Q2).
  assert (HSN : forall v, 0 <= v < N -> sde v = 0 \/ sde v = 1).
  { intros v Hv. destruct (Z.lt_ge_cases v n).
    - destruct (H2 v) as (_ & ->); [lia|]. apply Hside. lia.
    - destruct (HNW v) as (u & np & Hu & Hnp & S & Ew); [lia|].
      destruct (HO u np Hu Hnp) as [(S' & _)|(_ & _ & _ & _ & X & _)]; [congruence|].
      rewrite <- Ew, X. auto. }
  split; auto. split; [intros; apply H2; auto|].
  (* sides are respected by all final links *)
  assert (HOs : forall s v np, oldK n K v -> 0 <= np < 2 -> sde v = s -> sde (nb b v np) = s).
  { intros s v np (Hv & _) Hnp Hs. destruct (H2 v Hv) as (_ & Es).
    destruct (HO v np Hv Hnp) as [(S & ->)|(S & _ & _ & _ & X & _)].
    - pose proof (R0 v np Hv Hnp). destruct (H2 (f0 v np)) as (_ & ->); auto. congruence.
    - congruence. }
  assert (HSB : forall v np, 0 <= v < N -> 0 <= np < 2 -> sde (nb b' v np) = sde v).
  { intros v np Hv Hnp. destruct (Z.lt_ge_cases v n).
    - rewrite Q1 by auto. apply HOs; auto. split; [lia|reflexivity].
    - destruct (HNW v) as (u & q & Hu & Hq & S & Ew); [lia|].
      destruct (HO u q Hu Hq) as [(S' & _)|(_ & X1 & X2 & X3 & X4 & _)]; [congruence|].
      rewrite Ew in *. destruct (H2 u Hu) as (_ & Eu).
      destruct (Z.eq_dec (nb b v np) (-1)) as [Em|Em].
      + destruct (Q2 v np) as (W & _); auto; try lia.
        eapply (walk_class (nb b) n N K (fun z => sde z = sde v)) in W; auto; [lia| |].
        * intros z Hz Sz. apply HOs; auto. lia.
        * assert (1 - np = 1 - q).
          { destruct (slot2 np Hnp), (slot2 q Hq); subst; auto;
              [change (1 - 1) with 0 in *|change (1 - 0) with 1 in *]; lia. }
          rewrite H0, X2. congruence.
      + rewrite Q1 by auto.
        assert (np = 1 - q).
        { destruct (slot2 np Hnp), (slot2 q Hq); subst; auto; congruence. }
        subst np. rewrite X2. congruence. }
  assert (CUT : forall s NP, (s = 0 \/ s = 1) ->
     (forall v np, 0 <= v < n -> 0 <= np < 2 -> side v = s ->
        (if side v =? 0 then newpos v np else newpos2' v np) = NP v np) ->
     cut2 b0 n N (fun v => sde v =? s) NP b').
  { intros s NP Hs HNP. constructor; auto.
    - intros v Hv. rewrite Hps. apply H2; auto.
    - intros v np Hv Hnp Kv Kw. apply Z.eqb_eq in Kv, Kw.
      rewrite Q1 by (auto; lia). destruct (HO v np Hv Hnp) as [(S & ->)|(S & _)]; auto.
      destruct (H2 v Hv) as (_ & Ev). pose proof (R0 v np Hv Hnp).
      destruct (H2 (f0 v np)) as (_ & Ev'); auto. unfold f0 in *. congruence.
    - intros v np Hv Hnp Kv Kw. apply Z.eqb_eq in Kv. apply Z.eqb_neq in Kw.
      rewrite Q1 by (auto; lia). destruct (H2 v Hv) as (_ & Ev).
      destruct (HO v np Hv Hnp) as [(S & _)|(S & X1 & X2 & X3 & X4 & X5)].
      + pose proof (R0 v np Hv Hnp).
        destruct (H2 (f0 v np)) as (_ & Ev'); auto. unfold f0 in *. congruence.
      + split; auto. rewrite Hps, X5. apply HNP; auto. congruence.
    - intros w Hw Kw. apply Z.eqb_eq in Kw.
      destruct (HNW w Hw) as (v & np & Hv & Hnp & S & Ew).
      destruct (HO v np Hv Hnp) as [(S' & _)|(_ & X1 & X2 & X3 & X4 & X5)]; [congruence|].
      rewrite Ew in *.
      destruct (H2 v Hv) as (_ & Ev). pose proof (R0 v np Hv Hnp) as Hr.
      destruct (H2 (f0 v np)) as (_ & Ev'); auto.
      exists v, np. split; auto. split; auto. split; [apply Z.eqb_eq; congruence|].
      split; [apply Z.eqb_neq; unfold f0 in *; congruence|].
      split; [rewrite Q1 by (auto; lia); auto|].
      split; [rewrite Q1 by (auto; try lia; right; lia); auto|].
      destruct (Q2 w np) as (_ & (Y & _) & _); auto.
    - intros v np Hv Hnp Kv. apply Z.eqb_eq in Kv.
      destruct (HM' v np) as (A & _ & C); auto. split; auto. split; auto.
      apply Z.eqb_eq. rewrite HSB; auto. }
  split.
  - apply (CUT 0); auto. intros v np Hv Hnp ->. reflexivity.
  - apply (CUT 1); auto. intros v np Hv Hnp ->. reflexivity.
Qed.
End SplitIns.
