(** * WalkN: walks around the 3-cells of a polytope whose cut edges end in leaves *)
From Coq Require Import ZArith List Bool Lia.
From Verif Require Import Base Lib.
Import ListNotations.
Open Scope Z_scope.

(** a walk that can be run backwards never runs into its own reverse *)
Lemma no_reverse {A} (dom : A -> Prop) (T S : A -> A) :
  (forall x, dom x -> dom (T x)) -> (forall x, dom x -> dom (S x)) ->
  (forall x y, dom x -> dom y -> T x = T y -> x = y) ->
  (forall x, dom x -> T (S (T x)) = S x) ->
  (forall x, dom x -> S x <> x) -> (forall x, dom x -> S x <> T x) ->
  forall k x, dom x -> S x <> iter k T x.
Proof.
  intros HT HS HI HR H0 H1 k.
  induction k as [k IH] using lt_wf_ind. intros x Hx E.
  destruct k as [|[|k]]; [apply (H0 x); auto|apply (H1 x); auto|].
  apply (IH k ltac:(lia) (T x)); auto. apply HI; auto.
  - clear - HT Hx. induction k; cbn [iter]; auto.
  - rewrite HR by auto. rewrite E. change (T (iter (Datatypes.S k) T x) = T (iter k T (T x))). now rewrite iter_S.
Qed.

Section Leafy.
Variables (D : Z) (U : Z -> Prop) (leaf : Z -> bool) (g bk h : Z -> Z -> Z) (fd : Z -> Z -> Z -> Z).
Definition slt (v i : Z) : Prop := 0 <= i < D /\ (leaf v = true -> i = 0).
Record leafy : Prop := {
  lf_g : forall v i, U v -> slt v i -> U (g v i) /\ g v i <> v;
  lf_bk : forall v i, U v -> slt v i -> slt (g v i) (bk v i) /\ g (g v i) (bk v i) = v /\ bk (g v i) (bk v i) = i;
  lf_leaf : forall v, U v -> leaf v = true -> leaf (g v 0) = false;
  lf_dist : forall v i j, U v -> leaf v = false -> 0 <= i < D -> 0 <= j < D -> g v i = g v j -> i = j;
  lf_h : forall v i j, U v -> 0 <= i < D -> 0 <= j < D -> h v i = h v j -> i = j;
  lf_sym : forall v i j, U v -> slt v i -> 0 <= j < D -> i <> j -> fd v j i = fd v i j;
  lf_inj : forall v i j k, U v -> slt v i -> 0 <= j < D -> 0 <= k < D -> i <> j -> i <> k -> fd v i j = fd v i k -> j = k;
  lf_edge : forall v i j, U v -> slt v i -> 0 <= j < D -> j <> i ->
     exists j', 0 <= j' < D /\ j' <> bk v i /\ h (g v i) j' = h v j /\ fd (g v i) (bk v i) j' = fd v i j }.
Hypothesis L : leafy.
Hypothesis HD : 3 <= D.

(** the slot at the other end of edge [i] that shows the facet of slot [j] *)
Definition pi (v i j : Z) : Z :=
  match find (fun j' => h (g v i) j' =? h v j) (zrange D) with Some j' => j' | None => 0 end.
Lemma pi_spec v i j : U v -> slt v i -> 0 <= j < D -> j <> i ->
  0 <= pi v i j < D /\ pi v i j <> bk v i /\ h (g v i) (pi v i j) = h v j /\ fd (g v i) (bk v i) (pi v i j) = fd v i j.
Proof.
  intros HU Hi Hj Hne. destruct (lf_edge L v i j HU Hi Hj Hne) as (j' & R & N & E & F).
  unfold pi. destruct (find _ _) as [k|] eqn:Ef.
  - apply find_some in Ef as (Hk & Ek). apply in_zrange in Hk. apply Z.eqb_eq in Ek.
    assert (k = j'); [|subst; auto]. destruct (lf_g L v i HU Hi) as (Ug & _).
    apply (lf_h L (g v i)); auto. congruence.
  - exfalso. apply in_zrange in R. pose proof (find_none _ _ Ef j' R) as X. cbn in X.
    rewrite E, Z.eqb_refl in X. discriminate.
Qed.
Lemma pi_pi v i j : U v -> slt v i -> 0 <= j < D -> j <> i -> pi (g v i) (bk v i) (pi v i j) = j.
Proof.
  intros HU Hi Hj Hne. destruct (pi_spec v i j HU Hi Hj Hne) as (R & N & E & _).
  destruct (lf_g L v i HU Hi) as (Ug & _). destruct (lf_bk L v i HU Hi) as (Sb & Eg & Eb).
  destruct (pi_spec (g v i) (bk v i) (pi v i j) Ug Sb R N) as (R2 & _ & E2 & _).
  rewrite Eg in E2. apply (lf_h L v); auto. congruence.
Qed.
Lemma pi_inj v i j k : U v -> slt v i -> 0 <= j < D -> 0 <= k < D -> j <> i -> k <> i -> pi v i j = pi v i k -> j = k.
Proof. intros HU Hi Hj Hk N N' E. rewrite <- (pi_pi v i j), <- (pi_pi v i k), E; auto. Qed.

(** a flag: leave [v] along edge [i], in the 2-face of [i] and [j], beside the 2-face of
    [i] and [k] *)
Definition flag : Type := Z * Z * Z * Z.
Definition isf (x : flag) : Prop := let '(v, i, j, k) := x in
  U v /\ slt v i /\ 0 <= j < D /\ 0 <= k < D /\ i <> j /\ i <> k /\ j <> k.
Definition src (x : flag) : Z := let '(v, i, j, k) := x in v.
Definition tgt (x : flag) : Z := let '(v, i, j, k) := x in g v i.
Definition fT (x : flag) : flag := let '(v, i, j, k) := x in
  if leaf (g v i) then (g v i, bk v i, pi v i k, pi v i j) else (g v i, pi v i j, bk v i, pi v i k).
Definition fS (x : flag) : flag := let '(v, i, j, k) := x in (g v i, bk v i, pi v i j, pi v i k).

Lemma flag_facts v i j k : isf (v, i, j, k) ->
  U (g v i) /\ slt (g v i) (bk v i) /\ 0 <= pi v i j < D /\ 0 <= pi v i k < D /\ pi v i j <> bk v i /\ pi v i k <> bk v i /\ pi v i j <> pi v i k.
Proof.
  intros (HU & Hi & Hj & Hk & N1 & N2 & N3).
  destruct (lf_g L v i HU Hi) as (Ug & _). destruct (lf_bk L v i HU Hi) as (Sb & _ & _).
  destruct (pi_spec v i j) as (? & ? & _); auto. destruct (pi_spec v i k) as (? & ? & _); auto.
  repeat split; auto; try lia. all: try apply Sb. intros E. apply N3. eapply (pi_inj v i); eauto.
Qed.
Lemma fS_isf x : isf x -> isf (fS x).
Proof.
  destruct x as [[[v i] j] k]. intros H. destruct (flag_facts v i j k H) as (? & ? & ? & ? & ? & ? & ?).
  cbn. auto 10.
Qed.
Lemma fT_isf x : isf x -> isf (fT x).
Proof.
  destruct x as [[[v i] j] k]. intros H. destruct (flag_facts v i j k H) as (? & ? & ? & ? & ? & ? & ?).
  cbn. destruct (leaf (g v i)) eqn:E; cbn; [auto 10|].
  assert (slt (g v i) (pi v i j)) by (split; auto; congruence).
  destruct H1. auto 12.
Qed.
Lemma fS_fS x : isf x -> fS (fS x) = x.
Proof.
  destruct x as [[[v i] j] k]. intros (HU & Hi & Hj & Hk & N1 & N2 & N3). cbn.
  destruct (lf_bk L v i HU Hi) as (Sb & -> & ->). rewrite !pi_pi; auto.
Qed.
Lemma iter_isf m x : isf x -> isf (iter m fT x).
Proof. intros. induction m; cbn [iter]; auto using fT_isf. Qed.

Lemma fT_fS_fT x : isf x -> fT (fS (fT x)) = fS x.
Proof.
  destruct x as [[[v i] j] k]. intros H. pose proof H as (HU & Hi & Hj & Hk & N1 & N2 & N3).
  destruct (flag_facts v i j k H) as (Ug & Sb & ? & ? & ? & ? & ?).
  destruct (lf_bk L v i HU Hi) as (_ & Eg & Eb).
  cbn [fT fS]. destruct (leaf (g v i)) eqn:E; cbn [fT fS].
  - rewrite Eg, Eb. rewrite E. rewrite !pi_pi; auto.
  - assert (Sj : slt (g v i) (pi v i j)) by (split; auto; congruence).
    destruct (lf_bk L (g v i) (pi v i j) Ug Sj) as (Sb2 & Eg2 & Eb2).
    rewrite Eg2, E, Eb2. rewrite !pi_pi; auto; try apply Sb; auto.
Qed.
Lemma fT_inj x y : isf x -> isf y -> fT x = fT y -> x = y.
Proof.
  intros Hx Hy E. rewrite <- (fS_fS x), <- (fS_fS y) by auto. rewrite <- (fT_fS_fT x), <- (fT_fS_fT y), E; auto.
Qed.
Lemma iter_inj m x y : isf x -> isf y -> iter m fT x = iter m fT y -> x = y.
Proof. intros Hx Hy. induction m; cbn [iter]; auto. intros E. apply fT_inj in E; auto using iter_isf. Qed.
Lemma fS_ne x : isf x -> fS x <> x.
Proof.
  destruct x as [[[v i] j] k]. intros (HU & Hi & _). cbn. intros E. inversion E.
  destruct (lf_g L v i HU Hi). congruence.
Qed.
Lemma fS_fT_ne x : isf x -> fS x <> fT x.
Proof.
  destruct x as [[[v i] j] k]. intros H. destruct (flag_facts v i j k H) as (Ug & Sb & ? & ? & ? & ? & ?).
  cbn. destruct (leaf (g v i)); intros E; inversion E; congruence.
Qed.

(** the facets that hold the whole 3-cell *)
Definition cellp (x : flag) (l : Z) : Prop := let '(v, i, j, k) := x in
  exists q, 0 <= q < D /\ q <> i /\ q <> j /\ q <> k /\ h v q = l.
Lemma cellp_S x l : isf x -> cellp x l -> cellp (fS x) l.
Proof.
  destruct x as [[[v i] j] k]. intros (HU & Hi & Hj & Hk & N1 & N2 & N3) (q & Hq & Q1 & Q2 & Q3 & E). cbn.
  destruct (pi_spec v i q) as (R & N & Eh & _); auto.
  exists (pi v i q). split; auto. split; auto. split; [|split]; [| |congruence].
  - intros X. apply Q2. eapply (pi_inj v i); eauto.
  - intros X. apply Q3. eapply (pi_inj v i); eauto.
Qed.
Lemma cellp_ST x l : isf x -> (cellp (fT x) l <-> cellp (fS x) l).
Proof.
  destruct x as [[[v i] j] k]. intros H. cbn. destruct (leaf (g v i)); cbn; split; intros (q & ? & ? & ? & ? & ?); exists q; auto.
Qed.
Lemma cellp_T x l : isf x -> (cellp (fT x) l <-> cellp x l).
Proof.
  intros H. rewrite cellp_ST by auto. split; [|apply cellp_S; auto].
  intros X. apply cellp_S in X; [|apply fS_isf; auto]. rewrite fS_fS in X; auto.
Qed.
Lemma cellp_iter m x l : isf x -> (cellp (iter m fT x) l <-> cellp x l).
Proof. intros H. induction m; cbn [iter]; [tauto|]. rewrite cellp_T by (apply iter_isf; auto). auto. Qed.

(** leaf flags *)
Lemma leaf_pair x a b c d m : isf (x, 0, a, b) -> iter m fT (x, 0, a, b) = (x, 0, c, d) -> (c = a /\ d = b) \/ (c = b /\ d = a).
Proof.
  intros H E. pose proof (iter_isf m _ H) as H2. rewrite E in H2.
  destruct H as (HU & _ & Ha & Hb & N1 & N2 & N3). destruct H2 as (_ & _ & Hc & Hd & M1 & M2 & M3).
  assert (C : forall q, 0 <= q < D -> q <> 0 -> q <> a -> q <> b -> q <> c /\ q <> d).
  { intros q Hq Q1 Q2 Q3. assert (X : cellp (x, 0, a, b) (h x q)) by (exists q; auto).
    rewrite <- (cellp_iter m) in X; [|repeat split; auto; try lia; congruence]. rewrite E in X.
    destruct X as (q' & Hq' & R1 & R2 & R3 & E'). apply (lf_h L x) in E'; auto. subst q'. auto. }
  destruct (Z.eq_dec c a), (Z.eq_dec d b), (Z.eq_dec c b), (Z.eq_dec d a); subst; auto; try congruence; exfalso.
  all: try (destruct (C c); auto; congruence). all: destruct (C d); auto; congruence.
Qed.
Lemma leaf_prev x a b : leaf x = true -> isf (x, 0, a, b) ->
  exists y, isf y /\ fT y = (x, 0, a, b) /\ fS y = (x, 0, b, a).
Proof.
  intros Hl H. assert (H' : isf (x, 0, b, a)).
  { destruct H as (HU & ? & Ha & Hb & N1 & N2 & N3). repeat split; auto; try lia; try apply H. }
  exists (fS (x, 0, b, a)). split; [apply fS_isf; auto|]. split; [|apply fS_fS; auto].
  pose proof H' as (HU & Hs & Hb & Ha & N1 & N2 & N3). cbn [fS fT].
  destruct (lf_bk L x 0 HU Hs) as (_ & -> & ->). rewrite Hl. rewrite !pi_pi; auto.
Qed.
Lemma leaf_return x a b c d m : leaf x = true -> isf (x, 0, a, b) -> iter m fT (x, 0, a, b) = (x, 0, c, d) -> c = a /\ d = b.
Proof.
  intros Hl H E. destruct (leaf_pair x a b c d m H E) as [?|(-> & ->)]; auto.
  destruct (leaf_prev x a b Hl H) as (y & Hy & E1 & E2). exfalso.
  apply (no_reverse isf fT fS fT_isf fS_isf fT_inj fT_fS_fT fS_ne fS_fT_ne (Datatypes.S m) y Hy).
  rewrite E2, iter_S, E1. auto.
Qed.

Lemma leaf_rev k x a b y c d : leaf x = true -> leaf y = true -> isf (x, 0, a, b) ->
  iter k fT (x, 0, a, b) = (y, 0, c, d) -> iter k fT (y, 0, d, c) = (x, 0, b, a).
Proof.
  intros Lx Ly H E. destruct (leaf_prev x a b Lx H) as (u & Hu & E1 & E2).
  pose proof (iter_isf k _ H) as Hy. rewrite E in Hy.
  destruct (leaf_prev y c d Ly Hy) as (w & Hw & F1 & F2).
  assert (w = iter k fT u).
  { apply fT_inj; auto; [apply iter_isf; auto|]. rewrite F1, <- E, <- E1, <- iter_S. reflexivity. }
  rewrite <- E2, <- F2. subst w. clear - L Hu. 
  induction k; cbn [iter]; auto. rewrite <- IHk. rewrite <- (fT_fS_fT (iter k fT u)) by (apply iter_isf; auto).
  rewrite <- iter_S. reflexivity.
Qed.

(** ** Finiteness *)
Variable N : Z.
Hypothesis UN : forall v, U v -> 0 <= v < N.
Definition fcode (x : flag) : Z := let '(v, i, j, k) := x in ((v * D + i) * D + j) * D + k.
Lemma fcode_rng x : isf x -> 0 <= fcode x < N * D * D * D.
Proof.
  destruct x as [[[v i] j] k]. intros (HU & (Hi & _) & Hj & Hk & _). apply UN in HU. cbn.
  assert (A : 0 <= v * D + i < N * D) by nia. assert (B : 0 <= (v * D + i) * D + j < N * D * D) by nia. nia.
Qed.
Lemma fcode_inj x y : isf x -> isf y -> fcode x = fcode y -> x = y.
Proof.
  destruct x as [[[v i] j] k], y as [[[v' i'] j'] k']. intros (HU & (Hi & _) & Hj & Hk & _) (HU' & (Hi' & _) & Hj' & Hk' & _). cbn. intros E.
  assert (X : forall a b c d, 0 <= b < D -> 0 <= d < D -> a * D + b = c * D + d -> a = c /\ b = d).
  { intros. assert (a = c) by nia. subst. split; lia. }
  apply X in E as (E & ->); auto. apply X in E as (E & ->); auto. apply X in E as (-> & ->); auto.
Qed.
Lemma orbit x : isf x -> exists m, (0 < m <= Z.to_nat (N * D * D * D))%nat /\ iter m fT x = x.
Proof.
  intros H. pose proof (fcode_rng x H).
  destruct (pigeonhole (fun k => fcode (iter k fT x)) (N * D * D * D)) as (i & j & Hij & E).
  { lia. } { intros. apply fcode_rng, iter_isf; auto. }
  apply fcode_inj in E; [|apply iter_isf; auto|apply iter_isf; auto].
  exists (j - i)%nat. split; [lia|]. apply (iter_inj i); auto using iter_isf.
  rewrite <- iter_add. replace (i + (j - i))%nat with j by lia. auto.
Qed.
Lemma orbit_sym x y m : isf x -> y = iter m fT x -> exists m', x = iter m' fT y.
Proof.
  intros H ->. destruct (orbit x H) as (p & Hp & E).
  assert (M : forall q, iter (q * p) fT x = x) by (induction q; auto; cbn [Nat.mul]; rewrite iter_add, IHq; auto).
  exists (m * p - m)%nat. rewrite <- iter_add. replace (m * p - m + m)%nat with (m * p)%nat by nia. auto.
Qed.

(** ** Runs from leaf to leaf *)
(** the run of the 2-face of slots 0 and [c] from leaf [z] ends at slot [a] of leaf [y] *)
Definition hop (m : nat) (w w' : flag) : Prop :=
  w' = iter (Datatypes.S m) fT w /\ leaf (src w) = true /\ leaf (src w') = true /\ forall s, (0 < s <= m)%nat -> leaf (src (iter s fT w)) = false.
Definition mate (z c y a : Z) : Prop := exists m d b, isf (z, 0, c, d) /\ hop m (z, 0, c, d) (y, 0, b, a).

Lemma src_T x : src (fT x) = tgt x.
Proof. destruct x as [[[v i] j] k]. cbn. destruct (leaf (g v i)); auto. Qed.
Definition f1 (x : flag) : Z := let '(v, i, j, k) := x in fd v i j.
Definition f2 (x : flag) : Z := let '(v, i, j, k) := x in fd v i k.
(** the facet of the third slot *)
Definition h3 (x : flag) : Z := let '(v, i, j, k) := x in h v k.
(** edge and 2-face only *)
Definition face (x : flag) : Z * Z * Z := let '(v, i, j, k) := x in (v, i, j).
Lemma T_in x : isf x -> leaf (tgt x) = false -> f1 (fT x) = f1 x /\ h3 (fT x) = h3 x.
Proof.
  destruct x as [[[v i] j] k]. intros (HU & Hi & Hj & Hk & N1 & N2 & N3). cbn. intros E. rewrite E. cbn.
  destruct (lf_g L v i HU Hi) as (Ug & _). destruct (lf_bk L v i HU Hi) as (Sb & _ & _).
  destruct (pi_spec v i j) as (? & ? & ? & Ef); auto. destruct (pi_spec v i k) as (? & ? & Eh & _); auto.
  rewrite (lf_sym L (g v i) (bk v i)); auto.
Qed.
Lemma T_in_face x x' : face x = face x' -> leaf (tgt x) = false -> face (fT x) = face (fT x').
Proof.
  destruct x as [[[v i] j] k], x' as [[[v' i'] j'] k']. cbn. intros E. inversion E; subst. intros ->. reflexivity.
Qed.
Lemma T_out x : isf x -> leaf (tgt x) = true -> exists b a, fT x = (tgt x, 0, b, a) /\ fd (tgt x) 0 a = f1 x /\ fd (tgt x) 0 b = f2 x /\ h (tgt x) b = h3 x
   /\ forall x', face x' = face x -> isf x' -> exists b', fT x' = (tgt x, 0, b', a).
Proof.
  destruct x as [[[v i] j] k]. intros (HU & Hi & Hj & Hk & N1 & N2 & N3). cbn. intros E. rewrite E.
  destruct (lf_bk L v i HU Hi) as (Sb & _ & _). assert (E0 : bk v i = 0) by (apply Sb; auto).
  destruct (pi_spec v i j) as (? & ? & ? & Ef); auto. destruct (pi_spec v i k) as (? & ? & Eh & Ef'); auto.
  rewrite E0 in *. exists (pi v i k), (pi v i j). repeat split; auto.
  intros [[[v' i'] j'] k']. cbn. intros X _. inversion X; subst. rewrite E. rewrite E0. eauto.
Qed.
Lemma run_keeps w m : isf w -> (forall s, (0 < s <= m)%nat -> leaf (src (iter s fT w)) = false) -> f1 (iter m fT w) = f1 w /\ h3 (iter m fT w) = h3 w.
Proof.
  intros H. induction m; intros Hs; cbn [iter]; auto.
  destruct IHm as (<- & <-); [intros; apply Hs; lia|]. apply T_in; [apply iter_isf; auto|].
  rewrite <- src_T. apply (Hs (Datatypes.S m)). lia.
Qed.
Lemma run_face w w' m : isf w -> isf w' -> face w = face w' -> (forall s, (0 < s <= m)%nat -> leaf (src (iter s fT w)) = false) ->
  face (iter m fT w) = face (iter m fT w').
Proof.
  intros H H' E. induction m; intros Hs; cbn [iter]; auto.
  apply T_in_face; [apply IHm; intros; apply Hs; lia|]. rewrite <- src_T. apply (Hs (Datatypes.S m)). lia.
Qed.
Lemma src_face x : src x = fst (fst (face x)). Proof. destruct x as [[[v i] j] k]; auto. Qed.
Lemma tgt_face x x' : face x = face x' -> tgt x = tgt x'.
Proof. destruct x as [[[v i] j] k], x' as [[[v' i'] j'] k']. cbn. intros E. inversion E; auto. Qed.

(** the end of a run: slot [0], and what is shown there *)
Lemma hop_end m z c d w' : isf (z, 0, c, d) -> hop m (z, 0, c, d) w' -> exists y b a, w' = (y, 0, b, a) /\ isf w' /\ leaf y = true
  /\ fd y 0 a = fd z 0 c /\ h y b = h z d.
Proof.
  intros H (E & Lz & Ly & Hs). pose proof (iter_isf (Datatypes.S m) _ H) as Hw. rewrite <- E in Hw.
  cbn [iter] in E. pose proof (iter_isf m _ H) as Hm.
  destruct (run_keeps _ _ H Hs) as (E1 & E3).
  assert (Lt : leaf (tgt (iter m fT (z, 0, c, d))) = true) by (rewrite <- src_T, <- E; auto).
  destruct (T_out _ Hm Lt) as (b & a & ET & Fa & Fb & Hb & _). rewrite <- E in ET. subst w'.
  exists (tgt (iter m fT (z, 0, c, d))), b, a. rewrite Fa, Hb, E1, E3. cbn. auto.
Qed.
Lemma hop_fun m m' w w1 w2 : hop m w w1 -> hop m' w w2 -> m = m' /\ w1 = w2.
Proof.
  intros (E & _ & L1 & H) (E' & _ & L2 & H'). assert (m = m'); [|subst; auto].
  destruct (Nat.lt_trichotomy m m') as [X|[X|X]]; auto; exfalso.
  - rewrite E in L1. rewrite H' in L1 by lia. discriminate.
  - rewrite E' in L2. rewrite H in L2 by lia. discriminate.
Qed.
Lemma hop_face m z c d d' w' : isf (z, 0, c, d) -> isf (z, 0, c, d') -> hop m (z, 0, c, d) w' -> 
  exists y b b' a, w' = (y, 0, b, a) /\ hop m (z, 0, c, d') (y, 0, b', a).
Proof.
  intros H H' (E & Lz & Ly & Hs). cbn [iter] in E. pose proof (iter_isf m _ H) as Hm. pose proof (iter_isf m _ H') as Hm'.
  assert (Ef : face (iter m fT (z, 0, c, d)) = face (iter m fT (z, 0, c, d'))) by (apply run_face; auto).
  assert (Lt : leaf (tgt (iter m fT (z, 0, c, d))) = true) by (rewrite <- src_T, <- E; auto).
  destruct (T_out _ Hm Lt) as (b & a & ET & _ & _ & _ & Hx). rewrite <- E in ET.
  destruct (Hx _ (eq_sym Ef) Hm') as (b' & Eb'). exists (tgt (iter m fT (z, 0, c, d))), b, b', a. split; auto.
  split; [cbn [iter]; auto|]. split; auto. split; [cbn; auto|].
  intros s Hss. rewrite src_face. rewrite <- (run_face (z, 0, c, d) (z, 0, c, d')); auto; [|intros; apply Hs; lia].
  rewrite <- src_face. auto.
Qed.
Lemma mate_fun z c y a y' a' : mate z c y a -> mate z c y' a' -> y = y' /\ a = a'.
Proof.
  intros (m & d & b & H & Hp) (m' & d' & b' & H' & Hp').
  destruct (hop_face m z c d d' _ H H' Hp) as (y2 & b2 & b3 & a2 & E & Hp2). inversion E; subst.
  destruct (hop_fun _ _ _ _ _ Hp' Hp2) as (_ & E2). inversion E2; auto.
Qed.
Lemma hop_back m z c d y b a : isf (z, 0, c, d) -> hop m (z, 0, c, d) (y, 0, b, a) -> hop m (y, 0, a, b) (z, 0, d, c).
Proof.
  intros H (E & Lz & Ly & Hs). cbn [src] in *.
  pose proof (iter_isf (Datatypes.S m) _ H) as Hy. rewrite <- E in Hy.
  assert (H0 : isf (z, 0, d, c)) by (destruct H as (? & ? & ? & ? & ? & ? & ?); repeat split; auto; try lia; apply H1).
  assert (Hy0 : isf (y, 0, a, b)) by (destruct Hy as (? & ? & ? & ? & ? & ? & ?); repeat split; auto; try lia; apply H2).
  (* T^s (y,0,a,b) = S (T^(m+1-s) w) reversed *)
  set (w := (z, 0, c, d)) in *.
  assert (R : forall s, (s <= m)%nat -> iter s fT (y, 0, a, b) = fS (iter (m - s) fT w)).
  { induction s; intros Hle.
    - cbn [iter]. replace (m - 0)%nat with m by lia.
      destruct (leaf_prev y b a Ly Hy) as (x & Hx & E1 & E2).
      assert (x = iter m fT w); [|subst; auto]. apply fT_inj; auto; [apply iter_isf; auto|]. rewrite E1, E. reflexivity.
    - cbn [iter]. rewrite IHs by lia.
      replace (m - s)%nat with (Datatypes.S (m - Datatypes.S s)) by lia. cbn [iter].
      apply fT_fS_fT. apply iter_isf; auto. }
  assert (SR : forall s, (0 < s <= m)%nat -> src (iter s fT (y, 0, a, b)) = src (iter (Datatypes.S (m - s)) fT w)).
  { intros s Hs0. rewrite R by lia. cbn [iter]. rewrite src_T.
    destruct (iter (m - s) fT w) as [[[v i] j] k]. reflexivity. }
  split; [|split; [|split]]; auto.
  - cbn [iter]. rewrite R by lia. rewrite Nat.sub_diag. cbn [iter]. subst w.
    destruct (leaf_prev z d c Lz H0) as (x & Hx & E1 & E2).
    (* fT (fS (z,0,c,d)) = (z,0,d,c): x = fS (z,0,c,d) *)
    assert (fS (z, 0, c, d) = x) by (rewrite <- E2; apply fS_fS; auto). congruence.
  - intros s Hs0. rewrite SR by auto. apply Hs. lia.
Qed.
Lemma mate_sym z c y a : mate z c y a -> mate y a z c.
Proof.
  intros (m & d & b & H & Hp). exists m, b, d. split.
  - destruct Hp as (E & _). pose proof (iter_isf (Datatypes.S m) _ H) as Hy. rewrite <- E in Hy.
    destruct Hy as (? & ? & ? & ? & ? & ? & ?); repeat split; auto; try lia; apply H1.
  - apply hop_back; auto.
Qed.
Lemma hop_exists w : isf w -> leaf (src w) = true -> exists m w', hop m w w'.
Proof.
  intros H Hl. destruct (orbit w H) as (p & Hp & E).
  destruct (first_true (fun k => leaf (src (iter (Datatypes.S k) fT w))) (p - 1)) as (m & Hm & E1 & E2).
  { replace (Datatypes.S (p - 1)) with p by lia. rewrite E; auto. }
  exists m, (iter (Datatypes.S m) fT w). split; auto. split; auto. split; auto.
  intros s Hs. destruct s; [lia|]. apply E2. lia.
Qed.
Lemma leaf_flag x a b : U x -> leaf x = true -> 0 < a < D -> 0 < b < D -> a <> b -> isf (x, 0, a, b).
Proof. intros. repeat split; auto; lia. Qed.
Lemma mate_ex z c : U z -> leaf z = true -> 0 < c < D -> exists y a, mate z c y a /\ U y /\ leaf y = true /\ 0 < a < D /\ fd y 0 a = fd z 0 c.
Proof.
  intros HU Hl Hc. set (d := if c =? 1 then 2 else 1).
  assert (H : isf (z, 0, c, d)) by (apply leaf_flag; auto; unfold d; destruct (Z.eqb_spec c 1); lia).
  destruct (hop_exists _ H Hl) as (m & w' & Hp).
  destruct (hop_end m z c d w' H Hp) as (y & b & a & -> & Hw & Ly & Ea & Eb).
  exists y, a. split; [exists m, d, b; auto|]. destruct Hw as (? & ? & ? & ? & ? & ? & ?). repeat split; auto; lia.
Qed.
(** a leaf is not its own mate *)
Lemma mate_ne z c y a : mate z c y a -> y <> z.
Proof.
  intros (m & d & b & H & Hp) ->. destruct (hop_end m z c d _ H Hp) as (y & b' & a' & E & Hw & Ly & _ & Eb).
  inversion E; subst y b' a'. destruct Hp as (Ei & Lz & _). symmetry in Ei.
  apply leaf_return in Ei as (-> & ->); auto.
  destruct H as (HU & Hs & Hc & Hd & N1 & N2 & N3). apply N3. apply (lf_h L z); auto.
Qed.
End Leafy.
