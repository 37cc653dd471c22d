(** * CloseN: [rNd_clip] closes off the new 2-faces (rNd.c:98-155) *)
From Coq Require Import ZArith List Bool Lia.
From Verif Require Import Base Lib ModelCommon CommonFacts ModelN ModelNC InitN InitP3 WalkN.
Import ListNotations.
Open Scope Z_scope.

Section Close.
Variable NN : num.
Variable MX D : Z.
Notation buf := (vbuf (Z -> T NN)).
Variables (b0 : buf) (fd0 : Z -> Z -> Z -> Z) (bk h : Z -> Z -> Z) (n N nf0 : Z) (K : Z -> bool).
Definition leafb (v : Z) : bool := n <=? v.
Definition UU (v : Z) : Prop := (0 <= v < n /\ K v = true) \/ n <= v < N.
Notation g := (nb b0).
Notation slt := (slt D leafb).
Notation isf := (isf D UU leafb).
Notation fT := (fT D leafb g bk h).
Notation tgt := (tgt g).
Notation f1 := (f1 fd0).
Notation f2 := (f2 fd0).
Notation mate := (mate D UU leafb g bk h).
Hypothesis L : leafy D UU leafb g bk h fd0.
Hypothesis HD : 3 <= D.
Hypothesis HN : 0 <= n <= N /\ N <= MX.
Hypothesis Hnf : 0 <= nf0.

Lemma U_rng v : UU v -> 0 <= v < N. Proof. unfold UU. lia. Qed.
Lemma leaf_U v : leafb v = true -> UU v -> n <= v < N. Proof. unfold leafb, UU. intros E. apply Z.leb_le in E. lia. Qed.
Lemma leaf_t v : n <= v < N -> leafb v = true /\ UU v. Proof. unfold leafb, UU. intros. split; [apply Z.leb_le|]; lia. Qed.
Lemma leaf_f v : UU v -> leafb v = false -> 0 <= v < n. Proof. unfold leafb, UU. intros H E. apply Z.leb_gt in E. lia. Qed.

(** what the closing loops leave alone *)
Record fr (b : buf) (fd : Z -> Z -> Z -> Z) : Prop := {
  fr_ps : ps b = ps b0;
  fr_nb : forall v i, v < n -> nb b v i = g v i;
  fr_nb0 : forall v, n <= v < N -> nb b v 0 = g v 0;
  fr_fd : forall v i j, v < n -> fd v i j = fd0 v i j;
  fr_fd0 : forall v a, n <= v < N -> fd v 0 a = fd0 v 0 a /\ fd v a 0 = fd0 v a 0 }.

Definition jnb (f : Z -> Z -> Z) (y a z c : Z) : Z -> Z -> Z := set_nb (set_nb f y a z) z c y.
Definition jfd (fd : Z -> Z -> Z -> Z) (y a b nf : Z) : Z -> Z -> Z -> Z :=
  fun v i j => if (v =? y) && (((i =? a) && (j =? b)) || ((i =? b) && (j =? a))) then nf else fd v i j.

Lemma find_leaf b fd y a : fr b fd -> n <= y < N -> 0 < a < D ->
  first_np D 1 (fun k => let* x := rd_fd MX D fd y 0 k in OK (x =? fd0 y 0 a)) = OK a.
Proof.
  intros F Hy Ha. destruct (leaf_t y Hy) as (Ly & Uy).
  apply (first_np_spec D 1 _ (fun k => fd0 y 0 k =? fd0 y 0 a)).
  - intros k Hk. rewrite rd_fd_ok by lia. cbn [bind]. destruct (fr_fd0 _ _ F y k Hy) as (-> & _). auto.
  - lia.
  - apply Z.eqb_refl.
  - intros j Hj. apply Z.eqb_neq. intros E. apply (lf_inj _ _ _ _ _ _ _ L y 0 j a) in E; auto; try lia.
    split; auto. lia.
Qed.
Lemma join_spec b fd y a b' z c nf : fr b fd -> n <= y < N -> n <= z < N -> 0 < a < D -> 0 < b' < D -> 0 < c < D -> a <> b' ->
  fd0 z 0 c = fd0 y 0 a ->
  exists b2 fd2, joinN NN MX D (fd0 y 0 a) (fd0 y 0 b') y z nf (b, fd) = OK (b2, fd2)
  /\ ps b2 = ps b /\ nb b2 = jnb (nb b) y a z c /\ (forall v i j, fd2 v i j = jfd fd y a b' nf v i j) /\ fr b2 fd2.
Proof.
  intros F Hy Hz Ha Hb Hc Hne E. unfold joinN.
  rewrite (find_leaf b fd y a F Hy Ha). cbn [bind]. pose proof (find_leaf b fd z c F Hz Hc) as Q. rewrite E in Q. rewrite Q. cbn [bind].
  rewrite (find_leaf b fd y b' F Hy Hb). cbn [bind].
  rewrite wr_nb_ok by lia. cbn [bind]. rewrite wr_nb_ok by lia. cbn [bind].
  rewrite wr_fd_ok by lia. cbn [bind]. rewrite wr_fd_ok by lia. cbn [bind].
  eexists _, _. split; [reflexivity|]. cbn [ps nb]. split; auto. split; auto. 
  set (fd2 := upd (upd fd y _) y _).
  assert (X : forall v i j, fd2 v i j = jfd fd y a b' nf v i j).
  { intros v i j. unfold fd2. rewrite upd_fd, upd_fd. unfold jfd.
    destruct (Z.eqb_spec v y), (Z.eqb_spec i a), (Z.eqb_spec j b'), (Z.eqb_spec i b'), (Z.eqb_spec j a); cbn [andb orb]; auto; lia. }
  split; auto. constructor; cbn [ps nb].
  - apply (fr_ps _ _ F).
  - intros v i Hv. unfold jnb. rewrite !set_nb_neq_v by lia. apply (fr_nb _ _ F); auto.
  - intros v Hv. unfold jnb. rewrite !set_nb_neq_p by lia. apply (fr_nb0 _ _ F); auto.
  - intros v i j Hv. rewrite X. unfold jfd. destruct (Z.eqb_spec v y); [lia|]. cbn [andb]. apply (fr_fd _ _ F); auto.
  - intros v q Hv. rewrite !X. unfold jfd.
    destruct (Z.eqb_spec 0 a), (Z.eqb_spec 0 b'); try lia. cbn [andb orb]. rewrite ?andb_false_r. cbn [orb]. rewrite ?andb_false_r. apply (fr_fd0 _ _ F); auto.
Qed.

(** the state of the walk on flag [x] *)
Definition rep (x : flag) (z : Z) (b : buf) (fd : Z -> Z -> Z -> Z) : wst NN := WS NN b fd (src x) (tgt x) (f1 x) (f2 x) z.

Lemma step_spec x z b fd : fr b fd -> isf x -> leafb (tgt x) = false -> stepN NN MX D (rep x z b fd) = OK (rep (fT x) z b fd).
Proof.
  destruct x as [[[v i] j] k]. intros F H E. pose proof H as (HU & Hi & Hj & Hk & N1 & N2 & N3). cbn in E.
  destruct (flag_facts _ _ _ _ _ _ _ L v i j k H) as (Ug & Sb & Rj & Rk & Nj & Nk & Njk).
  destruct (lf_bk _ _ _ _ _ _ _ L v i HU Hi) as (_ & Eg & Eb).
  destruct (pi_spec _ _ _ _ _ _ _ L v i j) as (_ & _ & _ & Fj); auto.
  destruct (pi_spec _ _ _ _ _ _ _ L v i k) as (_ & _ & _ & Fk); auto.
  set (w := g v i) in *. set (j' := pi D g h v i j) in *. set (k' := pi D g h v i k) in *. set (i' := bk v i) in *.
  assert (Wn : 0 <= w < n) by (apply leaf_f; auto).
  assert (Ri : 0 <= i' < D) by (apply Sb).
  unfold stepN, rep. cbn [w_b w_fd w_cur w_prev w_f w_adj w_new src WalkN.tgt WalkN.f1 WalkN.f2]. fold w.
  assert (P1 : first_np D 0 (fun q => let* x := rd_nb MX D b w q in OK (x =? v)) = OK i').
  { apply (first_np_spec D 0 _ (fun q => g w q =? v)); auto.
    - intros q Hq. rewrite rd_nb_ok by lia. cbn [bind]. rewrite (fr_nb _ _ F) by lia. auto.
    - rewrite Eg. apply Z.eqb_refl.
    - intros q Hq. apply Z.eqb_neq. intros X. assert (q = i'); [|lia]. 
      apply (lf_dist _ _ _ _ _ _ _ L w); auto; try lia; try congruence. }
  rewrite P1. cbn [bind].
  assert (P2 : first_np D 0 (fun q => if q =? i' then OK false else let* x := rd_fd MX D fd w i' q in OK (x =? fd0 v i j)) = OK j').
  { apply (first_np_spec D 0 _ (fun q => if q =? i' then false else fd0 w i' q =? fd0 v i j)); auto.
    - intros q Hq. destruct (Z.eqb_spec q i'); auto. rewrite rd_fd_ok by lia. cbn [bind]. rewrite (fr_fd _ _ F) by lia. auto.
    - destruct (Z.eqb_spec j' i'); [congruence|]. rewrite Fj. apply Z.eqb_refl.
    - intros q Hq. destruct (Z.eqb_spec q i'); auto. apply Z.eqb_neq. intros X. assert (q = j'); [|lia].
      apply (lf_inj _ _ _ _ _ _ _ L w i'); auto; try lia; try congruence. }
  rewrite P2. cbn [bind].
  assert (P3 : first_np D 0 (fun q => if q =? i' then OK false else let* x := rd_fd MX D fd w q i' in OK (x =? fd0 v i k)) = OK k').
  { apply (first_np_spec D 0 _ (fun q => if q =? i' then false else fd0 w i' q =? fd0 v i k)); auto.
    - intros q Hq. destruct (Z.eqb_spec q i'); auto. rewrite rd_fd_ok by lia. cbn [bind]. rewrite (fr_fd _ _ F) by lia.
      rewrite (lf_sym _ _ _ _ _ _ _ L w i' q); auto.
    - destruct (Z.eqb_spec k' i'); [congruence|]. rewrite Fk. apply Z.eqb_refl.
    - intros q Hq. destruct (Z.eqb_spec q i'); auto. apply Z.eqb_neq. intros X. assert (q = k'); [|lia].
      apply (lf_inj _ _ _ _ _ _ _ L w i'); auto; try lia; try congruence. }
  rewrite P3. cbn [bind]. rewrite rd_fd_ok by lia. cbn [bind]. rewrite rd_nb_ok by lia. cbn [bind].
  rewrite (fr_fd _ _ F), (fr_nb _ _ F) by lia.
  unfold WalkN.fT. fold w. rewrite E. cbn [WalkN.src WalkN.tgt WalkN.f1 WalkN.f2]. fold i' j' k'.
  assert (Sj : slt w j') by (split; auto; congruence).
  rewrite (lf_sym _ _ _ _ _ _ _ L w j' k'); auto. do 2 f_equal. rewrite <- Fj.
  symmetry. apply (lf_sym _ _ _ _ _ _ _ L w i' j'); auto.
Qed.

Lemma turn_out x z b fd nf : leafb (tgt x) = false -> turnN NN MX D n nf (rep x z b fd) = OK (rep x z b fd).
Proof. unfold turnN, rep, leafb. cbn [w_cur]. intros E. apply Z.leb_gt in E. destruct (Z.ltb_spec (tgt x) n); auto. lia. Qed.

Lemma leaf_shape x : isf x -> leafb (src x) = true -> exists a b, x = (src x, 0, a, b) /\ 0 < a < D /\ 0 < b < D /\ a <> b /\ n <= src x < N.
Proof.
  destruct x as [[[v i] j] k]. intros (HU & (Hi & Hi0) & Hj & Hk & N1 & N2 & N3). cbn. intros Lv. specialize (Hi0 Lv). subst i.
  exists j, k. pose proof (leaf_U v Lv HU). repeat split; auto; lia.
Qed.

(** arriving at a leaf: join it to the previous one *)
Lemma arrive x z c d b fd nf m : fr b fd -> isf (z, 0, c, d) -> hop D leafb g bk h m (z, 0, c, d) (fT x) -> isf x -> x = iter m fT (z, 0, c, d) ->
  exists y b' a b2 fd2, fT x = (y, 0, b', a) /\ y = tgt x /\ n <= y < N /\ n <= z < N /\ 0 < a < D /\ 0 < b' < D /\ 0 < c < D /\ a <> b' /\ mate z c y a
  /\ joinN NN MX D (f1 x) (f2 x) (tgt x) z nf (b, fd) = OK (b2, fd2)
  /\ ps b2 = ps b /\ nb b2 = jnb (nb b) y a z c /\ (forall v i j, fd2 v i j = jfd fd y a b' nf v i j) /\ fr b2 fd2
  /\ turnN NN MX D n nf (rep x z b fd) = OK (rep (fT x) y b2 fd2).
Proof.
  intros F H Hp Hx Ex. pose proof Hp as (E & Lz & Ly & Hs). cbn [src] in Lz.
  assert (Lt : leafb (tgt x) = true) by (rewrite <- (src_T D leafb g bk h); auto).
  destruct (T_out _ _ _ _ _ _ _ L x Hx Lt) as (b' & a & ET & Fa & Fb & Hb & _).
  assert (Hf : isf (fT x)) by (apply (fT_isf _ _ _ _ _ _ _ L); auto). rewrite ET in Hf.
  destruct (leaf_shape _ Hf Lt) as (b'' & a'' & E2 & Hb' & Ha & Hne & Hy). inversion E2; subst b'' a''. cbn [src] in Hy.
  destruct (leaf_shape _ H Lz) as (c' & d' & E3 & Hc & Hd & Hcd & Hz). inversion E3; subst c' d'. cbn [src] in Hz.
  destruct (run_keeps _ _ _ _ _ _ _ L _ m H Hs) as (E1 & _). rewrite <- Ex in E1. cbn in E1.
  destruct (join_spec b fd (tgt x) a b' z c nf) as (b2 & fd2 & J & J1 & J2 & J3 & J4); auto; [congruence|].
  rewrite Fa, Fb in J.
  exists (tgt x), b', a, b2, fd2. split; auto. split; auto. split; auto. split; auto. split; auto. split; auto. split; auto. split; auto.
  split; [exists m, d, b'; rewrite <- ET; auto|]. split; auto. split; auto. split; auto. split; auto. split; auto.
  unfold turnN, rep. cbn [w_b w_fd w_cur w_prev w_f w_adj w_new]. destruct (Z.ltb_spec (tgt x) n); [lia|].
  rewrite J. cbn [bind]. rewrite rd_nb_ok by lia. cbn [bind]. rewrite (fr_nb0 _ _ J4) by lia. rewrite ET. cbn. rewrite Fa, Fb. auto.
Qed.

(** ** One closed walk *)
Section One.
Variables (b1 : buf) (fd1 : Z -> Z -> Z -> Z) (nf x0 p0 q0 : Z).
Hypothesis Hx0 : n <= x0 < N.
Hypothesis Hp0 : 0 < p0 < D.
Hypothesis Hq0 : 0 < q0 < D.
Hypothesis Hpq : p0 <> q0.
Notation w0 := ((x0, 0, p0, q0) : flag).
Lemma w0_isf : isf w0.
Proof. destruct (leaf_t x0 Hx0). apply leaf_flag; auto. Qed.
Definition vis (s : nat) (x a b : Z) : Prop := exists t, (0 < t <= s)%nat /\ (iter t fT w0 = (x, 0, a, b) \/ iter t fT w0 = (x, 0, b, a)).

Record WI (s : nat) (z : Z) (b : buf) (fd : Z -> Z -> Z -> Z) : Prop := {
  wi_fr : fr b fd;
  wi_yes : forall x a c, n <= x < N -> vis s x a c -> fd x a c = nf;
  wi_no : forall x a c, n <= x < N -> 0 < a < D -> 0 < c < D -> a <> c -> ~ vis s x a c -> fd x a c = fd1 x a c;
  wi_nb : forall x a, n <= x < N -> 0 < a < D -> nb b x a = -1 \/ exists a', mate x a (nb b x a) a';
  wi_old : forall x a, nb b1 x a <> -1 -> nb b x a <> -1;
  wi_in : forall t x c a, (0 < t <= s)%nat -> iter t fT w0 = (x, 0, c, a) -> n <= x < N -> nb b x a <> -1;
  wi_out : forall t x c a, (t <= s)%nat -> iter t fT w0 = (x, 0, c, a) -> n <= x < N ->
     nb b x c <> -1 \/ forall t', (t < t' <= s)%nat -> leafb (src (iter t' fT w0)) = false;
  wi_z : exists s0 c d, (s0 <= s)%nat /\ iter s0 fT w0 = (z, 0, c, d) /\ n <= z < N /\ forall t, (s0 < t <= s)%nat -> leafb (src (iter t fT w0)) = false }.

Lemma vis_leaf s x a c : vis s x a c -> n <= x < N -> exists t, (0 < t <= s)%nat /\ leafb (src (iter t fT w0)) = true.
Proof. intros (t & Ht & [E|E]) Hx; exists t; (split; [auto|]); rewrite E; apply leaf_t; auto. Qed.

Lemma WI_in s z b fd : WI s z b fd -> leafb (src (iter (Datatypes.S s) fT w0)) = false -> WI (Datatypes.S s) z b fd.
Proof.
  intros W E.
  assert (V : forall x a c, n <= x < N -> vis (Datatypes.S s) x a c -> vis s x a c).
  { intros x a c Hx (t & Ht & H). exists t. split; auto. destruct (Nat.eq_dec t (Datatypes.S s)); [subst|lia].
    exfalso. destruct (leaf_t x Hx). destruct H as [H|H]; rewrite H in E; cbn in E; congruence. }
  constructor; try apply W.
  - intros x a c Hx VV. apply (wi_yes _ _ _ _ W); auto.
  - intros x a c Hx Ha Hc Hac NV. apply (wi_no _ _ _ _ W); auto. intros (t & Ht & H). apply NV. exists t. split; auto; lia.
  - intros t x c a Ht H Hx. apply (wi_in _ _ _ _ W t x c); auto. destruct (Nat.eq_dec t (Datatypes.S s)); [subst|lia].
    exfalso. destruct (leaf_t x Hx). rewrite H in E. cbn in E. congruence.
  - intros t x c a Ht H Hx. destruct (Nat.eq_dec t (Datatypes.S s)).
    + subst. exfalso. destruct (leaf_t x Hx). rewrite H in E. cbn in E. congruence.
    + destruct (wi_out _ _ _ _ W t x c a) as [?|Q]; auto; [lia|]. right. intros t' Ht'.
      destruct (Nat.eq_dec t' (Datatypes.S s)); [subst; auto|]. apply Q. lia.
  - destruct (wi_z _ _ _ _ W) as (s0 & c & d & H1 & H2 & H3 & H4). exists s0, c, d. split; [lia|]. split; auto. split; auto.
    intros t Ht. destruct (Nat.eq_dec t (Datatypes.S s)); [subst; auto|]. apply H4. lia.
Qed.

Lemma it_isf t : isf (iter t fT w0). Proof. apply (iter_isf _ _ _ _ _ _ _ L). apply w0_isf. Qed.
Lemma jnb_cases (f : Z -> Z -> Z) y a z c x q : (y, a) <> (z, c) ->
  ((x, q) = (y, a) /\ jnb f y a z c x q = z) \/ ((x, q) = (z, c) /\ jnb f y a z c x q = y)
  \/ ((x, q) <> (y, a) /\ (x, q) <> (z, c) /\ jnb f y a z c x q = f x q).
Proof.
  intros H. assert (DD : forall p r : Z * Z, p = r \/ p <> r) by (intros; destruct p, r; destruct (Z.eq_dec z0 z2), (Z.eq_dec z1 z3); subst; auto; right; congruence).
  unfold jnb. destruct (DD (x, q) (z, c)) as [E|E1].
  - right; left. split; auto. inversion E; subst. apply set_nb_eq.
  - rewrite set_nb_neq by auto. destruct (DD (x, q) (y, a)) as [E|E2].
    + left. split; auto. inversion E; subst. apply set_nb_eq.
    + right; right. split; auto. split; auto. apply set_nb_neq; auto.
Qed.
Lemma jfd_cases fd y a b' x i j : (jfd fd y a b' nf x i j = nf /\ x = y /\ ((i = a /\ j = b') \/ (i = b' /\ j = a)))
  \/ (jfd fd y a b' nf x i j = fd x i j /\ ~ (x = y /\ ((i = a /\ j = b') \/ (i = b' /\ j = a)))).
Proof.
  unfold jfd. destruct (Z.eqb_spec x y), (Z.eqb_spec i a), (Z.eqb_spec j b'), (Z.eqb_spec i b'), (Z.eqb_spec j a); cbn [andb orb]; auto 6;
  right; (split; [auto|]); lia.
Qed.

Lemma WI_out s z b fd : WI s z b fd -> leafb (src (iter (Datatypes.S s) fT w0)) = true ->
  let x := iter s fT w0 in
  exists y b2 fd2, n <= y < N /\ joinN NN MX D (f1 x) (f2 x) (tgt x) z nf (b, fd) = OK (b2, fd2)
   /\ turnN NN MX D n nf (rep x z b fd) = OK (rep (iter (Datatypes.S s) fT w0) y b2 fd2) /\ WI (Datatypes.S s) y b2 fd2.
Proof.
  intros W E x. destruct (wi_z _ _ _ _ W) as (s0 & c & d & Hs0 & Es0 & Hz & Hlast).
  destruct (leaf_t z Hz) as (Lz & Uz).
  assert (Iz : isf (z, 0, c, d)) by (rewrite <- Es0; apply it_isf).
  assert (Ei : forall t, iter t fT (z, 0, c, d) = iter (s0 + t) fT w0) by (intros t; rewrite <- Es0, Nat.add_comm; symmetry; apply iter_add).
  assert (Ex : x = iter (s - s0) fT (z, 0, c, d)) by (unfold x; rewrite Ei; f_equal; lia).
  destruct (arrive x z c d b fd nf (s - s0)) as (y & b' & a & b2 & fd2 & ET & Ey & Hy & _ & Ha & Hb & Hc & Hab & M & J & J1 & J2 & J3 & J4 & Tn); auto.
  - apply (wi_fr _ _ _ _ W).
  - split; [|split; [auto|split]].
    + cbn [iter]. rewrite <- Ex. auto.
    + exact E.
    + intros t Ht. rewrite Ei. apply Hlast. lia.
  - apply it_isf.
  - assert (ET' : iter (Datatypes.S s) fT w0 = (y, 0, b', a)) by exact ET.
    pose proof (mate_ne _ _ _ _ _ _ _ L HD _ _ _ _ M) as NE.
    assert (NE' : (y, a) <> (z, c)) by congruence.
    assert (Mono : forall v i, nb b v i <> -1 -> nb b2 v i <> -1).
    { intros v i Hv. rewrite J2. destruct (jnb_cases (nb b) y a z c v i NE') as [(_ & ->)|[(_ & ->)|(_ & _ & ->)]]; auto; lia. }
    exists y, b2, fd2. split; auto. split; auto. split; [exact Tn|]. constructor; auto.
    + intros v i j Hv (t & Ht & Et). rewrite J3. destruct (jfd_cases fd y a b' v i j) as [(-> & _)|(-> & Q)]; auto.
      apply (wi_yes _ _ _ _ W); auto. exists t. split; auto. destruct (Nat.eq_dec t (Datatypes.S s)); [subst t; exfalso|lia].
      rewrite ET' in Et. apply Q. destruct Et as [Et|Et]; inversion Et; auto.
    + intros v i j Hv Hi Hj Hij NV. rewrite J3. destruct (jfd_cases fd y a b' v i j) as [(-> & -> & Q)|(-> & Q)].
      * exfalso. apply NV. exists (Datatypes.S s). split; [lia|]. rewrite ET'. destruct Q as [(-> & ->)|(-> & ->)]; auto.
      * apply (wi_no _ _ _ _ W); auto. intros (t & Ht & Et). apply NV. exists t. split; auto. lia.
    + intros v i Hv Hi. rewrite J2. destruct (jnb_cases (nb b) y a z c v i NE') as [(E1 & ->)|[(E1 & ->)|(_ & _ & ->)]].
      * inversion E1; subst. right. exists c. apply (mate_sym _ _ _ _ _ _ _ L HD); auto.
      * inversion E1; subst. right. exists a. auto.
      * apply (wi_nb _ _ _ _ W); auto.
    + intros v i Hv. apply Mono. apply (wi_old _ _ _ _ W); auto.
    + intros t v c' a' Ht Et Hv. destruct (Nat.eq_dec t (Datatypes.S s)) as [->|].
      * rewrite ET' in Et. injection Et as <- _ <-. rewrite J2. destruct (jnb_cases (nb b) y a z c y a NE') as [(_ & ->)|[(Q & _)|(Q & _)]]; congruence || lia.
      * apply Mono. apply (wi_in _ _ _ _ W t v c'); auto. lia.
    + intros t v c' a' Ht Et Hv. destruct (Nat.eq_dec t (Datatypes.S s)) as [->|]; [right; intros; lia|].
      destruct (wi_out _ _ _ _ W t v c' a') as [Q|Q]; auto; [lia|]. left.
      assert (Lv : leafb v = true) by (apply leaf_t; auto).
      assert (t = s0).
      { destruct (lt_eq_lt_dec t s0) as [[C|C]|C]; auto; exfalso.
        - specialize (Q s0 ltac:(lia)). rewrite Es0 in Q. cbn in Q. congruence.
        - specialize (Hlast t ltac:(lia)). rewrite Et in Hlast. cbn in Hlast. congruence. }
      subst t. rewrite Es0 in Et. injection Et as <- <- _.
      rewrite J2. destruct (jnb_cases (nb b) y a z c z c NE') as [(Q' & _)|[(_ & ->)|(_ & Q' & _)]]; congruence || lia.
    + exists (Datatypes.S s), b', a. split; auto. split; auto. split; auto. lia.
Qed.
Lemma WI_0 : fr b1 fd1 -> (forall x a, n <= x < N -> 0 < a < D -> nb b1 x a = -1 \/ exists a', mate x a (nb b1 x a) a') -> WI 0 x0 b1 fd1.
Proof.
  intros F M. constructor; auto; try lia.
  - intros x a c _ (t & Ht & _). lia.
  - intros t x c a Ht. right. lia.
  - exists 0%nat, p0, q0. split; auto. split; auto. split; auto. lia.
Qed.

(** the loop runs to the first return of the walk *)
Variable m : nat.
Hypothesis Hm : (0 < m)%nat.
Hypothesis Sm : src (iter m fT w0) = x0.
Hypothesis Fm : forall t, (0 < t < m)%nat -> src (iter t fT w0) <> x0.
Lemma it_tgt t : tgt (iter t fT w0) = src (iter (Datatypes.S t) fT w0).
Proof. cbn [iter]. symmetry. apply (src_T D leafb g bk h). Qed.
Lemma leaf_tgt t : leafb (src (iter t fT w0)) = true -> leafb (tgt (iter t fT w0)) = false.
Proof.
  pose proof (it_isf t) as I. destruct (iter t fT w0) as [[[v i] j] k]. destruct I as (HU & (Hi & Hi0) & _). cbn. intros Lv.
  specialize (Hi0 Lv). subst i. apply (lf_leaf _ _ _ _ _ _ _ L); auto.
Qed.
Lemma walk_spec : forall k s z b fd fuel, (s + 1 < m)%nat -> (m - s <= k)%nat -> (k <= fuel)%nat -> WI s z b fd ->
  exists z' b' fd', walkN NN MX D fuel n nf x0 (rep (iter s fT w0) z b fd) = OK (rep (iter (m - 1) fT w0) z' b' fd') /\ WI (m - 1) z' b' fd'.
Proof.
  induction k; intros s z b fd fuel Hs Hk Hf W; [lia|]. destruct fuel as [|fuel]; [lia|]. unfold walkN. cbn [dowhile].
  assert (HT : exists s1 z1 b1' fd1', turnN NN MX D n nf (rep (iter s fT w0) z b fd) = OK (rep (iter s1 fT w0) z1 b1' fd1') /\ WI s1 z1 b1' fd1'
    /\ leafb (tgt (iter s1 fT w0)) = false /\ (s <= s1)%nat /\ (Datatypes.S s1 < m)%nat).
  { destruct (leafb (src (iter (Datatypes.S s) fT w0))) eqn:E.
    - destruct (WI_out s z b fd W E) as (y & b2 & fd2 & _ & _ & Tn & W2). exists (Datatypes.S s), y, b2, fd2. split; auto. split; auto.
      pose proof (leaf_tgt _ E) as E2. split; auto. split; [lia|].
      destruct (Nat.eq_dec (Datatypes.S (Datatypes.S s)) m) as [X|]; [exfalso|lia].
      rewrite it_tgt, X, Sm in E2. destruct (leaf_t x0 Hx0). congruence.
    - exists s, z, b, fd. rewrite <- it_tgt in E. split; [apply turn_out; auto|]. split; auto. split; auto. lia. }
  destruct HT as (s1 & z1 & b1' & fd1' & -> & W1 & E1 & Hs1 & Hs2). cbn [bind].
  rewrite step_spec; auto; [|apply (wi_fr _ _ _ _ W1)|apply it_isf]. cbn [bind]. cbn [rep w_cur].
  change (fT (iter s1 fT w0)) with (iter (Datatypes.S s1) fT w0). rewrite it_tgt.
  assert (W2 : WI (Datatypes.S s1) z1 b1' fd1') by (apply WI_in; auto; rewrite <- it_tgt; auto).
  destruct (Z.eqb_spec (src (iter (Datatypes.S (Datatypes.S s1)) fT w0)) x0) as [X|X]; cbn [negb].
  - assert (Datatypes.S (Datatypes.S s1) = m) by (destruct (Nat.eq_dec (Datatypes.S (Datatypes.S s1)) m); auto; exfalso; apply (Fm (Datatypes.S (Datatypes.S s1))); auto; lia).
    exists z1, b1', fd1'. replace (m - 1)%nat with (Datatypes.S s1) by lia. auto.
  - apply (IHk (Datatypes.S s1)); auto; try lia. assert (Datatypes.S (Datatypes.S s1) <> m) by congruence. lia.
Qed.
Lemma m_gt1 : (1 < m)%nat.
Proof.
  destruct (Nat.eq_dec m 1) as [X|]; [exfalso|lia]. pose proof Sm as Q'. rewrite X, <- it_tgt in Q'. cbn in Q'. destruct (leaf_t x0 Hx0) as (Lx & Ux).
  apply (lf_g _ _ _ _ _ _ _ L x0 0) in Ux as (_ & Q); [congruence|]. split; auto; lia.
Qed.
Lemma m_close : iter m fT w0 = w0.
Proof.
  pose proof (it_isf m) as I. destruct (leaf_t x0 Hx0) as (Lx & Ux).
  destruct (leaf_shape _ I ltac:(rewrite Sm; auto)) as (a & b & E & _). rewrite Sm in E.
  destruct (leaf_return _ _ _ _ _ _ _ L HD x0 p0 q0 a b m Lx w0_isf E) as (-> & ->). auto.
Qed.
Lemma pair_spec fuel : (m <= fuel)%nat -> fr b1 fd1 -> fd1 x0 p0 q0 = -1 ->
  (forall x a, n <= x < N -> 0 < a < D -> nb b1 x a = -1 \/ exists a', mate x a (nb b1 x a) a') ->
  exists b2 fd2 z, closeN_pair NN MX D fuel n x0 p0 q0 (b1, fd1, nf) = OK (b2, fd2, nf + 1) /\ WI m z b2 fd2.
Proof.
  intros Hf F H1 M. unfold closeN_pair. rewrite rd_fd_ok by lia. cbn [bind]. rewrite H1. cbn [Z.leb Z.compare].
  rewrite !rd_fd_ok by lia. cbn [bind]. rewrite rd_nb_ok by lia. cbn [bind].
  destruct (fr_fd0 _ _ F x0 p0 Hx0) as (-> & _). destruct (fr_fd0 _ _ F x0 q0 Hx0) as (-> & _). rewrite (fr_nb0 _ _ F) by lia.
  pose proof m_gt1 as Hm1.
  destruct (walk_spec m 0 x0 b1 fd1 fuel) as (z & b & fd & E & W); auto; try lia. { apply WI_0; auto. }
  change (rep (iter 0 fT w0) x0 b1 fd1) with (WS NN b1 fd1 x0 (g x0 0) (fd0 x0 0 p0) (fd0 x0 0 q0) x0) in E. rewrite E. cbn [bind].
  unfold rep at 1 2 3 4 5 6. cbn [w_f w_adj w_cur w_new w_b w_fd].
  destruct (leaf_t x0 Hx0) as (Lx & Ux).
  destruct (WI_out (m - 1) z b fd W) as (y & b2 & fd2 & _ & J & _ & W2). { replace (Datatypes.S (m - 1)) with m by lia. rewrite Sm; auto. }
  rewrite J. cbn [bind]. exists b2, fd2, y. split; auto. replace m with (Datatypes.S (m - 1)) by lia. auto.
Qed.
End One.

(** ** All walks *)
Definition conn (x y : flag) : Prop := exists m, iter m fT x = y.
Lemma conn_refl x : conn x x. Proof. exists 0%nat. auto. Qed.
Lemma conn_trans x y z : conn x y -> conn y z -> conn x z.
Proof. intros (a & A) (b & B). exists (b + a)%nat. rewrite iter_add, A. auto. Qed.
Lemma conn_isf x y : isf x -> conn x y -> isf y.
Proof. intros H (m & <-). apply (iter_isf _ _ _ _ _ _ _ L). auto. Qed.
Lemma conn_sym x y : isf x -> conn x y -> conn y x.
Proof. intros H (m & E). destruct (orbit_sym _ _ _ _ _ _ _ L HD N U_rng x y m H (eq_sym E)) as (m' & E'). exists m'. auto. Qed.
Lemma conn_rev x a b y c d : n <= x < N -> n <= y < N -> isf (x, 0, a, b) -> conn (x, 0, a, b) (y, 0, c, d) -> conn (x, 0, b, a) (y, 0, d, c).
Proof.
  intros Hx Hy H C. pose proof (conn_isf _ _ H C) as H'. destruct C as (m & E). apply conn_sym.
  - destruct H' as (A1 & A2 & A3 & A4 & A5 & A6 & A7). repeat split; auto; try lia; apply A2.
  - exists m. apply (leaf_rev _ _ _ _ _ _ _ L HD); auto; apply leaf_t; auto.
Qed.
Definition pairs (x a c : Z) : Prop := n <= x < N /\ 0 < a < D /\ 0 < c < D /\ a <> c.
Lemma pairs_isf x a c : pairs x a c -> isf (x, 0, a, c).
Proof. intros (Hx & Ha & Hc & Hac). destruct (leaf_t x Hx). apply leaf_flag; auto. Qed.
Lemma pairs_sym x a c : pairs x a c -> pairs x c a. Proof. unfold pairs. lia. Qed.

Record GI (b : buf) (fd : Z -> Z -> Z -> Z) (nf : Z) : Prop := {
  gi_fr : fr b fd;
  gi_nf : nf0 <= nf;
  gi_rng : forall x a c, pairs x a c -> fd x a c = -1 \/ nf0 <= fd x a c < nf;
  gi_sym : forall x a c, pairs x a c -> fd x a c = fd x c a;
  gi_nb : forall x a, n <= x < N -> 0 < a < D -> nb b x a = -1 \/ exists a', mate x a (nb b x a) a';
  gi_set : forall x a c, pairs x a c -> fd x a c <> -1 -> nb b x a <> -1 /\ nb b x c <> -1;
  gi_orb : forall x a c y a' c', pairs x a c -> pairs y a' c' -> conn (x, 0, a, c) (y, 0, a', c') -> fd x a c = fd y a' c';
  gi_dis : forall x a c y a' c', pairs x a c -> pairs y a' c' -> fd x a c = fd y a' c' -> fd x a c <> -1 ->
     conn (x, 0, a, c) (y, 0, a', c') \/ conn (x, 0, a, c) (y, 0, c', a') }.

Lemma vis_conn x0 p0 q0 m x a c : pairs x0 p0 q0 -> (0 < m)%nat -> iter m fT (x0, 0, p0, q0) = (x0, 0, p0, q0) ->
  (vis x0 p0 q0 m x a c <-> conn (x0, 0, p0, q0) (x, 0, a, c) \/ conn (x0, 0, p0, q0) (x, 0, c, a)).
Proof.
  intros H0 Hm E.
  assert (P : forall t, exists t', (0 < t' <= m)%nat /\ iter t' fT (x0, 0, p0, q0) = iter t fT (x0, 0, p0, q0)).
  { induction t as [t IH] using lt_wf_ind. destruct (le_lt_dec t m).
    - destruct t; [exists m; split; [lia|auto]|exists (Datatypes.S t); split; [lia|auto]].
    - destruct (IH (t - m)%nat ltac:(lia)) as (t' & Ht' & E'). exists t'. split; auto.
      rewrite E'. replace t with ((t - m) + m)%nat at 2 by lia. rewrite iter_add, E. auto. }
  split.
  - intros (t & Ht & [Q|Q]); [left|right]; exists t; auto.
  - intros [(t & Q)|(t & Q)]; destruct (P t) as (t' & Ht' & E'); exists t'; (split; [auto|]); rewrite E'; auto.
Qed.
Lemma vis_dec x0 p0 q0 m x a c : vis x0 p0 q0 m x a c \/ ~ vis x0 p0 q0 m x a c.
Proof.
  unfold vis. induction m.
  - right. intros (t & Ht & _). lia.
  - assert (DD : forall u v : flag, u = v \/ u <> v).
    { intros [[[u1 u2] u3] u4] [[[v1 v2] v3] v4]. destruct (Z.eq_dec u1 v1), (Z.eq_dec u2 v2), (Z.eq_dec u3 v3), (Z.eq_dec u4 v4); subst; auto; right; congruence. }
    destruct IHm as [(t & Ht & Q)|IH]; [left; exists t; split; [lia|auto]|].
    destruct (DD (iter (Datatypes.S m) fT (x0, 0, p0, q0)) (x, 0, a, c)) as [Q|Q]; [left; exists (Datatypes.S m); split; [lia|auto]|].
    destruct (DD (iter (Datatypes.S m) fT (x0, 0, p0, q0)) (x, 0, c, a)) as [Q'|Q']; [left; exists (Datatypes.S m); split; [lia|auto]|].
    right. intros (t & Ht & R). destruct (Nat.eq_dec t (Datatypes.S m)); [subst; tauto|]. apply IH. exists t. split; [lia|auto].
Qed.

Definition cext (s s' : buf * (Z -> Z -> Z -> Z) * Z) : Prop := forall x a c, pairs x a c -> snd (fst s) x a c <> -1 -> snd (fst s') x a c <> -1.
Lemma GI_pair fuel x0 p0 q0 b fd nf : (Z.to_nat (N * D * D * D) <= fuel)%nat -> pairs x0 p0 q0 -> GI b fd nf ->
  exists s', closeN_pair NN MX D fuel n x0 p0 q0 (b, fd, nf) = OK s' /\ GI (fst (fst s')) (snd (fst s')) (snd s') /\ cext (b, fd, nf) s' /\ snd (fst s') x0 p0 q0 <> -1.
Proof.
  intros Hf P0 G. pose proof P0 as (Hx & Hp & Hq & Hpq).
  destruct (gi_rng _ _ _ G x0 p0 q0 P0) as [H1|H1].
  2:{ unfold closeN_pair. rewrite rd_fd_ok by lia. cbn [bind]. destruct (Z.leb_spec 0 (fd x0 p0 q0)); [|lia].
      exists (b, fd, nf). split; auto. cbn [fst snd]. split; auto. split; [intros x a c _ Q; exact Q|]. lia. }
  pose proof (pairs_isf _ _ _ P0) as I0.
  destruct (orbit _ _ _ _ _ _ _ L HD N U_rng _ I0) as (m1 & Hm1 & E1).
  destruct (first_true (fun t => (0 <? Z.of_nat t) && (src (iter t fT (x0, 0, p0, q0)) =? x0)) m1) as (m & Hm & Pm & Fm).
  { apply andb_true_intro. split; [apply Z.ltb_lt; lia|]. rewrite E1. apply Z.eqb_refl. }
  apply andb_prop in Pm as (Pm1 & Pm2). apply Z.ltb_lt in Pm1. apply Z.eqb_eq in Pm2.
  assert (Fm' : forall t, (0 < t < m)%nat -> src (iter t fT (x0, 0, p0, q0)) <> x0).
  { intros t Ht Q. specialize (Fm t ltac:(lia)). rewrite Q, Z.eqb_refl, andb_true_r in Fm. apply Z.ltb_ge in Fm. lia. }
  assert (Cm : iter m fT (x0, 0, p0, q0) = (x0, 0, p0, q0)) by (apply m_close; auto; lia).
  destruct (pair_spec b fd nf x0 p0 q0 Hx Hp Hq Hpq m ltac:(lia) Pm2 Fm' fuel ltac:(lia) (gi_fr _ _ _ G) H1 (gi_nb _ _ _ G)) as (b2 & fd2 & z & E & W).
  exists (b2, fd2, nf + 1). split; auto. cbn [fst snd].
  pose proof (gi_nf _ _ _ G) as Hnf1.
  assert (VC : forall x a c, vis x0 p0 q0 m x a c <-> conn (x0, 0, p0, q0) (x, 0, a, c) \/ conn (x0, 0, p0, q0) (x, 0, c, a)) by (intros; apply vis_conn; auto; lia).
  assert (VS : forall x a c, vis x0 p0 q0 m x a c <-> vis x0 p0 q0 m x c a) by (intros; rewrite !VC; tauto).
  assert (Vy : forall x a c, pairs x a c -> vis x0 p0 q0 m x a c -> fd2 x a c = nf) by (intros x a c (Q & _) V; apply (wi_yes _ _ _ _ _ _ _ _ _ _ W); auto).
  assert (Vn : forall x a c, pairs x a c -> ~ vis x0 p0 q0 m x a c -> fd2 x a c = fd x a c).
  { intros x a c (Q1 & Q2 & Q3 & Q4) V. apply (wi_no _ _ _ _ _ _ _ _ _ _ W); auto. }
  assert (Vold : forall x a c, pairs x a c -> vis x0 p0 q0 m x a c -> fd x a c = -1).
  { intros x a c P V. apply VC in V as [V|V].
    - rewrite <- (gi_orb _ _ _ G x0 p0 q0 x a c); auto.
    - rewrite (gi_sym _ _ _ G) by auto. rewrite <- (gi_orb _ _ _ G x0 p0 q0 x c a); auto. apply pairs_sym; auto. }
  assert (Vc : forall x a c y a' c', pairs x a c -> pairs y a' c' -> conn (x, 0, a, c) (y, 0, a', c') -> vis x0 p0 q0 m x a c -> vis x0 p0 q0 m y a' c').
  { intros x a c y a' c' P P' C V. apply VC. apply VC in V as [V|V].
    - left. eapply conn_trans; eauto.
    - right. eapply conn_trans; [exact V|]. apply conn_rev; auto; try apply P; try apply P'. apply pairs_isf; auto. }
  assert (Vset : forall x a c, pairs x a c -> vis x0 p0 q0 m x a c -> nb b2 x a <> -1 /\ nb b2 x c <> -1).
  { assert (forall x a c, pairs x a c -> conn (x0, 0, p0, q0) (x, 0, a, c) -> nb b2 x a <> -1 /\ nb b2 x c <> -1).
    { intros x a c P C. assert (V : vis x0 p0 q0 m x a c) by (apply VC; auto).
      assert (exists t, (0 < t <= m)%nat /\ iter t fT (x0, 0, p0, q0) = (x, 0, a, c)) as (t & Ht & Et).
      { destruct V as (t & Ht & [Q|Q]); [exists t; auto|]. exfalso.
        (* the walk would contain a flag and its reverse *)
        destruct C as (t' & Ct).
        assert (Cx : conn (x, 0, a, c) (x, 0, c, a)) by (eapply conn_trans; [apply conn_sym; [exact I0|exists t'; exact Ct]|exists t; exact Q]).
        destruct Cx as (k & Ek). destruct (leaf_t x (proj1 P)) as (Lx & _).
        destruct (leaf_return _ _ _ _ _ _ _ L HD x a c c a k Lx (pairs_isf _ _ _ P) Ek). destruct P as (_ & _ & _ & Q4). congruence. }
      split.
      - assert (T0 : exists t0, (t0 < m)%nat /\ iter t0 fT (x0, 0, p0, q0) = (x, 0, a, c)).
        { destruct (Nat.eq_dec t m) as [->|]; [exists 0%nat; split; [lia|]; rewrite <- Et; symmetry; exact Cm|exists t; split; [lia|auto]]. }
        destruct T0 as (t0 & Ht0 & Et0).
        destruct (wi_out _ _ _ _ _ _ _ _ _ _ W t0 x a c ltac:(lia) Et0 (proj1 P)) as [Q|Q]; auto. exfalso.
        specialize (Q m ltac:(lia)). rewrite Pm2 in Q. destruct (leaf_t x0 Hx). congruence.
      - apply (wi_in _ _ _ _ _ _ _ _ _ _ W t x a c); auto. apply P. }
    intros x a c P V. apply VC in V as [V|V]; [auto|]. destruct (H x c a); auto. apply pairs_sym; auto. }
  split; [|split].
  - constructor.
    + apply (wi_fr _ _ _ _ _ _ _ _ _ _ W).
    + lia.
    + intros x a c P. destruct (vis_dec x0 p0 q0 m x a c) as [V|V]; [rewrite Vy by auto; lia|]. rewrite Vn by auto. destruct (gi_rng _ _ _ G x a c P); lia.
    + intros x a c P. pose proof (pairs_sym _ _ _ P) as P'. destruct (vis_dec x0 p0 q0 m x a c) as [V|V].
      * rewrite Vy by auto. rewrite Vy; auto. apply VS; auto.
      * rewrite Vn by auto. rewrite Vn; auto; [|rewrite VS; auto]. apply (gi_sym _ _ _ G); auto.
    + apply (wi_nb _ _ _ _ _ _ _ _ _ _ W).
    + intros x a c P Q. destruct (vis_dec x0 p0 q0 m x a c) as [V|V]; [auto|]. rewrite Vn in Q by auto.
      destruct (gi_set _ _ _ G x a c P Q). split; apply (wi_old _ _ _ _ _ _ _ _ _ _ W); auto.
    + intros x a c y a' c' P P' C. destruct (vis_dec x0 p0 q0 m x a c) as [V|V].
      * rewrite Vy by auto. rewrite Vy; auto. apply (Vc x a c); auto.
      * rewrite Vn by auto. rewrite Vn; auto; [apply (gi_orb _ _ _ G); auto|]. intros V'. apply V. apply (Vc y a' c'); auto.
        apply conn_sym; auto. apply pairs_isf; auto.
    + intros x a c y a' c' P P' Q Q1. destruct (vis_dec x0 p0 q0 m x a c) as [V|V], (vis_dec x0 p0 q0 m y a' c') as [V'|V'].
      * apply VC in V, V'.
        assert (R : forall u v w u' v' w', pairs u v w -> pairs u' v' w' -> conn (x0, 0, p0, q0) (u, 0, v, w) -> conn (x0, 0, p0, q0) (u', 0, v', w') -> conn (u, 0, v, w) (u', 0, v', w')).
        { intros u v w u' v' w' R1 R2 R3 R4. eapply conn_trans; [apply conn_sym; [exact I0|exact R3]|auto]. }
        pose proof (pairs_sym _ _ _ P). pose proof (pairs_sym _ _ _ P').
        destruct V as [V|V], V' as [V'|V'].
        -- left. auto.
        -- right. auto.
        -- right. apply conn_rev; auto; try apply P; try apply P'. apply pairs_isf; auto.
        -- left. apply conn_rev; auto; try apply P; try apply P'. apply pairs_isf; auto.
      * exfalso. rewrite Vy, Vn in Q by auto. destruct (gi_rng _ _ _ G y a' c' P'); lia.
      * exfalso. rewrite Vn, Vy in Q by auto. destruct (gi_rng _ _ _ G x a c P); lia.
      * rewrite Vn in Q, Q1 by auto. rewrite Vn in Q by auto. apply (gi_dis _ _ _ G); auto.
  - intros x a c P Q. cbn [fst snd] in *. destruct (vis_dec x0 p0 q0 m x a c) as [V|V]; [rewrite Vy by auto; lia|]. rewrite Vn by auto. auto.
  - rewrite Vy; auto; [lia|]. apply VC. left. apply conn_refl.
Qed.

Lemma closeN_spec fuel : (Z.to_nat (N * D * D * D) <= fuel)%nat -> GI b0 fd0 nf0 ->
  exists b fd nf, closeN NN MX D fuel n N (b0, fd0, nf0) = OK (b, fd, nf) /\ GI b fd nf /\ forall x a c, pairs x a c -> fd x a c <> -1.
Proof.
  intros Hf G0. unfold closeN.
  set (I := fun s : buf * (Z -> Z -> Z -> Z) * Z => GI (fst (fst s)) (snd (fst s)) (snd s)).
  assert (ER : forall s, cext s s) by (intros s x a c _ Q; exact Q).
  assert (ET : forall s1 s2 s3, cext s1 s2 -> cext s2 s3 -> cext s1 s3) by (intros s1 s2 s3 A B x a c P Q; auto).
  destruct (for_prog I cext (fun x s => forall a c, pairs x a c -> a < c -> snd (fst s) x a c <> -1) n N
    (fun vstart => for_ 1 D (fun np0 => for_ (Z.add np0 1) D (fun np1 => closeN_pair NN MX D fuel n vstart np0 np1))) (b0, fd0, nf0)) as (s & E & Is & _ & Gs); auto; try lia.
  - intros x s Hx Is.
    destruct (for_prog I cext (fun a s => forall c, pairs x a c -> a < c -> snd (fst s) x a c <> -1) 1 D
      (fun np0 => for_ (Z.add np0 1) D (fun np1 => closeN_pair NN MX D fuel n x np0 np1)) s) as (s' & E & Is' & C' & Gs'); auto; try lia.
    + intros a s1 Ha Is1.
      destruct (for_prog I cext (fun c s => pairs x a c -> snd (fst s) x a c <> -1) (a + 1) D (fun np1 => closeN_pair NN MX D fuel n x a np1) s1) as (s2 & E & Is2 & C2 & Gs2); auto; try lia.
      * intros c ((b & fd) & nf) Hc Isb. destruct (GI_pair fuel x a c b fd nf) as (s' & A1 & A2 & A3 & A4); auto; [unfold pairs; lia|]. exists s'. auto.
      * exists s2. split; auto. split; auto. split; auto. intros c P Hc. apply Gs2; auto. unfold pairs in P. lia.
    + exists s'. split; auto. split; auto. split; auto. intros a c P Hc. apply Gs'; auto. unfold pairs in P. lia.
  - destruct s as ((b & fd) & nf). exists b, fd, nf. split; auto. split; auto. intros x a c P. pose proof P as (Hx & Ha & Hc & Hac).
    destruct (Z_lt_dec a c); [apply (Gs x Hx a c); auto|]. pose proof (gi_sym _ _ _ Is x a c P) as Q. cbn [fst snd] in Q. rewrite Q. apply (Gs x Hx c a); [apply pairs_sym; auto|lia].
Qed.
End Close.
