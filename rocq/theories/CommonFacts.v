(** * CommonFacts: lemmas on buffer accesses, compression and copying. *)
From Coq Require Import ZArith List Bool Lia.
From Verif Require Import Base Lib ModelCommon.
Import ListNotations.
Open Scope Z_scope.

Definition set_nb (f : Z -> Z -> Z) (v np x : Z) : Z -> Z -> Z := upd f v (upd (f v) np x).

Lemma set_nb_eq f v np x : set_nb f v np x v np = x.
Proof. unfold set_nb. now rewrite !upd_eq. Qed.
Lemma set_nb_neq f v np x v' np' : (v', np') <> (v, np) -> set_nb f v np x v' np' = f v' np'.
Proof.
  unfold set_nb, upd. intros. destruct (Z.eqb_spec v' v); auto. subst.
  destruct (Z.eqb_spec np' np); auto. subst. congruence.
Qed.
Lemma set_nb_neq_v f v np x v' np' : v' <> v -> set_nb f v np x v' np' = f v' np'.
Proof. intros. apply set_nb_neq. congruence. Qed.
Lemma set_nb_neq_p f v np x v' np' : np' <> np -> set_nb f v np x v' np' = f v' np'.
Proof. intros. apply set_nb_neq. congruence. Qed.

Notation dart := (Z * Z)%type.

Section F.
Context {V : Type} (MX D : Z).
Implicit Types b : vbuf V.

Lemma rd_nb_ok b v np : 0 <= v < MX -> 0 <= np < D -> rd_nb MX D b v np = OK (nb b v np).
Proof. intros. unfold rd_nb. now rewrite !inb_true. Qed.
Lemma wr_nb_ok b v np x : 0 <= v < MX -> 0 <= np < D ->
  wr_nb MX D b v np x = OK (VB (set_nb (nb b) v np x) (ps b)).
Proof. intros. unfold wr_nb. now rewrite !inb_true. Qed.
Lemma rd_ps_ok b v : 0 <= v < MX -> rd_ps MX b v = OK (ps b v).
Proof. intros. unfold rd_ps. now rewrite !inb_true. Qed.
Lemma wr_ps_ok b v x : 0 <= v < MX -> wr_ps MX b v x = OK (VB (nb b) (upd (ps b) v x)).
Proof. intros. unfold wr_ps. now rewrite !inb_true. Qed.
Lemma cp_vert_ok b i b' j : 0 <= i < MX -> 0 <= j < MX ->
  cp_vert MX b i b' j = OK (VB (upd (nb b) i (nb b' j)) (upd (ps b) i (ps b' j))).
Proof. intros. unfold cp_vert. now rewrite !inb_true. Qed.
Lemma wr_nb_oob b v np x : ~ 0 <= v < MX -> wr_nb MX D b v np x = Err OutOfBounds.
Proof. intros. unfold wr_nb. now rewrite inb_false. Qed.
Lemma wr_ps_oob b v x : ~ 0 <= v < MX -> wr_ps MX b v x = Err OutOfBounds.
Proof. intros. unfold wr_ps. now rewrite inb_false. Qed.
Lemma wr_oob {A} (a : Z -> A) v x : ~ 0 <= v < MX -> wr MX a v x = Err OutOfBounds.
Proof. intros. unfold wr. now rewrite inb_false. Qed.

(** ** compression in place (clip) *)
Lemma compress_spec b cl N : 0 <= N <= MX ->
  let K v := cl v =? 0 in
  exists b' cl', for_ 0 N (compress_body MX) (b, cl, 0) = OK (b', cl', cnt K N)
  /\ (forall u, 0 <= u < N -> K u = true ->
        nb b' (cnt K u) = nb b u /\ ps b' (cnt K u) = ps b u /\ cl' u = cnt K u).
Proof.
  intros HN K.
  destruct (for_inv (fun v (s : vbuf V * (Z -> Z) * Z) => let '(b', cl', num) := s in
     num = cnt K v
     /\ (forall u, 0 <= u < v -> K u = true ->
           nb b' (cnt K u) = nb b u /\ ps b' (cnt K u) = ps b u /\ cl' u = cnt K u)
     /\ (forall u, v <= u -> nb b' u = nb b u /\ ps b' u = ps b u /\ cl' u = cl u))
     0 N (compress_body MX) (b, cl, 0)) as (s' & E & I).
  - lia.
  - rewrite cnt_0. repeat split; auto; lia.
  - intros i [[b1 cl1] num] Hi (Hn & Hlo & Hhi).
    cbn [compress_body]. rewrite rd_ok by lia. cbn [bind].
    destruct (Hhi i) as (En & Ep & Ec); [lia|]. rewrite Ec.
    change (cl i =? 0) with (K i).
    pose proof (cnt_le K i ltac:(lia)). pose proof (cnt_nonneg K i).
    rewrite cnt_succ by lia.
    destruct (K i) eqn:Ki.
    + rewrite cp_vert_ok by lia. cbn [bind]. rewrite wr_ok by lia. cbn [bind].
      eexists. split; [reflexivity|]. cbn. split; [lia|]. subst num. split.
      * intros u Hu HK. destruct (Z.eq_dec u i).
        { subst u. rewrite !upd_eq. auto. }
        destruct (Hlo u) as (? & ? & ?); auto; [lia|].
        pose proof (cnt_lt K u i ltac:(lia) HK).
        rewrite !upd_neq by lia. auto.
      * intros u Hu. destruct (Hhi u) as (? & ? & ?); [lia|].
        rewrite !upd_neq by lia. auto.
    + eexists. split; [reflexivity|]. cbn. split; [lia|]. split.
      * intros u Hu HK. destruct (Z.eq_dec u i); [subst; congruence|]. apply Hlo; auto; lia.
      * intros u Hu. apply Hhi; lia.
  - destruct s' as [[b' cl'] num]. destruct I as (-> & I & _). eauto.
Qed.

(** ** reindexing *)
Lemma reindex_loop_spec cl b num : 0 <= D -> 0 <= num <= MX ->
  (forall i np, 0 <= i < num -> 0 <= np < D -> 0 <= nb b i np < MX) ->
  exists b', for_ 0 num (reindex_loop MX D cl) b = OK b'
  /\ ps b' = ps b
  /\ (forall i np, 0 <= i < num -> 0 <= np < D -> nb b' i np = cl (nb b i np))
  /\ (forall i np, num <= i -> nb b' i np = nb b i np).
Proof.
  intros HD Hn Hr.
  destruct (for_inv (fun v b' => ps b' = ps b
    /\ (forall i np, 0 <= i < v -> 0 <= np < D -> nb b' i np = cl (nb b i np))
    /\ (forall i np, v <= i -> nb b' i np = nb b i np)) 0 num (reindex_loop MX D cl) b)
    as (b' & E & I); try lia.
  - repeat split; auto; lia.
  - intros v b1 Hv (Hp & Hlo & Hhi). unfold reindex_loop.
    destruct (for_inv (fun np b' => ps b' = ps b
      /\ (forall i np, 0 <= i < v -> 0 <= np < D -> nb b' i np = cl (nb b i np))
      /\ (forall q, 0 <= q < np -> nb b' v q = cl (nb b v q))
      /\ (forall q, np <= q -> nb b' v q = nb b v q)
      /\ (forall i np, v < i -> nb b' i np = nb b i np)) 0 D
      (fun np b => let* x := rd_nb MX D b v np in let* c := rd MX cl x in wr_nb MX D b v np c) b1)
      as (b2 & E & I); try lia.
    + repeat split; auto; try lia; intros; apply Hhi; lia.
    + intros np b2 Hnp (Hp2 & Hlo2 & Ha & Hb & Hc).
      rewrite rd_nb_ok by lia. cbn [bind]. rewrite (Hb np) by lia.
      rewrite rd_ok by (apply Hr; lia). cbn [bind]. rewrite wr_nb_ok by lia.
      eexists. split; [reflexivity|]. cbn. split; auto. split; [|split; [|split]].
      * intros. rewrite set_nb_neq_v by lia. auto.
      * intros. destruct (Z.eq_dec q np); [subst; now rewrite set_nb_eq|].
        rewrite set_nb_neq_p by lia. apply Ha; lia.
      * intros. rewrite set_nb_neq_p by lia. apply Hb; lia.
      * intros. rewrite set_nb_neq_v by lia. apply Hc; lia.
    + exists b2. split; [exact E|]. destruct I as (? & ? & Ha & Hb & Hc). split; auto. split.
      * intros. destruct (Z.eq_dec i v); [subst; apply Ha; lia|]. apply H0; lia.
      * intros. apply Hc; lia.
  - exists b'. auto.
Qed.

(** What compression + reindexing produce: the sub-graph of [K] renumbered by rank. *)
Definition compressed (K : Z -> bool) (N : Z) (b : vbuf V) (p : poly V) : Prop :=
  nv p = cnt K N
  /\ forall u, 0 <= u < N -> K u = true ->
       ps (vb p) (cnt K u) = ps b u
       /\ forall np, 0 <= np < D -> nb (vb p) (cnt K u) np = cnt K (nb b u np).

(** Links of kept vertices lead to kept vertices. *)
Definition closed_links (K : Z -> bool) (N : Z) (b : vbuf V) : Prop :=
  forall u np, 0 <= u < N -> K u = true -> 0 <= np < D ->
    0 <= nb b u np < N /\ K (nb b u np) = true.

Lemma compress_reindex_spec b cl N : 0 <= D -> 0 <= N <= MX ->
  let K v := cl v =? 0 in
  closed_links K N b ->
  exists p, (let* (b, cl, num) := for_ 0 N (compress_body MX) (b, cl, 0) in
             let* b := for_ 0 num (reindex_loop MX D cl) b in OK (PY b num)) = OK p
  /\ compressed K N b p.
Proof.
  intros HD HN K HC.
  destruct (compress_spec b cl N HN) as (b1 & cl1 & E & H). fold K in H, E.
  rewrite E. cbn [bind].
  pose proof (cnt_le K N ltac:(lia)). pose proof (cnt_nonneg K N).
  destruct (reindex_loop_spec cl1 b1 (cnt K N)) as (b2 & E2 & Hp & Hn & _); try lia.
  { intros i np Hi Hnp. destruct (cnt_surj K N i) as (u & Hu & Ku & <-); try lia.
    destruct (H u Hu Ku) as (-> & _). destruct (HC u np Hu Ku Hnp). lia. }
  rewrite E2. cbn [bind]. eexists. split; [reflexivity|]. split; auto.
  intros u Hu Ku. cbn [vb]. destruct (H u Hu Ku) as (E1 & E3 & _). rewrite Hp. split; auto.
  intros np Hnp. pose proof (cnt_lt K u N ltac:(lia) Ku). pose proof (cnt_nonneg K u).
  rewrite Hn by lia. rewrite E1. destruct (HC u np Hu Ku Hnp) as (Hr & Kr).
  destruct (H _ Hr Kr) as (_ & _ & ->). reflexivity.
Qed.

(** ** copying to two outputs (split) *)
Definition K0 (side : Z -> Z) v := side v =? 0.
Definition K1 (side : Z -> Z) v := side v =? 1.

Lemma cnt_both_le side v : 0 <= v -> cnt (K0 side) v + cnt (K1 side) v <= v.
Proof.
  intros. pattern v. apply zrange_ind; auto; [rewrite !cnt_0; lia|].
  intros n Hn IH. rewrite !cnt_succ by lia. unfold K0 at 2, K1 at 2.
  destruct (Z.eqb_spec (side n) 0), (Z.eqb_spec (side n) 1); lia.
Qed.

(** The invariant-based spec covers both the disjoint ([r2d_split]) and the
    aliased ([r2d_split_coord], output 0 is the source) use: [src i s] is the
    buffer read at round [i]. *)
Lemma copy_spec b side N (o0 o1 : poly V)
  (body : Z -> (poly V * poly V) * (Z -> Z) -> res ((poly V * poly V) * (Z -> Z))) :
  0 <= N <= MX ->
  (forall v, 0 <= v < N -> side v = 0 \/ side v = 1) ->
  nv o0 = 0 -> nv o1 = 0 ->
  (forall i s, body i s = split_copy_body MX b i s)
  \/ (vb o0 = b /\ forall i s, body i s = split_copy_body MX (vb (fst (fst s))) i s) ->
  exists o0' o1' side',
   for_ 0 N body ((o0, o1), side) = OK ((o0', o1'), side')
   /\ nv o0' = cnt (K0 side) N /\ nv o1' = cnt (K1 side) N
   /\ (forall u, 0 <= u < N -> side u = 0 ->
         nb (vb o0') (cnt (K0 side) u) = nb b u /\ ps (vb o0') (cnt (K0 side) u) = ps b u
         /\ side' u = cnt (K0 side) u)
   /\ (forall u, 0 <= u < N -> side u = 1 ->
         nb (vb o1') (cnt (K1 side) u) = nb b u /\ ps (vb o1') (cnt (K1 side) u) = ps b u
         /\ side' u = cnt (K1 side) u).
Proof.
  intros HN Hs Hz0 Hz1 Hb.
  set (A := cnt (K0 side)). set (B := cnt (K1 side)).
  destruct (for_inv (fun v (s : (poly V * poly V) * (Z -> Z)) => let '((p0, p1), sd) := s in
     nv p0 = A v /\ nv p1 = B v
     /\ (forall u, 0 <= u < v -> side u = 0 ->
         nb (vb p0) (A u) = nb b u /\ ps (vb p0) (A u) = ps b u /\ sd u = A u)
     /\ (forall u, 0 <= u < v -> side u = 1 ->
         nb (vb p1) (B u) = nb b u /\ ps (vb p1) (B u) = ps b u /\ sd u = B u)
     /\ (forall u, v <= u -> sd u = side u)
     /\ (vb o0 = b -> forall u, v <= u -> nb (vb p0) u = nb b u /\ ps (vb p0) u = ps b u))
     0 N body ((o0, o1), side)) as (s' & E & I); try lia.
  - unfold A, B. rewrite !cnt_0. repeat split; auto; try lia; congruence.
  - intros i [[p0 p1] sd] Hi (HA & HB & H0 & H1 & Hsd & Hal).
    pose proof (cnt_le (K0 side) i ltac:(lia)). pose proof (cnt_nonneg (K0 side) i).
    pose proof (cnt_le (K1 side) i ltac:(lia)). pose proof (cnt_nonneg (K1 side) i).
    assert (HS : exists src, body i ((p0, p1), sd) = split_copy_body MX src i ((p0, p1), sd)
              /\ nb src i = nb b i /\ ps src i = ps b i).
    { destruct Hb as [Hb|[Ho Hb]].
      - exists b. rewrite Hb. auto.
      - exists (vb p0). rewrite Hb. cbn [fst]. split; auto. apply Hal; auto; lia. }
    destruct HS as (src & -> & En & Ep).
    cbn [split_copy_body]. rewrite rd_ok by lia. cbn [bind]. rewrite (Hsd i) by lia.
    assert (SA : A (i + 1) = A i + (if side i =? 0 then 1 else 0)).
    { unfold A. rewrite cnt_succ by lia. reflexivity. }
    assert (SB : B (i + 1) = B i + (if side i =? 1 then 1 else 0)).
    { unfold B. rewrite cnt_succ by lia. reflexivity. }
    rewrite HA, HB. rewrite SA, SB.
    destruct (Hs i ltac:(lia)) as [Si|Si]; rewrite Si; cbn [Z.eqb Pos.eqb].
    + rewrite cp_vert_ok by (unfold A; lia). cbn [bind]. rewrite wr_ok by lia. cbn [bind].
      eexists. split; [reflexivity|]. cbn [vb nv]. rewrite HB. split; [lia|]. split; [lia|].
      cbn [nb ps]. rewrite En, Ep. split; [|split; [|split]].
      * intros u Hu Su. destruct (Z.eq_dec u i).
        { subst u. rewrite !upd_eq. auto. }
        destruct (H0 u) as (? & ? & ?); auto; [lia|].
        assert (A u < A i).
        { apply cnt_lt; [lia|]. unfold K0. now rewrite Su. }
        rewrite !upd_neq by lia. auto.
      * intros u Hu Su. destruct (Z.eq_dec u i); [subst; congruence|].
        rewrite upd_neq by lia. apply H1; auto; lia.
      * intros u Hu. rewrite upd_neq by lia. apply Hsd. lia.
      * intros Ho u Hu. rewrite !upd_neq by (unfold A in *; lia). apply Hal; auto; lia.
    + rewrite cp_vert_ok by (unfold B; lia). cbn [bind]. rewrite wr_ok by lia. cbn [bind].
      eexists. split; [reflexivity|]. cbn [vb nv]. rewrite HA. split; [lia|]. split; [lia|].
      cbn [nb ps]. rewrite En, Ep. split; [|split; [|split]].
      * intros u Hu Su. destruct (Z.eq_dec u i); [subst; congruence|].
        rewrite upd_neq by lia. apply H0; auto; lia.
      * intros u Hu Su. destruct (Z.eq_dec u i).
        { subst u. rewrite !upd_eq. auto. }
        destruct (H1 u) as (? & ? & ?); auto; [lia|].
        assert (B u < B i).
        { apply cnt_lt; [lia|]. unfold K1. now rewrite Su. }
        rewrite !upd_neq by lia. auto.
      * intros u Hu. rewrite upd_neq by lia. apply Hsd. lia.
      * intros Ho u Hu. apply Hal; auto; lia.
  - destruct s' as [[p0 p1] sd]. destruct I as (HA & HB & H0 & H1 & _).
    exists p0, p1, sd. repeat split; auto; try (apply H0; auto; fail); try (apply H1; auto; fail).
Qed.

Lemma copy_reindex_spec b side N (o0 o1 : poly V)
  (body : Z -> (poly V * poly V) * (Z -> Z) -> res ((poly V * poly V) * (Z -> Z))) :
  0 <= D -> 0 <= N <= MX ->
  (forall v, 0 <= v < N -> side v = 0 \/ side v = 1) ->
  nv o0 = 0 -> nv o1 = 0 ->
  (forall i s, body i s = split_copy_body MX b i s)
  \/ (vb o0 = b /\ forall i s, body i s = split_copy_body MX (vb (fst (fst s))) i s) ->
  closed_links (K0 side) N b -> closed_links (K1 side) N b ->
  exists o0' o1' side' b0 b1,
   for_ 0 N body ((o0, o1), side) = OK ((o0', o1'), side')
   /\ for_ 0 (nv o0') (reindex_loop MX D side') (vb o0') = OK b0
   /\ for_ 0 (nv o1') (reindex_loop MX D side') (vb o1') = OK b1
   /\ compressed (K0 side) N b (PY b0 (nv o0'))
   /\ compressed (K1 side) N b (PY b1 (nv o1')).
Proof.
  intros HD HN Hs Hz0 Hz1 Hb C0 C1.
  destruct (copy_spec b side N o0 o1 body) as (p0 & p1 & sd & E & Hn0 & Hn1 & H0 & H1); auto.
  pose proof (cnt_le (K0 side) N ltac:(lia)). pose proof (cnt_nonneg (K0 side) N).
  pose proof (cnt_le (K1 side) N ltac:(lia)). pose proof (cnt_nonneg (K1 side) N).
  assert (T0 : forall u, K0 side u = true -> side u = 0) by (intros u; unfold K0; apply Z.eqb_eq).
  assert (T1 : forall u, K1 side u = true -> side u = 1) by (intros u; unfold K1; apply Z.eqb_eq).
  destruct (reindex_loop_spec sd (vb p0) (nv p0)) as (b0 & E0 & Hp0 & Hr0 & _); try lia.
  { intros i np Hi Hnp. destruct (cnt_surj (K0 side) N i) as (u & Hu & Ku & <-); try lia.
    destruct (H0 u Hu (T0 _ Ku)) as (-> & _). destruct (C0 u np Hu Ku Hnp). lia. }
  destruct (reindex_loop_spec sd (vb p1) (nv p1)) as (b1 & E1 & Hp1 & Hr1 & _); try lia.
  { intros i np Hi Hnp. destruct (cnt_surj (K1 side) N i) as (u & Hu & Ku & <-); try lia.
    destruct (H1 u Hu (T1 _ Ku)) as (-> & _). destruct (C1 u np Hu Ku Hnp). lia. }
  exists p0, p1, sd, b0, b1. split; auto. split; auto. split; auto.
  split; split; auto; intros u Hu Ku; cbn [vb].
  - destruct (H0 u Hu (T0 _ Ku)) as (X1 & X2 & X3). rewrite Hp0. split; auto. intros np Hnp.
    pose proof (cnt_lt _ u N ltac:(lia) Ku). pose proof (cnt_nonneg (K0 side) u).
    rewrite Hr0 by lia. rewrite X1. destruct (C0 u np Hu Ku Hnp) as (Hr & Kr).
    apply (H0 _ Hr (T0 _ Kr)).
  - destruct (H1 u Hu (T1 _ Ku)) as (X1 & X2 & X3). rewrite Hp1. split; auto. intros np Hnp.
    pose proof (cnt_lt _ u N ltac:(lia) Ku). pose proof (cnt_nonneg (K1 side) u).
    rewrite Hr1 by lia. rewrite X1. destruct (C1 u np Hu Ku Hnp) as (Hr & Kr).
    apply (H1 _ Hr (T1 _ Kr)).
Qed.

(** ** the loop over all (vertex, slot) pairs that inserts new vertices *)
Definition darts (n : Z) : list dart := flat_map (fun u => map (pair u) (zrange D)) (zrange n).

Lemma in_darts n v np : In (v, np) (darts n) <-> 0 <= v < n /\ 0 <= np < D.
Proof.
  unfold darts. rewrite in_flat_map. split.
  - intros (u & Hu & H). apply in_map_iff in H as (q & E & Hq). inversion E; subst.
    apply in_zrange in Hu. apply in_zrange in Hq. auto.
  - intros (Hv & Hnp). exists v. rewrite in_zrange. split; auto.
    apply in_map. now apply in_zrange.
Qed.
Lemma darts_succ n : 0 <= n -> darts (n + 1) = darts n ++ map (pair n) (zrange D).
Proof. intros. unfold darts. rewrite zrange_succ, flat_map_app by auto. cbn. now rewrite app_nil_r. Qed.
Lemma NoDup_darts n : 0 <= n -> NoDup (darts n).
Proof.
  intros Hn. pattern n. apply zrange_ind; auto; [constructor|].
  intros m Hm IH. rewrite darts_succ by auto.
  assert (X : NoDup (map (pair m) (zrange D))).
  { apply FinFun.Injective_map_NoDup; [intros a c E; now inversion E|apply NoDup_zrange]. }
  assert (Y : forall d, In d (darts m) -> In d (map (pair m) (zrange D)) -> False).
  { intros [a c] H1 H2. apply in_darts in H1. apply in_map_iff in H2 as (? & E & _).
    inversion E; subst. lia. }
  revert IH X Y. generalize (darts m) (map (pair m) (zrange D)). induction l; cbn; auto.
  intros l2 N1 N2 HY. inversion N1; subst. constructor.
  - rewrite in_app_iff. intros [?|?]; [auto|eapply HY; eauto].
  - apply IHl; auto. intros; eapply HY; eauto.
Qed.

Lemma ins_loop {St} (n : Z) (keep : Z -> bool) (cross : dart -> bool)
  (Desc : list dart -> St -> Prop) (Q : err -> Prop)
  (bv : Z -> St -> res St) (bnp : Z -> Z -> St -> res St) s0 :
  0 <= n -> 0 <= D ->
  (forall v np, keep v = false -> cross (v, np) = false) ->
  (forall v xs s, 0 <= v < n -> Desc xs s ->
      bv v s = if keep v then for_ 0 D (bnp v) s else OK s) ->
  (forall v np xs s, 0 <= v < n -> 0 <= np < D -> keep v = true ->
     (forall d, In d xs -> In d (darts n) /\ cross d = true /\
          (fst d < v \/ fst d = v /\ snd d < np)) ->
     Desc xs s ->
     if cross (v, np) then
       (exists s', bnp v np s = OK s' /\ Desc (xs ++ [(v, np)]) s')
       \/ (exists e, bnp v np s = Err e /\ Q e)
     else exists s', bnp v np s = OK s' /\ Desc xs s') ->
  Desc [] s0 ->
  (exists s', for_ 0 n bv s0 = OK s' /\ Desc (filter cross (darts n)) s')
  \/ (exists e, for_ 0 n bv s0 = Err e /\ Q e).
Proof.
  intros Hn HD Hkc Hbv Hstep H0.
  apply (for_inv3 (fun v s => Desc (filter cross (darts v)) s)); auto.
  intros v s Hv HDs.
  rewrite (Hbv _ _ _ Hv HDs).
  rewrite darts_succ, filter_app by lia.
  destruct (keep v) eqn:Kv.
  - destruct (for_inv3 (fun np s => Desc (filter cross (darts v) ++
        filter cross (map (pair v) (zrange np))) s) Q 0 D (bnp v) s) as [H|H]; auto.
    + cbn. now rewrite app_nil_r.
    + intros np s1 Hnp HD1.
      rewrite zrange_succ, map_app, filter_app by lia.
      cbn [map filter].
      match type of HD1 with Desc ?xs _ => pose proof (Hstep v np xs s1 Hv Hnp Kv) as HS end.
      destruct (cross (v, np)) eqn:Ec.
      * rewrite app_assoc. apply HS; auto.
        intros [u q] Hd. rewrite in_app_iff, !filter_In, in_darts, in_map_iff in Hd.
        rewrite in_darts. cbn. destruct Hd as [(Hd & Hc)|((q' & E & Hq) & Hc)].
        { split; [|split]; auto; lia. }
        { inversion E; subst. apply in_zrange in Hq. split; [|split]; auto; lia. }
      * rewrite app_nil_r. left. apply HS; auto.
        intros [u q] Hd. rewrite in_app_iff, !filter_In, in_darts, in_map_iff in Hd.
        rewrite in_darts. cbn. destruct Hd as [(Hd & Hc)|((q' & E & Hq) & Hc)].
        { split; [|split]; auto; lia. }
        { inversion E; subst. apply in_zrange in Hq. split; [|split]; auto; lia. }
  - left. exists s. split; auto.
    replace (filter cross (map (pair v) (zrange D))) with (@nil dart); [now rewrite app_nil_r|].
    symmetry. rewrite <- (app_nil_r (map (pair v) (zrange D))).
    assert (G : forall l, filter cross (map (pair v) l) = []).
    { induction l; cbn; auto. rewrite Hkc by auto. auto. }
    rewrite app_nil_r. apply G.
Qed.

End F.
Arguments compressed {V}. Arguments closed_links {V}.
