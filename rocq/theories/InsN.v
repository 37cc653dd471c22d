(** * InsN: [rNd_clip] bisects the cut edges (rNd.c:68-96) *)
From Coq Require Import ZArith List Bool Lia.
From Verif Require Import Base Lib ModelCommon CommonFacts ModelN ModelNC TransN InitN Struct3.
Import ListNotations.
Open Scope Z_scope.

Section Ins.
Variable NN : num.
Variable MX D : Z.
Notation buf := (vbuf (Z -> T NN)).
Notation fds := (Z -> Z -> Z -> Z).
Variables (b0 : buf) (fd0 : fds) (n : Z) (sds : Z -> option (T NN)) (sd : Z -> T NN) (cl : Z -> Z).
Notation f0 := (nb b0).
Hypothesis HD : 1 <= D.
Hypothesis Hn : 0 <= n <= MX.
Hypothesis rng0 : forall v i, 0 <= v < n -> 0 <= i < D -> 0 <= f0 v i < n.
Hypothesis Hsd : forall v, 0 <= v < n -> sds v = Some (sd v).

(** slot [a] of a new vertex on slot [np] of [v] stands for slot [sg np a] of [v] *)
Definition sg (np a : Z) : Z := if a =? 0 then np else if a - 1 <? np then a - 1 else a.
Definition sgi (np i : Z) : Z := if i =? np then 0 else if i <? np then i + 1 else i.
Lemma sg_rng np a : 0 <= np < D -> 0 <= a < D -> 0 <= sg np a < D.
Proof. unfold sg. intros. destruct (Z.eqb_spec a 0), (Z.ltb_spec (a - 1) np); lia. Qed.
Lemma sgi_rng np a : 0 <= np < D -> 0 <= a < D -> 0 <= sgi np a < D.
Proof. unfold sgi. intros. destruct (Z.eqb_spec a np), (Z.ltb_spec a np); lia. Qed.
Lemma sg_sgi np i : 0 <= np < D -> 0 <= i < D -> sg np (sgi np i) = i.
Proof. unfold sg, sgi. intros. destruct (Z.eqb_spec i np), (Z.ltb_spec i np); cbn; try lia; destruct (Z.eqb_spec (i + 1) 0), (Z.eqb_spec i 0), (Z.ltb_spec (i - 1) np), (Z.ltb_spec (i + 1 - 1) np); lia. Qed.
Lemma sgi_sg np a : 0 <= np < D -> 0 <= a < D -> sgi np (sg np a) = a.
Proof.
  unfold sg, sgi. intros. destruct (Z.eqb_spec a 0).
  - rewrite Z.eqb_refl. lia.
  - destruct (Z.ltb_spec (a - 1) np).
    + destruct (Z.eqb_spec (a - 1) np), (Z.ltb_spec (a - 1) np); lia.
    + destruct (Z.eqb_spec a np), (Z.ltb_spec a np); lia.
Qed.
Lemma sg_ne np a : 0 <= np -> 0 < a -> sg np a <> np.
Proof. unfold sg. intros. destruct (Z.eqb_spec a 0), (Z.ltb_spec (a - 1) np); lia. Qed.
Lemma sg_inj np a b : 0 <= np < D -> 0 <= a < D -> 0 <= b < D -> sg np a = sg np b -> a = b.
Proof. intros H1 H2 H3 E. apply (f_equal (sgi np)) in E. now rewrite !sgi_sg in E by auto. Qed.

Definition newposN (sd : Z -> T NN) (p : Z -> Z -> T NN) (v w i : Z) : T NN :=
  ndiv NN (nsub NN (nmul NN (p w i) (sd v)) (nmul NN (p v i) (sd w))) (nsub NN (sd v) (sd w)).

Lemma pos_spec v w N b : 0 <= v < n -> 0 <= w < n -> n <= N < MX -> 
  exists b', insN_pos NN MX D sds v w N b = OK b' /\ nb b' = nb b /\ (forall u, u <> N -> ps b' u = ps b u)
   /\ forall i, 0 <= i < D -> ps b' N i = newposN sd (ps b) v w i.
Proof.
  intros Hv Hw HN. unfold insN_pos.
  match goal with |- context [for_ 0 D ?bd b] => set (body := bd) end.
  destruct (for_inv (fun k b' => nb b' = nb b /\ (forall u, u <> N -> ps b' u = ps b u) /\ forall i, 0 <= i < k -> ps b' N i = newposN sd (ps b) v w i) 0 D body b) as (b' & E & H); eauto; try lia.
  - split; auto. split; auto. lia.
  - intros k b1 Hk (H1 & H2 & H3). unfold body. rewrite !rd_xyz_ok by lia. cbn [bind]. unfold rdi. rewrite !inb_true by lia. rewrite !Hsd by lia. cbn [bind].
    rewrite wr_xyz_ok by lia. eexists. split; [reflexivity|]. cbn [nb ps]. split; auto. split.
    + intros u Hu. rewrite upd_neq by auto. auto.
    + intros i Hi. rewrite upd_eq. unfold upd. destruct (Z.eqb_spec i k) as [->|]; [|apply H3; lia]. unfold newposN. now rewrite !H2 by lia.
Qed.

Lemma faces_spec v np N fd : 0 <= v < n -> 0 <= np < D -> n <= N < MX ->
  exists fd' q, insN_faces MX D v np N fd = OK (fd', q) /\ (forall u, u <> N -> fd' u = fd u)
   /\ forall a, 0 < a < D -> fd' N 0 a = fd v np (sg np a) /\ fd' N a 0 = fd v np (sg np a).
Proof.
  intros Hv Hnp HN. unfold insN_faces.
  match goal with |- context [for_ 0 D ?bd (fd, 1)] => set (body := bd) end.
  destruct (for_inv (fun k (s : fds * Z) => snd s = (if k <=? np then k + 1 else k) /\ (forall u, u <> N -> fst s u = fd u)
     /\ forall a, 0 < a < snd s -> fst s N 0 a = fd v np (sg np a) /\ fst s N a 0 = fd v np (sg np a)) 0 D body (fd, 1)) as ((fd' & q) & E & H1 & H2 & H3); try lia.
  - cbn [fst snd]. destruct (Z.leb_spec 0 np); [|lia]. split; auto. split; auto. lia.
  - intros k (fd1 & q) Hk (H1 & H2 & H3). cbn [fst snd] in *. unfold body. destruct (Z.eqb_spec k np) as [->|NE].
    + eexists. split; [reflexivity|]. cbn [fst snd]. split; auto. destruct (Z.leb_spec np np), (Z.leb_spec (np + 1) np); lia.
    + assert (Hq : 0 < q < D) by (destruct (Z.leb_spec k np); lia).
      rewrite rd_fd_ok by lia. cbn [bind]. rewrite wr_fd_ok by lia. cbn [bind]. rewrite rd_fd_ok by lia. cbn [bind]. rewrite wr_fd_ok by lia. cbn [bind].
      eexists. split; [reflexivity|]. cbn [fst snd]. split; [|split].
      * destruct (Z.leb_spec k np), (Z.leb_spec (k + 1) np); lia.
      * intros u Hu. rewrite !upd_neq by auto. auto.
      * intros a Ha. rewrite !upd_fd. rewrite !Z.eqb_refl. cbn [andb].
        assert (V : v <> N) by lia. apply Z.eqb_neq in V. rewrite V. cbn [andb]. rewrite !H2 by lia.
        destruct (Z.eqb_spec a q) as [->|].
        -- assert (sg np q = k). { unfold sg. destruct (Z.eqb_spec q 0), (Z.ltb_spec (q - 1) np), (Z.leb_spec k np); lia. }
           rewrite H. destruct (Z.eqb_spec 0 q), (Z.eqb_spec q 0); cbn [andb]; auto; lia.
        -- destruct (Z.eqb_spec 0 q); [lia|]. cbn [andb]. destruct (Z.eqb_spec 0 a); [lia|]. rewrite ?andb_false_r.
           cbn [andb]. destruct (Z.eqb_spec a 0); [lia|]. cbn [andb]. destruct (H3 a); [lia|]. auto.
  - cbn [fst snd] in *. rewrite E. exists fd', q. split; auto. split; auto. intros a Ha. apply H3. destruct (Z.leb_spec D np); lia.
Qed.

Lemma blank_spec N (b : buf) : 0 <= N < MX -> exists b', insN_blank NN MX D N b = OK b' /\ ps b' = ps b /\ (forall u, u <> N -> nb b' u = nb b u)
  /\ nb b' N 0 = nb b N 0 /\ forall a, 0 < a < D -> nb b' N a = -1.
Proof.
  intros HN. unfold insN_blank.
  destruct (for_inv (fun k (b' : buf) => ps b' = ps b /\ (forall u, u <> N -> nb b' u = nb b u) /\ nb b' N 0 = nb b N 0 /\ forall a, 0 < a < k -> nb b' N a = -1)
    1 D (fun np0 b => wr_nb MX D b N np0 (-1)) b) as (b' & E & H); eauto; try lia.
  - split; auto. split; auto. split; auto. lia.
  - intros k b1 Hk (H1 & H2 & H3 & H4). rewrite wr_nb_ok by lia. eexists. split; [reflexivity|]. cbn [ps nb]. split; auto. split; [|split].
    + intros u Hu. rewrite <- H2 by auto. unfold set_nb. now rewrite upd_neq.
    + rewrite set_nb_neq_p by lia. auto.
    + intros a Ha. destruct (Z.eq_dec a k) as [->|]; [apply set_nb_eq|]. rewrite set_nb_neq_p by lia. apply H4. lia.
Qed.
Lemma nofd_spec N (fd : fds) : 0 <= N < MX -> exists fd', insN_nofd MX D N fd = OK fd' /\ (forall u, u <> N -> fd' u = fd u)
  /\ (forall a, fd' N 0 a = fd N 0 a /\ fd' N a 0 = fd N a 0) /\ forall a c, 0 < a < D -> 0 < c < D -> fd' N a c = -1.
Proof.
  intros HN. unfold insN_nofd.
  destruct (for_inv (fun k (fd' : fds) => (forall u, u <> N -> fd' u = fd u) /\ (forall a, fd' N 0 a = fd N 0 a /\ fd' N a 0 = fd N a 0) /\ forall a c, 0 < a < k -> 0 < c < D -> fd' N a c = -1)
    1 D (fun np0 => for_ 1 D (fun np1 fd => wr_fd MX D fd N np0 np1 (-1))) fd) as (fd' & E & H); eauto; try lia.
  - split; auto. split; auto. lia.
  - intros k fd1 Hk (H1 & H2 & H3).
    destruct (for_inv (fun q (fd' : fds) => (forall u, u <> N -> fd' u = fd u) /\ (forall a, fd' N 0 a = fd N 0 a /\ fd' N a 0 = fd N a 0) /\ (forall a c, 0 < a < k -> 0 < c < D -> fd' N a c = -1)
      /\ forall c, 0 < c < q -> fd' N k c = -1) 1 D (fun np1 fd => wr_fd MX D fd N k np1 (-1)) fd1) as (fd' & E & H4 & H5 & H6 & H7); try lia.
    + split; auto. split; auto. split; auto. lia.
    + intros q fd2 Hq (A1 & A2 & A3 & A4). rewrite wr_fd_ok by lia. eexists. split; [reflexivity|]. split; [|split; [|split]].
      * intros u Hu. rewrite upd_neq by auto. auto.
      * intros a. rewrite !upd_fd. destruct (Z.eqb_spec 0 k), (Z.eqb_spec 0 q); try lia. cbn [andb]. rewrite !andb_false_r. cbn [andb]. auto.
      * intros a c Ha Hc. rewrite upd_fd. destruct (Z.eqb_spec a k); [lia|]. rewrite andb_false_r. cbn [andb]. auto.
      * intros c Hc. rewrite upd_fd, !Z.eqb_refl. cbn [andb]. destruct (Z.eqb_spec c q); auto. apply A4. lia.
    + exists fd'. split; auto. split; auto. split; auto. intros a c Ha Hc. destruct (Z.eq_dec a k) as [->|]; [apply H7; auto|apply H6; lia].
Qed.

Definition keepN (v : Z) : bool := cl v =? 0.
Definition crossN (x : dart) : bool := keepN (fst x) && negb (keepN (f0 (fst x) (snd x))).
Definition xsN : list dart := filter crossN (darts D n).
Definition ncrN : Z := Z.of_nat (length xsN).

Definition DescN (xs : list dart) (s : buf * fds * Z) : Prop :=
  let '(b, fd, N) := s in
  N <= MX /\ NoDup xs /\ N = n + Z.of_nat (length xs)
  /\ (forall v i, 0 <= v < n -> 0 <= i < D -> ~ In (v, i) xs -> nb b v i = f0 v i)
  /\ (forall v, 0 <= v < n -> ps b v = ps b0 v /\ fd v = fd0 v)
  /\ (forall k x, nth_error xs k = Some x -> let N := n + Z.of_nat k in
        nb b (fst x) (snd x) = N /\ nb b N 0 = fst x /\ (forall a, 0 < a < D -> nb b N a = -1)
        /\ (forall i, 0 <= i < D -> ps b N i = newposN sd (ps b0) (fst x) (f0 (fst x) (snd x)) i)
        /\ (forall a, 0 < a < D -> fd N 0 a = fd0 (fst x) (snd x) (sg (snd x) a) /\ fd N a 0 = fd0 (fst x) (snd x) (sg (snd x) a))
        /\ forall a c, 0 < a < D -> 0 < c < D -> fd N a c = -1).

Lemma insN_spec :
  (exists s, for_ 0 n (insN_v NN MX D sds cl) (b0, fd0, n) = OK s /\ DescN xsN s)
  \/ (for_ 0 n (insN_v NN MX D sds cl) (b0, fd0, n) = Err OutOfBounds /\ MX < n + ncrN).
Proof.
  destruct (ins_loop D n keepN crossN DescN (fun e => e = OutOfBounds /\ MX < n + ncrN)
    (insN_v NN MX D sds cl) (insN_np NN MX D sds cl) (b0, fd0, n)) as [H|(e & E & -> & H)]; auto; try lia.
  - intros v np Hk. unfold crossN. cbn [fst snd]. now rewrite Hk.
  - intros v xs s Hv HDs. unfold insN_v. rewrite rd_ok by lia. reflexivity.
  - intros v np xs ((b & fd) & N) Hv Hnp Hk Hxs (HM & ND & HN & H1 & H2 & H3).
    assert (Hni : ~ In (v, np) xs) by (intros Hi; apply Hxs in Hi; cbn in Hi; lia).
    assert (ND' : NoDup (xs ++ [(v, np)])) by (apply NoDup_snoc3; auto).
    assert (Hlen : Z.of_nat (length (xs ++ [(v, np)])) = Z.of_nat (length xs) + 1) by (rewrite app_length; cbn [length]; lia).
    pose proof (rng0 v np Hv Hnp) as Hr.
    unfold insN_np. rewrite rd_nb_ok by lia. cbn [bind]. rewrite H1 by auto. rewrite rd_ok by lia. cbn [bind].
    assert (EC : crossN (v, np) = negb (cl (f0 v np) =? 0)) by (unfold crossN; cbn [fst snd]; rewrite Hk; reflexivity).
    rewrite EC. destruct (Z.eqb_spec (cl (f0 v np)) 0) as [E0|E0]; cbn [negb].
    { eexists. split; [reflexivity|]. unfold DescN. auto 10. }
    destruct (Z_lt_dec N MX) as [LM|LM].
    2: { right. exists OutOfBounds. rewrite wr_nb_oob by lia. split; auto. split; auto.
         assert (length (xs ++ [(v, np)]) <= length xsN)%nat; [|unfold ncrN; lia].
         apply NoDup_incl_length; auto. intros d Hd. unfold xsN. apply filter_In. apply in_app_iff in Hd as [Hd|[<-|[]]].
         - apply Hxs in Hd. tauto.
         - split; [apply in_darts; auto|]. rewrite EC. now destruct (Z.eqb_spec (cl (f0 v np)) 0). }
    left. rewrite wr_nb_ok by lia. cbn [bind]. rewrite wr_nb_ok by lia. cbn [bind].
    match goal with |- context [insN_pos NN MX D sds v (f0 v np) N ?bb] => set (b1 := bb) end.
    destruct (pos_spec v (f0 v np) N b1) as (b2 & E2 & P1 & P2 & P3); auto; try lia. rewrite E2. cbn [bind].
    destruct (faces_spec v np N fd) as (fd1 & q & E3 & F1 & F2); auto; try lia. rewrite E3. cbn [bind].
    destruct (blank_spec N b2) as (b3 & E4 & B1 & B2 & B3 & B4); try lia. rewrite E4. cbn [bind].
    destruct (nofd_spec N fd1) as (fd2 & E5 & G1 & G2 & G3); try lia. rewrite E5. cbn [bind].
    eexists. split; [reflexivity|]. unfold DescN.
    assert (NB : forall u i, u <> N -> nb b3 u i = set_nb (nb b) v np N u i).
    { intros u i Hu. rewrite B2 by auto. rewrite P1. unfold b1. cbn [nb]. 
      assert (DEC : (u, i) = (v, np) \/ (u, i) <> (v, np)) by (destruct (Z.eq_dec u v), (Z.eq_dec i np); subst; auto; right; congruence).
      destruct DEC as [E|E]; [inversion E; subst; now rewrite !set_nb_eq|]. rewrite (set_nb_neq _ v np) by auto. rewrite (set_nb_neq_v _ N) by auto. symmetry. apply set_nb_neq; auto. }
    assert (PS : forall u, u <> N -> ps b3 u = ps b u) by (intros u Hu; rewrite B1, P2 by auto; auto).
    assert (FD : forall u, u <> N -> fd2 u = fd u) by (intros u Hu; rewrite G1, F1 by auto; auto).
    split; [lia|]. split; auto. split; [lia|]. split; [|split].
    + intros u i Hu Hi NI. rewrite NB by lia. rewrite set_nb_neq by (intros X; apply NI, in_app_iff; right; left; auto).
      apply H1; auto. intros X. apply NI, in_app_iff. auto.
    + intros u Hu. rewrite PS, FD by lia. auto.
    + intros k x Ex. destruct (Nat.lt_ge_cases k (length xs)) as [Lk|Lk].
      * rewrite nth_error_app1 in Ex by auto. pose proof (H3 k x Ex) as (A1 & A2 & A3 & A4 & A5 & A6).
        assert (Ix : In x xs) by (eapply nth_error_In; eauto).
        pose proof (Hxs x Ix) as (Dx & _). destruct x as [u i]. apply in_darts in Dx. cbn [fst snd] in *.
        assert (NE : (u, i) <> (v, np)) by (intros EE; apply Hni; rewrite <- EE; auto).
        cbn zeta. rewrite NB, set_nb_neq by (auto; lia). rewrite NB, set_nb_neq_v by lia. rewrite PS, FD by lia.
        split; auto. split; auto. split; auto. intros a Ha. rewrite NB, set_nb_neq_v by lia. auto.
      * assert (k = length xs).
        { assert (k < length (xs ++ [(v, np)]))%nat by (apply nth_error_Some; congruence).
          rewrite app_length in *. cbn [length] in *. lia. }
        subst k. rewrite nth_error_app2, Nat.sub_diag in Ex by lia. cbn in Ex. inversion Ex; subst x.
        cbn zeta. cbn [fst snd]. rewrite <- HN. split; [rewrite NB by lia; apply set_nb_eq|]. split; [|split; [|split; [|split]]]; auto.
        -- rewrite B3, P1. unfold b1. cbn [nb]. rewrite set_nb_neq_v by lia. apply set_nb_eq.
        -- intros i Hi. rewrite B1, P3 by auto. unfold newposN, b1. cbn [ps]. destruct (H2 v Hv) as (-> & _). destruct (H2 (f0 v np) Hr) as (-> & _). auto.
        -- intros a Ha. destruct (G2 a) as (-> & ->). destruct (F2 a Ha) as (-> & ->). destruct (H2 v Hv) as (_ & ->). auto.
  - unfold DescN. split; [lia|]. split; [constructor|]. cbn [length]. split; [lia|]. split; auto. split; auto. intros [|k] x Ex; discriminate.
Qed.
End Ins.
