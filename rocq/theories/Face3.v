(** * Face3: the face loops of [r3d_reduce] visit every directed edge exactly once. *)
From Coq Require Import ZArith List Bool Lia.
From Verif Require Import Base Lib ModelCommon CommonFacts Model3 Spec3 Orb3 Cut3 Struct3 Reduce2 Reduce3 FaceSpec3.
Import ListNotations.
Open Scope Z_scope.

Definition key (d : dart) : Z := 3 * fst d + snd d.
Lemma key_inj d e : 0 <= snd d < 3 -> 0 <= snd e < 3 -> key d = key e -> d = e.
Proof. unfold key. intros. destruct d, e. cbn [fst snd] in *. f_equal; lia. Qed.

Lemma NoDup_map_inj {A B} (h : A -> B) l : (forall a b, In a l -> In b l -> h a = h b -> a = b) ->
  NoDup l -> NoDup (map h l).
Proof.
  induction l as [|a l IH]; cbn; intros Hi ND; [constructor|]. inversion ND; subst. constructor.
  - intros X. apply in_map_iff in X as (c & E & Hc). apply Hi in E; auto. now subst.
  - apply IH; auto.
Qed.
Lemma NoDup_app' {A} (l l' : list A) : NoDup l -> NoDup l' -> (forall x, In x l -> In x l' -> False) -> NoDup (l ++ l').
Proof.
  induction l as [|a l IH]; cbn; auto. intros N1 N2 HY. inversion N1; subst. constructor.
  - rewrite in_app_iff. intros [?|?]; [auto|eapply HY; eauto].
  - apply IH; auto. intros; eapply HY; eauto.
Qed.
Lemma find_first {A} (P : A -> bool) l x : find P l = Some x ->
  exists l1 l2, l = l1 ++ x :: l2 /\ P x = true /\ forall y, In y l1 -> P y = false.
Proof.
  induction l as [|a l IH]; cbn; [discriminate|]. destruct (P a) eqn:E.
  - intros [= ->]. exists [], l. cbn. intuition.
  - intros H. destruct (IH H) as (l1 & l2 & -> & Px & H1). exists (a :: l1), l2. split; auto. split; auto.
    intros y [->|Hy]; auto.
Qed.
Lemma darts_sorted n l1 x l2 y : 0 <= n -> darts 3 n = l1 ++ x :: l2 -> In y l2 -> key x < key y.
Proof.
  intros Hn. revert l1 x l2 y. pattern n. apply zrange_ind; auto; [intros [|? ?]; discriminate|].
  intros m Hm IH l1 x l2 y E Hy. rewrite darts_succ in E by auto. change (zrange 3) with [0; 1; 2] in E. cbn [map] in E.
  assert (ALL : forall d, In d (darts 3 m) -> key d < 3 * m).
  { intros [a c] Hd. apply in_darts in Hd. unfold key. cbn [fst snd]. lia. }
  assert (G : forall (A B : list dart) l1 x l2, A ++ B = l1 ++ x :: l2 ->
     (exists t, A = l1 ++ x :: t /\ l2 = t ++ B) \/ (exists t, l1 = A ++ t /\ B = t ++ x :: l2)).
  { clear. induction A as [|a A IH]; intros B l1 x l2 E; cbn in E.
    - right. exists l1. auto.
    - destruct l1 as [|b l1]; cbn in E; injection E as <- E.
      + left. exists A. auto.
      + destruct (IH _ _ _ _ E) as [(t & -> & ->)|(t & -> & ->)]; [left|right]; exists t; auto. }
  destruct (G _ _ _ _ _ E) as [(t & Et & ->)|(t & -> & Et)].
  - apply in_app_iff in Hy as [Hy|Hy]; [eapply IH; eauto|].
    assert (In x (darts 3 m)) as Hx by (rewrite Et; apply in_app_iff; right; left; auto).
    apply ALL in Hx. unfold key in *. destruct Hy as [<-|[<-|[<-|[]]]]; cbn [fst snd]; lia.
  - unfold key. destruct t as [|a [|b [|c [|]]]]; cbn in Et; injection Et; intros; subst; try discriminate;
      cbn in Hy; intuition; subst; cbn [fst snd]; lia.
Qed.

Section Lead.
Context (f : Z -> Z -> Z) (n : Z) (Hn : 0 <= n).
Hypothesis L : links f (below n).
Local Notation isd := (isd (below n)).
Local Notation fnx := (fnext f).
Local Notation sf := (same_face f).

Lemma isd_in d : isd d <-> In d (darts 3 n).
Proof. destruct d. rewrite in_darts. unfold Spec3.isd, below. cbn. tauto. Qed.
Lemma on_face_spec d e : isd d -> (on_face f n d e = true <-> sf d e).
Proof.
  intros Hd. unfold on_face. rewrite existsb_exists. split.
  - intros (k & _ & E). apply andb_true_iff in E as (E1 & E2). apply Z.eqb_eq in E1, E2.
    exists k. destruct e, (iter k fnx d). cbn in *. congruence.
  - intros HS. destruct (sf_bound f (below n) L n (below_b n) d e Hd HS) as (k & Hk & ->).
    exists k. rewrite in_seq, !Z.eqb_refl. split; auto. lia.
Qed.
Lemma lead_ok d : isd d -> sf d (lead f n d) /\ forall e, sf d e -> key (lead f n d) <= key e.
Proof.
  intros Hd. unfold lead. destruct (find (on_face f n d) (darts 3 n)) as [e|] eqn:E.
  - destruct (find_first _ _ _ E) as (l1 & l2 & EE & P & N). split; [now apply on_face_spec|].
    intros g Hg. assert (In g (darts 3 n)) as I by (apply isd_in; eapply sf_isd; eauto).
    rewrite EE in I. apply in_app_iff in I as [I|[<-|I]]; [|lia|].
    + apply N in I. apply (on_face_spec d g Hd) in Hg. congruence.
    + pose proof (darts_sorted n l1 e l2 g Hn EE I). lia.
  - exfalso. apply isd_in in Hd as I. pose proof (find_none _ _ E d I) as X.
    assert (on_face f n d d = true) by (apply on_face_spec; auto; apply sf_refl). congruence.
Qed.
Lemma lead_isd d : isd d -> isd (lead f n d).
Proof. intros Hd. eapply sf_isd; eauto. now apply lead_ok. Qed.
Lemma lead_sf d e : isd d -> sf d e -> lead f n d = lead f n e.
Proof.
  intros Hd HS. assert (He : isd e) by (eapply sf_isd; eauto).
  destruct (lead_ok d Hd) as (A1 & A2), (lead_ok e He) as (B1 & B2).
  apply key_inj; [apply lead_isd; auto|apply lead_isd; auto|].
  pose proof (A2 _ (sf_trans f _ _ _ HS B1)).
  pose proof (sf_sym f (below n) L n (below_b n) d e Hd HS) as HS'.
  pose proof (B2 _ (sf_trans f _ _ _ HS' A1)). lia.
Qed.
Lemma lead_le d : isd d -> key (lead f n d) <= key d.
Proof. intros Hd. apply lead_ok; auto. apply sf_refl. Qed.
Lemma lead_lead d : isd d -> lead f n (lead f n d) = lead f n d.
Proof. intros Hd. symmetry. apply lead_sf; auto. now apply lead_ok. Qed.
Lemma lead_eq d e : isd d -> isd e -> lead f n e = e -> (lead f n d = e <-> sf e d).
Proof.
  intros Hd He E. split.
  - intros <-. apply (sf_sym f (below n) L n (below_b n)); auto. now apply lead_ok.
  - intros HS. rewrite <- E. symmetry. now apply lead_sf.
Qed.

Hypothesis P : simple_faces f (below n).
(** a face passes each of its vertices once *)
Lemma face_vertex d e : isd d -> sf d e -> fst d = fst e -> d = e.
Proof.
  intros Hd HS Ef. assert (He : isd e) by (eapply sf_isd; eauto).
  destruct (Z.eq_dec (snd d) (snd e)) as [|Ne]; [destruct d, e; cbn in *; congruence|].
  exfalso.
  assert (R : forall g, isd g -> ~ sf g (drot g)).
  { intros g Hg X. apply (sf_opp f (below n) L n (below_b n) g P Hg).
    assert (Ho : isd (dopp f g)) by (apply isd_opp; auto).
    apply sf_trans with (drot g); auto.
    apply (sf_sym f (below n) L n (below_b n)); auto.
    exists 1%nat. cbn. now rewrite fnext_opp with (Dom := below n). }
  destruct d as (v, i), e as (w, j). cbn [fst snd] in *. subst w.
  destruct Hd as (Hv & Hi), He as (_ & Hj). cbn [fst snd] in *.
  assert (D1 : isd (v, i)) by (split; auto). assert (D2 : isd (v, j)) by (split; auto).
  destruct (slot3 i Hi) as [->|[->| ->]], (slot3 j Hj) as [->|[->| ->]]; try lia;
    first [ exact (R _ D1 HS) | apply (R _ D2); apply (sf_sym f (below n) L n (below_b n)); auto ].
Qed.
Lemma min_period d : isd d -> exists q, (2 <= q <= Z.to_nat (3 * n))%nat /\ iter q fnx d = d
  /\ forall j, (0 < j < q)%nat -> fst (iter j fnx d) <> fst d.
Proof.
  intros Hd. destruct (orbit_period f (below n) L n (below_b n) d Hd) as (p & Hp & Ep).
  assert (Pd : (fun k => fst (iter (S k) fnx d) =? fst d) (p - 1)%nat = true).
  { cbv beta. replace (S (p - 1)) with p by lia. rewrite Ep. apply Z.eqb_refl. }
  destruct (first_true _ _ Pd) as (m & Hm & E1 & E2). cbv beta in *. apply Z.eqb_eq in E1.
  exists (S m).
  assert (m <> 0)%nat.
  { intros ->. cbn [iter] in E1. rewrite fst_fnext in E1. destruct d as (v, i), Hd as (H1 & H2).
    apply (l_self _ _ L v i); auto. }
  split; [lia|]. split.
  - symmetry. apply face_vertex; auto. exists (S m). auto.
  - intros j Hj E. destruct j as [|j]; [lia|]. specialize (E2 j ltac:(lia)). apply Z.eqb_neq in E2. auto.
Qed.
Lemma orbit_in q d e : isd d -> (0 < q)%nat -> iter q fnx d = d -> sf d e -> exists j, (j < q)%nat /\ e = iter j fnx d.
Proof.
  intros Hd Hq Eq (k & ->). exists (k mod q)%nat. split; [apply Nat.mod_upper_bound; lia|].
  rewrite (Nat.div_mod_eq k q) at 1. rewrite Nat.add_comm, iter_add, Nat.mul_comm.
  now rewrite iter_period.
Qed.
End Lead.

Section G.
Context (NN : num) (MX : Z).
Notation rv := (rvec3 (T NN)).
Notation buf := (vbuf rv).
Notation pol := (poly rv).
Notation "a [+] b" := (nadd NN a b) (at level 50, left associativity).

Context (b : buf) (n : Z) (Hn : 0 <= n <= MX).
Local Notation f := (nb b).
Local Notation isd := (isd (below n)).
Local Notation fnx := (fnext f).
Local Notation sf := (same_face f).
Hypothesis L : links f (below n).
Hypothesis P : simple_faces f (below n).
Context (po : Z) (Hpo : 0 <= po) (vc : option rv).
Local Notation sh := (shifted3 NN vc).

Lemma next_edge_ok d : isd d ->
  next_edge NN MX b (fst d) (dtgt f d) = OK (fst (fnx d), snd (fnx d), dtgt f (fnx d)).
Proof.
  intros Hd. unfold next_edge.
  pose proof (isd_opp f (below n) L d Hd) as Ho.
  assert (Ht : below n (dtgt f d)) by apply Ho. unfold below in Ht.
  rewrite (find_slot_ok MX b (dtgt f d) (fst d) (snd (dopp f d))); [|lia|apply Ho| |].
  - cbn [bind]. rewrite rd_nb_ok by (try apply mod3_range; lia). reflexivity.
  - apply (slot_back f (below n) L d Hd).
  - intros j Hj E. cbn [dopp snd]. symmetry. apply (slot_eq f (below n) L); auto.
Qed.

(** contribution of the fan triangle over dart [d] *)
Definition trig (d : dart) (i j k : Z) : T NN :=
  tg NN (sh (ps b (fst (lead f n d)))) (sh (ps b (dtgt f d))) (sh (ps b (fst d))) i j k.
Definition tsum (l : list dart) (q : T NN) (i j k : Z) : T NN :=
  fold_left (fun q d => q [+] trig d i j k) l q.
Definition accd (l : list dart) (m0 m1 : Z -> T NN) : Prop :=
  (forall i j k, 0 <= i -> 0 <= j -> 0 <= k -> i + j + k <= po ->
     m1 (idx3 i j k) = tsum l (m0 (idx3 i j k)) i j k)
  /\ (forall m, ~ 0 <= m < num_moments3 po -> m1 m = m0 m).

Lemma accd_nil m : accd [] m m. Proof. split; auto. Qed.
Lemma accd_app l l' m0 m1 m2 : accd l m0 m1 -> accd l' m1 m2 -> accd (l ++ l') m0 m2.
Proof.
  intros (A1 & A2) (B1 & B2). split.
  - intros. rewrite B1, A1 by auto. unfold tsum. now rewrite fold_left_app.
  - intros. rewrite B2, A2; auto.
Qed.

Definition marked (em : Z -> Z -> Z) (d : dart) : Prop := em (fst d) (snd d) <> 0.
Lemma rd_em_ok em d : isd d -> rd_em n em (fst d) (snd d) = OK (em (fst d) (snd d)).
Proof. intros (A & B). unfold rd_em. rewrite !inb_true by (unfold below in A; lia). reflexivity. Qed.
Lemma wr_em_ok em d : isd d -> exists em', wr_em n em (fst d) (snd d) = OK em'
  /\ forall e, marked em' e <-> e = d \/ marked em e.
Proof.
  intros (A & B). unfold wr_em. rewrite !inb_true by (unfold below in A; lia). cbn [andb].
  eexists. split; [reflexivity|]. intros e. unfold marked, upd.
  destruct d as (v, i), e as (w, j). cbn [fst snd].
  destruct (Z.eqb_spec w v) as [->|N1]; [|split; auto; intros [E|]; auto; congruence].
  destruct (Z.eqb_spec j i) as [->|N2]; [|split; auto; intros [E|]; auto; congruence].
  split; auto. intros _. lia.
Qed.

(** the darts [iter a d0 .. iter (a+m-1) d0] *)
Definition run (d0 : dart) (a m : nat) : list dart := map (fun j => iter j fnx d0) (seq a m).

Lemma fan_loop d0 q : isd d0 -> lead f n d0 = d0 -> (2 <= q)%nat -> iter q fnx d0 = d0 ->
  (forall j, (0 < j < q)%nat -> fst (iter j fnx d0) <> fst d0) ->
  forall m k fuel em r, (k + m = q - 1)%nat -> (1 <= k)%nat -> (m <= fuel)%nat -> okpc3 NN r ->
  exists em' r',
   while_ fuel (fun s => negb (snd (fst (fst s)) =? fst d0))
     (fan_body NN MX po vc b n (sh (ps b (fst d0))))
     ((fst (iter k fnx d0), dtgt f (iter k fnx d0)), em, r)
   = OK ((fst (iter (q - 1) fnx d0), dtgt f (iter (q - 1) fnx d0)), em', r')
  /\ okpc3 NN r'
  /\ (forall e, marked em' e <-> (exists j, (k < j <= q - 1)%nat /\ e = iter j fnx d0) \/ marked em e)
  /\ accd (run d0 k m) (r3_mom NN r) (r3_mom NN r').
Proof.
  intros Hd Hl Hq Eq Hv. induction m as [|m IH]; intros k fuel em r Hk Hk1 Hf Hr.
  - assert (k = q - 1)%nat as -> by lia.
    exists em, r.
    assert (ET : dtgt f (iter (q - 1) fnx d0) = fst d0).
    { rewrite <- fst_fnext. change (fnx (iter (q - 1) fnx d0)) with (iter (S (q - 1)) fnx d0).
      replace (S (q - 1)) with q by lia. now rewrite Eq. }
    split.
    { destruct fuel; cbn [while_ fst snd]; rewrite ET, Z.eqb_refl; reflexivity. }
    split; auto. split; [|apply accd_nil].
    intros e. split; auto. intros [(j & Hj & _)|]; auto. lia.
  - destruct fuel as [|fuel]; [lia|]. cbn [while_ fst snd].
    set (d := iter k fnx d0) in *.
    assert (Hdd : isd d) by (apply (isd_iter f (below n) L); auto).
    assert (EN : fnx d = iter (S k) fnx d0) by reflexivity.
    assert (ET : dtgt f d <> fst d0).
    { rewrite <- fst_fnext. rewrite EN. apply Hv. lia. }
    rewrite (proj2 (Z.eqb_neq _ _) ET). cbn [negb].
    unfold fan_body at 1.
    pose proof (isd_opp f (below n) L d Hdd) as Ho.
    assert (Ht : below n (dtgt f d)) by apply Ho. assert (Hs : below n (fst d)) by apply Hdd. unfold below in Ht, Hs.
    rewrite !rd_ps_ok by lia. cbn [bind].
    destruct (reduce3_tri_spec NN po (sh (ps b (fst d0))) (sh (ps b (dtgt f d))) (sh (ps b (fst d))) r Hpo Hr)
      as (r1 & E1 & Hr1 & U1 & U2).
    rewrite E1. cbn [bind]. rewrite next_edge_ok by auto. cbn [bind].
    assert (Hnn : isd (fnx d)) by (apply isd_fnext; auto).
    destruct (wr_em_ok em (fnx d) Hnn) as (em1 & E2 & M1). rewrite E2. cbn [bind].
    rewrite EN. destruct (IH (S k) fuel em1 r1) as (em' & r' & E3 & Hr' & M' & A'); auto; try lia.
    exists em', r'. split; auto. split; auto. split.
    + intros e. rewrite M', M1, EN. split.
      * intros [(j & Hj & ->)|[->|]]; auto; left; [exists j|exists (S k)]; split; auto; lia.
      * intros [(j & Hj & ->)|]; auto. destruct (Nat.eq_dec j (S k)) as [->|]; auto.
        left. exists j. split; auto; lia.
    + unfold run. cbn [seq map]. change (accd ([d] ++ run d0 (S k) m) (r3_mom NN r) (r3_mom NN r')).
      apply accd_app with (r3_mom NN r1); auto. split.
      * intros i j kk Hi Hj Hkk Hs'. rewrite U1 by lia. unfold tsum. cbn [fold_left]. unfold trig.
        rewrite <- (lead_sf f n ltac:(lia) L d0 d); auto; [|exists k; auto]. now rewrite Hl.
      * intros mm Hmm. apply U2. now rewrite <- num_moments3_tri.
Qed.

(** fan triangles that have not collapsed *)
Definition fan (d : dart) : Prop :=
  isd d /\ fst d <> fst (lead f n d) /\ dtgt f d <> fst (lead f n d).

Definition Inv (m0 : Z -> T NN) (x : Z) (s : (Z -> Z -> Z) * redst3 NN) : Prop :=
  okpc3 NN (snd s)
  /\ (forall d, isd d -> (marked (fst s) d <-> key (lead f n d) < x))
  /\ exists l, NoDup l /\ (forall d, In d l <-> fan d /\ key (lead f n d) < x)
       /\ accd l m0 (r3_mom NN (snd s)).

Lemma face_step m0 d0 s : isd d0 -> Inv m0 (key d0) s ->
  exists s', face_body NN MX po vc b n (fst d0) (snd d0) s = OK s' /\ Inv m0 (key d0 + 1) s'.
Proof.
  intros Hd0 (I1 & I2 & l & I3 & I4 & I5). destruct s as (em, r). cbn [fst snd] in *.
  assert (H0n : 0 <= n) by lia.
  unfold face_body. rewrite rd_em_ok by auto. cbn [bind].
  assert (SUC : forall d, isd d -> (key (lead f n d) < key d0 + 1 <-> key (lead f n d) < key d0 \/ lead f n d = d0)).
  { intros d Hd. split.
    - intros H. destruct (Z.eq_dec (key (lead f n d)) (key d0)) as [E|E]; [right|left; lia].
      apply key_inj; auto; [apply lead_isd; auto|apply Hd0].
    - intros [H| ->]; lia. }
  destruct (Z.eqb_spec (em (fst d0) (snd d0)) 0) as [E0|E0]; cbn [negb].
  - (* new face *)
    assert (Hl : lead f n d0 = d0).
    { apply key_inj; [apply lead_isd; auto|apply Hd0|].
      pose proof (lead_le f n H0n L d0 Hd0).
      destruct (Z_lt_dec (key (lead f n d0)) (key d0)) as [X|X]; [|lia].
      apply (I2 d0 Hd0) in X. unfold marked in X. congruence. }
    destruct (min_period f n L P d0 Hd0) as (q & Hq & Eq & Hv).
    destruct (wr_em_ok em d0 Hd0) as (em1 & W1 & M1). rewrite W1. cbn [bind].
    assert (Hs : below n (fst d0)) by apply Hd0. unfold below in Hs.
    rewrite rd_nb_ok by (try apply Hd0; lia). cbn [bind]. rewrite rd_ps_ok by lia. cbn [bind].
    change (nb b (fst d0) (snd d0)) with (dtgt f d0). rewrite next_edge_ok by auto. cbn [bind].
    assert (Hnn : isd (fnx d0)) by (apply isd_fnext; auto).
    destruct (wr_em_ok em1 (fnx d0) Hnn) as (em2 & W2 & M2). rewrite W2. cbn [bind].
    change (fnx d0) with (iter 1 fnx d0) in *.
    destruct (fan_loop d0 q Hd0 Hl ltac:(lia) Eq Hv (q - 2) 1 (Z.to_nat (3 * n)) em2 r ltac:(lia) ltac:(lia) ltac:(lia) I1)
      as (em' & r' & E & Hr' & M' & A').
    rewrite E. cbn [bind]. eexists. split; [reflexivity|]. unfold Inv. cbn [fst snd].
    assert (FACE : forall d, isd d -> (lead f n d = d0 <-> exists j, (j < q)%nat /\ d = iter j fnx d0)).
    { intros d Hd. rewrite lead_eq by auto. split.
      - intros HS. apply (orbit_in f n q d0 d); auto. lia.
      - intros (j & _ & ->). exists j. auto. }
    split; auto. split.
    + intros d Hd. rewrite M', M2, M1, I2, SUC, FACE by auto. split.
      * intros [(j & Hj & Ej)|[Ej|[Ej|X]]]; auto; right; [exists j|exists 1%nat|exists 0%nat]; split; auto; lia.
      * intros [X|(j & Hj & ->)]; auto.
        destruct j as [|[|j]]; auto. left. exists (S (S j)). split; auto. lia.
    + exists (l ++ run d0 1 (q - 2)). split; [|split].
      * assert (ND : NoDup (run d0 1 (q - 2))).
        { unfold run.
          assert (INJ : forall x y, (x < q)%nat -> (y < q)%nat -> iter x fnx d0 = iter y fnx d0 -> x = y).
          { assert (W : forall x y, (x < y < q)%nat -> iter x fnx d0 <> iter y fnx d0).
            { intros x y Hxy EE. replace y with (x + (y - x))%nat in EE by lia. rewrite iter_add in EE.
              apply (iter_inj f (below n) L x) in EE; auto.
              - apply (Hv (y - x)%nat); [lia|]. now rewrite <- EE.
              - apply (isd_iter f (below n) L); auto. }
            intros x y Hx Hy EE. destruct (Nat.lt_trichotomy x y) as [X|[X|X]]; auto.
            - destruct (W x y ltac:(lia) EE).
            - destruct (W y x ltac:(lia) (eq_sym EE)). }
          apply NoDup_map_inj; [|apply seq_NoDup].
          intros x y Hx Hy. apply in_seq in Hx, Hy. apply INJ; lia. }
        apply NoDup_app'; auto.
        intros d Hd1 Hd2. apply I4 in Hd1 as ((X1 & _) & X2).
        unfold run in Hd2. apply in_map_iff in Hd2 as (j & <- & Hj). apply in_seq in Hj.
        assert (lead f n (iter j fnx d0) = d0) as EE by (apply FACE; auto; exists j; split; auto; lia).
        rewrite EE in X2. lia.
      * intros d. rewrite in_app_iff, I4. split.
        { intros [(F & X)|X]; [split; auto; lia|].
          unfold run in X. apply in_map_iff in X as (j & <- & Hj). apply in_seq in Hj.
          assert (Hdj : isd (iter j fnx d0)) by (apply (isd_iter f (below n) L); auto).
          assert (lead f n (iter j fnx d0) = d0) as EE by (apply FACE; auto; exists j; split; auto; lia).
          split; [|rewrite EE; lia]. split; auto. rewrite EE. split; [apply Hv; lia|].
          rewrite <- fst_fnext. change (fnx (iter j fnx d0)) with (iter (S j) fnx d0). apply Hv. lia. }
        { intros (F & X). pose proof F as (Hd & F1 & F2). apply SUC in X as [X|X]; auto.
          rewrite X in F1, F2. apply (FACE d Hd) in X as (j & Hj & ->). right.
          unfold run. apply in_map_iff. exists j. split; auto. apply in_seq.
          destruct j as [|j]; [destruct F1; reflexivity|].
          destruct (Nat.eq_dec (S j) (q - 1)) as [EE|]; [|lia]. exfalso. apply F2.
          rewrite <- fst_fnext. change (fnx (iter (S j) fnx d0)) with (iter (S (S j)) fnx d0).
          replace (S (S j)) with q by lia. now rewrite Eq. }
      * apply accd_app with (r3_mom NN r); auto.
  - (* already marked *)
    assert (X : key (lead f n d0) < key d0) by (apply I2; auto).
    assert (NO : forall d, isd d -> lead f n d <> d0).
    { intros d Hd E. pose proof (lead_lead f n H0n L d Hd) as Y. rewrite E in Y. rewrite Y in X. lia. }
    eexists. split; [reflexivity|]. split; auto. cbn [fst snd]. split.
    + intros d Hd. rewrite I2, SUC by auto. split; auto. intros [|Y]; auto. destruct (NO d Hd Y).
    + exists l. split; auto. split; auto. intros d. rewrite I4. split.
      * intros (F & Y). split; auto. lia.
      * intros (F & Y). split; auto. apply SUC in Y as [|Y]; [auto| |apply F]. destruct (NO d (proj1 F) Y).
Qed.

Lemma face_loops m0 : exists em r,
  for_ 0 n (fun vstart => for_ 0 3 (face_body NN MX po vc b n vstart))
     ((fun _ _ => 0), RS3 NN (fun _ _ _ => None) (fun _ _ _ => None) (fun _ _ _ => None) 1 m0 0 1) = OK (em, r)
  /\ okpc3 NN r
  /\ (forall d, isd d -> marked em d)
  /\ exists l, NoDup l /\ (forall d, In d l <-> fan d) /\ accd l m0 (r3_mom NN r).
Proof.
  destruct (for_inv (fun v => Inv m0 (3 * v)) 0 n (fun vstart => for_ 0 3 (face_body NN MX po vc b n vstart))
     ((fun _ _ => 0), RS3 NN (fun _ _ _ => None) (fun _ _ _ => None) (fun _ _ _ => None) 1 m0 0 1))
    as ((em & r) & E & I1 & I2 & l & I3 & I4 & I5); try lia.
  - split; [left; auto|]. cbn [fst snd].
    assert (NO : forall d, isd d -> ~ key (lead f n d) < 3 * 0).
    { intros d Hd X. destruct (lead_isd f n ltac:(lia) L d Hd) as (A & B). unfold below in A. unfold key in X. lia. }
    split.
    + intros d Hd. unfold marked. split; [congruence|]. intros X. destruct (NO d Hd X).
    + exists []. split; [constructor|]. split; [|apply accd_nil].
      intros d. split; [intros []|]. intros ((Hd & _) & X). destruct (NO d Hd X).
  - intros v s Hv I.
    destruct (for_inv (fun p => Inv m0 (3 * v + p)) 0 3 (face_body NN MX po vc b n v) s) as (s' & E & I'); try lia.
    + now rewrite Z.add_0_r.
    + intros p s1 Hp I1. destruct (face_step m0 (v, p) s1) as (s2 & E & I2); auto.
      { split; cbn; auto. }
      exists s2. split; auto. unfold key in I2. cbn [fst snd] in I2. now rewrite Z.add_assoc.
    + exists s'. split; auto. now replace (3 * (v + 1)) with (3 * v + 3) by lia.
  - cbn [fst snd] in *. exists em, r. split; auto. split; auto.
    assert (YES : forall d, isd d -> key (lead f n d) < 3 * n).
    { intros d Hd. destruct (lead_isd f n ltac:(lia) L d Hd) as (A & B). unfold below in A. unfold key. lia. }
    split. { intros d Hd. apply I2; auto. }
    exists l. split; auto. split; auto. intros d. rewrite I4. split; [tauto|]. intros F. split; auto. apply YES, F.
Qed.
End G.

Section Reduce.
Context (NN : num) (MX : Z).
Notation pol := (poly (rvec3 (T NN))).

Lemma poly_center3_ok (p : pol) : 0 <= nv p <= MX -> exists c, r3d_poly_center NN MX p = OK c.
Proof.
  intros Hn. unfold r3d_poly_center.
  destruct (for_inv (fun _ (_ : rvec3 (T NN)) => True) 0 (nv p) (fun vcur vc =>
     let* q := rd_ps MX (vb p) vcur in
     OK (V3 (nadd NN (x3 vc) (x3 q)) (nadd NN (y3 vc) (y3 q)) (nadd NN (z3 vc) (z3 q)))) (V3 (n0 NN) (n0 NN) (n0 NN))) as (s & E & _); try lia; auto.
  - intros i s Hi _. rewrite rd_ps_ok by lia. cbn [bind]. eauto.
  - rewrite E. cbn [bind]. eauto.
Qed.

(** moments before the optional shift back: every documented entry is the sum over
    the fan triangles, visited in some order [l] *)
Definition mom_state (vc : option (rvec3 (T NN))) (p : pol) (po : Z) (l : list dart) (m0 m1 : Z -> T NN) : Prop :=
  NoDup l /\ (forall d, In d l <-> fan NN (vb p) (nv p) d)
  /\ (forall i j k, 0 <= i -> 0 <= j -> 0 <= k -> i + j + k <= po ->
        m1 (idx3 i j k) = mdiv NN (tsum NN (vb p) (nv p) vc l (n0 NN) i j k) i j k)
  /\ (forall m, ~ 0 <= m < num_moments3 po -> m1 m = m0 m).

Lemma reduce3_spec (sh : bool) po (p : pol) mom : 0 <= po -> wf3 p -> 0 < nv p <= MX ->
  exists (vc : option (rvec3 (T NN))) (l : list dart) (m1 : Z -> T NN),
     (if sh then exists c, r3d_poly_center NN MX p = OK c /\ vc = Some c else vc = None)
  /\ mom_state vc p po l mom m1
  /\ r3d_reduce NN MX sh p mom po
     = match vc with None => OK m1 | Some c => r3d_shift_moments NN m1 po c end.
Proof.
  intros Hpo (Hn & HL & HP) HM. unfold r3d_reduce.
  assert (Hnm : 0 <= num_moments3 po) by (rewrite num_moments3_tri; apply tri3_nonneg; lia).
  destruct (zero_loop NN (num_moments3 po) mom Hnm) as (mom0 & E0 & Z1 & Z2).
  rewrite E0. cbn [bind]. destruct (Z.leb_spec (nv p) 0); [lia|].
  assert (VC : exists vc, (if sh then let* c := r3d_poly_center NN MX p in OK (Some c) else OK None) = OK vc
     /\ (if sh then exists c, r3d_poly_center NN MX p = OK c /\ vc = Some c else vc = None)).
  { destruct sh; [|eauto]. destruct (poly_center3_ok p) as (c & E); [lia|]. rewrite E. cbn [bind]. eauto. }
  destruct VC as (vc & EV & HV). rewrite EV. cbn [bind].
  destruct (face_loops NN MX (vb p) (nv p) ltac:(lia) HL HP po Hpo vc mom0) as (em & r & E1 & Hr & _ & l & Hl1 & Hl2 & A1 & A2).
  rewrite E1. cbn [bind].
  destruct (multi_spec NN po r Hpo Hr) as (c & s' & E2 & E3 & U1 & U2).
  rewrite E2. cbn [bind]. rewrite E3. cbn [bind].
  exists vc, l, (r3_mom NN s'). split; auto. split; [|destruct vc; auto].
  split; auto. split; auto. split.
  - intros i j k Hi Hj Hk Hs. rewrite U1 by lia. rewrite A1 by auto. rewrite Z1 by (apply idx3_range; auto). reflexivity.
  - intros m Hm. rewrite U2, A2, Z2; auto. now rewrite <- num_moments3_tri.
Qed.

Lemma reduce3_empty sh po (p : pol) mom : 0 <= po -> nv p <= 0 ->
  exists mom', r3d_reduce NN MX sh p mom po = OK mom'
  /\ (forall m, 0 <= m < num_moments3 po -> mom' m = n0 NN) /\ (forall m, ~ 0 <= m < num_moments3 po -> mom' m = mom m).
Proof.
  intros Hpo Hn. unfold r3d_reduce.
  assert (Hnm : 0 <= num_moments3 po) by (rewrite num_moments3_tri; apply tri3_nonneg; lia).
  destruct (zero_loop NN (num_moments3 po) mom Hnm) as (mom0 & E0 & Z1 & Z2).
  rewrite E0. cbn [bind]. destruct (Z.leb_spec (nv p) 0); [eauto|lia].
Qed.
End Reduce.
