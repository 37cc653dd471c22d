(** * BrepO: the faces as walked by [r3d_init_brep]. *)
From Coq Require Import ZArith List Bool Lia Permutation.
From Verif Require Import Base Lib ModelCommon CommonFacts Spec3 Orb3 Face3 SpecGood SpecBR.
Import ListNotations.
Open Scope Z_scope.

Lemma dowhile_meas {S} (body : S -> res (S * bool)) (P : nat -> S -> Prop) (Q : res S -> Prop) :
  (forall m s, P m s -> (exists s' m', body s = OK (s', true) /\ (m' < m)%nat /\ P m' s')
     \/ (exists s', body s = OK (s', false) /\ Q (OK s')) \/ (exists e, body s = Err e /\ Q (Err e))) ->
  forall fuel m s, P m s -> (m < fuel)%nat -> Q (dowhile fuel body s).
Proof.
  intros H. induction fuel as [|fuel IH]; intros m s Pm Hm; [lia|]. cbn [dowhile].
  destruct (H m s Pm) as [(s' & m' & E & L & P')|[(s' & E & Q')|(e & E & Q')]]; rewrite E; cbn [bind]; auto.
  apply (IH m'); auto. lia.
Qed.

Section G.
Context (f : Z -> Z -> Z) (n : Z) (Hn : 0 <= n).
Hypothesis L : links f (below n).
Hypothesis P : simple_faces f (below n).
Local Notation isd := (isd (below n)).
Local Notation gn := (gnext f).

Lemma gn_rot d : gn d = drot (drot (dopp f d)).
Proof.
  unfold gnext, drot, dopp. cbn [fst snd]. f_equal. rewrite Z.add_mod_idemp_l by lia. f_equal. lia.
Qed.
Lemma isd_gn d : isd d -> isd (gn d).
Proof. intros H. rewrite gn_rot. apply isd_rot, isd_rot, isd_opp; auto. Qed.
Lemma isd_gi k d : isd d -> isd (iter k gn d).
Proof. intros H. induction k; cbn [iter]; auto using isd_gn. Qed.
Lemma rot3 d : 0 <= snd d < 3 -> drot (drot (drot d)) = d.
Proof.
  destruct d as (v, i). cbn. intros H. unfold drot. cbn [fst snd]. f_equal.
  destruct (slot3 i H) as [->|[->| ->]]; reflexivity.
Qed.
Lemma fnext_gn d : isd d -> fnext f (dopp f (gn d)) = dopp f d.
Proof.
  intros H. rewrite fnext_opp with (Dom := below n) by auto using isd_gn. rewrite gn_rot. apply rot3.
  apply isd_opp with (f := f) in H; auto. apply H.
Qed.
Lemma fnext_gi k d : isd d -> iter k (fnext f) (dopp f (iter k gn d)) = dopp f d.
Proof.
  intros H. induction k as [|k IH]; auto. rewrite iter_S. cbn [iter]. rewrite fnext_gn by auto using isd_gi. auto.
Qed.
Lemma fst_gn d : fst (gn d) = dtgt f d. Proof. reflexivity. Qed.
Lemma gn_inj d e : isd d -> isd e -> gn d = gn e -> d = e.
Proof.
  intros Hd He E. apply (opp_inj f (below n) L); auto. rewrite <- (fnext_gn d), <- (fnext_gn e), E; auto.
Qed.
Lemma gi_inj k d e : isd d -> isd e -> iter k gn d = iter k gn e -> d = e.
Proof. intros Hd He. induction k as [|k IH]; auto. cbn [iter]. intros E. apply IH, gn_inj; auto using isd_gi. Qed.
Lemma g_vertex k d : isd d -> fst (iter k gn d) = fst d -> iter k gn d = d.
Proof.
  intros Hd E. set (e := iter k gn d) in *. assert (He : isd e) by (apply isd_gi; auto).
  assert (X : fnext f (dopp f e) = fnext f (dopp f d)).
  { apply (face_vertex f n L P).
    - apply isd_fnext; auto using isd_opp.
    - exists k. rewrite <- (fnext_gi k d) by auto. fold e. rewrite <- iter_S. reflexivity.
    - rewrite !fnext_opp with (Dom := below n) by auto. exact E. }
  rewrite !fnext_opp with (Dom := below n) in X by auto. apply drot_inj in X; auto; [apply He|apply Hd].
Qed.
Lemma g_period d : isd d -> exists q, (3 <= q <= Z.to_nat n)%nat /\ iter q gn d = d
  /\ forall j, (0 < j < q)%nat -> fst (iter j gn d) <> fst d.
Proof.
  intros Hd.
  destruct (pigeonhole (fun k => fst (iter k gn d)) n Hn) as (i & j & Hij & E).
  { intros k _. apply (isd_gi k d Hd). }
  assert (E' : iter (j - i) gn d = d).
  { apply (gi_inj i); auto using isd_gi. rewrite <- iter_add. replace (i + (j - i))%nat with ((j - i) + i)%nat by lia.
    rewrite iter_add. apply g_vertex; [apply isd_gi; auto|]. rewrite <- iter_add. replace (j - i + i)%nat with j by lia. auto. }
  assert (Pd : (fun k => fst (iter (S k) gn d) =? fst d) (j - i - 1)%nat = true).
  { cbv beta. replace (S (j - i - 1)) with (j - i)%nat by lia. rewrite E'. apply Z.eqb_refl. }
  destruct (first_true _ _ Pd) as (m & Hm & E1 & E2). cbv beta in *. apply Z.eqb_eq in E1.
  exists (S m). pose proof (g_vertex (S m) d Hd E1) as Eq.
  assert (m <> 0)%nat.
  { intros ->. cbn [iter] in E1. rewrite fst_gn in E1. destruct d as (v, k), Hd as (H1 & H2). apply (l_self _ _ L v k); auto. }
  assert (m <> 1)%nat.
  { intros ->. cbn [iter] in E1. rewrite fst_gn in E1. pose proof (slot_back f (below n) L d Hd) as B.
    assert (Dt : below n (dtgt f d)) by (destruct (isd_gn d Hd); auto).
    assert (B2 : f (dtgt f d) ((slot f (dtgt f d) (dsrc d) + 2) mod 3) = dsrc d) by exact E1.
    rewrite <- B2 in B at 2. pose proof (slot_range f (dtgt f d) (dsrc d)) as R.
    apply (l_dist _ _ L) in B; auto; [|apply mod3_range].
    destruct (slot3 _ R) as [Q|[Q|Q]]; rewrite Q in B; discriminate. }
  split; [lia|]. split; auto. intros k Hk E3. destruct k as [|k]; [lia|]. specialize (E2 k ltac:(lia)). apply Z.eqb_neq in E2. auto.
Qed.
Lemma gper_ok d : isd d -> exists q, gper f n d = q /\ (3 <= q <= Z.to_nat n)%nat /\ iter q gn d = d
  /\ forall j, (0 < j < q)%nat -> fst (iter j gn d) <> fst d.
Proof.
  intros Hd. destruct (g_period d Hd) as (q & Hq & Eq & Mq). exists q. split; auto. unfold gper.
  destruct (find _ _) as [q'|] eqn:E.
  - destruct (find_some _ _ E) as (I & X). apply andb_true_iff in X as (X & _). apply Z.eqb_eq in X. apply in_seq in I.
    destruct (lt_eq_lt_dec q' q) as [[Lt|Eq']|Gt]; auto.
    + exfalso. apply (Mq q'); auto. lia.
    + exfalso. destruct (find_first _ _ _ E) as (l1 & l2 & El & _ & N).
      assert (Iq : In q l1).
      { assert (Iq : In q (seq 1 (Z.to_nat n))) by (apply in_seq; lia). rewrite El in Iq. apply in_app_or in Iq as [|[|Iq]]; auto; [lia|].
        exfalso. clear - El Iq Gt. revert l1 El. generalize 1%nat. induction (Z.to_nat n) as [|m IH]; intros s l1 El; [destruct l1; discriminate|].
        destruct l1 as [|a l1]; cbn in El; injection El as -> El.
        - rewrite <- El in Iq. apply in_seq in Iq. lia.
        - eapply IH; eauto. }
      apply N in Iq. rewrite Eq, !Z.eqb_refl in Iq. discriminate.
  - exfalso. pose proof (find_none _ _ E q ltac:(apply in_seq; lia)) as X. cbv beta in X. rewrite Eq, !Z.eqb_refl in X. discriminate.
Qed.
Lemma gface_in d e : isd d -> (In e (gface f n d) <-> exists k, e = iter k gn d).
Proof.
  intros Hd. destruct (gper_ok d Hd) as (q & Eq & Hq & Ep & _). unfold gface. rewrite Eq, in_map_iff. split.
  - intros (j & <- & _). eauto.
  - intros (k & ->). exists (k mod q)%nat. split; [|apply in_seq; pose proof (Nat.mod_upper_bound k q); lia].
    rewrite (Nat.div_mod_eq k q) at 2. rewrite Nat.add_comm, iter_add. f_equal.
    rewrite Nat.mul_comm. symmetry. generalize (k / q)%nat. intros c. induction c as [|c IH]; auto. cbn [Nat.mul]. now rewrite iter_add, IH.
Qed.
Lemma gface_isd d e : isd d -> In e (gface f n d) -> isd e.
Proof. intros Hd H. apply gface_in in H as (k & ->); auto using isd_gi. Qed.
Lemma gface_self d : isd d -> In d (gface f n d).
Proof. intros H. apply gface_in; auto. exists O. auto. Qed.
Lemma gface_next d e : isd d -> In e (gface f n d) -> In (gn e) (gface f n d).
Proof. intros Hd H. apply gface_in in H as (k & ->); auto. apply gface_in; auto. exists (S k). auto. Qed.
Lemma gface_sym d e : isd d -> In e (gface f n d) -> In d (gface f n e).
Proof.
  intros Hd H. pose proof (gface_isd d e Hd H) as He. destruct (gper_ok d Hd) as (q & Eq & Hq & Ep & _). unfold gface in H. rewrite Eq in H.
  apply in_map_iff in H as (j & <- & Hj). apply in_seq in Hj. apply gface_in; auto. exists (q - j)%nat. rewrite <- iter_add.
  replace (q - j + j)%nat with q by lia. auto.
Qed.
Lemma gface_trans d e g : isd d -> In e (gface f n d) -> In g (gface f n e) -> In g (gface f n d).
Proof.
  intros Hd H1 H2. apply gface_in in H2; [|eapply gface_isd; eauto]. destruct H2 as (k & ->).
  apply gface_in in H1 as (j & ->); auto. apply gface_in; auto. exists (k + j)%nat. now rewrite iter_add.
Qed.
Lemma gface_fst_NoDup d : isd d -> NoDup (map fst (gface f n d)).
Proof.
  intros Hd. destruct (gper_ok d Hd) as (q & Eq & Hq & Ep & Mq). unfold gface. rewrite Eq, map_map.
  apply NoDup_map_inj; [|apply seq_NoDup]. intros a b Ha Hb E. apply in_seq in Ha, Hb.
  assert (X : forall a b, (a < b < q)%nat -> fst (iter a gn d) = fst (iter b gn d) -> False).
  { clear a b Ha Hb E. intros a b Hab E. symmetry in E. replace b with ((b - a) + a)%nat in E by lia. rewrite iter_add in E.
    apply g_vertex in E; auto using isd_gi. rewrite <- iter_add in E. replace (b - a + a)%nat with (a + (b - a))%nat in E by lia. rewrite iter_add in E.
    apply gi_inj in E; auto using isd_gi. apply (Mq (b - a)%nat); [lia|]. now rewrite E. }
  destruct (lt_eq_lt_dec a b) as [[Lt|]|Gt]; auto; exfalso; [eapply (X a b)|eapply (X b a)]; eauto; lia.
Qed.
Lemma gface_NoDup d : isd d -> NoDup (gface f n d).
Proof. intros Hd. eapply NoDup_map_inv. apply gface_fst_NoDup; auto. Qed.
Lemma gface_length d : isd d -> (3 <= length (gface f n d) <= Z.to_nat n)%nat.
Proof. intros Hd. destruct (gper_ok d Hd) as (q & Eq & Hq & _). unfold gface. rewrite Eq, map_length, seq_length. lia. Qed.
End G.
