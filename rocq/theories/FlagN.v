(** * FlagN: the sum over flags when a simple polytope is cut in two. *)
From Coq Require Import Reals ZArith List Bool Lia Lra Permutation.
From Verif Require Import Base Lib SumR CommonFacts RealNum SpecN SpecNC SpecNR RedN FlagR PolyN TruncN NearN Face3 BoxVolN.
Import ListNotations.
Open Scope R_scope.

Notation lin D c x := (linN D 0 c x).
(** The edge vectors of a vertex are known up to positive factors from linear forms that
    vanish on all of them but one. *)
Lemma vertex_forms D x (E E' m : Z -> Z -> R) pi sg : (0 <= D)%Z ->
  (forall y, (forall i, (0 <= i < D)%Z -> lin D (m i) y = 0) -> forall k, (0 <= k < D)%Z -> y k = 0) ->
  (forall i, (0 <= i < D)%Z -> (0 <= pi i < D)%Z) -> (forall i j, (0 <= i < D)%Z -> (0 <= j < D)%Z -> pi i = pi j -> i = j) ->
  (forall j, (0 <= j < D)%Z -> exists i, (0 <= i < D)%Z /\ pi i = j) ->
  (forall i, (0 <= i < D)%Z -> sg i * sg i = 1 /\ lin D (m i) (E i) < 0 /\ sg i * lin D (m i) (E' (pi i)) < 0) ->
  (forall i j, (0 <= i < D)%Z -> (0 <= j < D)%Z -> j <> i -> lin D (m j) (E i) = 0 /\ lin D (m j) (E' (pi i)) = 0) ->
  vertexN RN D x E' = lprod (zrange D) sg * vertexN RN D x E.
Proof.
  intros HD ND P1 P2 P3 H1 H2. rewrite <- (vertex_perm D HD x E' pi P1 P2 P3).
  apply (vertex_scal D HD x E (fun i => E' (pi i)) (fun i => sg i * lin D (m i) (E' (pi i)) / lin D (m i) (E i)) sg).
  intros i Hi. destruct (H1 i Hi) as (S1 & S2 & S3).
  split; [|split; auto].
  { replace (sg i * lin D (m i) (E' (pi i)) / lin D (m i) (E i)) with ((- (sg i * lin D (m i) (E' (pi i)))) / (- lin D (m i) (E i))) by (field; lra). apply Rdiv_lt_0_compat; lra. }
  intros j Hj. set (t := lin D (m i) (E' (pi i)) / lin D (m i) (E i)).
  assert (Et : sg i * lin D (m i) (E' (pi i)) / lin D (m i) (E i) * sg i = t).
  { unfold t. transitivity ((sg i * sg i) * lin D (m i) (E' (pi i)) / lin D (m i) (E i)); [field; lra|]. rewrite S1. field. lra. }
  change (@eq R (E' (pi i) j) (sg i * lin D (m i) (E' (pi i)) / lin D (m i) (E i) * sg i * E i j)). rewrite Et.
  apply Rminus_diag_uniq. apply (ND (fun j => E' (pi i) j - t * E i j)); auto. intros j' Hj'. rewrite lin_sub, lin_scal.
  destruct (Z.eq_dec j' i) as [->|N]; [unfold t; field; lra|]. destruct (H2 i j' Hi Hj' N) as (-> & ->). lra.
Qed.

(** the vertices of a truncated polytope *)
Definition cuts (D n : Z) (keep : Z -> bool) (f : Z -> Z -> Z) : list (Z * Z) :=
  filter (fun x : Z * Z => keep (fst x) && negb (keep (f (fst x) (snd x)))) (darts D n).
Lemma in_cuts D n keep f v i : In (v, i) (cuts D n keep f) <-> (0 <= v < n)%Z /\ (0 <= i < D)%Z /\ keep v = true /\ keep (f v i) = false.
Proof. unfold cuts. rewrite filter_In, in_darts, andb_true_iff, negb_true_iff. cbn. tauto. Qed.
Lemma trunc_vertices D n nf keep f fd n' f' fd' ov nw (W : Z -> R) : (0 <= D)%Z -> truncated D n nf keep f fd n' f' fd' ov nw ->
  lsum (zrange n') W = lsum (filter keep (zrange n)) (fun v => W (ov v)) + lsum (cuts D n keep f) (fun x => W (nw (fst x) (snd x))).
Proof.
  intros HD TR. transitivity (lsum (map ov (filter keep (zrange n)) ++ map (fun x => nw (fst x) (snd x)) (cuts D n keep f)) W); [|rewrite lsum_app, !lsum_map; reflexivity]. apply lsum_perm.
  assert (IK : forall v, In v (filter keep (zrange n)) <-> (0 <= v < n)%Z /\ keep v = true) by (intros; now rewrite filter_In, in_zrange).
  assert (NI : forall {A B} (h : A -> B) l, NoDup l -> (forall a b, In a l -> In b l -> h a = h b -> a = b) -> NoDup (map h l)).
  { intros A B h l ND HJ. induction ND as [|a l Na ND IH]; cbn; constructor.
    - rewrite in_map_iff. intros (b & E & Hb). apply HJ in E; cbn; auto. subst. contradiction.
    - apply IH. intros. apply HJ; cbn; auto. }
  apply NoDup_Permutation; [apply NoDup_zrange| |].
  - apply NoDup_app'; [apply NI| apply NI|].
    + apply NoDup_filter, NoDup_zrange.
    + intros a b Ha Hb E. apply IK in Ha, Hb. apply (tr_oinj _ _ _ _ _ _ _ _ _ _ _ TR); tauto.
    + apply NoDup_filter. destruct (Z_le_dec 0 n); [apply NoDup_darts; auto|]. unfold darts. rewrite (zrange_nonpos n) by lia. constructor.
    + intros (a & i) (b & j) Ha Hb E. apply in_cuts in Ha, Hb. cbn in E. destruct (tr_ninj _ _ _ _ _ _ _ _ _ _ _ TR a i b j) as (-> & ->); tauto.
    + intros u Hu Hu'. apply in_map_iff in Hu as (v & <- & Hv). apply in_map_iff in Hu' as ((w & j) & E & Hw). apply IK in Hv. apply in_cuts in Hw. cbn in E.
      apply (tr_on _ _ _ _ _ _ _ _ _ _ _ TR v w j); try tauto. now symmetry.
  - intros u. rewrite in_app_iff, in_zrange, !in_map_iff. split.
    + intros Hu. destruct (tr_all _ _ _ _ _ _ _ _ _ _ _ TR u Hu) as [(v & Hv & K & ->)|(v & i & Hv & Hi & K & K' & ->)].
      * left. exists v. rewrite IK. auto.
      * right. exists (v, i). rewrite in_cuts. auto.
    + intros [(v & <- & Hv)|((v & i) & <- & Hv)].
      * apply IK in Hv. apply (tr_old _ _ _ _ _ _ _ _ _ _ _ TR); tauto.
      * apply in_cuts in Hv. apply (tr_new _ _ _ _ _ _ _ _ _ _ _ TR); tauto.
Qed.

Section S.
Context (D n nf nh : Z) (f bk h : Z -> Z -> Z) (fd : Z -> Z -> Z -> Z).
Hypothesis HD : (1 <= D)%Z.
Hypothesis C : cells D (upto n) nf nh f bk h fd.
Notation U := (upto n).
Notation I i := (0 <= i < D)%Z.
Context (p : Z -> Z -> R) (l0 : Z -> R) (l : Z -> Z -> R).
Hypothesis Q : realized D n nh h p l0 l.
Notation W n p f := (lsum (zrange n) (fun v => vertexN RN D (p v) (edgeN RN p f v))).

(** linear forms of the facets on the edge vectors *)
Lemma form_zero v i j : U v -> I i -> I j -> j <> i -> lin D (l (h v j)) (edgeN RN p f v i) = 0.
Proof.
  intros Hv Hi Hj N. change (edgeN RN p f v i) with (fun k => p v k - p (f v i) k). rewrite lin_sub.
  pose proof (edge_zero D n nf nh f bk h fd p l0 l C Q v i j Hv Hi Hj N) as A. pose proof (re_on _ _ _ _ _ _ _ Q v j Hv Hj) as B.
  rewrite (linN_split D (l0 (h v j))) in A, B. lra.
Qed.
Lemma form_neg v i : U v -> I i -> lin D (l (h v i)) (edgeN RN p f v i) < 0.
Proof.
  intros Hv Hi. change (edgeN RN p f v i) with (fun k => p v k - p (f v i) k). rewrite lin_sub.
  pose proof (edge_pos D n nf nh f bk h fd p l0 l C Q v i Hv Hi) as A. pose proof (re_on _ _ _ _ _ _ _ Q v i Hv Hi) as B.
  rewrite (linN_split D (l0 (h v i))) in A, B. lra.
Qed.
End S.

(** one side of the cut *)
Record side (D n nf nh : Z) (f h : Z -> Z -> Z) (fd : Z -> Z -> Z -> Z) (p : Z -> Z -> R) (keep : Z -> bool) (s0 : R) (s : Z -> R)
  (n' nf' : Z) (f' bk' h' : Z -> Z -> Z) (fd' : Z -> Z -> Z -> Z) (p' : Z -> Z -> R) (ov : Z -> Z) (nw : Z -> Z -> Z) : Prop := {
  si_tr : truncated D n nf keep f fd n' f' fd' ov nw;
  si_ce : cells D (upto n') nf' (nh + 1) f' bk' h' fd';
  si_ho : forall v i, upto n v -> keep v = true -> (0 <= i < D)%Z -> h' (ov v) i = h v i;
  si_h0 : forall v i, upto n v -> (0 <= i < D)%Z -> keep v = true -> keep (f v i) = false ->
     h' (nw v i) 0%Z = nh /\ forall a, (0 < a < D)%Z -> h' (nw v i) a = h v (other i a);
  si_t : forall v, upto n v -> keep v = true -> 0 < linN D s0 s (p v);
  si_f : forall v, upto n v -> keep v = false -> linN D s0 s (p v) < 0;
  si_m : mixed D n f keep ov nw (fun v => linN D s0 s (p v)) p p' }.

Section S2.
Context (D n nf nh : Z) (f bk h : Z -> Z -> Z) (fd : Z -> Z -> Z -> Z).
Hypothesis HD : (1 <= D)%Z.
Hypothesis C : cells D (upto n) nf nh f bk h fd.
Notation U := (upto n).
Notation I i := (0 <= i < D)%Z.
Context (p : Z -> Z -> R) (l0 : Z -> R) (l : Z -> Z -> R).
Hypothesis Q : realized D n nh h p l0 l.
Notation Wv p f v := (vertexN RN D (p v%Z) (edgeN RN p f v%Z)).
Context (keep : Z -> bool) (s0 : R) (s : Z -> R).

Lemma side_realized n' nf' f' bk' h' fd' p' ov nw : side D n nf nh f h fd p keep s0 s n' nf' f' bk' h' fd' p' ov nw ->
  realized D n' (nh + 1) h' p' (l0' nh l0 s0) (l' nh l s).
Proof.
  intros S. eapply (trunc_realized D n nf nh f bk h fd HD C keep n' ov nw (tr_verts _ _ _ _ _ _ _ _ _ _ _ (si_tr _ _ _ _ _ _ _ _ _ _ _ _ _ _ _ _ _ _ _ _ S)) h'
    (si_ho _ _ _ _ _ _ _ _ _ _ _ _ _ _ _ _ _ _ _ _ S)); try apply S; auto. intros v i Hv Hi K K'. apply other_slots; auto. now apply (si_h0 _ _ _ _ _ _ _ _ _ _ _ _ _ _ _ _ _ _ _ _ S).
Qed.

(** a kept vertex keeps the directions of its edges *)
Lemma kept_vertex n' nf' f' bk' h' fd' p' ov nw v : side D n nf nh f h fd p keep s0 s n' nf' f' bk' h' fd' p' ov nw -> U v -> keep v = true ->
  Wv p' f' (ov v) = Wv p f v.
Proof.
  intros S Hv K. destruct (si_m _ _ _ _ _ _ _ _ _ _ _ _ _ _ _ _ _ _ _ _ S) as (M1 & M2).
  pose proof (si_tr _ _ _ _ _ _ _ _ _ _ _ _ _ _ _ _ _ _ _ _ S) as TR.
  set (c := fun i => if keep (f v i) then 1 else linN D s0 s (p v) / (linN D s0 s (p v) - linN D s0 s (p (f v i)))).
  rewrite (vertex_ext D ltac:(lia) (p' (ov v)) (p v) (edgeN RN p' f' (ov v)) (edgeN RN p' f' (ov v))); [|intros k Hk; now apply M1|intros i _ j _; reflexivity].
  rewrite (vertex_scal D ltac:(lia) (p v) (edgeN RN p f v) (edgeN RN p' f' (ov v)) c (fun _ => 1)).
  { rewrite lprod_1 by auto. apply Rmult_1_l. }
  intros i Hi. pose proof (proj1 (ce_f _ _ _ _ _ _ _ _ C v i Hv Hi)) as Hw. pose proof (si_t _ _ _ _ _ _ _ _ _ _ _ _ _ _ _ _ _ _ _ _ S v Hv K) as T.
  split; [|split; [lra|]].
  - unfold c. destruct (keep (f v i)) eqn:K'; [lra|]. pose proof (si_f _ _ _ _ _ _ _ _ _ _ _ _ _ _ _ _ _ _ _ _ S _ Hw K') as F. apply Rdiv_lt_0_compat; lra.
  - intros k Hk. unfold edgeN. cbn [nsub RN]. rewrite (tr_f _ _ _ _ _ _ _ _ _ _ _ TR v i Hv Hi K). unfold c. rewrite (M1 v k Hv K Hk).
    destruct (keep (f v i)) eqn:K'.
    + rewrite (M1 (f v i) k Hw K' Hk). rr.
    + pose proof (si_f _ _ _ _ _ _ _ _ _ _ _ _ _ _ _ _ _ _ _ _ S _ Hw K') as F. rewrite (M2 v i k Hv Hi Hk K K').
      match goal with |- @eq _ ?a ?b => change (@eq R a b) end. field. lra.
Qed.
End S2.

Section S3.
Context (D n nf nh : Z) (f bk h : Z -> Z -> Z) (fd : Z -> Z -> Z -> Z).
Hypothesis HD : (1 <= D)%Z. Hypothesis Hn : (0 <= n)%Z.
Hypothesis C : cells D (upto n) nf nh f bk h fd.
Notation U := (upto n).
Notation I i := (0 <= i < D)%Z.
Context (p : Z -> Z -> R) (l0 : Z -> R) (l : Z -> Z -> R).
Hypothesis Q : realized D n nh h p l0 l.
Notation Wv p f v := (vertexN RN D (p v%Z) (edgeN RN p f v%Z)).
Context (keep keep1 : Z -> bool) (s0 t0 : R) (s t : Z -> R).
Hypothesis HK : forall v, U v -> keep1 v = negb (keep v).
Hypothesis Hst : forall x, linN D t0 t x = - linN D s0 s x.
Context (na nfa : Z) (fa bka ha : Z -> Z -> Z) (fda : Z -> Z -> Z -> Z) (pa : Z -> Z -> R) (ova : Z -> Z) (nwa : Z -> Z -> Z).
Context (nb nfb : Z) (fb bkb hb : Z -> Z -> Z) (fdb : Z -> Z -> Z -> Z) (pb : Z -> Z -> R) (ovb : Z -> Z) (nwb : Z -> Z -> Z).
Hypothesis SA : side D n nf nh f h fd p keep s0 s na nfa fa bka ha fda pa ova nwa.
Hypothesis SB : side D n nf nh f h fd p keep1 t0 t nb nfb fb bkb hb fdb pb ovb nwb.

Lemma lin_opp x : lin D t x = - lin D s x.
Proof.
  pose proof (Hst x) as A. pose proof (Hst (fun _ => 0)) as B. rewrite (linN_split D t0), (linN_split D s0) in A. rewrite (linN_split D t0), (linN_split D s0) in B.
  assert (Z0 : forall c, lin D c (fun _ => 0) = 0) by (intros c; unfold linN; rewrite lsum_0; [lra|intros; lra]). rewrite !Z0 in B. lra.
Qed.
(** the two new vertices on one edge *)
Lemma new_vertices v i : U v -> I i -> keep v = true -> keep (f v i) = false -> Wv pb fb (nwb (f v i) (bk v i)) = - Wv pa fa (nwa v i).
Proof.
  intros Hv Hi K K'. set (w := f v i) in *. set (i' := bk v i).
  pose proof (proj1 (ce_f _ _ _ _ _ _ _ _ C v i Hv Hi)) as Hw. fold w in Hw.
  destruct (ce_bk _ _ _ _ _ _ _ _ C v i Hv Hi) as (Hi' & Fw & Bw). fold i' w in Hi', Fw, Bw.
  assert (K1 : keep1 w = true) by (rewrite HK, K' by auto; auto). assert (K1' : keep1 (f w i') = false) by (rewrite Fw, HK, K by auto; auto).
  pose proof (side_realized D n nf nh f bk h fd HD C p l0 l Q keep s0 s _ _ _ _ _ _ _ _ _ SA) as QA.
  pose proof (side_realized D n nf nh f bk h fd HD C p l0 l Q keep1 t0 t _ _ _ _ _ _ _ _ _ SB) as QB.
  pose proof (si_ce _ _ _ _ _ _ _ _ _ _ _ _ _ _ _ _ _ _ _ _ SA) as CA. pose proof (si_ce _ _ _ _ _ _ _ _ _ _ _ _ _ _ _ _ _ _ _ _ SB) as CB.
  set (u := nwa v i). set (u' := nwb w i').
  assert (Hu : upto na u) by (apply (tr_new _ _ _ _ _ _ _ _ _ _ _ (si_tr _ _ _ _ _ _ _ _ _ _ _ _ _ _ _ _ _ _ _ _ SA)); auto).
  assert (Hu' : upto nb u') by (apply (tr_new _ _ _ _ _ _ _ _ _ _ _ (si_tr _ _ _ _ _ _ _ _ _ _ _ _ _ _ _ _ _ _ _ _ SB)); auto).
  destruct (si_h0 _ _ _ _ _ _ _ _ _ _ _ _ _ _ _ _ _ _ _ _ SA v i Hv Hi K K') as (A0 & Aa).
  destruct (si_h0 _ _ _ _ _ _ _ _ _ _ _ _ _ _ _ _ _ _ _ _ SB w i' Hw Hi' K1 K1') as (B0 & Ba). fold u in A0, Aa. fold u' in B0, Ba.
  pose proof (si_t _ _ _ _ _ _ _ _ _ _ _ _ _ _ _ _ _ _ _ _ SA v Hv K) as T1. pose proof (si_f _ _ _ _ _ _ _ _ _ _ _ _ _ _ _ _ _ _ _ _ SA w Hw K') as T2.
  (* same position *)
  assert (PO : forall k, I k -> pb u' k = pa u k).
  { intros k Hk. destruct (si_m _ _ _ _ _ _ _ _ _ _ _ _ _ _ _ _ _ _ _ _ SA) as (_ & MA). destruct (si_m _ _ _ _ _ _ _ _ _ _ _ _ _ _ _ _ _ _ _ _ SB) as (_ & MB).
    unfold u, u'. rewrite MA, MB by auto. fold w. rewrite Fw. rewrite !Hst. field. lra. }
  (* matching slots *)
  assert (LE : forall j, I j -> j <> i -> exists j', I j' /\ j' <> i' /\ h w j' = h v j).
  { intros j Hj N. destruct (ce_edge _ _ _ _ _ _ _ _ C v i j Hv Hi Hj N) as (j' & H1 & H2 & H3 & _). eauto. }
  assert (SL : forall a, I a -> exists b, I b /\ hb u' b = ha u a /\ (a = 0%Z <-> b = 0%Z)).
  { intros a Ha. destruct (Z.eq_dec a 0) as [->|N]; [exists 0%Z; split; [lia|]; split; [congruence|tauto]|].
    destruct (other_rng D i a Hi ltac:(lia)) as (O1 & O2). destruct (LE _ O1 O2) as (j' & H1 & H2 & H3).
    destruct (other_all D i' j' Hi' H1 H2) as (b & Hb & <-). exists b. split; [lia|]. split; [|lia]. rewrite Ba, Aa, H3 by lia. reflexivity. }
  destruct (finite_choice 0%Z D (fun a b => I b /\ hb u' b = ha u a /\ (a = 0%Z <-> b = 0%Z)) ltac:(lia)) as (pi & PI); [intros a Ha; apply SL; exact Ha|]. unfold upto in PI.
  assert (P2 : forall a b, I a -> I b -> pi a = pi b -> a = b).
  { intros a b Ha Hb E. destruct (PI a Ha) as (_ & X & _). destruct (PI b Hb) as (_ & Y & _). rewrite E in X. apply (ce_hinj _ _ _ _ _ _ _ _ CA u); auto. congruence. }
  assert (P3 : forall b, I b -> exists a, I a /\ pi a = b).
  { intros b Hb.
    assert (Sj : forall j, I j -> j <> i -> exists a, I a /\ a <> 0%Z /\ ha u a = h v j).
    { intros j Hj N. destruct (other_all D i j Hi Hj N) as (a & Ha & <-). exists a. split; [lia|]. split; [lia|]. apply Aa. lia. }
    assert (EX : exists a, I a /\ ha u a = hb u' b).
    { destruct (Z.eq_dec b 0) as [->|N]; [exists 0%Z; split; [lia|congruence]|].
      destruct (other_rng D i' b Hi' ltac:(lia)) as (O1 & O2). destruct (ce_edge _ _ _ _ _ _ _ _ C w i' _ Hw Hi' O1 O2) as (j & H1 & H2 & H3 & _). rewrite Fw, Bw in *.
      destruct (Sj j H1 H2) as (a & Ha & _ & Ea). exists a. split; auto. rewrite Ea, H3. symmetry. apply Ba. lia. }
    destruct EX as (a & Ha & Ea). exists a. split; auto. destruct (PI a Ha) as (X1 & X2 & _). apply (ce_hinj _ _ _ _ _ _ _ _ CB u'); auto. congruence. }
  rewrite (vertex_ext D ltac:(lia) (pb u') (pa u) (edgeN RN pb fb u') (edgeN RN pb fb u')); [|intros k Hk; now apply PO|intros a _ k _; reflexivity].
  set (sg := fun a : Z => if (a =? 0)%Z then -1 else 1).
  rewrite (vertex_forms D (pa u) (edgeN RN pa fa u) (edgeN RN pb fb u') (fun a => l' nh l s (ha u a)) pi sg); auto; try lia.
  - assert (G : lprod (zrange D) sg = -1).
    { replace D with (1 + (D - 1))%Z by lia. rewrite zrange_app by lia. rewrite lprod_app, lprod_map. change (zrange 1) with [0%Z]. cbn [lprod].
      rewrite lprod_1; [unfold sg; cbn; lra|]. intros a Ha. apply in_zrange in Ha. unfold sg. destruct (Z.eqb_spec (a + 1) 0); [lia|auto]. }
    rewrite G. rr.
  - intros x Hx. apply (re_nd _ _ _ _ _ _ _ QA u x Hu). exact Hx.
  - intros a Ha. apply PI. auto.
  - intros a Ha. destruct (PI a Ha) as (X1 & X2 & X3). unfold sg. split; [destruct (a =? 0)%Z; lra|]. split; [apply (form_neg _ _ _ _ _ _ _ _ CA _ _ _ QA u a Hu Ha)|].
    pose proof (form_neg _ _ _ _ _ _ _ _ CB _ _ _ QB u' (pi a) Hu' X1) as Y. rewrite X2 in Y.
    destruct (Z.eqb_spec a 0) as [->|N].
    + rewrite A0 in *. unfold l' in *. rewrite Z.eqb_refl in *. rewrite lin_opp in Y. lra.
    + destruct (other_rng D i a Hi ltac:(lia)) as (O1 & O2). rewrite Aa in * by lia. unfold l' in *. pose proof (ce_h _ _ _ _ _ _ _ _ C v (other i a) Hv O1).
      destruct (Z.eqb_spec (h v (other i a)) nh); [lia|]. lra.
  - intros a c Ha Hc N. destruct (PI a Ha) as (X1 & X2 & X3). destruct (PI c Hc) as (Y1 & Y2 & Y3).
    split; [apply (form_zero _ _ _ _ _ _ _ _ CA _ _ _ QA u a c Hu Ha Hc N)|].
    assert (N' : pi c <> pi a) by (intros E; apply N, P2; auto).
    pose proof (form_zero _ _ _ _ _ _ _ _ CB _ _ _ QB u' (pi a) (pi c) Hu' X1 Y1 N') as Y. rewrite Y2 in Y.
    destruct (Z.eq_dec c 0) as [->|N0].
    + rewrite A0 in *. unfold l' in *. rewrite Z.eqb_refl in *. rewrite lin_opp in Y. lra.
    + destruct (other_rng D i c Hi ltac:(lia)) as (O1 & O2). rewrite Aa in * by lia. unfold l' in *. pose proof (ce_h _ _ _ _ _ _ _ _ C v (other i c) Hv O1).
      destruct (Z.eqb_spec (h v (other i c)) nh); [lia|]. exact Y.
Qed.

Notation Tot n p f := (lsum (zrange n) (fun v => Wv p f v)).
Theorem split_flags : Tot na pa fa + Tot nb pb fb = Tot n p f.
Proof.
  assert (HD0 : (0 <= D)%Z) by lia.
  rewrite (trunc_vertices _ _ _ _ _ _ _ _ _ _ _ (fun v => Wv pa fa v) HD0 (si_tr _ _ _ _ _ _ _ _ _ _ _ _ _ _ _ _ _ _ _ _ SA)).
  rewrite (trunc_vertices _ _ _ _ _ _ _ _ _ _ _ (fun v => Wv pb fb v) HD0 (si_tr _ _ _ _ _ _ _ _ _ _ _ _ _ _ _ _ _ _ _ _ SB)).
  rewrite (lsum_split keep (zrange n) (fun v => Wv p f v)).
  assert (E1 : lsum (filter keep (zrange n)) (fun v => Wv pa fa (ova v)) = lsum (filter keep (zrange n)) (fun v => Wv p f v)).
  { apply lsum_ext. intros v Hv. apply filter_In in Hv as (Hv & K). apply in_zrange in Hv. eapply kept_vertex; eauto. }
  assert (F : filter keep1 (zrange n) = filter (fun v => negb (keep v)) (zrange n)).
  { apply filter_ext_in. intros v Hv. apply in_zrange in Hv. now apply HK. }
  assert (E2 : lsum (filter keep1 (zrange n)) (fun v => Wv pb fb (ovb v)) = lsum (filter (fun v => negb (keep v)) (zrange n)) (fun v => Wv p f v)).
  { rewrite <- F. apply lsum_ext. intros v Hv. apply filter_In in Hv as (Hv & K). apply in_zrange in Hv. eapply kept_vertex; eauto. }
  assert (E3 : lsum (cuts D n keep1 f) (fun x => Wv pb fb (nwb (fst x) (snd x))) = - lsum (cuts D n keep f) (fun x => Wv pa fa (nwa (fst x) (snd x)))).
  { assert (ND : forall k, NoDup (cuts D n k f)).
    { intros k. apply NoDup_filter. apply NoDup_darts; lia. }
    transitivity (lsum (cuts D n keep f) (fun x => Wv pb fb (nwb (f (fst x) (snd x)) (bk (fst x) (snd x))))).
    - symmetry. apply (lsum_bij (fun x => (f (fst x) (snd x), bk (fst x) (snd x))) (cuts D n keep f) (cuts D n keep1 f) (fun x => Wv pb fb (nwb (fst x) (snd x)))); auto.
      + intros (v & i) H. apply in_cuts in H as (Hv & Hi & K & K'). cbn [fst snd]. apply in_cuts. pose proof (proj1 (ce_f _ _ _ _ _ _ _ _ C v i Hv Hi)) as Hw.
        destruct (ce_bk _ _ _ _ _ _ _ _ C v i Hv Hi) as (Hi' & Fw & Bw). rewrite Fw, !HK, K, K' by auto. auto.
      + intros (v & i) (w & j) H H' E. apply in_cuts in H as (Hv & Hi & _). apply in_cuts in H' as (Hw & Hj & _). cbn [fst snd] in E. injection E as E1' E2'.
        destruct (ce_bk _ _ _ _ _ _ _ _ C v i Hv Hi) as (_ & Fw & Bw). destruct (ce_bk _ _ _ _ _ _ _ _ C w j Hw Hj) as (_ & Fw' & Bw'). congruence.
      + intros (w & j) H. apply in_cuts in H as (Hw & Hj & K & K'). pose proof (proj1 (ce_f _ _ _ _ _ _ _ _ C w j Hw Hj)) as Hv.
        destruct (ce_bk _ _ _ _ _ _ _ _ C w j Hw Hj) as (Hi' & Fw & Bw). exists (f w j, bk w j). split; [|cbn [fst snd]; congruence].
        apply in_cuts. rewrite Fw. rewrite HK in K, K' by auto. apply negb_true_iff in K. apply negb_false_iff in K'. auto.
    - rewrite <- (Rmult_1_l (lsum (cuts D n keep f) (fun x => Wv pa fa (nwa (fst x) (snd x))))), Ropp_mult_distr_l, <- lsum_scal.
      apply lsum_ext. intros (v & i) H. apply in_cuts in H as (Hv & Hi & K & K'). cbn [fst snd]. rewrite new_vertices by auto. rr. }
  rewrite E1, E2, E3. lra.
Qed.
End S3.
