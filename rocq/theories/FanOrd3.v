(** * FanOrd3: the order in which [r3d_reduce] visits the triangles depends on the links only. *)
From Coq Require Import ZArith List Bool Lia.
From Verif Require Import Base Lib ModelCommon CommonFacts Model3 Spec3 Orb3 Cut3 Struct3 Reduce2 Reduce3 FaceSpec3 Face3.
Import ListNotations.
Open Scope Z_scope.

Section V.
Context (f : Z -> Z -> Z) (n : Z).
Local Notation isd := (isd (below n)).
Definition runf (d0 : dart) (a m : nat) : list dart := map (fun j => iter j (fnext f) d0) (seq a m).
(** the triangles visited when the directed edges with keys below [x] have been considered *)
Inductive visit : Z -> list dart -> Prop :=
| vis0 : visit 0 []
| visn d0 l q : isd d0 -> lead f n d0 = d0 -> (2 <= q)%nat -> iter q (fnext f) d0 = d0 -> (forall j, (0 < j < q)%nat -> fst (iter j (fnext f) d0) <> fst d0) ->
    visit (key d0) l -> visit (key d0 + 1) (l ++ runf d0 1 (q - 2))
| viss d0 l : isd d0 -> lead f n d0 <> d0 -> visit (key d0) l -> visit (key d0 + 1) l.
Lemma key_pos d : isd d -> 0 <= key d.
Proof. intros (A & B). unfold below in A. unfold key. lia. Qed.
Lemma visit_det x l : visit x l -> forall y l', visit y l' -> y = x -> l' = l.
Proof.
  induction 1 as [|d0 l q Hd Hl Hq Eq Hv V IH|d0 l Hd Hl V IH]; intros y l' V' Ey.
  - inversion V' as [|d1 m q' Hd'|d1 m Hd']; subst; auto; pose proof (key_pos d1 Hd'); lia.
  - inversion V' as [|d1 m q' Hd' Hl' Hq' Eq' Hv' W|d1 m Hd' Hl' W]; subst.
    + pose proof (key_pos d0 Hd). lia.
    + assert (d1 = d0) as -> by (apply key_inj; [apply Hd'|apply Hd|lia]). rewrite (IH _ _ W eq_refl).
      assert (q' = q) as ->; auto. destruct (Nat.lt_trichotomy q' q) as [X|[X|X]]; auto.
      * destruct (Hv q' ltac:(lia)). now rewrite Eq'.
      * destruct (Hv' q ltac:(lia)). now rewrite Eq.
    + assert (d1 = d0) as -> by (apply key_inj; [apply Hd'|apply Hd|lia]). contradiction.
  - inversion V' as [|d1 m q' Hd' Hl' Hq' Eq' Hv' W|d1 m Hd' Hl' W]; subst.
    + pose proof (key_pos d0 Hd). lia.
    + assert (d1 = d0) as -> by (apply key_inj; [apply Hd'|apply Hd|lia]). contradiction.
    + assert (d1 = d0) as -> by (apply key_inj; [apply Hd'|apply Hd|lia]). now apply (IH _ _ W).
Qed.
Hypothesis L : links f (below n).
Lemma visit_isd x l : visit x l -> forall d, In d l -> isd d.
Proof.
  induction 1 as [|d0 l q Hd Hl Hq Eq Hv V IH|d0 l Hd Hl V IH]; intros d Hi; [destruct Hi| |auto].
  apply in_app_iff in Hi as [Hi|Hi]; auto. apply in_map_iff in Hi as (j & <- & _). now apply (isd_iter f (below n) L).
Qed.
End V.

Section G.
Context (NN : num) (MX : Z).
Notation rv := (rvec3 (T NN)).
Notation buf := (vbuf rv).
Context (b : buf) (n : Z) (Hn : 0 <= n <= MX).
Local Notation f := (nb b).
Local Notation isd := (isd (below n)).
Local Notation fnx := (fnext f).
Hypothesis L : links f (below n).
Hypothesis P : simple_faces f (below n).
Context (po : Z) (Hpo : 0 <= po) (vc : option rv).

Definition InvO (m0 : Z -> T NN) (x : Z) (s : (Z -> Z -> Z) * redst3 NN) : Prop :=
  okpc3 NN (snd s)
  /\ (forall d, isd d -> (marked (fst s) d <-> key (lead f n d) < x))
  /\ exists l, visit f n x l /\ accd NN b n po vc l m0 (r3_mom NN (snd s)).

Lemma face_step_ord m0 d0 s : isd d0 -> InvO m0 (key d0) s ->
  exists s', face_body NN MX po vc b n (fst d0) (snd d0) s = OK s' /\ InvO m0 (key d0 + 1) s'.
Proof.
  intros Hd0 (I1 & I2 & l & I3 & I5). destruct s as (em, r). cbn [fst snd] in *.
  assert (H0n : 0 <= n) by lia.
  unfold face_body. rewrite rd_em_ok by auto. cbn [bind].
  assert (SUC : forall d, isd d -> (key (lead f n d) < key d0 + 1 <-> key (lead f n d) < key d0 \/ lead f n d = d0)).
  { intros d Hd. split.
    - intros H. destruct (Z.eq_dec (key (lead f n d)) (key d0)) as [E|E]; [right|left; lia].
      apply key_inj; auto; [apply lead_isd; auto|apply Hd0].
    - intros [H| ->]; lia. }
  destruct (Z.eqb_spec (em (fst d0) (snd d0)) 0) as [E0|E0]; cbn [negb].
  - assert (Hl : lead f n d0 = d0).
    { apply key_inj; [apply lead_isd; auto|apply Hd0|].
      pose proof (lead_le f n H0n L d0 Hd0).
      destruct (Z_lt_dec (key (lead f n d0)) (key d0)) as [X|X]; [|lia].
      apply (I2 d0 Hd0) in X. unfold marked in X. congruence. }
    destruct (min_period f n L P d0 Hd0) as (q & Hq & Eq & Hv).
    destruct (wr_em_ok n em d0 Hd0) as (em1 & W1 & M1). rewrite W1. cbn [bind].
    assert (Hs : below n (fst d0)) by apply Hd0. unfold below in Hs.
    rewrite rd_nb_ok by (try apply Hd0; lia). cbn [bind]. rewrite rd_ps_ok by lia. cbn [bind].
    change (nb b (fst d0) (snd d0)) with (dtgt f d0). rewrite (next_edge_ok NN MX b n Hn L) by auto. cbn [bind].
    assert (Hnn : isd (fnx d0)) by (apply isd_fnext; auto).
    destruct (wr_em_ok n em1 (fnx d0) Hnn) as (em2 & W2 & M2). rewrite W2. cbn [bind].
    change (fnx d0) with (iter 1 fnx d0) in *.
    destruct (fan_loop NN MX b n Hn L po Hpo vc d0 q Hd0 Hl ltac:(lia) Eq Hv (q - 2) 1 (Z.to_nat (3 * n)) em2 r ltac:(lia) ltac:(lia) ltac:(lia) I1)
      as (em' & r' & E & Hr' & M' & A').
    rewrite E. cbn [bind]. eexists. split; [reflexivity|]. unfold InvO. cbn [fst snd].
    assert (FACE : forall d, isd d -> (lead f n d = d0 <-> exists j, (j < q)%nat /\ d = iter j fnx d0)).
    { intros d Hd. rewrite lead_eq by auto. split.
      - intros HS. apply (orbit_in f n q d0 d); auto. lia.
      - intros (j & _ & ->). exists j. auto. }
    split; auto. split.
    + intros d Hd. rewrite M', M2, M1, I2, SUC, FACE by auto. split.
      * intros [(j & Hj & Ej)|[Ej|[Ej|X]]]; auto; right; [exists j|exists 1%nat|exists 0%nat]; split; auto; lia.
      * intros [X|(j & Hj & ->)]; auto.
        destruct j as [|[|j]]; auto. left. exists (S (S j)). split; auto. lia.
    + exists (l ++ runf f d0 1 (q - 2)). split; [apply visn; auto; lia|].
      apply accd_app with (r3_mom NN r); auto.
  - assert (X : key (lead f n d0) < key d0) by (apply I2; auto).
    assert (NO : forall d, isd d -> lead f n d <> d0).
    { intros d Hd E. pose proof (lead_lead f n H0n L d Hd) as Y. rewrite E in Y. rewrite Y in X. lia. }
    eexists. split; [reflexivity|]. split; auto. cbn [fst snd]. split.
    + intros d Hd. rewrite I2, SUC by auto. split; auto. intros [|Y]; auto. destruct (NO d Hd Y).
    + exists l. split; [apply viss; auto|auto].
Qed.

Lemma face_loops_ord m0 : exists em r,
  for_ 0 n (fun vstart => for_ 0 3 (face_body NN MX po vc b n vstart))
     ((fun _ _ => 0), RS3 NN (fun _ _ _ => None) (fun _ _ _ => None) (fun _ _ _ => None) 1 m0 0 1) = OK (em, r)
  /\ okpc3 NN r
  /\ exists l, visit f n (3 * n) l /\ accd NN b n po vc l m0 (r3_mom NN r).
Proof.
  destruct (for_inv (fun v => InvO m0 (3 * v)) 0 n (fun vstart => for_ 0 3 (face_body NN MX po vc b n vstart))
     ((fun _ _ => 0), RS3 NN (fun _ _ _ => None) (fun _ _ _ => None) (fun _ _ _ => None) 1 m0 0 1))
    as ((em & r) & E & I1 & I2 & l & I3 & I5); try lia.
  - split; [left; auto|]. cbn [fst snd].
    assert (NO : forall d, isd d -> ~ key (lead f n d) < 3 * 0).
    { intros d Hd X. destruct (lead_isd f n ltac:(lia) L d Hd) as (A & B). unfold below in A. unfold key in X. lia. }
    split.
    + intros d Hd. unfold marked. split; [congruence|]. intros X. destruct (NO d Hd X).
    + exists []. split; [constructor|]. apply accd_nil.
  - intros v s Hv I.
    destruct (for_inv (fun p => InvO m0 (3 * v + p)) 0 3 (face_body NN MX po vc b n v) s) as (s' & E & I'); try lia.
    + now rewrite Z.add_0_r.
    + intros p s1 Hp I1. destruct (face_step_ord m0 (v, p) s1) as (s2 & E & I2); auto.
      { split; cbn; auto. }
      exists s2. split; auto. unfold key in I2. cbn [fst snd] in I2. now rewrite Z.add_assoc.
    + exists s'. split; auto. now replace (3 * (v + 1)) with (3 * v + 3) by lia.
  - cbn [fst snd] in *. exists em, r. split; auto. split; auto. exists l. auto.
Qed.
End G.

Lemma reduce3_ord (NN : num) MX po (p : poly (rvec3 (T NN))) mom : 0 <= po -> wf3 p -> 0 < nv p <= MX ->
  exists l m1, visit (nb (vb p)) (nv p) (3 * nv p) l
  /\ (forall i j k, 0 <= i -> 0 <= j -> 0 <= k -> i + j + k <= po ->
        m1 (idx3 i j k) = mdiv NN (tsum NN (vb p) (nv p) None l (n0 NN) i j k) i j k)
  /\ (forall m, ~ 0 <= m < num_moments3 po -> m1 m = mom m)
  /\ r3d_reduce NN MX false p mom po = OK m1.
Proof.
  intros Hpo (Hn & HL & HP) HM. unfold r3d_reduce.
  assert (Hnm : 0 <= num_moments3 po) by (rewrite num_moments3_tri; apply tri3_nonneg; lia).
  destruct (zero_loop NN (num_moments3 po) mom Hnm) as (mom0 & E0 & Z1 & Z2).
  rewrite E0. cbn [bind]. destruct (Z.leb_spec (nv p) 0); [lia|].
  destruct (face_loops_ord NN MX (vb p) (nv p) ltac:(lia) HL HP po Hpo None mom0) as (em & r & E1 & Hr & l & Hl1 & A1 & A2).
  rewrite E1. cbn [bind].
  destruct (multi_spec NN po r Hpo Hr) as (c & s' & E2 & E3 & U1 & U2).
  rewrite E2. cbn [bind]. rewrite E3. cbn [bind].
  exists l, (r3_mom NN s'). split; auto. split; [|split; auto].
  - intros i j k Hi Hj Hk Hs. rewrite U1 by lia. rewrite A1 by auto. rewrite Z1 by (apply idx3_range; auto). reflexivity.
  - intros m Hm. rewrite U2, A2, Z2; auto. now rewrite <- num_moments3_tri.
Qed.
