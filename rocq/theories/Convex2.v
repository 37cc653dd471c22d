(** * Convex2: polygons every line crosses at most twice.  Cutting such a
    polygon gives such polygons, so that it gains at most one vertex per cut. *)
From Coq Require Import Reals ZArith List Bool Lia Lra Permutation.
From Verif Require Import Base Lib ModelCommon CommonFacts Model2 Spec2 Struct2 Clip2 HPoly HShift HInt
  RealNum SumR Reduce2 Spec2R Mom2 Cons2.
Import ListNotations.
Open Scope Z_scope.

Lemma filter_parts {A} (f : A -> bool) l :
  (length l = length (filter f l) + length (filter (fun x => negb (f x)) l))%nat.
Proof. induction l as [|a l IH]; cbn; auto. destruct (f a); cbn; lia. Qed.

Lemma NoDup_map_in {A B} (h : A -> B) l : (forall a b, In a l -> In b l -> h a = h b -> a = b) ->
  NoDup l -> NoDup (map h l).
Proof.
  induction l as [|a l IH]; cbn; intros Hi ND; [constructor|]. inversion ND; subst. constructor.
  - rewrite in_map_iff. intros (b & E & Hb). apply H1. replace a with b; auto.
  - apply IH; auto.
Qed.

(** ** The number of exits is even *)
Lemma exits_slots keep f n : 0 <= n ->
  exits 2 keep f n = cnt (fun v => keep v && negb (keep (f v 0))) n + cnt (fun v => keep v && negb (keep (f v 1))) n.
Proof.
  intros Hn. unfold exits. change 2%nat with (Z.to_nat 2). rewrite <- (darts_list_prod 2 n) by lia.
  revert n Hn. apply zrange_ind; [reflexivity|]. intros m Hm IH.
  rewrite darts_succ, filter_app, app_length, Nat2Z.inj_add, IH, !cnt_succ by lia.
  change (zrange 2) with [0; 1]. cbn [map filter fst snd].
  destruct (keep m); cbn [andb]; [|cbn; lia].
  destruct (keep (f m 0)), (keep (f m 1)); cbn [negb andb length]; lia.
Qed.

Lemma cnt_lsum K n : 0 <= n -> IZR (cnt K n) = lsum (zrange n) (fun v => if K v then 1%R else 0%R).
Proof.
  revert n. apply zrange_ind; [reflexivity|]. intros m Hm IH.
  rewrite cnt_succ, zrange_succ, lsum_app, plus_IZR, IH by lia. cbn. destruct (K m); cbn; ring.
Qed.

Lemma lsum_next' f n g : linked f n -> lsum (zrange n) (fun v => g (f v 0)) = lsum (zrange n) g.
Proof.
  intros HL. apply (lsum_bij (fun v => f v 0)); try apply NoDup_zrange.
  - intros v Hv. apply in_zrange in Hv. apply in_zrange. apply HL; auto.
  - intros u v Hu Hv E. apply in_zrange in Hu. apply in_zrange in Hv.
    destruct (HL u Hu) as (_ & _ & A & _). destruct (HL v Hv) as (_ & _ & B & _). congruence.
  - intros v Hv. apply in_zrange in Hv. exists (f v 1).
    destruct (HL v Hv) as (_ & A & _ & B). split; auto. now apply in_zrange.
Qed.

Lemma exits_even keep f n : 0 <= n -> linked f n ->
  exits 2 keep f n = 2 * cnt (fun v => keep v && negb (keep (f v 0))) n.
Proof.
  intros Hn HL. rewrite exits_slots by auto.
  enough (E : cnt (fun v => keep v && negb (keep (f v 0))) n = cnt (fun v => keep v && negb (keep (f v 1))) n) by lia.
  apply eq_IZR. rewrite !cnt_lsum by auto.
  set (I := fun b : bool => if b then 1%R else 0%R).
  transitivity (lsum (zrange n) (fun v => I (keep v)) - lsum (zrange n) (fun v => I (keep v && keep (f v 0%Z))))%R.
  { rewrite <- lsum_sub. apply lsum_ext. intros v _. destruct (keep v), (keep (f v 0)); cbn; ring. }
  rewrite <- (lsum_next' f n (fun v => if keep v && negb (keep (f v 1)) then 1%R else 0%R) HL).
  rewrite <- (lsum_next' f n (fun v => I (keep v)) HL), <- lsum_sub. apply lsum_ext. intros v Hv. apply in_zrange in Hv.
  destruct (HL v Hv) as (_ & _ & -> & _). destruct (keep v), (keep (f v 0)); cbn; ring.
Qed.

(** ** Crossings of the result of a cut *)
Section Cut.
Context {V : Type} (G : V -> bool) (b0 b' : vbuf V) (n N : Z) (K : Z -> bool) (newpos : Z -> Z -> V) (p : poly V).
Hypothesis HL : linked (nb b0) n.
Hypothesis C : cut2 b0 n N K newpos b'.
Hypothesis P : compressed 2 K N b' p.
Hypothesis HG : forall v np, 0 <= v < n -> 0 <= np < 2 -> K v = true -> K (nb b0 v np) = false ->
  G (ps b0 v) <> G (newpos v np) -> G (ps b0 (nb b0 v np)) = G (newpos v np).
Hypothesis HK : exits 2 K (nb b0) n <= 2.

Let L' := filter (fun d => K (fst d) && G (ps b' (fst d)) && negb (G (ps b' (nb b' (fst d) (snd d))))) (darts 2 N).
Let Lp := filter (fun d => G (ps b0 (fst d)) && negb (G (ps b0 (nb b0 (fst d) (snd d))))) (darts 2 n).
Let LK := filter (fun d => K (fst d) && negb (K (nb b0 (fst d) (snd d)))) (darts 2 n).

Lemma in_L' v q : In (v, q) L' <-> (0 <= v < N /\ 0 <= q < 2) /\ K v = true /\ G (ps b' v) = true /\ G (ps b' (nb b' v q)) = false.
Proof. unfold L'. rewrite filter_In, in_darts, !andb_true_iff, negb_true_iff. cbn. tauto. Qed.
Lemma in_Lp v q : In (v, q) Lp <-> (0 <= v < n /\ 0 <= q < 2) /\ G (ps b0 v) = true /\ G (ps b0 (nb b0 v q)) = false.
Proof. unfold Lp. rewrite filter_In, in_darts, !andb_true_iff, negb_true_iff. cbn. tauto. Qed.
Lemma in_LK v q : In (v, q) LK <-> (0 <= v < n /\ 0 <= q < 2) /\ K v = true /\ K (nb b0 v q) = false.
Proof. unfold LK. rewrite filter_In, in_darts, !andb_true_iff, negb_true_iff. cbn. tauto. Qed.

Lemma cut_lnk v q : 0 <= v < n -> 0 <= q < 2 -> 0 <= nb b0 v q < n /\ nb b0 (nb b0 v q) (1 - q) = v.
Proof. intros Hv Hq. destruct (HL v Hv) as (A & B & X & Y). destruct (slot2 q Hq); subst; auto. Qed.

Lemma exits_child : exits 2 (fun v => G (ps (vb p) v)) (nb (vb p)) (nv p) <= Z.of_nat (length L').
Proof.
  destruct P as (Hn & Hc). pose proof (c_n _ _ _ _ _ _ C) as HN.
  assert (0 <= nv p) by (rewrite Hn; apply cnt_nonneg).
  unfold exits. change 2%nat with (Z.to_nat 2). rewrite <- (darts_list_prod 2 (nv p)) by lia.
  apply Nat2Z.inj_le. rewrite <- (map_length (fun d : Z * Z => (cnt K (fst d), snd d)) L').
  apply NoDup_incl_length.
  { apply NoDup_filter, NoDup_darts. lia. }
  intros [i q] Hi. apply filter_In in Hi as (Hi & Hg). apply in_darts in Hi as (Hi & Hq). cbn [fst snd] in Hg.
  apply andb_true_iff in Hg as (G1 & G2). apply negb_true_iff in G2.
  rewrite Hn in Hi. destruct (cnt_surj K N i) as (u & Hu & Ku & E); try lia. subst i.
  destruct (Hc u Hu Ku) as (E1 & E2). rewrite E1 in G1. rewrite E2 in G2 by auto.
  destruct (c_mut _ _ _ _ _ _ C u q Hu Hq Ku) as (A & B & _). destruct (Hc _ A B) as (E3 & _). rewrite E3 in G2.
  apply in_map_iff. exists (u, q). split; auto. apply in_L'. auto.
Qed.

Let chord := fun d : Z * Z => (n <=? fst d) && (n <=? nb b' (fst d) (snd d)).

Lemma new_slot w q : n <= w < N -> K w = true -> 0 <= q < 2 -> n <= nb b' w q ->
  exists v, In (v, q) LK /\ nb b' v q = w.
Proof.
  intros Hw Kw Hq Hx. destruct (c_src _ _ _ _ _ _ C w Hw Kw) as (v & np & Hv & Hnp & Kv & Kf & E1 & E2 & E3).
  assert (np = q). { destruct (slot2 np Hnp), (slot2 q Hq); subst; auto; cbn in E2; lia. }
  subst np. exists v. split; auto. apply in_LK. auto.
Qed.

Lemma new_src w : n <= w < N -> K w = true -> exists v q, In (v, q) LK /\ nb b' v q = w /\ nb b' w (1 - q) = v.
Proof.
  intros Hw Kw. destruct (c_src _ _ _ _ _ _ C w Hw Kw) as (v & np & Hv & Hnp & Kv & Kf & E1 & E2 & E3).
  exists v, np. rewrite in_LK. auto.
Qed.

Lemma chord_le : (length (filter chord L') <= 1)%nat.
Proof.
  destruct (filter chord L') as [|[w1 q1] [|[w2 q2] r]] eqn:E; cbn; try lia. exfalso.
  assert (H1 : In (w1, q1) (filter chord L')) by (rewrite E; cbn; auto).
  assert (H2 : In (w2, q2) (filter chord L')) by (rewrite E; cbn; auto).
  assert (ND : NoDup (filter chord L')) by (apply NoDup_filter, NoDup_filter, NoDup_darts; pose proof (c_n _ _ _ _ _ _ C); lia).
  rewrite E in ND. apply NoDup_cons_iff in ND as (ND & _).
  assert (NE : (w1, q1) <> (w2, q2)) by (intros X; apply ND; rewrite X; now left).
  apply filter_In in H1 as (H1 & X1). apply filter_In in H2 as (H2 & X2).
  apply in_L' in H1 as ((A1 & B1) & K1 & G1 & F1). apply in_L' in H2 as ((A2 & B2) & K2 & G2 & F2).
  unfold chord in X1, X2. cbn [fst snd] in X1, X2. apply andb_true_iff in X1 as (X1 & Y1). apply andb_true_iff in X2 as (X2 & Y2).
  apply Z.leb_le in X1, Y1, X2, Y2.
  destruct (c_mut _ _ _ _ _ _ C w1 q1 A1 B1 K1) as (M1 & M2 & _). set (x := nb b' w1 q1) in *.
  destruct (new_slot w1 q1 ltac:(lia) K1 B1 Y1) as (v1 & I1 & J1).
  destruct (new_slot w2 q2 ltac:(lia) K2 B2 Y2) as (v2 & I2 & J2).
  destruct (new_src x ltac:(lia) M2) as (v3 & q3 & I3 & J3 & J3').
  assert (W : w1 <> w2).
  { intros ->. apply NE. f_equal.
    destruct (c_src _ _ _ _ _ _ C w2 ltac:(lia) K2) as (v & np & Hv & Hnp & Kv & Kf & E1 & E2 & E3).
    clear E. revert E2 Y1 Y2 Hv. unfold x. destruct (slot2 np Hnp) as [T1|T1], (slot2 q1 B1) as [T2|T2], (slot2 q2 B2) as [T3|T3]; rewrite T1, T2, T3; auto; cbn; intros; lia. }
  assert (N1 : x <> w1) by (intros X; rewrite X in F1; congruence).
  assert (N2 : x <> w2) by (intros X; rewrite X in F1; congruence).
  assert (ND3 : NoDup [w1; w2; x]).
  { constructor; [intros [?|[?|[]]]; congruence|]. constructor; [intros [?|[]]; congruence|]. constructor; [intros []|constructor]. }
  assert (INC : incl [w1; w2; x] (map (fun d : Z * Z => nb b' (fst d) (snd d)) LK)).
  { intros y [<-|[<-|[<-|[]]]]; apply in_map_iff; [exists (v1, q1)|exists (v2, q2)|exists (v3, q3)]; auto. }
  pose proof (NoDup_incl_length ND3 INC) as LE. rewrite map_length in LE. cbn in LE.
  assert (EK : exits 2 K (nb b0) n = Z.of_nat (length LK)).
  { unfold exits. change 2%nat with (Z.to_nat 2). rewrite <- (darts_list_prod 2 n) by lia. reflexivity. }
  lia.
Qed.

Let h := fun d : Z * Z => if fst d <? n then d else
  let u := nb b' (fst d) (snd d) in (nb b0 u (1 - snd d), snd d).

(** a new vertex whose link goes back to an old one *)
Lemma back w q : n <= w < N -> K w = true -> 0 <= q < 2 -> nb b' w q < n ->
  In (nb b' w q, 1 - q) LK /\ nb b' (nb b' w q) (1 - q) = w.
Proof.
  intros Hw Kw Hq Hx. destruct (c_src _ _ _ _ _ _ C w Hw Kw) as (v & np & Hv & Hnp & Kv & Kf & E1 & E2 & E3).
  assert (np = 1 - q). { destruct (slot2 np Hnp), (slot2 q Hq); subst; auto; cbn in *; lia. }
  subst np. replace (1 - (1 - q)) with q in E2 by lia. rewrite E2. split; auto. apply in_LK. split; auto.
Qed.

Lemma nonchord_le : (length (filter (fun d => negb (chord d)) L') <= length Lp)%nat.
Proof.
  pose proof (c_n _ _ _ _ _ _ C) as HN.
  rewrite <- (map_length h). apply NoDup_incl_length.
  - apply NoDup_map_in; [|apply NoDup_filter, NoDup_filter, NoDup_darts; lia].
    intros [w1 q1] [w2 q2] H1 H2 E.
    apply filter_In in H1 as (H1 & X1). apply filter_In in H2 as (H2 & X2).
    apply in_L' in H1 as ((A1 & B1) & K1 & G1 & F1). apply in_L' in H2 as ((A2 & B2) & K2 & G2 & F2).
    unfold chord in X1, X2. cbn [fst snd] in X1, X2. apply negb_true_iff, andb_false_iff in X1. apply negb_true_iff, andb_false_iff in X2.
    rewrite !Z.leb_gt in X1, X2.
    unfold h in E. cbn [fst snd] in E.
    destruct (Z.ltb_spec w1 n) as [L1|L1], (Z.ltb_spec w2 n) as [L2|L2]; auto.
    + destruct (back w2 q2) as (I2 & J2); auto; try lia. apply in_LK in I2 as ((R1 & R2) & R3 & R4). apply pair_equal_spec in E as (E1 & E2). rewrite E1 in K1. clear - K1 R4. congruence.
    + destruct (back w1 q1) as (I2 & J2); auto; try lia. apply in_LK in I2 as ((R1 & R2) & R3 & R4). apply pair_equal_spec in E as (E1 & E2). rewrite <- E1 in K2. clear - K2 R4. congruence.
    + destruct (back w1 q1) as (I1 & J1); auto; try lia. destruct (back w2 q2) as (I2 & J2); auto; try lia.
      apply in_LK in I1 as ((R1 & R2) & R3 & R4). apply in_LK in I2 as ((S1 & S2) & S3 & S4).
      apply pair_equal_spec in E as (E1 & E2). subst q2. destruct (cut_lnk _ _ R1 R2) as (_ & T1). destruct (cut_lnk _ _ S1 S2) as (_ & T2).
      rewrite E1, T2 in T1. rewrite <- T1 in J1. congruence.
  - intros d Hd. apply in_map_iff in Hd as ([w q] & <- & H1).
    apply filter_In in H1 as (H1 & X1). apply in_L' in H1 as ((A1 & B1) & K1 & G1 & F1).
    unfold chord in X1. cbn [fst snd] in X1. apply negb_true_iff, andb_false_iff in X1. rewrite !Z.leb_gt in X1.
    unfold h. cbn [fst snd]. destruct (Z.ltb_spec w n) as [L1|L1].
    + apply in_Lp. destruct (cut_lnk w q ltac:(lia) B1) as (Lk & _). rewrite (c_ps _ _ _ _ _ _ C w) in G1 by lia. split; [split; auto; lia|].
      split; auto. destruct (K (nb b0 w q)) eqn:Kx.
      * rewrite (c_keep _ _ _ _ _ _ C) in F1 by (auto; lia). now rewrite (c_ps _ _ _ _ _ _ C) in F1 by lia.
      * destruct (c_new _ _ _ _ _ _ C w q) as (_ & E); auto; try lia. rewrite E in F1. rewrite HG; auto; try lia. congruence.
    + destruct (back w q) as (I1 & J1); auto; try lia. set (u := nb b' w q) in *.
      apply in_LK in I1 as ((R1 & R2) & R3 & R4).
      destruct (cut_lnk u (1 - q) R1 R2) as (Lk & T1). replace (1 - (1 - q)) with q in T1 by lia.
      apply in_Lp. split; auto. rewrite T1. rewrite (c_ps _ _ _ _ _ _ C u) in F1 by lia. split; auto.
      destruct (c_new _ _ _ _ _ _ C u (1 - q)) as (_ & E); auto. rewrite J1 in E. rewrite E in G1.
      rewrite HG; auto. congruence.
Qed.

Lemma cut_crossings : exits 2 (fun v => G (ps b0 v)) (nb b0) n <= 2 ->
  exits 2 (fun v => G (ps (vb p) v)) (nb (vb p)) (nv p) <= 2.
Proof.
  intros H2. pose proof (compressed_linked _ _ _ _ _ _ _ C P) as (W1 & W2).
  pose proof exits_child as E. pose proof chord_le as E1. pose proof nonchord_le as E2.
  pose proof (filter_parts chord L') as E3.
  assert (EK : exits 2 (fun v => G (ps b0 v)) (nb b0) n = Z.of_nat (length Lp)).
  { unfold exits. change 2%nat with (Z.to_nat 2). rewrite <- (darts_list_prod 2 n) by lia. reflexivity. }
  pose proof (exits_even (fun v => G (ps (vb p) v)) (nb (vb p)) (nv p) W1 W2) as Ev. lia.
Qed.
End Cut.

(** ** Real arithmetic *)
Open Scope R_scope.

(** every line crosses the boundary at most twice *)
Definition convex2 (p : pol2) : Prop := forall g, (crossings g p <= 2)%Z.

Lemma sign_between g (q a b : rvec2 R) t : 0 <= t <= 1 -> sdist g q = t * sdist g a + (1 - t) * sdist g b ->
  Rleb 0 (sdist g a) <> Rleb 0 (sdist g q) -> Rleb 0 (sdist g b) = Rleb 0 (sdist g q).
Proof.
  intros Ht E D. unfold Rleb in *.
  destruct (Rle_dec 0 (sdist g a)), (Rle_dec 0 (sdist g b)), (Rle_dec 0 (sdist g q)); auto; exfalso; try congruence.
  - apply n. rewrite E. apply Rplus_le_le_0_compat; apply Rmult_le_pos; lra.
  - assert (t = 0 \/ 0 < t) as [->|T] by lra; nra.
Qed.

(** vertices gained by a cut *)
Lemma cut2_size {V} (b0 b' : vbuf V) n N K np (p : poly V) : (0 <= n)%Z -> cut2 b0 n N K np b' -> compressed 2 K N b' p ->
  (nv p <= cnt K n + exits 2 K (nb b0) n)%Z.
Proof.
  intros Hn C (E & _). rewrite E. pose proof (c_n _ _ _ _ _ _ C) as HN.
  set (LK := filter (fun d => K (fst d) && negb (K (nb b0 (fst d) (snd d)))) (darts 2 n)).
  assert (EK : exits 2 K (nb b0) n = Z.of_nat (length LK)).
  { unfold exits. change 2%nat with (Z.to_nat 2). rewrite <- (darts_list_prod 2 n) by lia. reflexivity. }
  rewrite EK. unfold cnt.
  rewrite (filter_parts (fun u => (u <? n)%Z) (filter K (zrange N))), Nat2Z.inj_add.
  apply Z.add_le_mono; apply Nat2Z.inj_le.
  - apply NoDup_incl_length; [apply NoDup_filter, NoDup_filter, NoDup_zrange|].
    intros u Hu. apply filter_In in Hu as (Hu & L). apply filter_In in Hu as (Hu & Ku). apply in_zrange in Hu. apply Z.ltb_lt in L.
    apply filter_In. split; auto. apply in_zrange. lia.
  - rewrite <- (map_length (fun d : Z * Z => nb b' (fst d) (snd d)) LK).
    apply NoDup_incl_length; [apply NoDup_filter, NoDup_filter, NoDup_zrange|].
    intros u Hu. apply filter_In in Hu as (Hu & L). apply filter_In in Hu as (Hu & Ku). apply in_zrange in Hu.
    apply negb_true_iff, Z.ltb_ge in L.
    destruct (c_src _ _ _ _ _ _ C u ltac:(lia) Ku) as (v & q & Hv & Hq & Kv & Kf & E1 & _).
    apply in_map_iff. exists (v, q). split; auto. apply filter_In. rewrite in_darts. cbn [fst snd]. rewrite Kv, Kf. auto.
Qed.

Lemma cnt_lt_n K n v : (0 <= v < n)%Z -> K v = false -> (cnt K n < n)%Z.
Proof.
  intros Hv Kv. pose proof (cnt_mono K (v + 1) n ltac:(lia)). rewrite cnt_succ, Kv in H by lia.
  pose proof (cnt_le K v ltac:(lia)). lia.
Qed.

Lemma cutR_convex pl (p p' : pol2) : wf2 p -> cutR pl p p' -> convex2 p ->
  convex2 p' /\ ((exists v, (0 <= v < nv p)%Z /\ sdist pl (ps (vb p) v) < 0) -> (nv p' <= nv p + 1)%Z).
Proof.
  intros (Hn & HL) (N & b' & K & HK1 & HK2 & C & P) Hc.
  assert (EX : exits 2 K (nb (vb p)) (nv p) = crossings pl p).
  { apply exits_ext; auto. }
  pose proof (Hc pl) as Hpl.
  split.
  - intros g. apply (cut_crossings (fun q => Rleb 0 (sdist g q)) (vb p) b' (nv p) N K _ p' HL C P); try lia.
    + intros v q Hv Hq Kv Kx Df.
      assert (Lk : (0 <= nb (vb p) v q < nv p)%Z).
      { destruct (HL v Hv) as (A & B & _). destruct (slot2 q Hq); subst; auto. }
      rewrite HK1 in Kv, Kx by auto. apply Rleb_true in Kv. apply Rleb_false in Kx.
      destruct (sdist_meet pl g (ps (vb p) v) (ps (vb p) (nb (vb p) v q))) as (t & Ht & E); [lra|lra|].
      apply (sign_between g _ (ps (vb p) v) (ps (vb p) (nb (vb p) v q)) t); auto.
    + apply Hc.
  - intros (v & Hv & Sv). pose proof (cut2_size _ _ _ _ _ _ _ Hn C P).
    pose proof (cnt_lt_n K (nv p) v Hv). rewrite HK1 in H0 by auto.
    assert (Rleb 0 (sdist pl (ps (vb p) v)) = false) by (apply Rleb_false; lra). specialize (H0 H1). lia.
Qed.

(** Room: one vertex per plane, and one spare. *)
Lemma clip_convex MX (planes : list (plane2 R)) : forall p : pol2, wf2 p -> convex2 p ->
  (nv p + Z.of_nat (length planes) + 1 <= MX)%Z ->
  exists p', clip_planes RN MX planes p = OK p' /\ wf2 p' /\ convex2 p' /\ (nv p' <= nv p + Z.of_nat (length planes))%Z.
Proof.
  induction planes as [|pl rest IH]; intros p Hw Hc HM.
  { exists p. split; auto. split; auto. split; auto. cbn. lia. }
  cbn [length] in *. rewrite Nat2Z.inj_succ in *.
  destruct (clip_step_R MX pl rest p Hw ltac:(lia)) as [(A & E')|[(A & B & E')|(A & B & [(q & C & W & M & R & E')|(E' & C)])]];
    rn; rewrite E'.
  - destruct (IH p Hw Hc ltac:(lia)) as (p' & E & W & C & S). exists p'. rn. split; auto. split; auto. split; auto. lia.
  - exists (PY (vb p) 0%Z). split; auto. split; [split; [cbn; lia|intros v Hv; cbn in Hv; lia]|]. split.
    + intros g. unfold crossings, exits. cbn. lia.
    + cbn. destruct Hw. lia.
  - destruct (cutR_convex pl p q Hw C Hc) as (Cq & Sq). specialize (Sq A).
    destruct (IH q W Cq ltac:(lia)) as (p' & E & W' & C' & S). exists p'. rn. split; auto. split; auto. split; auto. lia.
  - pose proof (Hc pl). lia.
Qed.

(** both sides of a split *)
Lemma split_convex MX pl (p o0 o1 : pol2) sd right c :
  wf2 p -> c <> 0 -> (forall v, (0 <= v < nv p)%Z -> sd v = c * sdist pl (ps (vb p) v)) ->
  (forall v, (0 <= v < nv p)%Z -> right v = true -> 0 < sdist pl (ps (vb p) v)) ->
  (forall v, (0 <= v < nv p)%Z -> right v = false -> sdist pl (ps (vb p) v) <= 0) ->
  (exists u, (0 <= u < nv p)%Z /\ right u = false) -> (exists u, (0 <= u < nv p)%Z /\ right u = true) ->
  split_result RN MX p sd right o0 o1 -> convex2 p ->
  convex2 o0 /\ convex2 o1 /\ (nv o0 <= nv p + 1)%Z /\ (nv o1 <= nv p + 1)%Z.
Proof.
  intros Hw Hc Hsd RT RF (u0 & Hu0 & R0) (u1 & Hu1 & R1) (N & b' & Ka & Kb & EN & EM & HK & HK2 & C0 & P0 & C1 & P1) Hcv. rn.
  pose proof Hw as (Hn & HL).
  assert (HR : forall u v, (0 <= u < nv p)%Z -> (0 <= v < nv p)%Z -> right u = false -> right v = true ->
    sdist pl (ps (vb p) u) <> sdist pl (ps (vb p) v)).
  { intros a b Ha Hb Ra Rb. apply RF in Ra; auto. apply RT in Rb; auto. lra. }
  assert (EA : exits 2 Ka (nb (vb p)) (nv p) = crossings (flip pl) p).
  { apply exits_ext; auto. intros v Hv. destruct (HK v Hv) as (-> & _). rewrite sdist_flip.
    destruct (right v) eqn:E; symmetry; cbn [negb].
    - apply Rleb_false. apply RT in E; auto. lra.
    - apply Rleb_true. apply RF in E; auto. lra. }
  assert (EB : exits 2 Kb (nb (vb p)) (nv p) = exits 2 Ka (nb (vb p)) (nv p)).
  { rewrite (exits_slots Kb), (exits_slots Ka) by auto.
    pose proof (exits_even Ka (nb (vb p)) (nv p) Hn HL) as X. pose proof (exits_even Kb (nb (vb p)) (nv p) Hn HL) as Y.
    rewrite exits_slots in X, Y by auto.
    enough (cnt (fun v => Kb v && negb (Kb (nb (vb p) v 0%Z))) (nv p) = cnt (fun v => Ka v && negb (Ka (nb (vb p) v 1%Z))) (nv p)) by lia.
    apply eq_IZR. rewrite !cnt_lsum by auto.
    rewrite <- (lsum_next' (nb (vb p)) (nv p) (fun v => if Ka v && negb (Ka (nb (vb p) v 1%Z)) then 1 else 0) HL).
    apply lsum_ext. intros v Hv. apply in_zrange in Hv. destruct (HL v Hv) as (A & _ & -> & _).
    destruct (HK v Hv) as (-> & ->). destruct (HK _ A) as (-> & ->). destruct (right v), (right (nb (vb p) v 0%Z)); reflexivity. }
  pose proof (Hcv (flip pl)) as Hpl.
  assert (POS : forall u v q, (0 <= u < nv p)%Z -> (0 <= v < nv p)%Z -> nb (vb p) u q = v ->
     right u = false -> right v = true -> newpos2 RN (vb p) sd u q = meet pl (ps (vb p) u) (ps (vb p) v)).
  { intros. eapply split_newpos; eauto. }
  assert (SG : forall g u v, (0 <= u < nv p)%Z -> (0 <= v < nv p)%Z -> right u = false -> right v = true ->
     let m := meet pl (ps (vb p) u) (ps (vb p) v) in
     (Rleb 0 (sdist g (ps (vb p) u)) <> Rleb 0 (sdist g m) -> Rleb 0 (sdist g (ps (vb p) v)) = Rleb 0 (sdist g m))
     /\ (Rleb 0 (sdist g (ps (vb p) v)) <> Rleb 0 (sdist g m) -> Rleb 0 (sdist g (ps (vb p) u)) = Rleb 0 (sdist g m))).
  { intros g u v Hu Hv Ru Rv m. destruct (sdist_meet' pl g (ps (vb p) u) (ps (vb p) v)) as (t & Ht & E).
    { pose proof (RF u Hu Ru). pose proof (RT v Hv Rv). lra. }
    split; [apply (sign_between g _ _ _ t); auto|apply (sign_between g _ _ _ (1 - t)); [lra|unfold m; rewrite E; ring]]. }
  split; [|split; [|split]].
  - intros g. apply (cut_crossings (fun q => Rleb 0 (sdist g q)) (vb p) b' (nv p) N Ka _ o0 HL C0 P0); [|lia|apply Hcv].
    intros v q Hv Hq Kv Kx. destruct (cut_lnk (vb p) (nv p) HL v q Hv Hq) as (Lk & _).
    destruct (HK v Hv) as (K1 & _). destruct (HK _ Lk) as (K2 & _). rewrite Kv in K1. rewrite Kx in K2.
    destruct (right v) eqn:E1; try discriminate. destruct (right (nb (vb p) v q)) eqn:E2; try discriminate.
    rewrite (POS v _ q Hv Lk eq_refl E1 E2). apply (SG g v _ Hv Lk E1 E2).
  - intros g. apply (cut_crossings (fun q => Rleb 0 (sdist g q)) (vb p) b' (nv p) N Kb _ o1 HL C1 P1); [|lia|apply Hcv].
    intros v q Hv Hq Kv Kx. destruct (cut_lnk (vb p) (nv p) HL v q Hv Hq) as (Lk & Lk').
    destruct (HK v Hv) as (_ & K1). destruct (HK _ Lk) as (_ & K2). rewrite Kv in K1. rewrite Kx in K2.
    unfold newpos2'. rn. rewrite (POS _ v (1 - q)%Z Lk Hv Lk' (eq_sym K2) (eq_sym K1)). apply (SG g _ v Lk Hv (eq_sym K2) (eq_sym K1)).
  - pose proof (cut2_size _ _ _ _ _ _ _ Hn C0 P0). destruct (HK u1 Hu1) as (K1 & _). rewrite R1 in K1.
    pose proof (cnt_lt_n Ka (nv p) u1 Hu1 K1). lia.
  - pose proof (cut2_size _ _ _ _ _ _ _ Hn C1 P1). destruct (HK u0 Hu0) as (_ & K1). rewrite R0 in K1.
    pose proof (cnt_lt_n Kb (nv p) u0 Hu0 K1). lia.
Qed.

Lemma convex2_empty (b : vbuf (rvec2 R)) : convex2 (PY b 0%Z).
Proof. intros g. unfold crossings, exits. cbn. lia. Qed.

(** [r2d_split_coord] of a convex polygon with four vertices to spare never overflows *)
Lemma split_coord_convex MX (p o : pol2) coord ax : wf2 p -> convex2 p -> (0 < nv p)%Z -> (nv p + 4 <= MX)%Z -> (0 <= ax < 2)%Z ->
  exists q0 q1, r2d_split_coord RN MX p o coord ax = OK (q0, q1)
  /\ wf2 q0 /\ wf2 q1 /\ convex2 q0 /\ convex2 q1 /\ (nv q0 <= nv p + 1)%Z /\ (nv q1 <= nv p + 1)%Z.
Proof.
  intros Hw Hc Hp HM Hax. set (pl := axis_plane ax coord). pose proof Hw as (Hn & HL).
  assert (SD : forall v, @eq R (csd RN coord ax (vb p) v) (1 * sdist pl (ps (vb p) v))).
  { intros v. unfold csd, pl. rewrite axis_sdist. unfold coordv, coordR. cbn. ring. }
  assert (RT : forall v, (0 <= v < nv p)%Z -> cright RN coord ax (vb p) v = true -> 0 < sdist pl (ps (vb p) v)).
  { intros v _. unfold cright. rewrite SD. cbn. intros X. apply Rltb_true in X. lra. }
  assert (RF : forall v, (0 <= v < nv p)%Z -> cright RN coord ax (vb p) v = false -> sdist pl (ps (vb p) v) <= 0).
  { intros v _. unfold cright. rewrite SD. cbn. intros X. apply Rltb_false in X. lra. }
  assert (W0 : forall b : vbuf (rvec2 R), wf2 (PY b 0%Z)).
  { split; [cbn; lia|]. intros v Hv. cbn in Hv. lia. }
  assert (HM4 : (nv p <= MX)%Z) by lia.
  destruct (split_coord_spec RN MX p o coord ax Hw HM4 Hax) as [(H0 & E')|[(H0 & A & E')|[(H0 & A & E')|(u & v & Hu & Hv & Ru & Rv & [(q0 & q1 & E' & S)|(E' & O)])]]];
    rn; rewrite E'; try lia.
  - exists p, (PY (vb o) 0%Z). split; auto. split; auto. split; auto. split; auto. split; [apply convex2_empty|]. cbn. lia.
  - exists (PY (vb p) 0%Z), p. split; auto. split; auto. split; auto. split; [apply convex2_empty|]. split; auto. cbn. lia.
  - destruct (split_result_wf RN MX p _ _ q0 q1 Hw S) as (X0 & X1 & _). rn.
    destruct (split_convex MX pl p q0 q1 (csd RN coord ax (vb p)) (cright RN coord ax (vb p)) 1) as (Y0 & Y1 & Y2 & Y3);
      [exact Hw|lra|intros; apply SD|exact RT|exact RF|eauto|eauto|exact S|exact Hc|].
    exists q0, q1. rn. auto 10.
  - exfalso. assert (EA : exits 2 (fun v => negb (cright RN coord ax (vb p) v)) (nb (vb p)) (nv p) = crossings (flip pl) p).
    { apply exits_ext; auto. intros w Hw'. rewrite sdist_flip.
      destruct (cright RN coord ax (vb p) w) eqn:E; symmetry; cbn [negb].
      - apply Rleb_false. apply RT in E; auto. lra.
      - apply Rleb_true. apply RF in E; auto. lra. }
    rn. rewrite EA in O. pose proof (Hc (flip pl)). lia.
Qed.
