(** * NearN: truncation of polytopes with shrunken edges, and the hull of the result. *)
From Coq Require Import Reals ZArith List Bool Lia Lra Psatz.
From Verif Require Import Base Lib SumR SpecN SpecNC PolyN TruncN.
Import ListNotations.
Open Scope R_scope.

(** ** bounds *)
Lemma Rabs_le_inv x r : Rabs x <= r -> - r <= x <= r.
Proof. unfold Rabs. destruct (Rcase_abs x); lra. Qed.
Lemma lsum_ge {A} (l : list A) f a : (forall b, In b l -> 0 <= f b) -> In a l -> f a <= lsum l f.
Proof.
  induction l as [|b r IH]; intros P I; [destruct I|]. cbn [lsum]. assert (0 <= lsum r f) by (apply lsum_nonneg; intros; apply P; now right).
  destruct I as [->|I]; [lra|]. assert (f a <= lsum r f) by (apply IH; auto; intros; apply P; now right). assert (0 <= f b) by (apply P; now left). lra.
Qed.
Definition wt (D : Z) (c : Z -> R) : R := lsum (zrange D) (fun k => Rabs (c k)).
Lemma wt_nonneg D c : 0 <= wt D c. Proof. apply lsum_nonneg. intros. apply Rabs_pos. Qed.
Lemma lin_close D c0 c x y d : (forall k, (0 <= k < D)%Z -> Rabs (x k - y k) <= d) -> Rabs (linN D c0 c x - linN D c0 c y) <= wt D c * d.
Proof.
  intros H. rewrite !(linN_split D c0). replace (c0 + linN D 0 c x - (c0 + linN D 0 c y)) with (linN D 0 c (fun k => x k - y k)) by (rewrite lin_sub; lra).
  unfold linN, wt. rewrite Rplus_0_l.
  assert (G : forall l, (forall k, In k l -> (0 <= k < D)%Z) -> Rabs (lsum l (fun i => c i * (x i - y i))) <= lsum l (fun k => Rabs (c k)) * d); [|apply G; intros k; apply in_zrange].
  induction l as [|a r IH]; intros P; cbn [lsum]; [rewrite Rabs_R0; lra|].
  eapply Rle_trans; [apply Rabs_triang|]. rewrite Rabs_mult. assert (Rabs (x a - y a) <= d) by (apply H, P; now left).
  assert (Rabs (lsum r (fun i => c i * (x i - y i))) <= lsum r (fun k => Rabs (c k)) * d) by (apply IH; intros; apply P; now right).
  pose proof (Rabs_pos (c a)). nra.
Qed.
Lemma point_bound D n (p : Z -> Z -> R) : exists R, 0 < R /\ forall v k, upto n v -> (0 <= k < D)%Z -> Rabs (p v k) <= R.
Proof.
  exists (1 + lsum (zrange n) (fun v => lsum (zrange D) (fun k => Rabs (p v k)))).
  assert (P : forall v, 0 <= lsum (zrange D) (fun k => Rabs (p v k))) by (intros; apply lsum_nonneg; intros; apply Rabs_pos). split.
  - assert (0 <= lsum (zrange n) (fun v => lsum (zrange D) (fun k => Rabs (p v k)))) by (apply lsum_nonneg; auto). lra.
  - intros v k Hv Hk. assert (Rabs (p v k) <= lsum (zrange D) (fun k => Rabs (p v k))) by (apply (lsum_ge (zrange D) (fun k => Rabs (p v k))); [intros; apply Rabs_pos|now apply in_zrange]).
    assert (lsum (zrange D) (fun k => Rabs (p v k)) <= lsum (zrange n) (fun v => lsum (zrange D) (fun k => Rabs (p v k)))) by (apply (lsum_ge (zrange n) (fun v => lsum (zrange D) (fun k => Rabs (p v k)))); [auto|now apply in_zrange]). lra.
Qed.
Lemma finite_choice {A} (a0 : A) n (P : Z -> A -> Prop) : (0 <= n)%Z -> (forall u, upto n u -> exists x, P u x) -> exists F, forall u, upto n u -> P u (F u).
Proof.
  intros Hn. pattern n. apply zrange_ind; auto.
  - intros _. exists (fun _ => a0). unfold upto. intros; lia.
  - intros m Hm IH H. destruct IH as (F & HF); [intros; apply H; unfold upto in *; lia|]. destruct (H m) as (x & Hx); [unfold upto; lia|].
    exists (upd F m x). intros u Hu. destruct (Z.eq_dec u m) as [->|]; [now rewrite upd_eq|]. rewrite upd_neq by auto. apply HF. unfold upto in *; lia.
Qed.

(** the weighted mean moves little *)
Lemma mean_close pv pw qv qw a b a' b' m R e d : 0 <= a -> m <= b -> 0 < m -> 0 < a' -> m / 2 <= b' ->
  Rabs (a' - a) <= e -> Rabs (b' - b) <= e -> Rabs pv <= R -> Rabs pw <= R -> Rabs (qv - pv) <= d -> Rabs (qw - pw) <= d ->
  Rabs ((qw * a' + qv * b') / (a' + b') - (pw * a + pv * b) / (a + b)) <= d + 8 * e * R / m.
Proof.
  intros Ha Hb Hm Ha' Hb' Ea Eb Rv Rw Dv Dw. set (N := (pw * a + pv * b) / (a + b)).
  assert (S : 0 < a' + b') by lra. assert (S0 : 0 < a + b) by lra.
  assert (EN : (pw - N) * a + (pv - N) * b = 0) by (unfold N; field; lra).
  assert (E : (qw * a' + qv * b') / (a' + b') - N = ((qw - pw) * a' + (qv - pv) * b' + (pw - N) * (a' - a) + (pv - N) * (b' - b)) / (a' + b')).
  { apply (Rmult_eq_reg_r (a' + b')); [|lra]. unfold Rdiv. rewrite Rmult_minus_distr_r, !Rmult_assoc, Rinv_l by lra. nra. }
  rewrite E.
  assert (BN : Rabs N <= R).
  { unfold N. apply Rabs_le. apply Rabs_le_inv in Rv. apply Rabs_le_inv in Rw. 
    split; apply (Rmult_le_reg_r (a + b)); auto; unfold Rdiv; rewrite Rmult_assoc, Rinv_l by lra; nra. }
  assert (B1 : Rabs (pw - N) <= 2 * R) by (unfold Rminus; eapply Rle_trans; [apply Rabs_triang|]; rewrite Rabs_Ropp; lra).
  assert (B2 : Rabs (pv - N) <= 2 * R) by (unfold Rminus; eapply Rle_trans; [apply Rabs_triang|]; rewrite Rabs_Ropp; lra).
  unfold Rdiv at 1. rewrite Rabs_mult, (Rabs_right (/ (a' + b'))) by (left; now apply Rinv_0_lt_compat).
  assert (R0 : 0 <= R) by (eapply Rle_trans; [apply Rabs_pos|exact Rv]). assert (e0 : 0 <= e) by (eapply Rle_trans; [apply Rabs_pos|exact Ea]). assert (d0 : 0 <= d) by (eapply Rle_trans; [apply Rabs_pos|exact Dv]).
  assert (NUM : Rabs ((qw - pw) * a' + (qv - pv) * b' + (pw - N) * (a' - a) + (pv - N) * (b' - b)) <= d * (a' + b') + 4 * R * e).
  { eapply Rle_trans; [apply Rabs_triang|]. assert (Rabs ((pv - N) * (b' - b)) <= 2 * R * e) by (rewrite Rabs_mult; apply Rmult_le_compat; auto using Rabs_pos).
    assert (Rabs ((qw - pw) * a' + (qv - pv) * b' + (pw - N) * (a' - a)) <= d * (a' + b') + 2 * R * e); [|lra].
    eapply Rle_trans; [apply Rabs_triang|]. assert (Rabs ((pw - N) * (a' - a)) <= 2 * R * e) by (rewrite Rabs_mult; apply Rmult_le_compat; auto using Rabs_pos).
    assert (Rabs ((qw - pw) * a' + (qv - pv) * b') <= d * (a' + b')); [|lra].
    eapply Rle_trans; [apply Rabs_triang|]. rewrite !Rabs_mult, (Rabs_right a'), (Rabs_right b') by lra. nra. }
  apply (Rmult_le_reg_r (a' + b')); auto. rewrite Rmult_assoc, Rinv_l, Rmult_1_r by lra.
  eapply Rle_trans; [exact NUM|]. rewrite Rmult_plus_distr_r. apply Rplus_le_compat_l.
  assert (0 <= R * e / m) by (apply Rmult_le_pos; [nra|left; now apply Rinv_0_lt_compat]).
  assert (R * e = (R * e / m) * m) by (field; lra). replace (8 * e * R / m) with (8 * (R * e / m)) by (field; lra). nra.
Qed.

(** a multiplier for the new half-space *)
Lemma multiplier D n nf nh f bk h fd p l0 l keep s0 s c0 c v0 : (1 <= D)%Z ->
  cells D (upto n) nf nh f bk h fd -> realized D n nh h p l0 l ->
  let S x := linN D s0 s x in let phi x := linN D c0 c x in
  (forall v, upto n v -> keep v = true -> 0 < S (p v)) -> (forall v, upto n v -> keep v = false -> S (p v) < 0) ->
  upto n v0 -> keep v0 = true ->
  (forall v, upto n v -> keep v = true -> 0 <= phi (p v)) ->
  (forall v i, upto n v -> (0 <= i < D)%Z -> keep v = true -> keep (f v i) = false -> 0 <= phi (p (f v i)) * S (p v) - phi (p v) * S (p (f v i))) ->
  exists t, 0 <= t /\ t * S (p v0) <= phi (p v0) /\ forall v, upto n v -> t * S (p v) <= phi (p v).
Proof.
  intros HD C Q S phi Kt Kf Hv0 K0 Po Pn.
  destruct (least_vertex n (fun v => if keep v then phi (p v) / S (p v) else phi (p v0) / S (p v0) + 1) ltac:(unfold upto in Hv0; lia)) as (v & Hv & M).
  assert (K : keep v = true).
  { destruct (keep v) eqn:K; auto. pose proof (M v0 Hv0) as X. cbv beta in X. rewrite K0 in X. lra. }
  set (t := phi (p v) / S (p v)).
  assert (Mk : forall w, upto n w -> keep w = true -> t * S (p w) <= phi (p w)).
  { intros w Hw Kw. pose proof (M w Hw) as X. cbv beta in X. rewrite K, Kw in X. fold t in X. pose proof (Kt w Hw Kw).
    replace (phi (p w)) with (phi (p w) / S (p w) * S (p w)) by (field; lra). apply Rmult_le_compat_r; lra. }
  pose proof (Kt v Hv K) as Sv. assert (Ev : t * S (p v) = phi (p v)) by (unfold t; field; lra).
  exists t. split; [apply Rmult_le_pos; [auto|left; now apply Rinv_0_lt_compat]|]. split; [auto|].
  assert (LIN : forall x, linN D (c0 - t * s0) (fun k => c k - t * s k) x = phi x - t * S x).
  { intros x. unfold phi, S. unfold linN. rewrite (lsum_ext _ _ (fun i => c i * x i - t * (s i * x i))) by (intros; lra). rewrite lsum_sub, lsum_scal. lra. }
  intros u Hu.
  assert (X : linN D (c0 - t * s0) (fun k => c k - t * s k) (p v) <= linN D (c0 - t * s0) (fun k => c k - t * s k) (p u)).
  { apply (local_min D n nf nh f bk h fd p l0 l C Q); auto.
    - intros i Hi. pose proof (ce_f _ _ _ _ _ _ _ _ C v i Hv Hi) as (Hw & _). rewrite !LIN. destruct (keep (f v i)) eqn:Ki.
      + specialize (Mk _ Hw Ki). lra.
      + specialize (Pn v i Hv Hi K Ki). pose proof (Kf _ Hw Ki). rewrite <- Ev in Pn. nra.
    - intros i Hi. apply (facet_nonneg D n nh h p l0 l Q); auto. apply (ce_h _ _ _ _ _ _ _ _ C); auto. }
  rewrite !LIN in X. lra.
Qed.

(** a polytope with nearby realizations that have the property [O] *)
Definition near_polytope (O : (Z -> Z -> R) -> (Z -> R) -> (Z -> Z -> R) -> Prop) (D n nh : Z) (h : Z -> Z -> Z) (p : Z -> Z -> R) : Prop :=
  forall d, 0 < d -> exists q l0 l, realized D n nh h q l0 l /\ O q l0 l /\ forall v k, upto n v -> (0 <= k < D)%Z -> Rabs (q v k - p v k) < d.
Lemma polytope_near D n nh h p : polytope D n nh h p <-> near_polytope (fun _ _ _ => True) D n nh h p.
Proof. split; intros P d Hd; [destruct (P d Hd) as (q & l0 & l & Q & N)|destruct (P d Hd) as (q & l0 & l & Q & _ & N)]; exists q, l0, l; auto. Qed.
Lemma near_polytope_any O D n nh h p : near_polytope O D n nh h p -> polytope D n nh h p.
Proof. intros P d Hd. destruct (P d Hd) as (q & l0 & l & Q & _ & N); exists q, l0, l; auto. Qed.

(** a nearby realization and a nearby half-space with no vertex on its boundary *)
Lemma perturb_le O D n nh h p s0 s keep : (0 <= n)%Z -> near_polytope O D n nh h p ->
  let S x := linN D s0 s x in
  (forall v, upto n v -> keep v = true -> 0 <= S (p v)) -> (forall v, upto n v -> keep v = false -> S (p v) < 0) ->
  forall d, 0 < d -> exists q l0 l e, realized D n nh h q l0 l /\ O q l0 l /\ Rabs e < d
    /\ (forall v k, upto n v -> (0 <= k < D)%Z -> Rabs (q v k - p v k) < d)
    /\ (forall v, upto n v -> keep v = true -> 0 < linN D (s0 + e) s (q v)) /\ (forall v, upto n v -> keep v = false -> linN D (s0 + e) s (q v) < 0)
    /\ (forall v, upto n v -> Rabs (linN D (s0 + e) s (q v) - S (p v)) < d)
    /\ forall v w k, upto n v -> upto n w -> keep v = true -> keep w = false -> (0 <= k < D)%Z ->
         Rabs ((q w k * linN D (s0 + e) s (q v) - q v k * linN D (s0 + e) s (q w)) / (linN D (s0 + e) s (q v) - linN D (s0 + e) s (q w))
             - (p w k * S (p v) - p v k * S (p w)) / (S (p v) - S (p w))) < d.
Proof.
  intros Hn P S Kt Kf d Hd.
  destruct (point_bound D n p) as (R & HR & BR).
  assert (exists m, 0 < m /\ forall v, upto n v -> keep v = false -> S (p v) <= - m) as (m & Hm & Bm).
  { destruct (Z.eq_dec n 0) as [->|N0]; [exists 1; split; [lra|unfold upto; intros; lia]|].
    destruct (least_vertex n (fun v => if keep v then 1 else - S (p v)) ltac:(lia)) as (v & Hv & M).
    exists (if keep v then 1 else - S (p v)). split.
    - destruct (keep v) eqn:K; [lra|]. specialize (Kf v Hv K). lra.
    - intros w Hw Kw. specialize (M w Hw). cbv beta in M. rewrite Kw in M. lra. }
  set (B := wt D s + 1). assert (HB : 0 < B) by (unfold B; pose proof (wt_nonneg D s); lra).
  set (e := Rmin (d / 4) (Rmin (m / 4) (d * m / (32 * R)))).
  assert (HM : 0 < d * m / (32 * R)) by (apply Rdiv_lt_0_compat; [apply Rmult_lt_0_compat; auto|lra]).
  assert (He : 0 < e) by (unfold e; repeat apply Rmin_glb_lt; lra).
  assert (E1 : e <= d / 4) by apply Rmin_l. assert (E2 : e <= m / 4) by (eapply Rle_trans; [apply Rmin_r|apply Rmin_l]).
  assert (E3 : e <= d * m / (32 * R)) by (eapply Rle_trans; [apply Rmin_r|apply Rmin_r]).
  set (d1 := Rmin (d / 4) (e / (2 * B))).
  assert (Hd1 : 0 < d1) by (unfold d1; apply Rmin_glb_lt; [lra|]; apply Rdiv_lt_0_compat; lra).
  assert (F1 : d1 <= d / 4) by apply Rmin_l.
  assert (F2 : B * d1 <= e / 2).
  { apply Rle_trans with (B * (e / (2 * B))); [apply Rmult_le_compat_l; [lra|apply Rmin_r]|]. right. field. lra. }
  destruct (P d1 Hd1) as (q & l0 & l & Q & O1 & N). exists q, l0, l, e. split; auto. split; auto. split; [rewrite Rabs_right; lra|].
  split; [intros v k Hv Hk; specialize (N v k Hv Hk); lra|].
  assert (CL : forall v, upto n v -> Rabs (linN D (s0 + e) s (q v) - (S (p v) + e)) <= e / 2).
  { intros v Hv. unfold S. rewrite !(linN_split D (s0 + e)), (linN_split D s0). replace (s0 + e + linN D 0 s (q v) - (s0 + linN D 0 s (p v) + e)) with (linN D 0 s (q v) - linN D 0 s (p v)) by lra.
    eapply Rle_trans; [apply (lin_close D 0 s (q v) (p v) d1)|].
    - intros k Hk. left. apply N; auto.
    - apply Rle_trans with (B * d1); auto. apply Rmult_le_compat_r; [lra|]. unfold B. lra. }
  assert (CL2 : forall v, upto n v -> Rabs (linN D (s0 + e) s (q v) - S (p v)) <= 2 * e).
  { intros v Hv. pose proof (Rabs_le_inv _ _ (CL v Hv)). apply Rabs_le. lra. }
  assert (K1 : forall v, upto n v -> keep v = true -> 0 < linN D (s0 + e) s (q v)).
  { intros v Hv K. pose proof (Rabs_le_inv _ _ (CL v Hv)). specialize (Kt v Hv K). lra. }
  assert (K2 : forall v, upto n v -> keep v = false -> linN D (s0 + e) s (q v) <= - (m / 2)).
  { intros v Hv K. pose proof (Rabs_le_inv _ _ (CL v Hv)). specialize (Bm v Hv K). lra. }
  split; auto. split; [intros v Hv K; specialize (K2 v Hv K); lra|].
  split; [intros v Hv; specialize (CL2 v Hv); lra|].
  intros v w k Hv Hw K K' Hk.
  set (a' := linN D (s0 + e) s (q v)). set (b' := - linN D (s0 + e) s (q w)).
  replace (linN D (s0 + e) s (q w)) with (- b') by (unfold b'; lra). set (a := S (p v)). set (b := - S (p w)). replace (S (p w)) with (- b) by (unfold b; lra).
  replace (q w k * a' - q v k * - b') with (q w k * a' + q v k * b') by lra. replace (a' - - b') with (a' + b') by lra.
  replace (p w k * a - p v k * - b) with (p w k * a + p v k * b) by lra. replace (a - - b) with (a + b) by lra.
  eapply Rle_lt_trans; [apply (mean_close (p v k) (p w k) (q v k) (q w k) a b a' b' m R (2 * e) d1)|].
  - apply Kt; auto.
  - specialize (Bm w Hw K'). unfold b. lra.
  - auto.
  - apply K1; auto.
  - specialize (K2 w Hw K'). unfold b'. lra.
  - apply CL2; auto.
  - unfold b', b. replace (- linN D (s0 + e) s (q w) - - S (p w)) with (- (linN D (s0 + e) s (q w) - S (p w))) by lra. rewrite Rabs_Ropp. apply CL2; auto.
  - auto.
  - auto.
  - left; auto.
  - left; auto.
  - assert (8 * (2 * e) * R / m <= d / 2); [|lra].
    apply (Rmult_le_reg_r m); auto. unfold Rdiv. rewrite Rmult_assoc, Rinv_l, Rmult_1_r by lra.
    assert (X : e * (32 * R) <= d * m / (32 * R) * (32 * R)) by (apply Rmult_le_compat_r; lra).
    unfold Rdiv in X. rewrite Rmult_assoc, Rinv_l, Rmult_1_r in X by lra. lra.
Qed.

(** the same when the kept vertices are strictly inside and the others may be on the boundary *)
Lemma perturb O D n nh h p s0 s keep : (0 <= n)%Z -> near_polytope O D n nh h p ->
  let S x := linN D s0 s x in
  (forall v, upto n v -> keep v = true -> 0 <= S (p v)) -> (forall v, upto n v -> keep v = false -> S (p v) <= 0) ->
  ((forall v, upto n v -> keep v = true -> 0 < S (p v)) \/ (forall v, upto n v -> keep v = false -> S (p v) < 0)) ->
  forall d, 0 < d -> exists q l0 l e, realized D n nh h q l0 l /\ O q l0 l /\ Rabs e < d
    /\ (forall v k, upto n v -> (0 <= k < D)%Z -> Rabs (q v k - p v k) < d)
    /\ (forall v, upto n v -> keep v = true -> 0 < linN D (s0 + e) s (q v)) /\ (forall v, upto n v -> keep v = false -> linN D (s0 + e) s (q v) < 0)
    /\ (forall v, upto n v -> Rabs (linN D (s0 + e) s (q v) - S (p v)) < d)
    /\ forall v w k, upto n v -> upto n w -> keep v = true -> keep w = false -> (0 <= k < D)%Z ->
         Rabs ((q w k * linN D (s0 + e) s (q v) - q v k * linN D (s0 + e) s (q w)) / (linN D (s0 + e) s (q v) - linN D (s0 + e) s (q w))
             - (p w k * S (p v) - p v k * S (p w)) / (S (p v) - S (p w))) < d.
Proof.
  intros Hn P S Kt Kf [KS|KS] d Hd; [|apply perturb_le; auto].
  assert (NEG : forall c x, linN D (- c) (fun k => - s k) x = - linN D c s x).
  { intros c x. unfold linN. rewrite (lsum_ext _ _ (fun i => (-1) * (s i * x i))) by (intros; lra). rewrite lsum_scal. lra. }
  destruct (perturb_le O D n nh h p (- s0) (fun k => - s k) (fun v => negb (keep v)) Hn P) with (d := d) as (q & l0 & l & e & Q & O1 & He & N & K1 & K2 & SD & NW); auto.
  { intros v Hv K. apply negb_true_iff in K. rewrite NEG. specialize (Kf v Hv K). fold (S (p v)). lra. }
  { intros v Hv K. apply negb_false_iff in K. rewrite NEG. specialize (KS v Hv K). fold (S (p v)). lra. }
  assert (NE : forall x, linN D (- s0 + e) (fun k => - s k) x = - linN D (s0 + - e) s x) by (intros; rewrite <- NEG; f_equal; lra).
  exists q, l0, l, (- e). split; auto. split; auto. split; [rewrite Rabs_Ropp; auto|]. split; auto.
  split; [intros v Hv K; specialize (K2 v Hv); rewrite NE in K2; assert (negb (keep v) = false) as X by (now rewrite K); specialize (K2 X); lra|].
  split; [intros v Hv K; specialize (K1 v Hv); rewrite NE in K1; assert (negb (keep v) = true) as X by (now rewrite K); specialize (K1 X); lra|].
  split.
  { intros v Hv. specialize (SD v Hv). rewrite NE, NEG in SD. fold (S (p v)) in SD. rewrite <- Rabs_Ropp. match goal with |- Rabs ?X < _ => replace X with (- linN D (s0 + - e) s (q v) - - S (p v)) by lra end. auto. }
  intros v w k Hv Hw K K' Hk. assert (A : negb (keep w) = true) by now rewrite K'. assert (B : negb (keep v) = false) by now rewrite K.
  specialize (NW w v k Hw Hv A B Hk). rewrite !NE, !NEG in NW. fold (S (p v)) (S (p w)) in NW.
  pose proof (K1 w Hw A) as D1. rewrite NE in D1. pose proof (K2 v Hv B) as D2. rewrite NE in D2. pose proof (KS v Hv K). pose proof (Kf w Hw K').
  replace ((q w k * linN D (s0 + - e) s (q v) - q v k * linN D (s0 + - e) s (q w)) / (linN D (s0 + - e) s (q v) - linN D (s0 + - e) s (q w)))
    with ((q v k * - linN D (s0 + - e) s (q w) - q w k * - linN D (s0 + - e) s (q v)) / (- linN D (s0 + - e) s (q w) - - linN D (s0 + - e) s (q v))) by (field; lra).
  replace ((p w k * S (p v) - p v k * S (p w)) / (S (p v) - S (p w))) with ((p v k * - S (p w) - p w k * - S (p v)) / (- S (p w) - - S (p v))) by (field; lra). auto.
Qed.

(** ** Cutting a polytope *)
Section Cut.
Context (D n nf nh : Z) (f bk h : Z -> Z -> Z) (fd : Z -> Z -> Z -> Z).
Hypothesis HD : (1 <= D)%Z.
Hypothesis Hn : (0 <= n)%Z.
Hypothesis C : cells D (upto n) nf nh f bk h fd.
Context (keep : Z -> bool) (n' : Z) (ov : Z -> Z) (nw : Z -> Z -> Z).
Hypothesis Hn' : (0 <= n')%Z.
Hypothesis TR : tverts D n keep f n' ov nw.
Context (h' : Z -> Z -> Z).
Hypothesis HO : forall v i, upto n v -> keep v = true -> (0 <= i < D)%Z -> h' (ov v) i = h v i.
Hypothesis H0 : forall v i, upto n v -> (0 <= i < D)%Z -> keep v = true -> keep (f v i) = false ->
  new_slots D nh h v i (h' (nw v i)).
Context (p p' : Z -> Z -> R) (s0 : R) (s : Z -> R).
Context (O : (Z -> Z -> R) -> (Z -> R) -> (Z -> Z -> R) -> Prop).
Hypothesis P : near_polytope O D n nh h p.
Notation S x := (linN D s0 s x).
Hypothesis Kt : forall v, upto n v -> keep v = true -> 0 <= S (p v).
Hypothesis Kf : forall v, upto n v -> keep v = false -> S (p v) <= 0.
Hypothesis KS : (forall v, upto n v -> keep v = true -> 0 < S (p v)) \/ (forall v, upto n v -> keep v = false -> S (p v) < 0).
Hypothesis M : mixed D n f keep ov nw (fun v => S (p v)) p p'.
Notation U := (upto n).
Notation I i := (0 <= i < D)%Z.

(** positions for the perturbed vertices *)
Lemma mixed_exists q sd : exists q', mixed D n f keep ov nw sd q q'.
Proof.
  destruct (finite_choice (fun _ : Z => 0) n' (fun u x =>
      (forall v k, U v -> keep v = true -> I k -> u = ov v -> x k = q v k)
      /\ forall v i k, U v -> I i -> I k -> keep v = true -> keep (f v i) = false -> u = nw v i ->
           x k = (q (f v i) k * sd v - q v k * sd (f v i)) / (sd v - sd (f v i)))) as (q' & Hq); auto.
  - intros u Hu. destruct (tv_all _ _ _ _ _ _ _ TR u Hu) as [(v & Hv & K & ->)|(v & i & Hv & Hi & K & K' & ->)].
    + exists (q v). split.
      * intros w k Hw Kw Hk E. apply (tv_oinj _ _ _ _ _ _ _ TR) in E; auto. now subst.
      * intros w j k Hw Hj Hk Kw Kw' E. exfalso. revert E. apply (tv_on _ _ _ _ _ _ _ TR); auto.
    + exists (fun k => (q (f v i) k * sd v - q v k * sd (f v i)) / (sd v - sd (f v i))). split.
      * intros w k Hw Kw Hk E. exfalso. symmetry in E. revert E. apply (tv_on _ _ _ _ _ _ _ TR); auto.
      * intros w j k Hw Hj Hk Kw Kw' E. apply (tv_ninj _ _ _ _ _ _ _ TR) in E; auto. destruct E as (-> & ->). auto.
  - exists q'. split.
    + intros v k Hv K Hk. apply (Hq (ov v)); auto. apply (tv_old _ _ _ _ _ _ _ TR); auto.
    + intros v i k Hv Hi Hk K K'. apply (Hq (nw v i)); auto. apply (tv_new _ _ _ _ _ _ _ TR); auto.
Qed.

Lemma trunc_near d : 0 < d -> exists q l0 l e q', realized D n nh h q l0 l /\ O q l0 l /\ Rabs e < d
    /\ (forall v k, U v -> I k -> Rabs (q v k - p v k) < d)
    /\ (forall v, U v -> keep v = true -> 0 < linN D (s0 + e) s (q v)) /\ (forall v, U v -> keep v = false -> linN D (s0 + e) s (q v) < 0)
    /\ (forall v, U v -> Rabs (linN D (s0 + e) s (q v) - S (p v)) < d)
    /\ mixed D n f keep ov nw (fun v => linN D (s0 + e) s (q v)) q q'
    /\ forall u k, upto n' u -> I k -> Rabs (q' u k - p' u k) < d.
Proof.
  intros Hd. destruct (perturb O D n nh h p s0 s keep Hn P Kt Kf KS d Hd) as (q & l0 & l & e & Q & O1 & He & N & K1 & K2 & SD & NW).
  destruct (mixed_exists q (fun v => linN D (s0 + e) s (q v))) as (q' & M').
  exists q, l0, l, e, q'. do 8 (split; auto). intros u k Hu Hk. destruct M as (M1 & M2), M' as (M1' & M2').
  destruct (tv_all _ _ _ _ _ _ _ TR u Hu) as [(v & Hv & K & ->)|(v & i & Hv & Hi & K & K' & ->)].
  - rewrite M1, M1' by auto. auto.
  - rewrite M2, M2' by auto. apply NW; auto. apply (ce_f _ _ _ _ _ _ _ _ C); auto.
Qed.

Theorem trunc_near_polytope (O' : (Z -> Z -> R) -> (Z -> R) -> (Z -> Z -> R) -> Prop) :
  (forall q l0 l e q', realized D n nh h q l0 l -> O q l0 l -> (forall v, U v -> keep v = true -> 0 < linN D (s0 + e) s (q v)) ->
     (forall v, U v -> keep v = false -> linN D (s0 + e) s (q v) < 0) -> mixed D n f keep ov nw (fun v => linN D (s0 + e) s (q v)) q q' ->
     O' q' (l0' nh l0 (s0 + e)) (l' nh l s)) -> near_polytope O' D n' (nh + 1) h' p'.
Proof.
  intros HO' d Hd. destruct (trunc_near d Hd) as (q & l0 & l & e & q' & Q & O1 & He & N & K1 & K2 & SD & M' & N').
  exists q', (l0' nh l0 (s0 + e)), (l' nh l s). split; [eapply trunc_realized; eauto|]. split; auto.
  eapply HO'; eauto.
Qed.
Theorem trunc_polytope : polytope D n' (nh + 1) h' p'.
Proof. apply polytope_near. apply trunc_near_polytope. auto. Qed.

(** the new vertices are convex combinations *)
Lemma new_in_hull c0 c : (forall v, U v -> 0 <= linN D c0 c (p v)) -> forall u, upto n' u -> 0 <= linN D c0 c (p' u).
Proof.
  intros H u Hu. destruct M as (M1 & M2). destruct (tv_all _ _ _ _ _ _ _ TR u Hu) as [(v & Hv & K & ->)|(v & i & Hv & Hi & K & K' & ->)].
  - rewrite (linN_ext D c0 c _ (p v)) by (intros; apply M1; auto). auto.
  - assert (Hw : U (f v i)) by (apply (ce_f _ _ _ _ _ _ _ _ C); auto). pose proof (Kt v Hv K). pose proof (Kf _ Hw K'). assert (0 < S (p v) - S (p (f v i))) by (destruct KS as [X|X]; [pose proof (X v Hv K)|pose proof (X _ Hw K')]; lra).
    rewrite (linN_ext D c0 c _ (fun k => (p (f v i) k * S (p v) - p v k * S (p (f v i))) / (S (p v) - S (p (f v i))))) by (intros; apply M2; auto).
    rewrite linN_comb by lra. apply Rmult_le_pos; [|left; apply Rinv_0_lt_compat; lra]. pose proof (H v Hv). pose proof (H (f v i) Hw). nra.
Qed.
Lemma new_half u : upto n' u -> 0 <= S (p' u).
Proof.
  intros Hu. destruct M as (M1 & M2). destruct (tv_all _ _ _ _ _ _ _ TR u Hu) as [(v & Hv & K & ->)|(v & i & Hv & Hi & K & K' & ->)].
  - rewrite (linN_ext D s0 s _ (p v)) by (intros; apply M1; auto). auto.
  - assert (Hw : U (f v i)) by (apply (ce_f _ _ _ _ _ _ _ _ C); auto). pose proof (Kt v Hv K). pose proof (Kf _ Hw K'). assert (0 < S (p v) - S (p (f v i))) by (destruct KS as [X|X]; [pose proof (X v Hv K)|pose proof (X _ Hw K')]; lra).
    rewrite (linN_ext D s0 s _ (fun k => (p (f v i) k * S (p v) - p v k * S (p (f v i))) / (S (p v) - S (p (f v i))))) by (intros; apply M2; auto).
    rewrite linN_comb by lra. replace (S (p (f v i)) * S (p v) - S (p v) * S (p (f v i))) with 0 by lra. unfold Rdiv. lra.
Qed.

Lemma near_zero a B d0 : 0 < d0 -> (forall d, 0 < d < d0 -> - (B * d) <= a) -> 0 <= a.
Proof.
  intros Hd H. destruct (Rle_lt_dec 0 a) as [|X]; auto. exfalso.
  set (B' := Rmax B 1). assert (1 <= B') by apply Rmax_r. assert (B <= B') by apply Rmax_l.
  set (d := Rmin (d0 / 2) (- a / (2 * B'))). assert (0 < d) by (unfold d; apply Rmin_glb_lt; [lra|apply Rdiv_lt_0_compat; lra]).
  assert (d <= d0 / 2) by apply Rmin_l. assert (B' * d <= - a / 2).
  { apply Rle_trans with (B' * (- a / (2 * B'))); [apply Rmult_le_compat_l; [lra|apply Rmin_r]|]. right. field. lra. }
  specialize (H d ltac:(lra)). nra.
Qed.

Theorem trunc_hull x v0 : U v0 -> 0 < S (p v0) -> hullN D n' p' x <-> hullN D n p x /\ 0 <= S x.
Proof.
  intros Hv0 Sv0. assert (K0 : keep v0 = true) by (destruct (keep v0) eqn:K; auto; specialize (Kf v0 Hv0 K); lra).
  split.
  - intros H. split.
    + intros c0 c A. apply H. intros u Hu. apply new_in_hull; auto.
    + apply (H s0 s). intros u Hu. apply new_half; auto.
  - intros (H & Sx) c0 c A. unfold halfN in *.
    set (B := wt D c). assert (HB : 0 <= B) by apply wt_nonneg.
    set (T := 2 * (linN D c0 c (p v0) + 2 * B) / S (p v0)).
    apply (near_zero _ (2 * B + T) (Rmin 1 (S (p v0) / 2))); [apply Rmin_glb_lt; lra|].
    intros d (Hd & Hd'). assert (d < 1) by (eapply Rlt_le_trans; [exact Hd'|apply Rmin_l]). assert (d < S (p v0) / 2) by (eapply Rlt_le_trans; [exact Hd'|apply Rmin_r]).
    destruct (trunc_near d Hd) as (q & l0 & l & e & q' & Q & O1 & He & N & K1 & K2 & SD & M' & N').
    assert (CQ : forall v, U v -> Rabs (linN D c0 c (q v) - linN D c0 c (p v)) <= B * d) by (intros; apply lin_close; intros; left; apply N; auto).
    assert (CQ' : forall u, upto n' u -> Rabs (linN D c0 c (q' u) - linN D c0 c (p' u)) <= B * d) by (intros; apply lin_close; intros; left; apply N'; auto).
    assert (SH : forall y, linN D (c0 + B * d) c y = linN D c0 c y + B * d) by (intros; unfold linN; lra).
    assert (A' : forall u, upto n' u -> 0 <= linN D (c0 + B * d) c (q' u)).
    { intros u Hu. rewrite SH. pose proof (Rabs_le_inv _ _ (CQ' u Hu)). specialize (A u Hu). lra. }
    destruct M' as (M1 & M2).
    destruct (multiplier D n nf nh f bk h fd q l0 l keep (s0 + e) s (c0 + B * d) c v0 HD C Q K1 K2 Hv0 K0) as (t & Ht & Ht0 & MU).
    { intros v Hv K. rewrite <- (linN_ext D _ c (q' (ov v))) by (intros; apply M1; auto). apply A'. apply (tv_old _ _ _ _ _ _ _ TR); auto. }
    { intros v i Hv Hi K K'. pose proof (tv_new _ _ _ _ _ _ _ TR v i Hv Hi K K') as Hu. specialize (A' _ Hu).
      assert (Hw : U (f v i)) by (apply (ce_f _ _ _ _ _ _ _ _ C); auto). pose proof (K1 v Hv K). pose proof (K2 _ Hw K').
      rewrite (linN_ext D _ c _ (fun k => (q (f v i) k * linN D (s0 + e) s (q v) - q v k * linN D (s0 + e) s (q (f v i))) / (linN D (s0 + e) s (q v) - linN D (s0 + e) s (q (f v i))))) in A' by (intros; apply M2; auto).
      rewrite linN_comb in A' by lra. set (den := linN D (s0 + e) s (q v) - linN D (s0 + e) s (q (f v i))) in *. assert (0 < den) by (unfold den; lra).
      match type of A' with 0 <= ?X / den => replace X with (X / den * den) by (field; lra) end. apply Rmult_le_pos; lra. }
    (* bound on the multiplier *)
    assert (TB : t <= T).
    { pose proof (Rabs_le_inv _ _ (Rlt_le _ _ (SD v0 Hv0))). rewrite SH in Ht0. pose proof (Rabs_le_inv _ _ (CQ v0 Hv0)).
      unfold T. apply (Rmult_le_reg_r (S (p v0) / 2)); [lra|].
      replace (2 * (linN D c0 c (p v0) + 2 * B) / S (p v0) * (S (p v0) / 2)) with (linN D c0 c (p v0) + 2 * B) by (field; lra).
      assert (t * (S (p v0) / 2) <= t * linN D (s0 + e) s (q v0)) by (apply Rmult_le_compat_l; lra). nra. }
    (* back to the given points *)
    assert (G : 0 <= linN D (c0 + (2 * B + t) * d - t * s0) (fun k => c k - t * s k) x).
    { apply H. intros v Hv. unfold halfN.
      assert (LIN : forall y, linN D (c0 + (2 * B + t) * d - t * s0) (fun k => c k - t * s k) y = linN D c0 c y + (2 * B + t) * d - t * S y).
      { intros y. unfold linN. rewrite (lsum_ext _ _ (fun i => c i * y i - t * (s i * y i))) by (intros; lra). rewrite lsum_sub, lsum_scal. lra. }
      rewrite LIN. specialize (MU v Hv). rewrite SH in MU. pose proof (Rabs_le_inv _ _ (CQ v Hv)). pose proof (Rabs_le_inv _ _ (Rlt_le _ _ (SD v Hv))).
      assert (t * (S (p v) - d) <= t * linN D (s0 + e) s (q v)) by (apply Rmult_le_compat_l; lra). nra. }
    assert (LIN : linN D (c0 + (2 * B + t) * d - t * s0) (fun k => c k - t * s k) x = linN D c0 c x + (2 * B + t) * d - t * S x).
    { unfold linN. rewrite (lsum_ext _ _ (fun i => c i * x i - t * (s i * x i))) by (intros; lra). rewrite lsum_sub, lsum_scal. lra. }
    rewrite LIN in G. assert (0 <= t * S x) by (apply Rmult_le_pos; lra). nra.
Qed.
End Cut.
