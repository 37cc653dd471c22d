(** * EqvF3: rounded clipping does not notice a change of units by exact factors. *)
From Coq Require Import Reals ZArith List Bool Lia Lra.
From Flocq Require Import Core.
From Verif Require Import Base Lib ModelCommon Model3 RealNum RndNum Small3 SpecEq Eqv Eqv3 EqvR3.
Import ListNotations.
Open Scope R_scope.

Section F.
Context (u : R) (rnd : R -> R) (HA : accurate u rnd) (Hu : 0 <= u <= 1 / 10).
Lemma big_rnd : 0 <= rnd (10 ^ 30).
Proof. apply Rlt_le, (rnd_pos u rnd HA Hu), pow_lt. lra. Qed.

Section P.
Context (sx sy sz : R) (HX : exact_factor rnd sx) (HY : exact_factor rnd sy) (HZ : exact_factor rnd sz).
Lemma sdF_scaled c pl pl' x : exact_factor rnd c -> scaled_plane3 sx sy sz c pl pl' -> sdF rnd pl' (scaled3 sx sy sz x) = c * sdF rnd pl x.
Proof.
  intros (_ & Hc) (E1 & E2 & E3 & E4). unfold sdF, dot3, scaled3. cbn.
  replace (sx * x3 x * x3 (n3 pl')) with (c * (x3 x * x3 (n3 pl))) by (rewrite <- Rmult_assoc, (Rmult_comm c), Rmult_assoc, <- E1; ring).
  replace (sy * y3 x * y3 (n3 pl')) with (c * (y3 x * y3 (n3 pl))) by (rewrite <- Rmult_assoc, (Rmult_comm c), Rmult_assoc, <- E2; ring).
  replace (sz * z3 x * z3 (n3 pl')) with (c * (z3 x * z3 (n3 pl))) by (rewrite <- Rmult_assoc, (Rmult_comm c), Rmult_assoc, <- E3; ring).
  rewrite E4, !Hc. rewrite <- Rmult_plus_distr_l, Hc, <- Rmult_plus_distr_l, Hc, <- Rmult_plus_distr_l, Hc. reflexivity.
Qed.
Lemma wav1_scaled s c a b wa wb : exact_factor rnd s -> exact_factor rnd c -> 0 < wa + wb ->
  rnd (rnd (rnd (c * wa * (s * a)) + rnd (c * wb * (s * b))) / rnd (c * wa + c * wb)) = s * rnd (rnd (rnd (wa * a) + rnd (wb * b)) / rnd (wa + wb)).
Proof.
  intros (_ & Hs) (Hc0 & Hc) W. pose proof (rnd_pos u rnd HA Hu _ W) as WP.
  replace (c * wa * (s * a)) with (c * (s * (wa * a))) by ring. replace (c * wb * (s * b)) with (c * (s * (wb * b))) by ring.
  rewrite !Hc, !Hs. rewrite <- !Rmult_plus_distr_l. rewrite !Hc, !Hs.
  rewrite <- (Hs (rnd (rnd (wa * a) + rnd (wb * b)) / rnd (wa + wb))). f_equal. field. split; lra.
Qed.
Lemma wav_scaled c a b wa wb : exact_factor rnd c -> 0 < wa + wb ->
  wav3 (FN rnd) (scaled3 sx sy sz a) (c * wa) (scaled3 sx sy sz b) (c * wb) = scaled3 sx sy sz (wav3 (FN rnd) a wa b wb).
Proof. intros Hc W. unfold wav3, scaled3. cbn. f_equal; apply wav1_scaled; auto. Qed.
Definition QS (Dom : rvec3 R -> Prop) (x x' : rvec3 R) : Prop := Dom x /\ x' = scaled3 sx sy sz x.
Lemma prel_scaled (Dom : rvec3 R -> Prop) c pl pl' : exact_factor rnd c -> 0 < c -> (forall a wa b wb, Dom a -> Dom b -> Dom (wav3 (FN rnd) a wa b wb)) ->
  scaled_plane3 sx sy sz c pl pl' -> prel rnd (QS Dom) pl pl'.
Proof.
  intros Hc Cp HD HP. split.
  - intros x x' (_ & ->). rewrite (sdF_scaled c pl pl' x Hc HP). set (t := sdF rnd pl x). clearbody t.
    split; split; intros H; try (apply Rnot_le_lt; intros Y); try (apply Rnot_lt_le; intros Y).
    + pose proof (Rmult_lt_compat_l c _ _ Cp H). lra.
    + pose proof (Rmult_le_pos c t ltac:(lra) Y). lra.
    + pose proof (Rmult_le_compat_l c _ _ (Rlt_le _ _ Cp) H). lra.
    + pose proof (Rmult_lt_0_compat c t Cp Y). lra.
  - intros a a' b b' (Da & ->) (Db & ->) Pa Pb. split; [now apply HD|]. rewrite !(sdF_scaled c pl pl' _ Hc HP).
    replace (- (c * sdF rnd pl b)) with (c * - sdF rnd pl b) by ring. apply wav_scaled; auto. lra.
Qed.
End P.

(** any factors *)
Theorem scaled_clip MX sx sy sz c (p p' : poly (rvec3 R)) planes planes' : exact_factor rnd sx -> exact_factor rnd sy -> exact_factor rnd sz -> exact_factor rnd c -> 0 < c ->
  (0 <= nv p <= MX)%Z -> scaled_verts3 sx sy sz p p' -> Forall2 (scaled_plane3 sx sy sz c) planes planes' ->
  agree (fun o o' => scaled_verts3 sx sy sz (fst o) (fst o') /\ snd o' = snd o) (r3d_clip (FN rnd) MX p planes) (r3d_clip (FN rnd) MX p' planes').
Proof.
  intros HX HY HZ Hc Cp Hn (E1 & E2 & E3) HF.
  pose proof (clip3_rel rnd big_rnd MX (QS sx sy sz (fun _ => True)) planes planes' p p') as X.
  assert (X1 : Forall2 (prel rnd (QS sx sy sz (fun _ => True))) planes planes').
  { clear - HA Hu HF HX HY HZ Hc Cp. induction HF; constructor; auto. now apply (prel_scaled sx sy sz HX HY HZ (fun _ => True) c). }
  specialize (X X1). specialize (X ltac:(split; [exact E1|split; [exact Hn|split; [exact E2|intros v Hv; split; auto]]])).
  destruct (r3d_clip (FN rnd) MX p planes) as [(o, r)|], (r3d_clip (FN rnd) MX p' planes') as [(o', r')|]; cbn in X |- *; auto.
  destruct X as ((H1 & _ & H2 & H3) & H4). split; auto. split; auto. split; auto. intros v Hv. exact (proj2 (H3 v Hv)).
Qed.

(** [r3d_scale], whose products are rounded as well *)
Theorem scale_rounded_commutes MX s c (p : poly (rvec3 R)) planes planes' : (forall x, rnd (rnd x) = rnd x) -> exact_factor rnd s -> exact_factor rnd c -> 0 < c ->
  (0 <= nv p <= MX)%Z -> (forall v, (0 <= v < nv p)%Z -> in_format3 rnd (ps (vb p) v)) -> Forall2 (scaled_plane3 s s s c) planes planes' ->
  agree same_verts_st (let* p1 := r3d_scale (FN rnd) MX p s in r3d_clip (FN rnd) MX p1 planes')
    (let* (q, r) := r3d_clip (FN rnd) MX p planes in let* q1 := r3d_scale (FN rnd) MX q s in OK (q1, r)).
Proof.
  intros HI HS Hc Cp Hn HF0 HF.
  apply (commute rnd big_rnd MX (QS s s s (in_format3 rnd)) _ (fun q => V3 (rnd (x3 q * s)) (rnd (y3 q * s)) (rnd (z3 q * s)))); auto.
  - intros x x' ((F1 & F2 & F3) & ->). unfold scaled3. rewrite !(Rmult_comm _ s), !(proj2 HS), F1, F2, F3. reflexivity.
  - intros v Hv. pose proof (HF0 v Hv) as (F1 & F2 & F3). split; [split; auto|]. unfold scaled3. rewrite !(Rmult_comm _ s), !(proj2 HS), F1, F2, F3. reflexivity.
  - clear - HA Hu HF HS Hc Cp HI. induction HF; constructor; auto. apply (prel_scaled s s s HS HS HS (in_format3 rnd) c); auto.
    intros a wa b wb _ _. unfold in_format3, wav3. cbn. rewrite !HI. auto.
Qed.
End F.

(** ** Powers of two and signs, 53 bits *)
Local Instance prec53 : Prec_gt_0 53 := eq_refl.
Lemma rnd53_pow e x : rnd53 (bpow radix2 e * x) = bpow radix2 e * rnd53 x.
Proof.
  unfold rnd53. destruct (Req_dec x 0) as [->|Hx]; [rewrite Rmult_0_r, round_0; [ring|apply _]|].
  assert (E : cexp radix2 (FLX_exp 53) (bpow radix2 e * x) = (cexp radix2 (FLX_exp 53) x + e)%Z).
  { unfold cexp, FLX_exp. rewrite Rmult_comm, mag_mult_bpow by auto. ring. }
  unfold round, F2R, scaled_mantissa. cbn [Fnum Fexp]. rewrite E.
  replace (bpow radix2 e * x * bpow radix2 (- (cexp radix2 (FLX_exp 53) x + e))) with (x * bpow radix2 (- cexp radix2 (FLX_exp 53) x)).
  - rewrite bpow_plus. ring.
  - replace (- (cexp radix2 (FLX_exp 53) x + e))%Z with (- cexp radix2 (FLX_exp 53) x + - e)%Z by ring. rewrite bpow_plus.
    replace (bpow radix2 e * x * (bpow radix2 (- cexp radix2 (FLX_exp 53) x) * bpow radix2 (- e))) with (bpow radix2 e * bpow radix2 (- e) * (x * bpow radix2 (- cexp radix2 (FLX_exp 53) x))) by ring.
    rewrite <- bpow_plus. replace (e + - e)%Z with 0%Z by ring. cbn [bpow]. ring.
Qed.
Lemma rnd53_opp x : rnd53 (- x) = - rnd53 x.
Proof. apply round_NE_opp. Qed.
Lemma exact_pow e : exact_factor rnd53 (bpow radix2 e).
Proof. split; [apply Rgt_not_eq, bpow_gt_0|intros x; apply rnd53_pow]. Qed.
Lemma exact_neg_pow e : exact_factor rnd53 (- bpow radix2 e).
Proof. split; [pose proof (bpow_gt_0 radix2 e); lra|]. intros x. rewrite Ropp_mult_distr_l_reverse, rnd53_opp, rnd53_pow. ring. Qed.
Lemma rnd53_idem x : rnd53 (rnd53 x) = rnd53 x.
Proof. apply round_generic; [apply _|]. apply generic_format_round; apply _. Qed.
