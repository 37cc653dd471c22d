(** * ShapesN: boxes and simplices are convex polytopes; clipping a box. *)
From Coq Require Import Reals ZArith List Bool Lia Lra Psatz.
From Verif Require Import Base Lib SumR ModelCommon CommonFacts ModelN ModelNC SpecN SpecNC SpecNP RealNum InitN CutN ClipN CellsN PolyN TruncN NearN HullN.
Import ListNotations.
Open Scope R_scope.

(** ** boxes *)
Section Box.
Context (D : Z) (lo hi : Z -> R).
Hypothesis HD : (0 <= D)%Z.
Definition bpos (hi : Z -> R) (v i : Z) : R := if Z.testbit v i then hi i else lo i.
Definition bl0 (hi : Z -> R) (g : Z) : R := if Z.odd g then hi (g / 2)%Z else - lo (g / 2)%Z.
Definition bl (g k : Z) : R := if (k =? g / 2)%Z then (if Z.odd g then -1 else 1) else 0.
Lemma bl_lin hi' g x : (0 <= g < 2 * D)%Z -> linN D (bl0 hi' g) (bl g) x = if Z.odd g then hi' (g / 2)%Z - x (g / 2)%Z else x (g / 2)%Z - lo (g / 2)%Z.
Proof.
  intros Hg. unfold linN. assert (G : (0 <= g / 2 < D)%Z) by (split; [apply Z.div_pos; lia|apply Z.div_lt_upper_bound; lia]).
  rewrite (lsum_single _ _ (g / 2)%Z (NoDup_zrange _) (proj2 (in_zrange _ _) G)).
  - unfold bl, bl0. rewrite Z.eqb_refl. destruct (Z.odd g); lra.
  - intros j _ N. unfold bl. destruct (Z.eqb_spec j (g / 2)); [congruence|lra].
Qed.
Lemma boxh_div v i : (boxh v i / 2 = i)%Z /\ Z.odd (boxh v i) = Z.testbit v i.
Proof.
  unfold boxh. split.
  - rewrite Z.add_comm, Z.mul_comm, Z.div_add by lia. destruct (Z.testbit v i); cbn; lia.
  - rewrite Z.odd_add_mul_2 || rewrite Z.add_comm, Z.odd_add_mul_2. destruct (Z.testbit v i); reflexivity.
Qed.
Lemma box_realized hi' p : (forall i, (0 <= i < D)%Z -> lo i < hi' i) ->
  (forall v i, upto (2 ^ D) v -> (0 <= i < D)%Z -> p v i = bpos hi' v i) -> realized D (2 ^ D) (2 * D) boxh p (bl0 hi') bl.
Proof.
  intros HL HP.
  assert (G : forall v i, (0 <= i < D)%Z -> (0 <= boxh v i < 2 * D)%Z) by (intros v i Hi; unfold boxh; destruct (Z.testbit v i); cbn [Z.b2z]; lia).
  constructor.
  - intros v i Hv Hi. rewrite bl_lin by auto. destruct (boxh_div v i) as (-> & ->). rewrite HP by auto. unfold bpos. destruct (Z.testbit v i); lra.
  - intros v g Hv Hg N. rewrite bl_lin by auto. assert (Hi : (0 <= g / 2 < D)%Z) by (split; [apply Z.div_pos; lia|apply Z.div_lt_upper_bound; lia]).
    rewrite HP by auto. unfold bpos. specialize (HL _ Hi).
    assert (E : Z.odd g <> Z.testbit v (g / 2)).
    { intros E. apply (N (g / 2)%Z Hi). unfold boxh. rewrite <- E. pose proof (Z.div_mod g 2 ltac:(lia)) as X. rewrite Zmod_odd in X. destruct (Z.odd g); cbn [Z.b2z]; lia. }
    destruct (Z.odd g), (Z.testbit v (g / 2)); try congruence; lra.
  - intros v y Hv Hy k Hk. specialize (Hy k Hk). destruct (boxh_div v k) as (E1 & E2).
    unfold linN in Hy. rewrite (lsum_single _ _ k (NoDup_zrange _) (proj2 (in_zrange _ _) Hk)) in Hy.
    + unfold bl in Hy. rewrite E1, E2, Z.eqb_refl in Hy. destruct (Z.testbit v k); lra.
    + intros j _ N. unfold bl. rewrite E1. destruct (Z.eqb_spec j k); [congruence|lra].
  - intros v w Hv Hw E. apply Z.bits_inj'. intros i Hi. destruct (Z_lt_dec i D) as [Li|Li].
    + specialize (E i ltac:(lia)). rewrite !HP in E by (auto; lia). unfold bpos in E. specialize (HL i ltac:(lia)). destruct (Z.testbit v i), (Z.testbit w i); auto; lra.
    + assert (T : forall u, upto (2 ^ D) u -> Z.testbit u i = false).
      { intros u Hu. unfold upto in Hu. destruct (Z.eq_dec u 0) as [->|]; [apply Z.testbit_0_l|]. apply Z.bits_above_log2; [lia|]. apply Z.log2_lt_pow2; [lia|]. eapply Z.lt_le_trans; [apply Hu|]. apply Z.pow_le_mono_r; lia. }
      now rewrite !T.
Qed.
Lemma box_polytope p : (forall i, (0 <= i < D)%Z -> lo i <= hi i) ->
  (forall v i, upto (2 ^ D) v -> (0 <= i < D)%Z -> p v i = bpos hi v i) -> polytope D (2 ^ D) (2 * D) boxh p.
Proof.
  intros HL HP d Hd. exists (bpos (fun i => hi i + d / 2)), (bl0 (fun i => hi i + d / 2)), bl. split.
  - apply box_realized; auto. intros i Hi. specialize (HL i Hi). lra.
  - intros v k Hv Hk. rewrite HP by auto. unfold bpos. destruct (Z.testbit v k).
    + replace (hi k + d / 2 - hi k) with (d / 2) by lra. rewrite Rabs_right; lra.
    + replace (lo k - lo k) with 0 by lra. rewrite Rabs_R0. lra.
Qed.
Lemma box_hull p nf f bk fd x : (1 <= D)%Z -> (forall i, (0 <= i < D)%Z -> lo i <= hi i) -> cells D (upto (2 ^ D)) nf (2 * D) f bk boxh fd ->
  (forall v i, upto (2 ^ D) v -> (0 <= i < D)%Z -> p v i = bpos hi v i) ->
  hullN D (2 ^ D) p x <-> forall i, (0 <= i < D)%Z -> lo i <= x i <= hi i.
Proof.
  intros HD1 HL C HP. assert (P2 : (0 < 2 ^ D)%Z) by (apply Z.pow_pos_nonneg; lia). split.
  - intros H i Hi.
    assert (A : forall g, (0 <= g < 2 * D)%Z -> 0 <= linN D (bl0 hi g) (bl g) x).
    { intros g Hg. apply H. intros v Hv. unfold halfN. rewrite bl_lin by auto.
      assert (Hi' : (0 <= g / 2 < D)%Z) by (split; [apply Z.div_pos; lia|apply Z.div_lt_upper_bound; lia]). specialize (HL _ Hi').
      rewrite HP by auto. unfold bpos. destruct (Z.odd g), (Z.testbit v (g / 2)); lra. }
    pose proof (A (2 * i)%Z ltac:(lia)) as A1. pose proof (A (2 * i + 1)%Z ltac:(lia)) as A2. rewrite bl_lin in A1, A2 by lia.
    replace (2 * i / 2)%Z with i in A1 by (rewrite Z.mul_comm, Z.div_mul; lia).
    replace ((2 * i + 1) / 2)%Z with i in A2 by (rewrite Z.add_comm, Z.mul_comm, Z.div_add by lia; reflexivity).
    rewrite Z.odd_mul in A1. cbn [Z.odd andb] in A1. replace (Z.odd (2 * i + 1)) with true in A2 by (rewrite Z.add_comm, Z.odd_add_mul_2; reflexivity). lra.
  - intros H c0 c A. unfold halfN in *. apply (near_zero _ (wt D c) 1); [lra|]. intros d Hd.
    set (q := bpos (fun i => hi i + d)).
    assert (Q : realized D (2 ^ D) (2 * D) boxh q (bl0 (fun i => hi i + d)) bl) by (apply box_realized; auto; intros i Hi; specialize (HL i Hi); lra).
    assert (HQ : hullN D (2 ^ D) q x).
    { apply (hull_facets D (2 ^ D) nf (2 * D) f bk boxh fd q (bl0 (fun i => hi i + d)) bl C Q x P2). intros g Hg. rewrite bl_lin by auto.
      assert (Hi' : (0 <= g / 2 < D)%Z) by (split; [apply Z.div_pos; lia|apply Z.div_lt_upper_bound; lia]). specialize (H _ Hi'). destruct (Z.odd g); lra. }
    assert (X : 0 <= linN D (c0 + wt D c * d) c x).
    { apply HQ. intros v Hv. unfold halfN. specialize (A v Hv).
      assert (Y : Rabs (linN D c0 c (q v) - linN D c0 c (p v)) <= wt D c * d).
      { apply lin_close. intros k Hk. rewrite HP by auto. unfold q, bpos. destruct (Z.testbit v k).
        - replace (hi k + d - hi k) with d by lra. rewrite Rabs_right; lra.
        - replace (lo k - lo k) with 0 by lra. rewrite Rabs_R0. lra. }
      apply Rabs_le_inv in Y. unfold linN in *. lra. }
    unfold linN in *. lra.
Qed.
End Box.

Theorem box_convex MX D (p : polyN RN) lo hi : (1 <= D)%Z -> (2 ^ D <= MX)%Z -> (forall i, (0 <= i < D)%Z -> lo i <= hi i) ->
  exists p', rNd_init_box RN MX D p lo hi = OK p' /\ nvN RN p' = (2 ^ D)%Z /\ convexN D p'
  /\ forall x, hullP D p' x <-> forall i, (0 <= i < D)%Z -> lo i <= x i <= hi i.
Proof.
  intros HD HM HL. destruct (box_cells RN MX D p lo hi ltac:(lia) HM) as (p' & E & En & Hnf & P & L & C & SE).
  exists p'. split; auto. split; auto. split.
  - split; auto. exists (2 * D)%Z, (fun _ i => i), boxh. rewrite En. split; auto. apply (box_polytope D lo hi); auto; lia.
  - intros x. unfold hullP. rewrite En. eapply box_hull; eauto; lia.
Qed.

(** clipping a box *)
Theorem box_clip MX D fuel (p : polyN RN) lo hi planes : (3 <= D)%Z -> (2 ^ D * (D + 1) ^ Z.of_nat (length planes) <= MX)%Z ->
  (forall i, (0 <= i < D)%Z -> lo i <= hi i) -> (Z.to_nat (MX * D * D * D) <= fuel)%nat ->
  exists p' p2, rNd_init_box RN MX D p lo hi = OK p' /\ rNd_clip RN MX D fuel p' planes = OK p2
    /\ ((forall x, hullP D p2 x <-> (forall i, (0 <= i < D)%Z -> lo i <= x i <= hi i) /\ holds D planes x)
        \/ (nvN RN p2 = 0%Z /\ forall x, (forall i, (0 <= i < D)%Z -> lo i <= x i <= hi i) -> ~ strictly D planes x)).
Proof.
  intros HD HM HL Hf. assert (P2 : (0 < 2 ^ D)%Z) by (apply Z.pow_pos_nonneg; lia).
  assert (P1 : (1 <= (D + 1) ^ Z.of_nat (length planes))%Z) by (assert (0 < (D + 1) ^ Z.of_nat (length planes))%Z by (apply Z.pow_pos_nonneg; lia); lia).
  destruct (box_convex MX D p lo hi ltac:(lia) ltac:(nia) HL) as (p' & E & En & Cv & H). exists p'.
  destruct (rNd_clip_hull MX D fuel HD Hf p' planes ltac:(nia) Cv) as [(p2 & E2 & _ & _ & _ & A)|(X & _)]; [|rewrite En in X; lia].
  exists p2. split; auto. split; auto. destruct A as [A|(Z0 & A)]; [left|right].
  - intros x. rewrite A, H. tauto.
  - split; auto. intros x Hx. apply A, H. auto.
Qed.

(** ** simplices *)
(** barycentric coordinates with respect to the points [q 0 .. q D] *)
Lemma simplex_realized D f p l0 l : (1 <= D)%Z -> (forall v i, upto (D + 1) v -> (0 <= i < D)%Z -> upto (D + 1) (f v i) /\ f v i <> v) ->
  (forall v w, upto (D + 1) v -> upto (D + 1) w -> v <> w -> exists i, (0 <= i < D)%Z /\ f v i = w) ->
  barycentric D p l0 l -> realized D (D + 1) (D + 1) f p l0 l.
Proof.
  intros HD F1 F2 (B1 & B2 & B3). unfold upto in *. constructor; unfold upto.
  - intros v i Hv Hi. destruct (F1 v i Hv Hi). rewrite B1 by lia. destruct (Z.eqb_spec (f v i) v); [congruence|auto].
  - intros v g Hv Hg N. rewrite B1 by lia. destruct (Z.eqb_spec g v); [lra|]. exfalso. destruct (F2 v g Hv Hg ltac:(auto)) as (i & Hi & E). apply (N i); auto.
  - intros v y Hv Hy k Hk.
    assert (LZ : forall g, (0 <= g < D + 1)%Z -> g <> v -> linN D 0 (l g) y = 0).
    { intros g Hg N. destruct (F2 v g Hv Hg ltac:(auto)) as (i & Hi & <-). auto. }
    set (o := fun _ : Z => 0). assert (O0 : forall g, linN D (l0 g) (l g) o = l0 g) by (intros g; unfold linN, o; rewrite lsum_0 by (intros; lra); lra).
    assert (LY : forall g, linN D (l0 g) (l g) y = linN D (l0 g) (l g) o + linN D 0 (l g) y) by (intros g; rewrite O0; unfold linN; lra).
    assert (Iv : In v (zrange (D + 1))) by (apply in_zrange; lia).
    assert (LV : linN D 0 (l v) y = 0).
    { pose proof (B2 y) as X. rewrite (lsum_ext _ _ (fun g => linN D (l0 g) (l g) o + linN D 0 (l g) y)) in X by (intros; apply LY). rewrite lsum_add, B2 in X.
      rewrite (lsum_single _ (fun g => linN D 0 (l g) y) v (NoDup_zrange _) Iv) in X; [lra|]. intros g Hg N. apply in_zrange in Hg. apply LZ; auto. }
    pose proof (B3 y k Hk) as X. rewrite <- X. rewrite (lsum_ext _ _ (fun g => linN D (l0 g) (l g) o * p g k)); [rewrite B3 by auto; reflexivity|].
    intros g Hg. apply in_zrange in Hg. rewrite LY. assert (linN D 0 (l g) y = 0) by (destruct (Z.eq_dec g v) as [->|]; auto). rewrite H. f_equal. lra.
  - intros v w Hv Hw E. destruct (Z.eq_dec v w); auto. exfalso. pose proof (B1 v v ltac:(lia) ltac:(lia)) as X. pose proof (B1 v w ltac:(lia) ltac:(lia)) as Y.
    rewrite Z.eqb_refl in X. destruct (Z.eqb_spec v w); [congruence|]. rewrite (linN_ext D _ _ (p v) (p w)) in X by auto. lra.
Qed.

Theorem simplex_convex MX D (p : polyN RN) verts l0 l : (1 <= D)%Z -> (D + 1 <= MX)%Z -> barycentric D verts l0 l ->
  exists p', rNd_init_simplex RN MX D p verts = OK p' /\ nvN RN p' = (D + 1)%Z /\ convexN D p'
  /\ forall x, hullP D p' x <-> forall g, (0 <= g <= D)%Z -> 0 <= linN D (l0 g) (l g) x.
Proof.
  intros HD HM B. destruct (simplex_cells RN MX D p verts HD HM) as (p' & E & En & Hnf & P & L & C & SE).
  assert (Q : realized D (D + 1) (D + 1) (nb (vbN RN p')) (ps (vbN RN p')) l0 l).
  { apply simplex_realized; auto.
    - intros v i Hv Hi. apply (ce_f _ _ _ _ _ _ _ _ C); auto.
    - intros v w Hv Hw N. exists (sl D v w). split; [apply sl_rng; auto|]. rewrite L by (auto; apply sl_rng; auto). apply nb_sl; auto.
    - destruct B as (B1 & B2 & B3). split; [|split; auto].
      + intros g w Hg Hw. rewrite (linN_ext D _ _ _ (verts w)); [apply B1; auto|]. intros k Hk. apply P; auto. lia.
      + intros x k Hk. rewrite <- (B3 x k Hk). apply lsum_ext. intros g Hg. apply in_zrange in Hg. rewrite P by auto. reflexivity. }
  exists p'. split; auto. split; auto. split.
  - split; auto. exists (D + 1)%Z, (fun v i => sl D (nb (vbN RN p') v i) v), (nb (vbN RN p')). rewrite En. split; auto.
    intros d Hd. exists (ps (vbN RN p')), l0, l. split; auto. intros. replace (ps (vbN RN p') v k - ps (vbN RN p') v k) with 0 by lra. rewrite Rabs_R0. auto.
  - intros x. unfold hullP. rewrite En. rewrite (hull_facets D (D + 1) _ (D + 1) _ _ _ _ _ l0 l C Q) by lia. split; intros H g Hg; apply H; lia.
Qed.

(** the corner simplex: the origin and the unit points *)
Lemma corner_bary D : (0 <= D)%Z ->
  barycentric D (fun w k => if (w =? k + 1)%Z then 1 else 0) (fun g => if (g =? 0)%Z then 1 else 0)
    (fun g k => if (g =? 0)%Z then -1 else if (g =? k + 1)%Z then 1 else 0).
Proof.
  intros HD.
  assert (L0 : forall x, linN D 1 (fun _ => -1) x = 1 - lsum (zrange D) x).
  { intros x. unfold linN. rewrite lsum_scal. lra. }
  assert (L1 : forall g x, (1 <= g <= D)%Z -> linN D 0 (fun k => if (g =? k + 1)%Z then 1 else 0) x = x (g - 1)%Z).
  { intros g x Hg. unfold linN. rewrite (lsum_single _ _ (g - 1)%Z (NoDup_zrange _)).
    - replace (g - 1 + 1)%Z with g by lia. rewrite Z.eqb_refl. lra.
    - apply in_zrange. lia.
    - intros k _ N. destruct (Z.eqb_spec g (k + 1)); [lia|lra]. }
  assert (LL : forall g x, (0 <= g <= D)%Z -> linN D (if (g =? 0)%Z then 1 else 0) (fun k => if (g =? 0)%Z then -1 else if (g =? k + 1)%Z then 1 else 0) x
     = if (g =? 0)%Z then 1 - lsum (zrange D) x else x (g - 1)%Z).
  { intros g x Hg. destruct (Z.eqb_spec g 0) as [->|N]; [apply L0|]. apply L1. lia. }
  assert (S1 : forall F : Z -> R, lsum (zrange (D + 1)) F = F 0%Z + lsum (zrange D) (fun k => F (k + 1)%Z)).
  { intros F. revert HD. clear. intros HD. revert D HD. apply zrange_ind; [change (F 0%Z + 0 = F 0%Z + 0); reflexivity|].
    intros n Hn IH. rewrite (zrange_succ (n + 1)), (zrange_succ n) at 1 by lia. rewrite <- zrange_succ by lia.
    rewrite !lsum_app, IH. rewrite (zrange_succ n), lsum_app by lia. cbn [lsum]. lra. }
  split; [|split].
  - intros g w Hg Hw. rewrite LL by auto. destruct (Z.eqb_spec g 0) as [->|N].
    + destruct (Z.eqb_spec 0 w) as [<-|W].
      * rewrite lsum_0; [lra|]. intros k Ik. apply in_zrange in Ik. destruct (Z.eqb_spec 0 (k + 1)); [lia|auto].
      * rewrite (lsum_single _ _ (w - 1)%Z (NoDup_zrange _)); [|apply in_zrange; lia|].
        { replace (w - 1 + 1)%Z with w by lia. rewrite Z.eqb_refl. lra. }
        intros k _ Nk. destruct (Z.eqb_spec w (k + 1)); [lia|auto].
    + replace (g - 1 + 1)%Z with g by lia. rewrite Z.eqb_sym. reflexivity.
  - intros x. rewrite S1. rewrite (LL 0%Z) by lia. etransitivity; [apply Rplus_eq_compat_l; apply lsum_ext with (g := x)|].
    + intros k Ik. apply in_zrange in Ik. rewrite LL by lia. destruct (Z.eqb_spec (k + 1) 0); [lia|]. f_equal. lia.
    + cbn. lra.
  - intros x k Hk. rewrite S1. rewrite LL by lia. destruct (Z.eqb_spec 0 (k + 1)); [lia|]. rewrite Rmult_0_r, Rplus_0_l.
    rewrite (lsum_single _ _ k (NoDup_zrange _)); [|now apply in_zrange|].
    + rewrite LL by lia. destruct (Z.eqb_spec (k + 1) 0); [lia|]. rewrite Z.eqb_refl. replace (k + 1 - 1)%Z with k by lia. lra.
    + intros j _ Nj. destruct (Z.eqb_spec (j + 1) (k + 1)); [lia|lra].
Qed.
