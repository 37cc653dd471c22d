(** * ProjJ: maps that send affine functions to affine functions times a positive factor,
    applied to polytopes. *)
From Coq Require Import Reals ZArith List Bool Lia Lra Psatz.
From Verif Require Import Base Lib SumR SpecN SpecNC PolyN.
Import ListNotations.
Open Scope R_scope.

Definition same (D : Z) (x y : Z -> R) : Prop := forall k, (0 <= k < D)%Z -> x k = y k.
Lemma linN_same D c0 c x y : same D x y -> linN D c0 c x = linN D c0 c y.
Proof. intros H. unfold linN. f_equal. apply lsum_ext. intros k Hk. apply in_zrange in Hk. rewrite H; auto. Qed.
Lemma linN_diff D c0 c x y : linN D c0 c x - linN D c0 c y = linN D 0 c (fun k => x k - y k).
Proof. unfold linN. replace (c0 + lsum (zrange D) (fun i => c i * x i) - (c0 + lsum (zrange D) (fun i => c i * y i)))
  with (lsum (zrange D) (fun i => c i * x i) - lsum (zrange D) (fun i => c i * y i)) by ring.
  rewrite <- lsum_sub, Rplus_0_l. apply lsum_ext. intros. ring. Qed.
Lemma linN_ray D c0 c x y t : linN D c0 c (fun k => x k + t * y k) = linN D c0 c x + t * linN D 0 c y.
Proof. unfold linN. rewrite Rplus_0_l, <- lsum_scal. rewrite Rplus_assoc. f_equal. rewrite <- lsum_add. apply lsum_ext. intros. ring. Qed.

(** [g] with the inverse [gi]; [w] and [s] are the denominators *)
Record chart (D : Z) (g gi : (Z -> R) -> Z -> R) (w0 : R) (wl : Z -> R) (s0 : R) (sl : Z -> R)
  (f0 : R -> (Z -> R) -> R) (fl : R -> (Z -> R) -> Z -> R) (b0 : R -> (Z -> R) -> R) (bl : R -> (Z -> R) -> Z -> R) : Prop := {
  ch_s : forall x, 0 < linN D w0 wl x -> 0 < linN D s0 sl (g x);
  ch_w : forall z, 0 < linN D s0 sl z -> 0 < linN D w0 wl (gi z) /\ same D (g (gi z)) z;
  ch_f : forall l0 l x, 0 < linN D w0 wl x -> linN D w0 wl x * linN D (f0 l0 l) (fl l0 l) (g x) = linN D l0 l x;
  ch_b : forall l0 l x, 0 < linN D w0 wl x -> linN D (b0 l0 l) (bl l0 l) x = linN D w0 wl x * linN D l0 l (g x);
  ch_ext : forall x y, same D x y -> same D (g x) (g y);
  ch_c : forall x, 0 < linN D w0 wl x -> forall e, 0 < e -> exists d, 0 < d /\ forall y, (forall k, (0 <= k < D)%Z -> Rabs (y k - x k) < d) ->
           0 < linN D w0 wl y /\ forall k, (0 <= k < D)%Z -> Rabs (g y k - g x k) < e }.

Section C.
Context (D : Z) (g gi : (Z -> R) -> Z -> R) (w0 : R) (wl : Z -> R) (s0 : R) (sl : Z -> R)
  (f0 : R -> (Z -> R) -> R) (fl : R -> (Z -> R) -> Z -> R) (b0 : R -> (Z -> R) -> R) (bl : R -> (Z -> R) -> Z -> R).
Hypothesis CH : chart D g gi w0 wl s0 sl f0 fl b0 bl.
Let w := linN D w0 wl.
Let s := linN D s0 sl.

Lemma g_inj x y : 0 < w x -> 0 < w y -> same D (g x) (g y) -> same D x y.
Proof.
  intros Hx Hy E k Hk.
  assert (E1 : forall l0 l, w y * linN D l0 l x = w x * linN D l0 l y).
  { intros l0 l. rewrite <- (ch_f _ _ _ _ _ _ _ _ _ _ _ CH l0 l x Hx), <- (ch_f _ _ _ _ _ _ _ _ _ _ _ CH l0 l y Hy). fold w.
    rewrite (linN_same _ _ _ _ _ E). ring. }
  pose proof (E1 1 (fun _ => 0)) as A. pose proof (E1 0 (fun j => if (j =? k)%Z then 1 else 0)) as B.
  assert (O : forall c x, linN D c (fun _ => 0) x = c).
  { intros c u. unfold linN. rewrite lsum_0; [ring|]. intros. ring. }
  assert (P : forall u, linN D 0 (fun j => if (j =? k)%Z then 1 else 0) u = u k).
  { intros u. unfold linN. rewrite Rplus_0_l. rewrite (lsum_ext _ _ (fun j => if (j =? k)%Z then u k else 0)).
    - rewrite (lsum_single _ _ k (NoDup_zrange D)); [now rewrite Z.eqb_refl|apply in_zrange; auto|]. intros j _ N. destruct (Z.eqb_spec j k); tauto.
    - intros j _. destruct (Z.eqb_spec j k); [subst; ring|ring]. }
  rewrite !O in A. rewrite !P in B. assert (w x = w y) by lra. nra.
Qed.

Lemma realized_map n nh h p l0 l : realized D n nh h p l0 l -> (forall v, upto n v -> 0 < w (p v)) ->
  realized D n nh h (fun v => g (p v)) (fun a => f0 (l0 a) (l a)) (fun a => fl (l0 a) (l a)).
Proof.
  intros RE HW.
  assert (F : forall v a, upto n v -> w (p v) * linN D (f0 (l0 a) (l a)) (fl (l0 a) (l a)) (g (p v)) = linN D (l0 a) (l a) (p v)).
  { intros v a Hv. exact (ch_f _ _ _ _ _ _ _ _ _ _ _ CH (l0 a) (l a) (p v) (HW v Hv)). }
  split.
  - intros v i Hv Hi. pose proof (F v (h v i) Hv) as E. rewrite (re_on _ _ _ _ _ _ _ RE v i Hv Hi) in E. pose proof (HW v Hv).
    apply Rmult_integral in E. destruct E; [lra|auto].
  - intros v a Hv Ha N. pose proof (F v a Hv) as E. pose proof (re_off _ _ _ _ _ _ _ RE v a Hv Ha N). pose proof (HW v Hv). nra.
  - intros v y Hv Hy.
    assert (Hs := ch_s _ _ _ _ _ _ _ _ _ _ _ CH (p v) (HW v Hv)).
    set (m := linN D 0 sl y). set (a := linN D s0 sl (g (p v))) in *.
    assert (exists t, 0 < t /\ 0 < a + t * m) as (t & Ht & Hp).
    { destruct (Rle_lt_dec 0 m); [exists 1; split; [lra|lra]|].
      exists (a / (- 2 * m)). assert (0 < - 2 * m) by lra. split; [apply Rdiv_lt_0_compat; lra|]. replace (a / (- 2 * m) * m) with (- (a / 2)) by (field; lra). lra. }
    set (z := fun k => g (p v) k + t * y k).
    assert (Hz : 0 < linN D s0 sl z) by (unfold z; rewrite linN_ray; exact Hp).
    destruct (ch_w _ _ _ _ _ _ _ _ _ _ _ CH z Hz) as (Hw & Ez).
    assert (Eq : same D (fun k => gi z k - p v k) (fun _ => 0)).
    { intros k Hk. refine (re_nd _ _ _ _ _ _ _ RE v (fun k => gi z k - p v k) Hv _ k Hk). intros i Hi. rewrite <- (linN_diff D (l0 (h v i))).
      rewrite (re_on _ _ _ _ _ _ _ RE v i Hv Hi). rewrite <- (ch_f _ _ _ _ _ _ _ _ _ _ _ CH (l0 (h v i)) (l (h v i)) (gi z) Hw).
      rewrite (linN_same _ _ _ _ _ Ez). unfold z. rewrite linN_ray, Hy by auto.
      pose proof (F v (h v i) Hv) as E. rewrite (re_on _ _ _ _ _ _ _ RE v i Hv Hi) in E. pose proof (HW v Hv).
      apply Rmult_integral in E. destruct E as [E|E]; [lra|]. rewrite E. ring. }
    intros k Hk.
    assert (G : same D (g (gi z)) (g (p v))).
    { apply (ch_ext _ _ _ _ _ _ _ _ _ _ _ CH). intros j Hj. specialize (Eq j Hj). cbv beta in Eq. lra. }
    pose proof (Ez k Hk) as E1. rewrite (G k Hk) in E1. unfold z in E1.
    assert (E2 : t * y k = 0) by lra. apply Rmult_integral in E2. destruct E2; [lra|auto].
  - intros v u Hv Hu E. apply (re_inj _ _ _ _ _ _ _ RE v u Hv Hu). apply g_inj; auto.
Qed.

Lemma near_all n (p : Z -> Z -> R) : (forall v, upto n v -> 0 < w (p v)) -> forall e, 0 < e -> exists d, 0 < d
  /\ forall q : Z -> Z -> R, (forall v k, upto n v -> (0 <= k < D)%Z -> Rabs (q v k - p v k) < d) ->
     forall v, upto n v -> 0 < w (q v) /\ forall k, (0 <= k < D)%Z -> Rabs (g (q v) k - g (p v) k) < e.
Proof.
  intros HW e He.
  assert (Q : forall m : nat, exists d, 0 < d /\ forall q : Z -> Z -> R, (forall v k, upto n v -> (0 <= k < D)%Z -> Rabs (q v k - p v k) < d) ->
     forall v, upto n v -> (v < Z.of_nat m)%Z -> 0 < w (q v) /\ forall k, (0 <= k < D)%Z -> Rabs (g (q v) k - g (p v) k) < e).
  { induction m as [|m (d & Hd & IH)]; [exists 1; split; [lra|]; intros q _ v [A _] B; exfalso; revert A B; clear; intros; lia|].
    destruct (Z_lt_dec (Z.of_nat m) n) as [L|L].
    - assert (U : upto n (Z.of_nat m)) by (unfold upto; revert L; clear; intros; lia).
      destruct (ch_c _ _ _ _ _ _ _ _ _ _ _ CH (p (Z.of_nat m)) (HW _ U) e He) as (d' & Hd' & H').
      exists (Rmin d d'). split; [apply Rmin_pos; auto|]. intros q Hq v Hv Hm.
      assert (v < Z.of_nat m \/ v = Z.of_nat m)%Z as [B| ->] by (revert Hm; clear; intros; lia).
      + apply IH; auto. intros u k Hu Hk. eapply Rlt_le_trans; [apply Hq; auto|apply Rmin_l].
      + apply H'. intros k Hk. eapply Rlt_le_trans; [apply Hq; auto|apply Rmin_r].
    - exists d. split; auto. intros q Hq v Hv Hm. apply IH; auto. destruct Hv. revert L H0. clear. intros. lia. }
  destruct (Q (Z.to_nat n)) as (d & Hd & H). exists d. split; auto. intros q Hq v Hv. apply H; auto. destruct Hv. revert H0 H1. clear. intros. lia.
Qed.

Lemma polytope_map n nh h p : polytope D n nh h p -> (forall v, upto n v -> 0 < w (p v)) -> polytope D n nh h (fun v => g (p v)).
Proof.
  intros P HW e He. destruct (near_all n p HW e He) as (d & Hd & H). destruct (P d Hd) as (q & l0 & l & RE & NE).
  exists (fun v => g (q v)), (fun a => f0 (l0 a) (l a)), (fun a => fl (l0 a) (l a)). split.
  - apply realized_map; auto. intros v Hv. apply (H q NE v Hv).
  - intros v k Hv Hk. apply (H q NE v Hv); auto.
Qed.

Lemma hull_w n p x : (forall v, upto n v -> 0 < w (p v)) -> hullN D n p x -> 0 < w x.
Proof.
  intros HW H.
  assert (Q : forall m : nat, exists d, 0 < d /\ forall v, upto n v -> (v < Z.of_nat m)%Z -> d <= w (p v)).
  { induction m as [|m (d & Hd & IH)]; [exists 1; split; [lra|]; intros v [A _] B; exfalso; revert A B; clear; intros; lia|].
    destruct (Z_lt_dec (Z.of_nat m) n) as [L|L].
    - assert (U : upto n (Z.of_nat m)) by (unfold upto; revert L; clear; intros; lia).
      exists (Rmin d (w (p (Z.of_nat m)))). split; [apply Rmin_pos; auto|]. intros v Hv Hm.
      assert (v < Z.of_nat m \/ v = Z.of_nat m)%Z as [B| ->] by (revert Hm; clear; intros; lia).
      + eapply Rle_trans; [apply Rmin_l|]. auto.
      + apply Rmin_r.
    - exists d. split; auto. intros v Hv Hm. apply IH; auto. destruct Hv. revert L H1. clear. intros. lia. }
  destruct (Q (Z.to_nat n)) as (d & Hd & M).
  assert (E : forall y, linN D (w0 - d) wl y = w y - d) by (intros; unfold w, linN; ring).
  enough (halfN D (w0 - d) wl x) as X by (unfold halfN in X; rewrite E in X; lra).
  apply H. intros v Hv. unfold halfN. rewrite E. enough (d <= w (p v)) by lra. apply M; auto. destruct Hv. revert H0 H1. clear. intros. lia.
Qed.
Lemma hull_g n p x : (forall v, upto n v -> 0 < w (p v)) -> hullN D n p x -> hullN D n (fun v => g (p v)) (g x).
Proof.
  intros HW H c0 c Hc. pose proof (hull_w n p x HW H) as Hx. unfold halfN in *.
  assert (0 <= linN D (b0 c0 c) (bl c0 c) x).
  { apply H. intros v Hv. unfold halfN. rewrite (ch_b _ _ _ _ _ _ _ _ _ _ _ CH) by (apply HW; auto). apply Rmult_le_pos; [left; apply HW; auto|]. now apply Hc. }
  rewrite (ch_b _ _ _ _ _ _ _ _ _ _ _ CH) in H0 by auto. unfold w in Hx. nra.
Qed.
End C.

Lemma hull_same D n p x y : same D x y -> hullN D n p x -> hullN D n p y.
Proof. intros E H c0 c Hc. unfold halfN. rewrite <- (linN_same _ _ _ _ _ E). now apply H. Qed.
Lemma hull_same_pts D n p q x : (forall v, upto n v -> same D (p v) (q v)) -> hullN D n p x -> hullN D n q x.
Proof. intros E H c0 c Hc. apply H. intros v Hv. unfold halfN. rewrite (linN_same _ _ _ _ _ (E v Hv)). now apply Hc. Qed.

(** with the roles of the two maps exchanged as well: the hull of the images is the image of the hull *)
Lemma hull_image D g gi w0 wl s0 sl f0 fl b0 bl n p y :
  chart D g gi w0 wl s0 sl f0 fl b0 bl -> (forall v, upto n v -> 0 < linN D w0 wl (p v)) ->
  hullN D n (fun v => g (p v)) y <-> exists x, hullN D n p x /\ same D y (g x).
Proof.
  intros CH HW. split.
  - intros H.
    assert (HS : 0 < linN D s0 sl y).
    { refine (hull_w D s0 sl n (fun v => g (p v)) y _ H). intros v Hv. apply (ch_s _ _ _ _ _ _ _ _ _ _ _ CH). now apply HW. }
    destruct (ch_w _ _ _ _ _ _ _ _ _ _ _ CH y HS) as (Hw & E). exists (gi y). split.
    + intros c0 c Hc. unfold halfN in *. rewrite <- (ch_f _ _ _ _ _ _ _ _ _ _ _ CH c0 c (gi y) Hw). rewrite (linN_same _ _ _ _ _ E).
      apply Rmult_le_pos; [lra|]. apply H. intros v Hv. unfold halfN. pose proof (Hc v Hv) as L.
      rewrite <- (ch_f _ _ _ _ _ _ _ _ _ _ _ CH c0 c (p v) (HW v Hv)) in L. specialize (HW v Hv). nra.
    + intros k Hk. symmetry. now apply E.
  - intros (x & H & E). apply hull_same with (g x); [intros k Hk; symmetry; now apply E|]. exact (hull_g D g gi w0 wl s0 sl f0 fl b0 bl CH n p x HW H).
Qed.
