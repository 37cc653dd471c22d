(** * ProjGN: each transform of [src/rNd.c] as an affine map, and the volume afterwards. *)
From Coq Require Import Reals ZArith List Bool Lia Lra Psatz.
From Verif Require Import Base Lib SumR ModelCommon ModelN ModelNC SpecN SpecNC SpecNP SpecNV SpecNJ SpecPN RealNum PolyN TransN FlagR ProjJ ProjN UniqJ ClipJ VoxJ.
Import ListNotations.
Open Scope R_scope.

Lemma lin_two D t a c b d x : (0 <= a < D)%Z -> (0 <= b < D)%Z ->
  linN D t (fun j => (if (j =? a)%Z then c else 0) + (if (j =? b)%Z then d else 0)) x = t + (c * x a + d * x b).
Proof.
  intros Ha Hb. unfold linN. f_equal.
  rewrite (lsum_ext _ _ (fun j => (if (j =? a)%Z then c * x a else 0) + (if (j =? b)%Z then d * x b else 0))).
  - rewrite lsum_add. f_equal.
    + rewrite (lsum_single _ _ a (NoDup_zrange D)); [now rewrite Z.eqb_refl|now apply in_zrange|]. intros j _ N. destruct (Z.eqb_spec j a); tauto.
    + rewrite (lsum_single _ _ b (NoDup_zrange D)); [now rewrite Z.eqb_refl|now apply in_zrange|]. intros j _ N. destruct (Z.eqb_spec j b); tauto.
  - intros j _. destruct (Z.eqb_spec j a); destruct (Z.eqb_spec j b); subst; ring.
Qed.
Definition two (a : Z) (c : R) (b : Z) (d : R) (j : Z) : R := (if (j =? a)%Z then c else 0) + (if (j =? b)%Z then d else 0).

(** a map with coordinates [t k + c k * x (a k) + d k * x (b k)] and an inverse of the same form *)
Lemma two_image D g gi (t c d t' c' d' : Z -> R) (a b a' b' : Z -> Z) p p' :
  (forall k, (0 <= k < D)%Z -> (0 <= a k < D)%Z /\ (0 <= b k < D)%Z /\ (0 <= a' k < D)%Z /\ (0 <= b' k < D)%Z) ->
  (forall x k, (0 <= k < D)%Z -> g x k = t k + (c k * x (a k) + d k * x (b k))) ->
  (forall x k, (0 <= k < D)%Z -> gi x k = t' k + (c' k * x (a' k) + d' k * x (b' k))) ->
  (forall x k, (0 <= k < D)%Z -> gi (g x) k = x k) -> (forall x k, (0 <= k < D)%Z -> g (gi x) k = x k) -> moved D g p p' -> imageN D g p p'.
Proof.
  intros HR HG HI E1 E2 M.
  assert (G : forall x k, (0 <= k < D)%Z -> g x k = linN D (t k) (two (a k) (c k) (b k) (d k)) x) by (intros x k Hk; unfold two; destruct (HR k Hk) as (Ha & Hb & _); rewrite lin_two by auto; now apply HG).
  assert (I : forall x k, (0 <= k < D)%Z -> gi x k = linN D (t' k) (two (a' k) (c' k) (b' k) (d' k)) x) by (intros x k Hk; unfold two; destruct (HR k Hk) as (_ & _ & Ha & Hb); rewrite lin_two by auto; now apply HI).
  split; [|split].
  - exact (moved_convex D g gi _ _ _ _ G I E1 E2 p p' M).
  - exact (moved_solid D g gi _ _ _ _ G I E1 E2 p p' M).
  - exact (moved_hull D g gi _ _ _ _ G I E1 E2 p p' M).
Qed.

Section T.
Context (MX D : Z) (p : polyN RN).
Hypothesis Hn : (0 <= nvN RN p <= MX)%Z.

Lemma to_moved g p' : all_moved RN D g p p' -> moved D g p p'.
Proof. intros (A & B & C & E & F). split; auto. split; auto. split; auto. split; auto. intros v Hv k Hk. now apply F. Qed.

Theorem translateN_image s : (0 <= D)%Z -> exists p', rNd_translate RN MX D p s = OK p' /\ imageN D (fun x k => x k + s k) p p'.
Proof.
  intros HD. destruct (rNd_translate_spec RN MX D p s HD Hn) as (p' & E & M). exists p'. split; auto. apply to_moved in M.
  refine (two_image D _ (fun x k => x k - s k) s (fun _ => 1) (fun _ => 0) (fun k => - s k) (fun _ => 1) (fun _ => 0) (fun k => k) (fun k => k) (fun k => k) (fun k => k) p p' _ _ _ _ _ M);
  intros; auto; cbn; ring.
Qed.
Theorem scaleN_image s : (0 <= D)%Z -> (forall k, (0 <= k < D)%Z -> s k <> 0) -> exists p', rNd_scale RN MX D p s = OK p' /\ imageN D (fun x k => x k * s k) p p'.
Proof.
  intros HD Hs. destruct (rNd_scale_spec RN MX D p s HD Hn) as (p' & E & M). exists p'. split; auto. apply to_moved in M.
  refine (two_image D _ (fun x k => x k / s k) (fun _ => 0) s (fun _ => 0) (fun _ => 0) (fun k => / s k) (fun _ => 0) (fun k => k) (fun k => k) (fun k => k) (fun k => k) p p' _ _ _ _ _ M);
  intros; auto; cbn; try ring; field; auto.
Qed.
Theorem shearN_image s axb axs : (0 <= axb < D)%Z -> (0 <= axs < D)%Z -> axb <> axs ->
  exists p', rNd_shear RN MX D p s axb axs = OK p' /\ imageN D (fun x k => if (k =? axb)%Z then x k + s * x axs else x k) p p'.
Proof.
  intros H1 H2 H3. destruct (rNd_shear_spec RN MX D p s axb axs H1 H2 Hn) as (p' & E & M). exists p'. split; auto. apply to_moved in M.
  refine (two_image D _ (fun x k => if (k =? axb)%Z then x k - s * x axs else x k) (fun _ => 0) (fun _ => 1) (fun k => if (k =? axb)%Z then s else 0) (fun _ => 0) (fun _ => 1) (fun k => if (k =? axb)%Z then - s else 0)
    (fun k => k) (fun _ => axs) (fun k => k) (fun _ => axs) p p' _ _ _ _ _ M); intros; auto; cbn; destruct (Z.eqb_spec k axb); try ring;
  destruct (Z.eqb_spec axs axb); try congruence; ring.
Qed.
Theorem rotateN_image th a1 a2 : (0 <= a1 < D)%Z -> (0 <= a2 < D)%Z -> a1 <> a2 ->
  exists p', rNd_rotate RN MX D p th a1 a2 = OK p'
  /\ imageN D (fun x k => if (k =? a1)%Z then cos th * x a1 - sin th * x a2 else if (k =? a2)%Z then sin th * x a1 + cos th * x a2 else x k) p p'.
Proof.
  intros H1 H2 H3. destruct (rNd_rotate_spec RN MX D p th a1 a2 H1 H2 Hn) as (p' & E & M). exists p'. split; auto. apply to_moved in M.
  pose proof (sin2_cos2 th) as SC. unfold Rsqr in SC.
  refine (two_image D _ (fun x k => if (k =? a1)%Z then cos th * x a1 + sin th * x a2 else if (k =? a2)%Z then - sin th * x a1 + cos th * x a2 else x k)
    (fun _ => 0) (fun k => if (k =? a1)%Z then cos th else if (k =? a2)%Z then sin th else 1) (fun k => if (k =? a1)%Z then - sin th else if (k =? a2)%Z then cos th else 0)
    (fun _ => 0) (fun k => if (k =? a1)%Z then cos th else if (k =? a2)%Z then - sin th else 1) (fun k => if (k =? a1)%Z then sin th else if (k =? a2)%Z then cos th else 0)
    (fun k => if (k =? a1)%Z then a1 else if (k =? a2)%Z then a1 else k) (fun k => if (k =? a1)%Z then a2 else if (k =? a2)%Z then a2 else k)
    (fun k => if (k =? a1)%Z then a1 else if (k =? a2)%Z then a1 else k) (fun k => if (k =? a1)%Z then a2 else if (k =? a2)%Z then a2 else k) p p' _ _ _ _ _ _).
  - intros k Hk. destruct (Z.eqb_spec k a1), (Z.eqb_spec k a2); auto.
  - intros x k Hk. destruct (Z.eqb_spec k a1), (Z.eqb_spec k a2); ring.
  - intros x k Hk. destruct (Z.eqb_spec k a1), (Z.eqb_spec k a2); ring.
  - intros x k Hk. rewrite !Z.eqb_refl. destruct (Z.eqb_spec a2 a1); [congruence|]. destruct (Z.eqb_spec k a1); [subst|destruct (Z.eqb_spec k a2); [subst|auto]].
    + transitivity ((sin th * sin th + cos th * cos th) * x a1); [ring|rewrite SC; ring].
    + transitivity ((sin th * sin th + cos th * cos th) * x a2); [ring|rewrite SC; ring].
  - intros x k Hk. rewrite !Z.eqb_refl. destruct (Z.eqb_spec a2 a1); [congruence|]. destruct (Z.eqb_spec k a1); [subst|destruct (Z.eqb_spec k a2); [subst|auto]].
    + transitivity ((sin th * sin th + cos th * cos th) * x a1); [ring|rewrite SC; ring].
    + transitivity ((sin th * sin th + cos th * cos th) * x a2); [ring|rewrite SC; ring].
  - destruct M as (M1 & M2 & M3 & M4 & M5). split; auto. split; auto. split; auto. split; auto. intros v Hv k Hk. rewrite (M5 v Hv k Hk).
    destruct (Z.eqb_spec k a1), (Z.eqb_spec k a2); try congruence; reflexivity.
Qed.
End T.

(** ** The volume of the image of a set under a change of each axis *)
Lemma box_vol_map D s (b c : boxR) : (forall i, (0 <= i < D)%Z -> snd c i - fst c i = Rabs (s i) * (snd b i - fst b i)) -> box_vol D c = lprod (zrange D) (fun i => Rabs (s i)) * box_vol D b.
Proof.
  intros H. unfold box_vol. assert (Q : forall l, (forall i, In i l -> (0 <= i < D)%Z) -> fold_right (fun i t => (snd c i - fst c i) * t) 1 l
    = lprod l (fun i => Rabs (s i)) * fold_right (fun i t => (snd b i - fst b i) * t) 1 l).
  { induction l as [|a l IH]; intros Hl; cbn; [ring|]. rewrite IH by (intros; apply Hl; now right). rewrite H by (apply Hl; now left). ring. }
  apply Q. intros i Hi. now apply in_zrange.
Qed.
Lemma lprod_pos {A} (l : list A) f : (forall a, In a l -> 0 < f a) -> 0 < lprod l f.
Proof. induction l as [|a l IH]; intros H; cbn; [lra|]. apply Rmult_lt_0_compat; [apply H; now left|apply IH; intros; apply H; now right]. Qed.

Section Sc.
Context (D : Z) (s u : Z -> R).
Hypothesis Hs : forall i, (0 <= i < D)%Z -> s i <> 0.
Let P := lprod (zrange D) (fun i => Rabs (s i)).
Lemma P_pos : 0 < P.
Proof. apply lprod_pos. intros i Hi. apply in_zrange in Hi. apply Rabs_pos_lt. auto. Qed.
Definition bmap (b : boxR) : boxR :=
  (fun i => if Rlt_dec 0 (s i) then s i * fst b i + u i else s i * snd b i + u i, fun i => if Rlt_dec 0 (s i) then s i * snd b i + u i else s i * fst b i + u i).
Lemma bmap_side b i : (0 <= i < D)%Z -> snd (bmap b) i - fst (bmap b) i = Rabs (s i) * (snd b i - fst b i).
Proof. intros Hi. specialize (Hs i Hi). cbn. destruct (Rlt_dec 0 (s i)); [rewrite Rabs_pos_eq by lra|rewrite Rabs_left by lra]; ring. Qed.
Lemma bmap_in b x i : (0 <= i < D)%Z -> fst (bmap b) i <= s i * x + u i <= snd (bmap b) i <-> fst b i <= x <= snd b i.
Proof. intros Hi. specialize (Hs i Hi). cbn. destruct (Rlt_dec 0 (s i)); split; intros; nra. Qed.
Lemma bmap_inside b x i : (0 <= i < D)%Z -> fst (bmap b) i < s i * x + u i < snd (bmap b) i <-> fst b i < x < snd b i.
Proof. intros Hi. specialize (Hs i Hi). cbn. destruct (Rlt_dec 0 (s i)); split; intros; nra. Qed.
Definition back (y : Z -> R) (i : Z) : R := (y i - u i) / s i.
Lemma back_eq y i : (0 <= i < D)%Z -> y i = s i * back y i + u i.
Proof. intros Hi. unfold back. field. auto. Qed.
Lemma bsum l : lsum (map bmap l) (box_vol D) = P * lsum l (box_vol D).
Proof. rewrite lsum_map, <- lsum_scal. apply lsum_ext. intros b _. apply box_vol_map. intros. now apply bmap_side. Qed.
Lemma bmap_real b : real_box D b -> real_box D (bmap b).
Proof. intros H i Hi. pose proof (bmap_side b i Hi) as E. specialize (H i Hi). assert (0 < Rabs (s i)) by (apply Rabs_pos_lt; auto). nra. Qed.

Theorem content_scaled (K : (Z -> R) -> Prop) t : content D K t ->
  content D (fun y => exists x, K x /\ forall i, (0 <= i < D)%Z -> y i = s i * x i + u i) (P * t).
Proof.
  intros C e He. pose proof P_pos as PP. destruct (C (e / P)) as ((l & (L1 & L2) & L3) & (m & (M1 & M2) & M3)); [apply Rdiv_lt_0_compat; lra|].
  assert (EP : P * (e / P) = e) by (field; lra). split.
  - exists (map bmap l). split; [split|].
    + intros b Hb. apply in_map_iff in Hb. destruct Hb as (c & <- & Hc). destruct (L1 c Hc) as (H1 & H2). split; [now apply bmap_real|].
      intros y Hy. exists (back y). split; [|intros; now apply back_eq]. apply H2. intros i Hi. apply bmap_in; auto. rewrite <- back_eq by auto. now apply Hy.
    + clear -L2 Hs. induction L2 as [|b l F L2 IH]; cbn; constructor; auto. rewrite Forall_forall in *. intros c Hc. apply in_map_iff in Hc. destruct Hc as (c' & <- & Hc').
      intros y Hy Hy'. apply (F c' Hc' (back y)); intros i Hi; apply bmap_inside; auto; rewrite <- back_eq by auto; auto.
    + rewrite bsum. apply Rle_trans with (P * (t - e / P)); [rewrite Rmult_minus_distr_l; lra|]. apply Rmult_le_compat_l; lra.
  - exists (map bmap m). split; [split|].
    + intros b Hb. apply in_map_iff in Hb. destruct Hb as (c & <- & Hc). apply bmap_real. auto.
    + intros y (x & Kx & E). destruct (M2 x Kx) as (b & Hb & Ib). exists (bmap b). split; [now apply in_map|]. intros i Hi. rewrite E by auto. apply bmap_in; auto.
    + rewrite bsum. apply Rle_trans with (P * (t + e / P)); [apply Rmult_le_compat_l; lra|rewrite Rmult_plus_distr_l; lra].
Qed.
End Sc.

Section Vol.
Context (MX D : Z) (p : polyN RN) (ltd0 ltd1 : Z -> Z -> R).
Hypothesis HD : (3 <= D)%Z.
Hypothesis Hn : (0 <= nvN RN p <= MX)%Z.
Hypothesis SO : solidN D p.
Lemma scaled_volume (s u : Z -> R) p' (t : R) : (forall i, (0 <= i < D)%Z -> s i <> 0) -> nvN RN p' = nvN RN p -> imageN D (fun x k => s k * x k + u k) p p' ->
  rNd_reduce RN MX D ltd0 p = OK t -> rNd_reduce RN MX D ltd1 p' = OK (lprod (zrange D) (fun i => Rabs (s i)) * t).
Proof.
  intros Hs En (_ & I2 & I3) E.
  destruct (reduce_content MX D p ltd0 HD Hn SO) as (t0 & E0 & C0 & _).
  assert (t0 = t) as -> by (pose proof (eq_trans (eq_sym E0) E) as X; injection X; auto).
  assert (Hn' : (0 <= nvN RN p' <= MX)%Z) by (rewrite En; exact Hn).
  destruct (reduce_content MX D p' ltd1 HD Hn' (I2 SO)) as (t' & E' & C' & U). rewrite E'. f_equal. symmetry. apply U.
  apply (content_ext D (fun y => exists x, hullP D p x /\ forall i, (0 <= i < D)%Z -> y i = s i * x i + u i)).
  - intros y. symmetry. apply I3.
  - now apply content_scaled.
Qed.
Theorem translateN_volume s p' (t : R) : rNd_translate RN MX D p s = OK p' -> rNd_reduce RN MX D ltd0 p = OK t -> rNd_reduce RN MX D ltd1 p' = OK t.
Proof.
  intros E Et. destruct (translateN_image MX D p Hn s ltac:(lia)) as (q & E' & I). assert (q = p') as -> by (pose proof (eq_trans (eq_sym E') E) as X; injection X; auto).
  destruct (rNd_translate_spec RN MX D p s ltac:(lia) Hn) as (q & E2 & M). assert (q = p') as -> by (pose proof (eq_trans (eq_sym E2) E) as X; injection X; auto).
  rewrite (scaled_volume (fun _ => 1) s p' t); auto.
  - f_equal. rewrite <- (Rmult_1_l t) at 2. f_equal. rewrite Rabs_R1. induction (zrange D); cbn; [auto|rewrite IHl; ring].
  - apply M.
  - destruct I as (I1 & I2 & I3). split; auto. split; auto. intros y. rewrite I3. split; intros (x & Hx & Ex); exists x; (split; [auto|]); intros k Hk; rewrite Ex by auto; ring.
Qed.
Theorem scaleN_volume s p' (t : R) : (forall k, (0 <= k < D)%Z -> s k <> 0) -> rNd_scale RN MX D p s = OK p' -> rNd_reduce RN MX D ltd0 p = OK t ->
  rNd_reduce RN MX D ltd1 p' = OK (lprod (zrange D) (fun i => Rabs (s i)) * t).
Proof.
  intros Hs E Et. destruct (scaleN_image MX D p Hn s ltac:(lia) Hs) as (q & E' & I). assert (q = p') as -> by (pose proof (eq_trans (eq_sym E') E) as X; injection X; auto).
  destruct (rNd_scale_spec RN MX D p s ltac:(lia) Hn) as (q & E2 & M). assert (q = p') as -> by (pose proof (eq_trans (eq_sym E2) E) as X; injection X; auto).
  rewrite (scaled_volume s (fun _ => 0) p' t); auto.
  - apply M.
  - destruct I as (I1 & I2 & I3). split; auto. split; auto. intros y. rewrite I3. split; intros (x & Hx & Ex); exists x; (split; [auto|]); intros k Hk; rewrite Ex by auto; ring.
Qed.
End Vol.
