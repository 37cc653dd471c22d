(** * FarkC: the hulls of SpecC2, SpecC3, SpecM2 and SpecNC are the weighted means of the points. *)
From Coq Require Import Reals ZArith List Bool Lia Lra Psatz.
From Verif Require Import Base Lib SumR ModelCommon Model2 Model3 SpecN SpecNC Spec2R Spec3R SpecC2 SpecC3 SpecM2 SpecH FarkJ.
Import ListNotations.
Open Scope R_scope.

Lemma wsum_nonneg n w f : (forall v, (0 <= v < n)%Z -> 0 <= w v) -> (forall v, (0 <= v < n)%Z -> 0 <= f v) -> 0 <= wsum n w f.
Proof.
  intros A B. unfold wsum. assert (G : forall l, (forall v, In v l -> (0 <= v < n)%Z) -> 0 <= lsum l (fun v => w v * f v)); [|apply G; intros v Hv; now apply in_zrange in Hv].
  induction l as [|a l IH]; intros Hl; cbn; [lra|]. pose proof (A a (Hl a (or_introl eq_refl))). pose proof (B a (Hl a (or_introl eq_refl))). specialize (IH ltac:(intros; apply Hl; now right)). nra.
Qed.
Lemma wsum_scal n w c f : c * wsum n w f = wsum n w (fun v => c * f v).
Proof. unfold wsum. rewrite <- lsum_scal. apply lsum_ext. intros; ring. Qed.
Lemma wsum_add n w f g : wsum n w f + wsum n w g = wsum n w (fun v => f v + g v).
Proof. unfold wsum. rewrite <- lsum_add. apply lsum_ext. intros; ring. Qed.
Lemma wsum_const n w c : lsum (zrange n) w = 1 -> wsum n w (fun _ => c) = c.
Proof. intros E. unfold wsum. transitivity (lsum (zrange n) (fun v => c * w v)); [apply lsum_ext; intros; ring|]. rewrite lsum_scal, E. ring. Qed.
Lemma wsum_is n w f t : t = lsum (zrange n) (fun v => w v * f v) -> t = wsum n w f.
Proof. auto. Qed.

Lemma means2 n (q : Z -> rvec2 R) x : (forall g, (forall v, (0 <= v < n)%Z -> 0 <= sdist g (q v)) -> 0 <= sdist g x) <-> mean2 n q x.
Proof.
  split.
  - intros H.
    destruct (farkas_weights (fun g h : plane2 R => PL2 (V2 (vx (pn g) + vx (pn h)) (vy (pn g) + vy (pn h))) (pd g + pd h)) (fun c g => PL2 (V2 (c * vx (pn g)) (c * vy (pn g))) (c * pd g))
      (fun v g => sdist g (q v)) (fun g => sdist g x) n) as (w & W & F).
    + intros v _. split; intros; unfold sdist; cbn; ring.
    + split; intros; unfold sdist; cbn; ring.
    + exact H.
    + pose proof (F (PL2 (V2 0 0) 1)) as F0. pose proof (F (PL2 (V2 1 0) 0)) as F1. pose proof (F (PL2 (V2 0 1) 0)) as F2. unfold sdist in F0, F1, F2. cbn in F0, F1, F2.
      exists w. split; [split; auto|split]; [transitivity (1 + (0 * vx x + 0 * vy x)); [rewrite F0|ring]|transitivity (0 + (1 * vx x + 0 * vy x)); [ring|rewrite F1]|transitivity (0 + (0 * vx x + 1 * vy x)); [ring|rewrite F2]];
        unfold wsum; apply lsum_ext; intros; ring.
  - intros (w & (W & S) & X & Y) [[a b] d] Hg. unfold sdist in *. cbn [pn pd vx vy] in *. rewrite X, Y, !wsum_scal. rewrite <- (wsum_const n w d S) at 1. rewrite !wsum_add. now apply wsum_nonneg.
Qed.
Lemma means3 n (q : Z -> rvec3 R) x : (forall g, (forall v, (0 <= v < n)%Z -> 0 <= sdist3 g (q v)) -> 0 <= sdist3 g x) <-> mean3 n q x.
Proof.
  split.
  - intros H.
    destruct (farkas_weights (fun g h : plane3 R => PL3 (V3 (x3 (n3 g) + x3 (n3 h)) (y3 (n3 g) + y3 (n3 h)) (z3 (n3 g) + z3 (n3 h))) (d3 g + d3 h)) (fun c g => PL3 (V3 (c * x3 (n3 g)) (c * y3 (n3 g)) (c * z3 (n3 g))) (c * d3 g))
      (fun v g => sdist3 g (q v)) (fun g => sdist3 g x) n) as (w & W & F).
    + intros v _. split; intros; unfold sdist3; cbn; ring.
    + split; intros; unfold sdist3; cbn; ring.
    + exact H.
    + pose proof (F (PL3 (V3 0 0 0) 1)) as F0. pose proof (F (PL3 (V3 1 0 0) 0)) as F1. pose proof (F (PL3 (V3 0 1 0) 0)) as F2. pose proof (F (PL3 (V3 0 0 1) 0)) as F3. unfold sdist3 in F0, F1, F2, F3. cbn in F0, F1, F2, F3.
      exists w. split; [split; auto|split; [|split]];
        [transitivity (1 + (0 * x3 x + 0 * y3 x + 0 * z3 x)); [rewrite F0|ring]|transitivity (0 + (1 * x3 x + 0 * y3 x + 0 * z3 x)); [ring|rewrite F1]
        |transitivity (0 + (0 * x3 x + 1 * y3 x + 0 * z3 x)); [ring|rewrite F2]|transitivity (0 + (0 * x3 x + 0 * y3 x + 1 * z3 x)); [ring|rewrite F3]];
        unfold wsum; apply lsum_ext; intros; ring.
  - intros (w & (W & S) & X & Y & Z0) [[a b c] d] Hg. unfold sdist3 in *. cbn [n3 d3 x3 y3 z3] in *. rewrite X, Y, Z0, !wsum_scal. rewrite <- (wsum_const n w d S) at 1. rewrite !wsum_add. now apply wsum_nonneg.
Qed.
Theorem hull2_means (p : poly (rvec2 R)) x : hull2 p x <-> mean2 (nv p) (ps (vb p)) x.
Proof. exact (means2 (nv p) (ps (vb p)) x). Qed.
Theorem hull3_means (p : poly (rvec3 R)) x : hull3 p x <-> mean3 (nv p) (ps (vb p)) x.
Proof. exact (means3 (nv p) (ps (vb p)) x). Qed.
Theorem poly_pts_means (l : list (rvec2 R)) x : poly_pts l x <-> mean2 (Z.of_nat (length l)) (fun v => nth (Z.to_nat v) l (V2 0 0)) x.
Proof.
  rewrite <- means2. unfold poly_pts. split; intros H g Hg; apply H.
  - intros q Hq. destruct (In_nth l q (V2 0 0) Hq) as (k & Hk & <-). specialize (Hg (Z.of_nat k) ltac:(lia)). now rewrite Nat2Z.id in Hg.
  - intros v Hv. apply Hg, nth_In. lia.
Qed.
Theorem hullN_means D n (q : Z -> Z -> R) x : hullN D n q x <-> meanN D n q x.
Proof.
  split.
  - intros H.
    destruct (farkas_weights (fun g h : R * (Z -> R) => (fst g + fst h, fun i => snd g i + snd h i)) (fun c g => (c * fst g, fun i => c * snd g i))
      (fun v g => linN D (fst g) (snd g) (q v)) (fun g => linN D (fst g) (snd g) x) n) as (w & W & F).
    + intros v _. split; intros; unfold linN; cbn [fst snd]; [rewrite (lsum_ext _ _ (fun i => snd x0 i * q v i + snd y i * q v i)) by (intros; ring); rewrite lsum_add; ring|].
      rewrite (lsum_ext _ _ (fun i => c * (snd x0 i * q v i))) by (intros; ring). rewrite lsum_scal. ring.
    + split; intros; unfold linN; cbn [fst snd]; [rewrite (lsum_ext _ _ (fun i => snd x0 i * x i + snd y i * x i)) by (intros; ring); rewrite lsum_add; ring|].
      rewrite (lsum_ext _ _ (fun i => c * (snd x0 i * x i))) by (intros; ring). rewrite lsum_scal. ring.
    + intros g Hg. exact (H (fst g) (snd g) Hg).
    + assert (ZS : forall f : Z -> R, lsum (zrange D) (fun i => 0 * f i) = 0) by (intros f; rewrite lsum_scal; ring).
      exists w. split; [split; auto|].
      * specialize (F (1, fun _ => 0)). unfold linN in F. cbn [fst snd] in F. rewrite ZS in F. rewrite Rplus_0_r in F. symmetry. rewrite F. apply lsum_ext. intros v _. rewrite ZS. ring.
      * intros k Hk. specialize (F (0, fun i => if (i =? k)%Z then 1 else 0)). unfold linN in F. cbn [fst snd] in F.
        assert (ZK : forall f : Z -> R, lsum (zrange D) (fun i => (if (i =? k)%Z then 1 else 0) * f i) = f k).
        { intros f. assert (G : forall l, NoDup l -> lsum l (fun i => (if (i =? k)%Z then 1 else 0) * f i) = if in_dec Z.eq_dec k l then f k else 0).
          { induction 1 as [|a l N _ IH]; cbn [lsum]; [destruct (in_dec Z.eq_dec k []); [easy|auto]|]. rewrite IH. destruct (Z.eqb_spec a k) as [->|Na].
            - destruct (in_dec Z.eq_dec k l); [easy|]. destruct (in_dec Z.eq_dec k (k :: l)) as [_|X]; [ring|exfalso; apply X; now left].
            - destruct (in_dec Z.eq_dec k l), (in_dec Z.eq_dec k (a :: l)); try ring; exfalso; cbn in *; tauto. }
          rewrite G by apply NoDup_zrange. destruct (in_dec Z.eq_dec k (zrange D)) as [_|X]; auto. exfalso. apply X. now apply in_zrange. }
        rewrite ZK, Rplus_0_l in F. rewrite F. unfold wsum. apply lsum_ext. intros v _. rewrite ZK. ring.
  - intros (w & (W & S) & X) c0 c Hg. unfold halfN, linN in *. rewrite (lsum_ext _ _ (fun i => wsum n w (fun v => c i * q v i))).
    2:{ intros i Hi. apply in_zrange in Hi. rewrite (X i Hi). apply wsum_scal. }
    assert (G : forall l, lsum l (fun i => wsum n w (fun v => c i * q v i)) = wsum n w (fun v => lsum l (fun i => c i * q v i))).
    { induction l as [|i l IH]; cbn [lsum]; [symmetry; now apply wsum_const|]. now rewrite IH, wsum_add. }
    rewrite G. rewrite <- (wsum_const n w c0 S) at 1. rewrite wsum_add. now apply wsum_nonneg.
Qed.
