(** * ClipJ: [rNd_clip] by planes in general position, and the volume of the result. *)
From Coq Require Import Reals ZArith List Bool Lia Lra Psatz.
From Verif Require Import Base Lib ModelCommon ModelN ModelNC SumR SpecN SpecNP SpecNR SpecNV SpecNJ RealNum Clip2 Cons2 ClipN TruncN HullN SplitN VoxN BoxVoxN MonoN ContN UniqJ VoxJ.
From Verif Require SpecNC PolyN UniqN.
Import ListNotations.
Open Scope R_scope.

Lemma extreme_ext D (K K' : (Z -> R) -> Prop) x : (forall y, K y <-> K' y) -> extreme D K x -> extreme D K' x.
Proof. intros E (H1 & H2). split; [now apply E|]. intros y z Hy Hz. apply H2; now apply E. Qed.

(** ** the volume *)
Theorem reduce_content MX D (p : polyN RN) ltd0 : (3 <= D)%Z -> (0 <= nvN RN p <= MX)%Z -> solidN D p ->
  exists t, rNd_reduce RN MX D ltd0 p = OK t /\ content D (hullP D p) t /\ forall s, content D (hullP D p) s -> s = t.
Proof.
  intros HD Hn S. exists (volN D p). split; [apply reduce_convex; auto; [lia|now apply solid_convex]|].
  assert (C : content D (hullP D p) (volN D p)) by (apply vol_content; auto; split; [lia|auto]). split; auto. intros s Hs. eapply content_unique; eauto. lia.
Qed.
Section J.
Context (MX D : Z) (fuel : nat).
Hypothesis HD : (3 <= D)%Z.
Hypothesis Hf : (Z.to_nat (MX * D * D * D) <= fuel)%nat.

Theorem clip_generic planes : forall p p' : polyN RN, (0 <= nvN RN p <= MX)%Z -> solidN D p -> generic D (hullP D p) planes ->
  rNd_clip RN MX D fuel p planes = OK p' -> (0 <= nvN RN p' <= MX)%Z /\ solidN D p' /\ forall x, hullP D p' x <-> hullP D p x /\ holds D planes x.
Proof.
  induction planes as [|pl rest IH]; intros p p' Hn S G E.
  { unfold rNd_clip in E. cbn in E. assert (p' = p) as -> by (destruct (nvN RN p <=? 0)%Z; injection E; auto). split; auto. split; auto. intros x. split; [|tauto]. intros H. split; auto. intros pl []. }
  destruct (Z.eq_dec (nvN RN p) 0) as [Z0|Z0].
  { unfold rNd_clip in E. rewrite Z0 in E. cbn in E. injection E as <-. split; auto. split; auto. unfold hullP. rewrite Z0. intros x. split; [intros H|intros (H & _)]; exfalso; eapply hullN_0; eauto. }
  assert (NZ : forall v, SpecNC.upto (nvN RN p) v -> Spl D pl (ps (vbN RN p) v) <> 0).
  { intros v Hv. apply (G [] pl rest); auto. apply (extreme_ext D (hullP D p)); [|apply vertex_extreme; auto; lia]. intros y. split; [|tauto]. intros H. split; auto. intros q []. }
  pose proof S as (Hnf & nh & bk & h & l0 & l & C & Q).
  assert (TAIL : forall q, (0 <= nvN RN q <= MX)%Z -> solidN D q -> (forall x, hullP D q x <-> hullP D p x /\ 0 <= Spl D pl x) -> rNd_clip RN MX D fuel q rest = OK p' ->
    (0 <= nvN RN p' <= MX)%Z /\ solidN D p' /\ forall x, hullP D p' x <-> hullP D p x /\ holds D (pl :: rest) x).
  { intros q Hq Sq HQ Eq. destruct (IH q p' Hq Sq) as (A1 & A2 & A3); auto.
    - intros before pl' after x Er Ex. apply (G (pl :: before) pl' after); [cbn; now rewrite Er|]. revert Ex. apply extreme_ext. intros y. rewrite HQ. unfold holds. split.
      + intros ((B1 & B2) & B3). split; auto. intros r [<-|I]; auto.
      + intros (B1 & B2). split; [split; auto; apply B2; now left|]. intros r I. apply B2. now right.
    - split; auto. split; auto. intros x. rewrite A3, HQ. unfold holds. split.
      + intros ((B1 & B2) & B3). split; auto. intros r [<-|I]; auto.
      + intros (B1 & B2). split; [split; auto; apply B2; now left|]. intros r I. apply B2. now right. }
  unfold rNd_clip in E. destruct (Z.leb_spec (nvN RN p) 0); [lia|]. cbn [clipN_planes] in E.
  destruct (clipN_sd_spec RN MX D (vbN RN p) (nvN RN p) pl ltac:(lia) Hn) as (s & ES & _ & _ & _ & _ & SM). rewrite ES in E. cbn [bind] in E.
  assert (ONE : forall q, (if nle RN (n0 RN) (sminN RN s) then OK p else if nle RN (smaxN RN s) (n0 RN) then OK (PN RN (vbN RN p) (fdN RN p) 0 (nfN RN p))
      else clipN_cut RN MX D fuel p (sdistsN RN s) (clippedN RN s)) = OK q -> rNd_clip RN MX D fuel p [pl] = OK q).
  { intros q Eq. unfold rNd_clip. destruct (Z.leb_spec (nvN RN p) 0); [lia|]. cbn [clipN_planes]. rewrite ES. cbn [bind]. destruct (nle RN (n0 RN) (sminN RN s)); auto.
    destruct (nle RN (smaxN RN s) (n0 RN)); auto. rewrite Eq. reflexivity. }
  assert (HALF : forall q, rNd_clip RN MX D fuel p [pl] = OK q -> (0 <= nvN RN q <= MX)%Z /\ solidN D q /\ forall x, hullP D q x <-> hullP D p x /\ 0 <= Spl D pl x).
  { intros q Eq. destruct (half_cut D HD p pl MX fuel q Hn Hf S NZ Eq) as (_ & HQ).
    destruct (clip_solid MX D fuel HD Hf p pl nh bk h l0 l Hn Hnf C Q NZ) as [(F & _)|[(F & _)|[(r & F & R & Sr & _)|(_ & F)]]]; rewrite Eq in F; try discriminate; injection F as ->; auto.
    split; [cbn; lia|]. split; auto. apply solid_empty; auto. }
  destruct (nle RN (n0 RN) (sminN RN s)).
  - destruct (HALF p (ONE p eq_refl)) as (A1 & A2 & A3). apply (TAIL p); auto. unfold rNd_clip. destruct (Z.leb_spec (nvN RN p) 0); [lia|auto].
  - destruct (nle RN (smaxN RN s) (n0 RN)) eqn:EM.
    + injection E as <-. destruct (HALF _ (ONE _ eq_refl)) as (A1 & A2 & A3). eapply TAIL; eauto.
    + destruct (clipN_cut RN MX D fuel p (sdistsN RN s) (clippedN RN s)) as [q|] eqn:EC; [|discriminate]. cbn [bind] in E.
      pose proof (ONE q eq_refl) as E1. destruct (HALF q E1) as (A1 & A2 & A3). apply (TAIL q); auto. unfold rNd_clip. destruct (Z.leb_spec (nvN RN q) 0) as [L|L]; auto.
      assert (Zq : nvN RN q = 0%Z) by lia.
      destruct (clip_solid MX D fuel HD Hf p pl nh bk h l0 l Hn Hnf C Q NZ) as [(F & A)|[(F & A)|[(r & F & R & Sr & _ & (v & Hv & Pv) & _)|(_ & F)]]]; rewrite E1 in F; try discriminate; injection F as ->.
      * lia.
      * exfalso. rewrite SM in EM. assert (X : nle RN (maxf RN (sdfN RN D pl (vbN RN p)) (nvN RN p) (nopp RN (nbig RN))) (n0 RN) = true); [|congruence].
        apply maxf_R. split; [cbn; lra|]. intros w Hw. rewrite sdfN_lin. specialize (A w Hw). unfold Spl in A. cbv beta in A. apply Rlt_le. exact A.
      * exfalso. assert (Hx : hullP D r (ps (vbN RN p) v)) by (apply A3; split; [now apply UniqN.hull_vertex|lra]). unfold hullP in Hx. rewrite Zq in Hx. eapply hullN_0; eauto.
Qed.

Theorem clip_content planes (p p' : polyN RN) ltd0 : (0 <= nvN RN p <= MX)%Z -> solidN D p -> generic D (hullP D p) planes ->
  rNd_clip RN MX D fuel p planes = OK p' -> solidN D p' /\ exists t, rNd_reduce RN MX D ltd0 p' = OK t /\ content D (fun x => hullP D p x /\ holds D planes x) t.
Proof.
  intros Hn S G E. destruct (clip_generic planes p p' Hn S G E) as (A1 & A2 & A3). split; auto. destruct (reduce_content MX D p' ltd0 HD A1 A2) as (t & T1 & T2 & _).
  exists t. split; auto. revert T2. apply content_ext. exact A3.
Qed.
End J.

(** ** boxes *)
Lemma box_generic D lo hi ax c s (K : (Z -> R) -> Prop) : (0 <= ax < D)%Z -> s <> 0 -> c <> lo ax -> c <> hi ax -> (forall x, K x <-> in_box D lo hi x) ->
  generic D K [PLN RN (upd (fun _ => 0) ax s) (- (s * c))].
Proof.
  intros Ha Hs Hl Hh HK before pl after x E Ex SP.
  assert (before = [] /\ pl = PLN RN (upd (fun _ => 0) ax s) (- (s * c))) as (-> & ->).
  { destruct before as [|b before]; cbn in E; [injection E; auto|]. injection E as _ E. destruct before; discriminate. }
  assert (SE : Spl D (PLN RN (upd (fun _ => 0) ax s) (- (s * c))) x = s * (x ax - c)).
  { unfold Spl, linN. cbn [dN nN]. rewrite (PolyN.lsum_single _ _ ax (NoDup_zrange D) (proj2 (in_zrange _ _) Ha)); [rewrite upd_eq; match goal with |- @eq _ ?a ?b => change (@eq R a b) end; ring|].
    intros j _ N. rewrite upd_neq by auto. match goal with |- @eq _ ?a ?b => change (@eq R a b) end. ring. }
  rewrite SE in SP. assert (Xc : x ax = c) by (apply Rmult_integral in SP as [|]; [contradiction|lra]).
  destruct Ex as ((Kx & _) & Ex). pose proof (proj1 (HK x) Kx) as Bx. specialize (Bx ax Ha) as Ba. set (t := Rmin (c - lo ax) (hi ax - c)).
  assert (Ht : 0 < t <= c - lo ax /\ t <= hi ax - c) by (unfold t, Rmin; destruct Rle_dec; lra).
  assert (SH : forall r, - t <= r <= t -> K (@upd R x ax (c + r)) /\ holds D [] (@upd R x ax (c + r))).
  { intros r Hr. split; [|intros ? []]. apply HK. intros i Hi. unfold upd. destruct (Z.eqb_spec i ax) as [->|]; [lra|auto]. }
  pose proof (Ex (@upd R x ax (c + t)) (@upd R x ax (c + - t)) (SH t ltac:(lra)) (SH (- t) ltac:(lra))) as X.
  assert (Y : forall k, (0 <= k < D)%Z -> x k = (@upd R x ax (c + t) k + @upd R x ax (c + - t) k) / 2).
  { intros k Hk. unfold upd. destruct (Z.eqb_spec k ax) as [->|]; lra. }
  specialize (X Y ax Ha). rewrite !upd_eq in X. lra.
Qed.
Lemma half_box_ok D lo hi ax c (K : (Z -> R) -> Prop) : (0 <= ax < D)%Z -> (lo ax < c < hi ax)%R -> (forall x, K x <-> in_box D lo hi x) ->
  generic D K [PLN RN (@upd R (fun _ => 0%R) ax 1%R) (- (1 * c))%R].
Proof. intros Ha Hc HK. apply (box_generic D lo hi ax c 1 K); auto; lra. Qed.
Theorem box_content D lo hi : (3 <= D)%Z -> (forall i, (0 <= i < D)%Z -> lo i < hi i) -> content D (in_box D lo hi) (FlagR.lprod (zrange D) (fun i => hi i - lo i)).
Proof.
  intros HD H. destruct (box_poly D HD lo hi H) as (p & G & HP & V). unfold bvol in V. rewrite <- V. apply (content_ext D (hullP D p)); auto. now apply vol_content.
Qed.
Theorem reduce_mono MX D (p q : polyN RN) ltd0 ltd1 (t s : R) : (3 <= D)%Z -> (0 <= nvN RN p <= MX)%Z -> (0 <= nvN RN q <= MX)%Z -> solidN D p -> solidN D q ->
  (forall x, hullP D p x -> hullP D q x) -> rNd_reduce RN MX D ltd0 p = OK t -> rNd_reduce RN MX D ltd1 q = OK s -> 0 <= t <= s.
Proof.
  intros HD Hp Hq Sp Sq H Et Es. rewrite (reduce_convex MX D ltd0 p) in Et by (auto; try lia; now apply solid_convex). rewrite (reduce_convex MX D ltd1 q) in Es by (auto; try lia; now apply solid_convex).
  injection Et as <-. injection Es as <-. split; [apply vol_nonneg; auto; lia|]. apply vol_mono; auto; split; auto; lia.
Qed.
Theorem reduce_same MX D (p q : polyN RN) ltd0 ltd1 : (1 <= D)%Z -> (0 <= nvN RN p <= MX)%Z -> (0 <= nvN RN q <= MX)%Z -> solidN D p -> solidN D q ->
  (forall x, hullP D p x <-> hullP D q x) -> rNd_reduce RN MX D ltd0 p = rNd_reduce RN MX D ltd1 q.
Proof.
  intros HD Hp Hq Sp Sq H. rewrite (reduce_convex MX D ltd0 p) by (auto; try lia; now apply solid_convex). rewrite (reduce_convex MX D ltd1 q) by (auto; try lia; now apply solid_convex).
  f_equal. now apply vol_hull.
Qed.
Theorem box_vox_content MX D fuel (p : polyN RN) stk0 mom0 ltd0 lo hi B (gr d : Z -> R) : (3 <= D)%Z -> (Z.to_nat (MX * D * D * D) <= fuel)%nat ->
  (2 ^ D * (D + 1) ^ levels D B <= MX)%Z -> box_okN D B ->
  (forall i, (0 <= i < D)%Z -> 0 < d i /\ d i * IZR (fst B i) <= lo i /\ lo i < hi i /\ hi i <= d i * IZR (snd B i)) ->
  (forall i m, (0 <= i < D)%Z -> lo i <> d i * IZR m /\ hi i <> d i * IZR m) ->
  exists p' gr', rNd_init_box RN MX D p lo hi = OK p' /\ ModelNV.rNd_voxelize RN MX D fuel stk0 mom0 ltd0 p' B gr d = OK gr'
    /\ forall c, in_cells D B c -> content D (fun x => in_box D lo hi x /\ in_cell D d c x) (gr' (cellN D B c) - gr (cellN D B c)).
Proof.
  intros HD Hf HM HB Hl HN. destruct (box_voxelize MX D fuel p stk0 mom0 ltd0 lo hi B gr d HD Hf HM HB Hl HN) as (p' & gr' & E1 & E2 & _).
  exists p', gr'. split; auto. split; auto.
  assert (P2 : (0 < 2 ^ D)%Z) by (apply Z.pow_pos_nonneg; lia).
  assert (PL : (0 < (D + 1) ^ levels D B)%Z) by (apply Z.pow_pos_nonneg; [lia|rewrite levels_depth; apply VoxFacts.depth_nonneg]).
  assert (HM2 : (2 ^ D <= MX)%Z) by nia.
  destruct (box_solid MX D p lo hi ltac:(lia) HM2) as (q & E3 & En & S & HH); [intros i Hi; specialize (Hl i Hi); lra|]. rewrite E1 in E3. injection E3 as <-.
  intros c Hc. apply (content_ext D (fun x => hullP D p' x /\ in_cell D d c x)); [intros x; rewrite HH; tauto|].
  eapply vox_content; eauto.
  - lia.
  - intros i Hi. specialize (Hl i Hi). lra.
  - intros x Hx i Hi. apply HH in Hx. specialize (Hx i Hi). specialize (Hl i Hi). lra.
  - eapply box_off_grid; eauto. intros i Hi. specialize (Hl i Hi). lra.
Qed.
