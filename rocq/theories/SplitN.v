(** * SplitN: [rNd_split] over the reals, and [rNd_reduce] of its results. *)
From Coq Require Import Reals ZArith List Bool Lia Lra Psatz.
From Verif Require Import Base Lib SumR ModelCommon CommonFacts ModelN ModelNC SpecN SpecNC SpecNP RealNum Clip2 Cons2 InsN CutN ClipN CellsN PolyN TruncN NearN HullN
  SpecNR RedN FlagR BoxVolN FlagN.
Import ListNotations.
Open Scope R_scope.

Lemma solid_convex D p : solidN D p -> convexN D p.
Proof.
  intros (Hnf & nh & bk & h & l0 & l & C & Q). split; auto. exists nh, bk, h. split; auto. intros d Hd. exists (ps (vbN RN p)), l0, l. split; auto.
  intros v k _ _. rewrite Rminus_eq_0, Rabs_R0. auto.
Qed.
Lemma solid_empty D (p : polyN RN) : (0 <= nfN RN p)%Z -> nvN RN p = 0%Z -> solidN D p.
Proof.
  intros Hnf E. split; auto. exists 0%Z, (nb (vbN RN p)), (nb (vbN RN p)), (fun _ => 0), (fun _ _ => 0). rewrite E. unfold upto. split.
  - constructor; intros; lia.
  - constructor; unfold upto; intros; lia.
Qed.
(** what [rNd_reduce] returns *)
Definition volN (D : Z) (p : polyN RN) : R := flag_sum RN D (nvN RN p) (ps (vbN RN p)) (nb (vbN RN p)).
Lemma reduce_convex MX D ltd0 p : (0 <= D)%Z -> (0 <= nvN RN p <= MX)%Z -> convexN D p -> rNd_reduce RN MX D ltd0 p = OK (volN D p).
Proof.
  intros HD Hn (_ & nh & bk & h & C & _). apply rNd_reduce_flags; auto. intros v i Hv Hi. apply (ce_f _ _ _ _ _ _ _ _ C v i Hv Hi).
Qed.
Lemma volN_0 D p : nvN RN p = 0%Z -> volN D p = 0.
Proof. intros E. unfold volN. rewrite E. reflexivity. Qed.

Section H.
Context (MX D : Z) (fuel : nat).
Hypothesis HD : (3 <= D)%Z.
Hypothesis Hf : (Z.to_nat (MX * D * D * D) <= fuel)%nat.

Definition one_side (p p' : polyN RN) (pl : planeN RN) nh h : Prop :=
  exists bk' h' ov nw, side D (nvN RN p) (nfN RN p) nh (nb (vbN RN p)) h (fdN RN p) (ps (vbN RN p)) (keepvN RN D pl (vbN RN p)) (dN RN pl) (nN RN pl)
     (nvN RN p') (nfN RN p') (nb (vbN RN p')) bk' h' (fdN RN p') (ps (vbN RN p')) ov nw.

Lemma clip_solid (p : polyN RN) pl nh bk h l0 l : (0 <= nvN RN p <= MX)%Z -> (0 <= nfN RN p)%Z ->
  cells D (upto (nvN RN p)) (nfN RN p) nh (nb (vbN RN p)) bk h (fdN RN p) -> realized D (nvN RN p) nh h (ps (vbN RN p)) l0 l ->
  (forall v, upto (nvN RN p) v -> Spl D pl (ps (vbN RN p) v) <> 0) ->
  (rNd_clip RN MX D fuel p [pl] = OK p /\ forall v, upto (nvN RN p) v -> 0 < Spl D pl (ps (vbN RN p) v))
  \/ (rNd_clip RN MX D fuel p [pl] = OK (emptyN RN p) /\ forall v, upto (nvN RN p) v -> Spl D pl (ps (vbN RN p) v) < 0)
  \/ (exists p', rNd_clip RN MX D fuel p [pl] = OK p' /\ (0 <= nvN RN p' <= MX)%Z /\ solidN D p' /\ one_side p p' pl nh h
       /\ (exists v, upto (nvN RN p) v /\ 0 < Spl D pl (ps (vbN RN p) v)) /\ exists v, upto (nvN RN p) v /\ Spl D pl (ps (vbN RN p) v) < 0)
  \/ ((MX < nvN RN p * (D + 1))%Z /\ rNd_clip RN MX D fuel p [pl] = Err OutOfBounds).
Proof.
  intros Hn Hnf C Q NZ.
  assert (P : polytope D (nvN RN p) nh h (ps (vbN RN p))).
  { intros d Hd. exists (ps (vbN RN p)), l0, l. split; auto. intros v k _ _. rewrite Rminus_eq_0, Rabs_R0. auto. }
  pose proof (polytope_simple _ _ _ _ _ _ _ _ _ C P) as SE.
  unfold rNd_clip. destruct (Z.leb_spec (nvN RN p) 0). { left. split; auto. unfold upto. intros; lia. }
  pose proof (clipN_one RN MX D fuel p pl nh bk h HD ltac:(lia) Hnf Hf C SE []) as X. cbv zeta in X.
  destruct (nle RN (n0 RN) (minf RN (sdfN RN D pl (vbN RN p)) (nvN RN p) (nbig RN))) eqn:E1.
  { left. split; auto. apply minf_R in E1 as (_ & E1). intros v Hv. specialize (NZ v Hv). specialize (E1 v Hv). rewrite sdfN_lin in E1. lra. }
  right. destruct (nle RN (maxf RN (sdfN RN D pl (vbN RN p)) (nvN RN p) (nopp RN (nbig RN))) (n0 RN)) eqn:E2.
  { left. split; auto. apply maxf_R in E2 as (_ & E2). intros v Hv. specialize (NZ v Hv). specialize (E2 v Hv). rewrite sdfN_lin in E2. lra. }
  right. pose proof (cut_edges_le D (nvN RN p) (keepvN RN D pl (vbN RN p)) (nb (vbN RN p)) ltac:(lia) ltac:(lia)) as CE.
  pose proof (cnt_nonneg (keepvN RN D pl (vbN RN p)) (nvN RN p)) as C0. pose proof (cnt_le (keepvN RN D pl (vbN RN p)) (nvN RN p) ltac:(lia)) as C1.
  destruct X as [(HM & p' & E & En & Enf & bk' & h' & ov & nw & CC & TT & PO & PN)|(HM & E)]; [left|right; split; auto; nia].
  exists p'. split; [rewrite E; reflexivity|]. split; [lia|].
  assert (SI : side D (nvN RN p) (nfN RN p) nh (nb (vbN RN p)) h (fdN RN p) (ps (vbN RN p)) (keepvN RN D pl (vbN RN p)) (dN RN pl) (nN RN pl)
     (nvN RN p') (nfN RN p') (nb (vbN RN p')) bk' h' (fdN RN p') (ps (vbN RN p')) ov nw).
  { constructor; auto.
    - intros v i Hv K Hi. now apply PO.
    - intros v i Hv Hi K K'. now apply PN.
    - intros v Hv K. apply keepvN_R in K. specialize (NZ v Hv). unfold Spl in *. lra.
    - intros v Hv K. change (Spl D pl (ps (vbN RN p) v) < 0). destruct (Rlt_le_dec (Spl D pl (ps (vbN RN p) v)) 0); auto. apply keepvN_R in r. congruence.
    - split.
      + intros v k Hv K Hk. destruct (PO v Hv K) as (-> & _). auto.
      + intros v i k Hv Hi Hk K K'. destruct (PN v i Hv Hi K K') as (Y & _). rewrite Y by auto. unfold newposN. rewrite !sdfN_lin. reflexivity. }
  split; [split; [lia|]|split; [|split]].
  - exists (nh + 1)%Z, bk', h', (l0' nh l0 (dN RN pl)), (l' nh l (nN RN pl)). split; auto.
    eapply (side_realized D (nvN RN p) (nfN RN p) nh (nb (vbN RN p)) bk h (fdN RN p)); eauto. lia.
  - exists bk', h', ov, nw. exact SI.
  - destruct (least_vertex (nvN RN p) (fun v => - Spl D pl (ps (vbN RN p) v)) ltac:(lia)) as (v0 & Hv0 & M0). exists v0. split; auto.
    destruct (Rlt_le_dec 0 (Spl D pl (ps (vbN RN p) v0))); auto. exfalso.
    assert (nle RN (maxf RN (sdfN RN D pl (vbN RN p)) (nvN RN p) (nopp RN (nbig RN))) (n0 RN) = true); [|congruence].
    apply maxf_R. split; [cbn; lra|]. intros v Hv. rewrite sdfN_lin. specialize (M0 v Hv). cbv beta in M0. lra.
  - destruct (least_vertex (nvN RN p) (fun v => Spl D pl (ps (vbN RN p) v)) ltac:(lia)) as (v0 & Hv0 & M0). exists v0. split; auto.
    destruct (Rlt_le_dec (Spl D pl (ps (vbN RN p) v0)) 0); auto. exfalso.
    assert (nle RN (n0 RN) (minf RN (sdfN RN D pl (vbN RN p)) (nvN RN p) (nbig RN)) = true); [|congruence].
    apply minf_R. split; [cbn; lra|]. intros v Hv. rewrite sdfN_lin. specialize (M0 v Hv). cbv beta in M0. lra.
Qed.

(** the two sides of one plane *)
Lemma clip_pair (p p0 p1 : polyN RN) pl0 pl1 : (0 <= nvN RN p <= MX)%Z -> solidN D p ->
  (forall x, Spl D pl1 x = - Spl D pl0 x) -> (forall v, upto (nvN RN p) v -> Spl D pl0 (ps (vbN RN p) v) <> 0) ->
  rNd_clip RN MX D fuel p [pl0] = OK p0 -> rNd_clip RN MX D fuel p [pl1] = OK p1 ->
  solidN D p0 /\ solidN D p1 /\ volN D p0 + volN D p1 = volN D p.
Proof.
  intros Hn (Hnf & nh & bk & h & l0 & l & C & Q) OP NZ E0 E1.
  assert (NZ1 : forall v, upto (nvN RN p) v -> Spl D pl1 (ps (vbN RN p) v) <> 0) by (intros v Hv; specialize (NZ v Hv); rewrite OP; lra).
  assert (SP : solidN D p) by (split; auto; exists nh, bk, h, l0, l; auto).
  assert (SE : solidN D (emptyN RN p)) by (apply solid_empty; auto).
  assert (VE : volN D (emptyN RN p) = 0) by (apply volN_0; auto).
  pose proof (clip_solid p pl0 nh bk h l0 l Hn Hnf C Q NZ) as X0. pose proof (clip_solid p pl1 nh bk h l0 l Hn Hnf C Q NZ1) as X1.
  assert (NN : (nvN RN p = 0)%Z \/ upto (nvN RN p) 0%Z) by (unfold upto; lia).
  destruct X0 as [(F0 & A0)|[(F0 & A0)|[(q0 & F0 & R0 & S0 & O0 & (a & Ha & Sa) & (b & Hb & Sb))|(_ & F0)]]]; [| | |congruence];
  (destruct X1 as [(F1 & A1)|[(F1 & A1)|[(q1 & F1 & R1 & S1 & O1 & (a1 & Ha1 & Sa1) & (b1 & Hb1 & Sb1))|(_ & F1)]]]; [| | |congruence]);
  rewrite E0 in F0; injection F0 as ->; rewrite E1 in F1; injection F1 as ->.
  - destruct NN as [NN|NN]; [rewrite (volN_0 D p NN); split; auto; split; auto; lra|]. specialize (A0 _ NN). specialize (A1 _ NN). rewrite OP in A1. lra.
  - split; auto. split; auto. rewrite VE. lra.
  - exfalso. specialize (A0 _ Ha1). rewrite OP in Sa1. lra.
  - split; auto. split; auto. rewrite VE. lra.
  - destruct NN as [NN|NN]; [rewrite (volN_0 D p NN), VE; split; auto; split; auto; lra|]. specialize (A0 _ NN). specialize (A1 _ NN). rewrite OP in A1. lra.
  - exfalso. specialize (A0 _ Hb1). rewrite OP in Sb1. lra.
  - exfalso. specialize (A1 _ Ha). rewrite OP in A1. lra.
  - exfalso. specialize (A1 _ Hb). rewrite OP in A1. lra.
  - split; auto. split; auto. destruct O0 as (bk0 & h0 & ov0 & nw0 & SI0). destruct O1 as (bk1 & h1 & ov1 & nw1 & SI1).
    unfold volN. rewrite !flag_sum_R.
    refine (split_flags D (nvN RN p) (nfN RN p) nh (nb (vbN RN p)) bk h (fdN RN p) ltac:(lia) ltac:(lia) C (ps (vbN RN p)) l0 l Q _ _ _ _ _ _ _ OP
      _ _ _ _ _ _ _ _ _ _ _ _ _ _ _ _ _ _ SI0 SI1).
    intros v Hv. specialize (NZ v Hv). destruct (keepvN RN D pl0 (vbN RN p) v) eqn:K0, (keepvN RN D pl1 (vbN RN p) v) eqn:K1; auto; exfalso.
    + apply keepvN_R in K0, K1. rewrite OP in K1. lra.
    + assert (~ 0 <= Spl D pl0 (ps (vbN RN p) v)) by (intros X; apply keepvN_R in X; congruence).
      assert (~ 0 <= Spl D pl1 (ps (vbN RN p) v)) by (intros X; apply keepvN_R in X; congruence). rewrite OP in *. lra.
Qed.

(** ** [rNd_split] *)
Lemma split_planes ax c (x : Z -> R) : (0 <= ax < D)%Z ->
  Spl D (PLN RN (@upd (T RN) (fun _ => 0) ax (Ropp 1)) c) x = c - x ax /\ Spl D (PLN RN (@upd (T RN) (fun _ => 0) ax (Ropp 1 * Ropp 1)) (c * Ropp 1)) x = x ax - c.
Proof.
  intros Hx. unfold Spl, linN. cbn [dN nN]. split.
  - rewrite (lsum_single (zrange D) _ ax); [|apply NoDup_zrange|now apply in_zrange|intros i Hi N; unfold upd; destruct (Z.eqb_spec i ax); [congruence|lra]].
    rewrite upd_eq. lra.
  - rewrite (lsum_single (zrange D) _ ax); [|apply NoDup_zrange|now apply in_zrange|intros i Hi N; unfold upd; destruct (Z.eqb_spec i ax); [congruence|lra]].
    rewrite upd_eq. lra.
Qed.

Theorem split_hull (p : polyN RN) c ax : (0 <= nvN RN p <= MX)%Z -> (0 <= ax < D)%Z -> convexN D p ->
  (exists p0 p1, rNd_split RN MX D fuel p c ax = OK (p0, p1) /\ (0 <= nvN RN p0 <= MX)%Z /\ (0 <= nvN RN p1 <= MX)%Z
     /\ (nvN RN p0 <= nvN RN p * (D + 1))%Z /\ (nvN RN p1 <= nvN RN p * (D + 1))%Z /\ convexN D p0 /\ convexN D p1
     /\ ((forall x, hullP D p0 x <-> hullP D p x /\ x ax <= c) \/ (nvN RN p0 = 0%Z /\ forall x, hullP D p x -> c <= x ax))
     /\ ((forall x, hullP D p1 x <-> hullP D p x /\ c <= x ax) \/ (nvN RN p1 = 0%Z /\ forall x, hullP D p x -> x ax <= c)))
  \/ ((MX < nvN RN p * (D + 1))%Z /\ rNd_split RN MX D fuel p c ax = Err OutOfBounds).
Proof.
  intros Hn Hx Cv. unfold rNd_split. cbn [n0 n1 nopp nmul RN].
  set (pl0 := PLN RN (@upd (T RN) (fun _ => 0) ax (Ropp 1)) c). set (pl1 := PLN RN (@upd (T RN) (fun _ => 0) ax (Ropp 1 * Ropp 1)) (c * Ropp 1)).
  assert (A0 : forall x, Spl D pl0 x = c - x ax) by (intros; now apply split_planes). assert (A1 : forall x, Spl D pl1 x = x ax - c) by (intros; now apply split_planes).
  destruct (rNd_clip_hull MX D fuel HD Hf p [pl0] Hn Cv) as [(p0 & E0 & R0 & L0 & C0 & H0)|(HM & E)]; [|right; rewrite E; split; auto; cbn in HM; lia].
  destruct (rNd_clip_hull MX D fuel HD Hf p [pl1] Hn Cv) as [(p1 & E1 & R1 & L1 & C1 & H1)|(HM & E)]; [|right; rewrite E0; cbn [bind]; rewrite E; split; auto; cbn in HM; lia].
  left. exists p0, p1. rewrite E0. cbn [bind]. rewrite E1. cbn [bind]. split; auto. split; auto. split; auto.
  split; [cbn in L0; lia|]. split; [cbn in L1; lia|]. split; auto. split; auto. split.
  - destruct H0 as [H0|(Z0 & H0)]; [left|right; split; auto].
    + intros x. rewrite H0. split; intros (Y1 & Y2); split; auto; [specialize (Y2 pl0 (or_introl eq_refl)); rewrite A0 in Y2; lra|intros pl [<-|[]]; rewrite A0; lra].
    + intros x X. destruct (Rle_lt_dec c (x ax)); auto. exfalso. apply (H0 x X). intros pl [<-|[]]. rewrite A0. lra.
  - destruct H1 as [H1|(Z0 & H1)]; [left|right; split; auto].
    + intros x. rewrite H1. split; intros (Y1 & Y2); split; auto; [specialize (Y2 pl1 (or_introl eq_refl)); rewrite A1 in Y2; lra|intros pl [<-|[]]; rewrite A1; lra].
    + intros x X. destruct (Rle_lt_dec (x ax) c); auto. exfalso. apply (H1 x X). intros pl [<-|[]]. rewrite A1. lra.
Qed.

Theorem split_reduce (p p0 p1 : polyN RN) c ax : (0 <= nvN RN p <= MX)%Z -> (0 <= ax < D)%Z -> solidN D p ->
  (forall v, (0 <= v < nvN RN p)%Z -> ps (vbN RN p) v ax <> c) ->
  rNd_split RN MX D fuel p c ax = OK (p0, p1) -> solidN D p0 /\ solidN D p1 /\ volN D p0 + volN D p1 = volN D p.
Proof.
  intros Hn Hx S NZ E. unfold rNd_split in E. cbn [n0 n1 nopp nmul RN] in E.
  set (pl0 := PLN RN (@upd (T RN) (fun _ => 0) ax (Ropp 1)) c) in *. set (pl1 := PLN RN (@upd (T RN) (fun _ => 0) ax (Ropp 1 * Ropp 1)) (c * Ropp 1)) in *.
  assert (A0 : forall x, Spl D pl0 x = c - x ax) by (intros; now apply split_planes). assert (A1 : forall x, Spl D pl1 x = x ax - c) by (intros; now apply split_planes).
  match type of E with bind ?a _ = _ => destruct a as [q0|] eqn:E0; [|discriminate] end. cbn [bind] in E.
  match type of E with bind ?a _ = _ => destruct a as [q1|] eqn:E1; [|discriminate] end. cbn [bind] in E. injection E as -> ->.
  apply (clip_pair p p0 p1 pl0 pl1); auto.
  - intros x. rewrite A0, A1. lra.
  - intros v Hv. rewrite A0. specialize (NZ v Hv). lra.
Qed.
End H.
