(** * MonoN: what [rNd_reduce] returns is not negative, does not depend on the origin, and
    depends only on the hull and grows with it. *)
From Coq Require Import Reals ZArith List Bool Lia Lra Psatz.
From Verif Require Import Base Lib SumR ModelCommon ModelN ModelNC SpecN SpecNC SpecNP RealNum PolyN NearN HullN SpecNR RedN FlagR BoxVolN FlagN FlagF SplitN BoxVoxN UniqN OffN.
Import ListNotations.
Open Scope R_scope.

(** a real in an open interval away from finitely many points *)
Lemma avoid (l : list R) : forall a b, a < b -> exists s, a < s < b /\ ~ In s l.
Proof.
  induction l as [|x l IH]; intros a b H; [exists ((a + b) / 2); split; [lra|intros []]|].
  set (c := (a + b) / 2). destruct (Rle_dec x c) as [X|X].
  - destruct (IH c b) as (s & Hs & N); [unfold c; lra|]. exists s. split; [unfold c in *; lra|]. intros [E|E]; auto. unfold c in *; lra.
  - destruct (IH a c) as (s & Hs & N); [unfold c; lra|]. exists s. split; [unfold c in *; lra|]. intros [E|E]; auto. unfold c in *; lra.
Qed.

Section M.
Context (D : Z).
Definition good (p : polyN RN) : Prop := (0 <= nvN RN p)%Z /\ solidN D p.

Section A.
Hypothesis HD : (1 <= D)%Z.
Lemma vol_nonneg p : solidN D p -> 0 <= volN D p.
Proof. intros (Hnf & nh & bk & h & l0 & l & C & Q). unfold volN. rewrite flag_sum_R. eapply flag_sum_nonneg; eauto. Qed.
Lemma vol_shift (p p' : polyN RN) t : solidN D p -> nvN RN p' = nvN RN p -> nb (vbN RN p') = nb (vbN RN p) ->
  (forall v k, upto (nvN RN p) v -> (0 <= k < D)%Z -> ps (vbN RN p') v k = ps (vbN RN p) v k - t k) -> volN D p' = volN D p.
Proof.
  intros (Hnf & nh & bk & h & l0 & l & C & Q) E1 E2 E3. unfold volN. rewrite !flag_sum_R, E1, E2.
  rewrite <- (flag_sum_shift D _ _ nh _ bk h _ HD C _ l0 l Q t). apply lsum_ext. intros v Hv. apply in_zrange in Hv. apply vertex_ext; [lia| |].
  - intros k Hk. rewrite E3 by auto. reflexivity.
  - intros i Hi k Hk. unfold edgeN. cbn [nsub RN]. rewrite !E3; auto; [lra|]. apply (ce_f _ _ _ _ _ _ _ _ C); auto.
Qed.
Lemma vol_hull p q : solidN D p -> solidN D q -> (forall x, hullP D p x <-> hullP D q x) -> volN D p = volN D q.
Proof.
  intros (_ & nh & bk & h & l0 & l & C & Q) (_ & nh' & bk' & h' & l0' & l' & C' & Q') H. unfold volN. rewrite !flag_sum_R. eapply same_hull; eauto.
Qed.
End A.

Hypothesis HD : (3 <= D)%Z.
Lemma hull_side (p : polyN RN) (pl : planeN RN) x : (0 < nvN RN p)%Z -> (forall v, upto (nvN RN p) v -> 0 < Spl D pl (ps (vbN RN p) v)) -> hullP D p x -> 0 < Spl D pl x.
Proof.
  intros Hn H Hx. destruct (least_vertex (nvN RN p) (fun v => Spl D pl (ps (vbN RN p) v)) Hn) as (v & Hv & M). specialize (H v Hv). cbv beta in M.
  specialize (Hx (dN RN pl - Spl D pl (ps (vbN RN p) v)) (nN RN pl)). unfold halfN in Hx.
  assert (X : 0 <= linN D (dN RN pl - Spl D pl (ps (vbN RN p) v)) (nN RN pl) x).
  { apply Hx. intros u Hu. specialize (M u Hu). unfold Spl, linN in *. lra. }
  unfold Spl, linN in *. lra.
Qed.
Lemma half_cut (p : polyN RN) pl MX fuel p' : (0 <= nvN RN p <= MX)%Z -> (Z.to_nat (MX * D * D * D) <= fuel)%nat -> solidN D p ->
  (forall v, upto (nvN RN p) v -> Spl D pl (ps (vbN RN p) v) <> 0) -> rNd_clip RN MX D fuel p [pl] = OK p' ->
  (0 <= nvN RN p')%Z /\ forall x, hullP D p' x <-> hullP D p x /\ 0 <= Spl D pl x.
Proof.
  intros Hn' Hf SP NZ E. pose proof SP as (Hnf & nh & bk & h & l0 & l & C & Q).
  destruct (Z.eq_dec (nvN RN p) 0) as [Z0|Z0].
  { unfold rNd_clip in E. rewrite Z0 in E. cbn in E. injection E as <-. split; [lia|]. intros x. split; [intros H; exfalso|intros (H & _); exfalso];
      unfold hullP in H; rewrite Z0 in H; eapply hullN_0; eauto. }
  destruct (clip_solid MX D fuel HD Hf p pl nh bk h l0 l Hn' Hnf C Q NZ) as [(F & A)|[(F & A)|[(q & F & R & S & O & (a & Ha & Sa) & _)|(B & F)]]];
    rewrite E in F; try discriminate; injection F as ->.
  - split; [lia|]. intros x. split; [|tauto]. intros Hx. split; auto. left. apply (hull_side p pl x); auto. lia.
  - split; [cbn; lia|]. intros x. split; [intros Hx; exfalso; eapply hullN_0; exact Hx|]. intros (Hx & P). exfalso.
    pose proof (hull_side p (PLN RN (fun k => - nN RN pl k) (- dN RN pl)) x ltac:(lia)) as X.
    assert (N : forall y, Spl D (PLN RN (fun k => - nN RN pl k) (- dN RN pl)) y = - Spl D pl y).
    { intros y. unfold Spl, linN. cbn [dN nN]. rewrite (lsum_ext _ _ (fun k => -1 * (nN RN pl k * y k))) by (intros; ring). rewrite lsum_scal. ring. }
    rewrite N in X. assert (0 < - Spl D pl x); [|lra]. apply X; auto. intros v Hv. rewrite N. specialize (A v Hv). lra.
  - split; [lia|]. intros x. destruct (rNd_clip_hull MX D fuel HD Hf p [pl] Hn' (solid_convex D p SP)) as [(p1 & F & _ & _ & _ & [X|(Z1 & X)])|(_ & F)]; rewrite E in F; [| |discriminate].
    + injection F as <-. rewrite X. unfold holds. split; intros (H1 & H2); (split; [exact H1|]); [apply H2; now left|]. intros pl' [<-|[]]. auto.
    + exfalso. apply (X (ps (vbN RN p) a)); [now apply hull_vertex|]. intros pl' [<-|[]]. auto.
Qed.
Lemma cut (p : polyN RN) pl : good p -> (forall v, upto (nvN RN p) v -> Spl D pl (ps (vbN RN p) v) <> 0) ->
  exists p0 p1, good p0 /\ good p1 /\ volN D p0 + volN D p1 = volN D p /\ (forall x, hullP D p0 x <-> hullP D p x /\ 0 <= Spl D pl x)
    /\ forall x, hullP D p1 x <-> hullP D p x /\ Spl D pl x <= 0.
Proof.
  intros (Hn & SP) NZ. set (MX := (nvN RN p * (D + 1))%Z). set (fuel := Z.to_nat (MX * D * D * D)). set (pl1 := PLN RN (fun k => - nN RN pl k) (- dN RN pl)).
  assert (N : forall y, Spl D pl1 y = - Spl D pl y).
  { intros y. unfold Spl, linN. cbn [dN nN pl1]. rewrite (lsum_ext _ _ (fun k => -1 * (nN RN pl k * y k))) by (intros; ring). rewrite lsum_scal. ring. }
  assert (NZ1 : forall v, upto (nvN RN p) v -> Spl D pl1 (ps (vbN RN p) v) <> 0) by (intros v Hv; specialize (NZ v Hv); rewrite N; lra).
  assert (Hn' : (0 <= nvN RN p <= MX)%Z) by (unfold MX; nia).
  assert (EX : forall pl, exists p', rNd_clip RN MX D fuel p [pl] = OK p').
  { intros pl'. destruct (rNd_clip_hull MX D fuel HD (le_n _) p [pl'] Hn' (solid_convex D p SP)) as [(p' & E & _)|(B & _)]; eauto. exfalso. cbn [length] in B. unfold MX in B. lia. }
  destruct (EX pl) as (p0 & E0). destruct (EX pl1) as (p1 & E1). exists p0, p1.
  destruct (clip_pair MX D fuel HD (le_n _) p p0 p1 pl pl1 Hn' SP N NZ E0 E1) as (S0 & S1 & V).
  destruct (half_cut p pl MX fuel p0 Hn' (le_n _) SP NZ E0) as (G0 & H0). destruct (half_cut p pl1 MX fuel p1 Hn' (le_n _) SP NZ1 E1) as (G1 & H1).
  split; [split; auto|]. split; [split; auto|]. split; auto. split; auto. intros x. rewrite H1, N. split; intros (A & B); split; auto; lra.
Qed.

Theorem vol_mono p q : good p -> good q -> (forall x, hullP D p x -> hullP D q x) -> volN D p <= volN D q.
Proof.
  intros (Hn & SP) GQ HS. destruct (Z.eq_dec (nvN RN p) 0) as [Z0|Z0]; [rewrite volN_0 by auto; apply vol_nonneg; [lia|apply GQ]|].
  destruct (solid_off D p ltac:(lia) ltac:(lia) SP) as (nh & l0 & l & HF & OFF).
  apply Rnot_gt_le. intros GT. set (e := (volN D p - volN D q) / 2). destruct (OFF e ltac:(unfold e; lra)) as (t & Ht & X).
  set (Lg := fun g x => linN D (l0 g) (l g) x).
  assert (IND : forall m, (0 <= m)%Z -> exists d r, (forall g, (0 <= g < m)%Z -> 0 < d g <= t) /\ good r /\ volN D r <= volN D q
     /\ forall x, hullP D r x <-> hullP D q x /\ forall g, (0 <= g < m)%Z -> d g <= Lg g x).
  { refine (zrange_ind _ _ _).
    - exists (fun _ => 0), q. split; [intros; lia|]. split; auto. split; [lra|]. intros x. split; [|tauto]. intros Hx. split; auto. intros; lia.
    - intros m Hm (d & r & Hd & GR & VR & HR). destruct (avoid (map (fun v => Lg m (ps (vbN RN r) v)) (zrange (nvN RN r))) 0 t Ht) as (s & Hs & NI).
      set (pl := PLN RN (l m) (l0 m - s) : planeN RN). assert (SE : forall y, Spl D pl y = Lg m y - s) by (intros y; unfold Spl, Lg, linN; cbn [dN nN pl]; lra).
      destruct (cut r pl GR) as (r0 & r1 & G0 & (_ & G1) & V & H0 & _).
      { intros v Hv Y. rewrite SE in Y. apply NI. apply in_map_iff. exists v. split; [lra|]. now apply in_zrange. }
      exists (upd d m s), r0. split; [|split; [auto|split]].
      + intros g Hg. unfold upd. destruct (Z.eqb_spec g m); [lra|]. apply Hd. lia.
      + pose proof (vol_nonneg ltac:(lia) r1 G1). lra.
      + intros x. rewrite H0, HR, SE. split.
        * intros ((A & B) & S). split; auto. intros g Hg. unfold upd. destruct (Z.eqb_spec g m) as [->|]; [lra|]. apply B. lia.
        * intros (A & B). split; [split; auto|].
          -- intros g Hg. specialize (B g ltac:(lia)). now rewrite upd_neq in B by lia.
          -- specialize (B m ltac:(lia)). rewrite upd_eq in B. lra. }
  assert (NH : (0 <= nh \/ nh < 0)%Z) by lia.
  assert (FIN : exists d r, (forall g, (0 <= g < nh)%Z -> 0 < d g <= t) /\ good r /\ volN D r <= volN D q
     /\ forall x, hullP D r x <-> hullP D q x /\ forall g, (0 <= g < nh)%Z -> d g <= Lg g x).
  { destruct NH as [NH|NH]; [now apply IND|]. destruct (IND 0%Z ltac:(lia)) as (d & r & A1 & A2 & A3 & A4). exists d, r. split; [intros; lia|]. split; auto. split; auto.
    intros x. rewrite A4. split; intros (B1 & B2); split; auto; intros; lia. }
  destruct FIN as (d & r & Hd & GR & VR & HR).
  destruct (X d) as (p' & _ & S' & H' & V'). { intros g Hg. specialize (Hd g Hg). rewrite Rabs_right; lra. }
  assert (EQ : volN D p' = volN D r).
  { apply vol_hull; [lia|auto|apply GR|]. intros x. rewrite H', HR. split; [|tauto]. intros A. split; auto. apply HS, HF. intros g Hg. specialize (A g Hg). specialize (Hd g Hg). lra. }
  apply Rabs_le_inv in V'. unfold e in V'. lra.
Qed.

(** the volume of a box, whatever polytope it is the hull of *)
Definition bvol (lo hi : Z -> R) : R := lprod (zrange D) (fun i => hi i - lo i).
Lemma box_poly lo hi : (forall i, (0 <= i < D)%Z -> lo i < hi i) -> exists p, good p /\ (forall x, hullP D p x <-> in_box D lo hi x) /\ volN D p = bvol lo hi.
Proof.
  intros H. set (p0 := PN RN (VB (fun _ _ => 0%Z) (fun _ _ => 0)) (fun _ _ _ => 0%Z) 0%Z 0%Z : polyN RN). set (MX := (2 ^ D)%Z).
  assert (P2 : (0 < 2 ^ D)%Z) by (apply Z.pow_pos_nonneg; lia).
  destruct (box_solid MX D p0 lo hi ltac:(lia) (Z.le_refl _) H) as (p & E & En & S & HH).
  destruct (box_reduce MX D p0 lo hi (fun _ _ => 0) ltac:(lia) (Z.le_refl _) H) as (p' & E' & R). rewrite E in E'. injection E' as <-.
  exists p. split; [split; auto; lia|]. split; auto.
  rewrite (reduce_convex MX D _ p ltac:(lia)) in R; [|rewrite En; unfold MX; lia|now apply solid_convex]. injection R as R. exact R.
Qed.
End M.
