(** * IntJ: integrals from small pieces on which the function is nearly constant. *)
From Coq Require Import Reals ZArith List Bool Lia Lra Psatz.
From Verif Require Import Base Lib SumR ModelCommon ModelN RealNum SpecNP SpecNV SpecNJ SpecI FlagR ContN UniqJ VoxJ DisN PolyN JordJ.
Import ListNotations.
Open Scope R_scope.

(** a piece: a set, its content and a value *)
Definition piece : Type := (((Z -> R) -> Prop) * (R * R))%type.
Definition pset (q : piece) := fst q.
Definition pvol (q : piece) := fst (snd q).
Definition pval (q : piece) := snd (snd q).

Section I.
Context (D : Z).
Hypothesis HD : (0 <= D)%Z.
Definition tall (h : R) (b : boxR) : boxR := (upd (fst b) D 0, upd (snd b) D h).
Lemma tall_vol h b : box_vol (D + 1) (tall h b) = box_vol D b * h.
Proof.
  unfold box_vol, tall. rewrite zrange_succ, fold_right_app by auto. cbn [fold_right fst snd]. rewrite !upd_eq, Rminus_0_r, Rmult_1_r.
  assert (G : forall l c, (forall i, In i l -> i <> D) -> fold_right (fun i t => (upd (snd b) D h i - upd (fst b) D 0 i) * t) c l = fold_right (fun i t => (snd b i - fst b i) * t) 1 l * c).
  { induction l as [|i l IH]; intros c Hl; cbn [fold_right]; [ring|]. rewrite IH by (intros; apply Hl; now right). rewrite !upd_neq by (apply Hl; now left). ring. }
  apply G. intros i Hi. apply in_zrange in Hi. lia.
Qed.
Lemma tall_real h b : 0 < h -> real_box D b -> real_box (D + 1) (tall h b).
Proof.
  intros Hh H i Hi. unfold tall. cbn [fst snd]. destruct (Z.eq_dec i D) as [->|N]; [rewrite !upd_eq; lra|rewrite !upd_neq by auto; apply H; lia].
Qed.
Lemma tall_in h b x : inb (D + 1) (tall h b) x <-> inb D b x /\ 0 <= x D <= h.
Proof.
  unfold inb, in_box, tall. cbn [fst snd]. split.
  - intros H. split; [intros i Hi|]; [specialize (H i ltac:(lia)); rewrite !upd_neq in H by lia; exact H|specialize (H D ltac:(lia)); now rewrite !upd_eq in H].
  - intros (A & B) i Hi. destruct (Z.eq_dec i D) as [->|N]; [now rewrite !upd_eq|rewrite !upd_neq by auto; apply A; lia].
Qed.
Lemma tall_inside h b x : insideb (D + 1) (tall h b) x -> insideb D b x.
Proof. intros H i Hi. specialize (H i ltac:(lia)). unfold tall in H. cbn [fst snd] in H. rewrite !upd_neq in H by lia. exact H. Qed.
Lemma tall_sum h l : lsum (map (tall h) l) (box_vol (D + 1)) = lsum l (box_vol D) * h.
Proof. rewrite lsum_map. induction l as [|b l IH]; cbn [lsum]; [ring|]. rewrite IH, tall_vol. ring. Qed.

Lemma packed_le (K : (Z -> R) -> Prop) l t : packed D K l -> content D K t -> lsum l (box_vol D) <= t.
Proof.
  intros P C. apply Rnot_lt_le. intros L. destruct (C ((lsum l (box_vol D) - t) / 2) ltac:(lra)) as (_ & l' & C1 & C2).
  pose proof (packed_covered D HD K l l' P C1). lra.
Qed.
Lemma covered_ge (K : (Z -> R) -> Prop) l t : covered D K l -> content D K t -> t <= lsum l (box_vol D).
Proof.
  intros P C. apply Rnot_lt_le. intros L. destruct (C ((t - lsum l (box_vol D)) / 2) ltac:(lra)) as ((l' & C1 & C2) & _).
  pose proof (packed_covered D HD K l' l C1 P). lra.
Qed.

(** the pieces dissect [K], and [f] is within [e] of the value of each *)
Definition dissect (K : (Z -> R) -> Prop) (f : (Z -> R) -> R) (e : R) (l : list piece) : Prop :=
  (forall x, K x <-> exists q, In q l /\ pset q x) /\ ForallOrdPairs (fun q r => parted D (pset q) (pset r)) l
  /\ forall q, In q l -> content D (pset q) (pvol q) /\ forall x, pset q x -> Rabs (f x - pval q) <= e.
(** an inner and an outer approximation of the part below the graph *)
Lemma inner_boxes (f : (Z -> R) -> R) e d (l : list piece) : 0 < d -> ForallOrdPairs (fun q r => parted D (pset q) (pset r)) l ->
  (forall q, In q l -> content D (pset q) (pvol q) /\ forall x, pset q x -> Rabs (f x - pval q) <= e) ->
  exists m, (forall b, In b m -> real_box (D + 1) b /\ (forall x, inb (D + 1) b x -> (exists q, In q l /\ pset q x) /\ 0 <= x D <= f x))
    /\ (forall b, In b m -> exists b0 h, b = tall h b0 /\ real_box D b0 /\ exists q, In q l /\ forall x, inb D b0 x -> pset q x)
    /\ ForallOrdPairs (apart (D + 1)) m /\ lsum l (fun q => Rmax 0 (pval q - e) * (pvol q)) - d <= lsum m (box_vol (D + 1)).
Proof.
  intros Hd. revert d Hd. induction l as [|q l IH]; intros d Hd F H.
  { exists []. split; [intros ? []|]. split; [intros ? []|]. split; [apply FOP_nil|]. cbn. lra. }
  inversion F as [|? ? F1 F2]; subst. destruct (IH (d / 2) ltac:(lra) F2 ltac:(intros; apply H; now right)) as (m & M1 & M2 & M3 & M4).
  destruct (H q (or_introl eq_refl)) as (Cq & Vq). destruct (Rle_lt_dec (pval q - e) 0) as [L|L].
  { exists m. split; [|split; [|split; auto]].
    - intros b Hb. destruct (M1 b Hb) as (A & B). split; auto. intros x Hx. destruct (B x Hx) as ((r & R1 & R2) & B2). split; auto. exists r. split; auto. now right.
    - intros b Hb. destruct (M2 b Hb) as (b0 & h & A & B & r & C1 & C2). exists b0, h. split; auto. split; auto. exists r. split; auto. now right.
    - cbn [lsum]. rewrite (Rmax_left 0) by lra. lra. }
  set (h := pval q - e) in *. destruct (Cq (d / 2 / h) ltac:(apply Rdiv_lt_0_compat; lra)) as ((k & (K1 & K2) & K3) & _).
  exists (map (tall h) k ++ m). split; [|split; [|split]].
  - intros b Hb. apply in_app_or in Hb as [Hb|Hb].
    + apply in_map_iff in Hb as (b0 & <- & Hb). destruct (K1 b0 Hb) as (A & B). split; [now apply tall_real|]. intros x Hx. apply tall_in in Hx as (X1 & X2).
      pose proof (Vq x (B x X1)) as V. apply NearN.Rabs_le_inv in V. split; [exists q; split; [now left|auto]|]. unfold h in X2. lra.
    + destruct (M1 b Hb) as (A & B). split; auto. intros x Hx. destruct (B x Hx) as ((r & R1 & R2) & B2). split; auto. exists r. split; auto. now right.
  - intros b Hb. apply in_app_or in Hb as [Hb|Hb].
    + apply in_map_iff in Hb as (b0 & <- & Hb). destruct (K1 b0 Hb) as (A & B). exists b0, h. split; auto. split; auto. exists q. split; [now left|auto].
    + destruct (M2 b Hb) as (b0 & h' & A & B & r & C1 & C2). exists b0, h'. split; auto. split; auto. exists r. split; auto. now right.
  - apply FOP_app; auto.
    + clear - K2. induction K2 as [|b k A _ IH]; cbn [map]; [apply FOP_nil|apply FOP_cons; auto]. rewrite Forall_forall in A. apply Forall_forall. intros c Hc. apply in_map_iff in Hc as (c0 & <- & Hc).
      intros x X1 X2. apply tall_inside in X1. apply tall_inside in X2. exact (A c0 Hc x X1 X2).
    + intros b c Hb Hc. apply in_map_iff in Hb as (b0 & <- & Hb). destruct (M2 c Hc) as (c0 & h' & -> & Rc & r & R1 & R2). destruct (K1 b0 Hb) as (A & B).
      rewrite Forall_forall in F1. pose proof (F1 r R1 b0 c0 A Rc B R2) as AP. intros x X1 X2. apply tall_inside in X1. apply tall_inside in X2. exact (AP x X1 X2).
  - rewrite lsum_app', tall_sum. cbn [lsum]. fold h. rewrite (Rmax_right 0 h) by lra.
    assert ((pvol q - d / 2 / h) * h <= lsum k (box_vol D) * h) by (apply Rmult_le_compat_r; lra). assert ((pvol q - d / 2 / h) * h = h * pvol q - d / 2) by (field; lra). lra.
Qed.
Lemma outer_boxes (f : (Z -> R) -> R) e d (l : list piece) : 0 < e -> 0 < d ->
  (forall q, In q l -> content D (pset q) (pvol q) /\ forall x, pset q x -> Rabs (f x - pval q) <= e) ->
  exists m, covered (D + 1) (fun x => (exists q, In q l /\ pset q x) /\ 0 <= x D <= f x) m /\ lsum m (box_vol (D + 1)) <= lsum l (fun q => (Rmax 0 (pval q) + e) * pvol q) + d.
Proof.
  intros He Hd. revert d Hd. induction l as [|q l IH]; intros d Hd H.
  { exists []. split; [split; [intros ? []|]|cbn; lra]. intros x ((q & [] & _) & _). }
  destruct (IH (d / 2) ltac:(lra) ltac:(intros; apply H; now right)) as (m & (M1 & M2) & M3). destruct (H q (or_introl eq_refl)) as (Cq & Vq).
  set (h := Rmax 0 (pval q) + e). pose proof (Rmax_l 0 (pval q)) as ML. pose proof (Rmax_r 0 (pval q)) as MR. assert (Hh : 0 < h) by (unfold h; lra).
  destruct (Cq (d / 2 / h) ltac:(apply Rdiv_lt_0_compat; lra)) as (_ & k & (K1 & K2) & K3).
  exists (map (tall h) k ++ m). split; [split|].
  - intros b Hb. apply in_app_or in Hb as [Hb|Hb]; auto. apply in_map_iff in Hb as (b0 & <- & Hb). apply tall_real; auto.
  - intros x ((r & Hr & Xr) & X). destruct Hr as [<-|Hr].
    + destruct (K2 x Xr) as (b & B1 & B2). exists (tall h b). split; [apply in_or_app; left; now apply in_map|]. apply tall_in. split; auto.
      pose proof (Vq x Xr) as V. apply NearN.Rabs_le_inv in V. unfold h. lra.
    + destruct (M2 x ltac:(split; [exists r; auto|auto])) as (b & B1 & B2). exists b. split; auto. apply in_or_app. now right.
  - rewrite lsum_app', tall_sum. cbn [lsum]. fold h.
    assert (lsum k (box_vol D) * h <= (pvol q + d / 2 / h) * h) by (apply Rmult_le_compat_r; lra). assert ((pvol q + d / 2 / h) * h = h * pvol q + d / 2) by (field; lra). lra.
Qed.
Lemma content_pieces (l : list piece) (K : (Z -> R) -> Prop) : (forall x, K x <-> exists q, In q l /\ pset q x) -> ForallOrdPairs (fun q r => parted D (pset q) (pset r)) l ->
  (forall q, In q l -> content D (pset q) (pvol q)) -> content D K (lsum l pvol).
Proof.
  revert K. induction l as [|q l IH]; intros K S F H.
  - cbn. apply content_none. intros x Hx. apply S in Hx as (q & [] & _).
  - inversion F as [|? ? F1 F2]; subst. cbn [lsum].
    (* the union of the others is not parted from [q] box by box, so the packings are joined directly *)
    assert (C : content D (fun x => exists r, In r l /\ pset r x) (lsum l pvol)) by (apply IH; auto; [tauto|intros; apply H; now right]).
    assert (PK : forall e, 0 < e -> exists m, (forall b, In b m -> real_box D b /\ exists r, In r l /\ forall x, inb D b x -> pset r x) /\ ForallOrdPairs (apart D) m /\ lsum l pvol - e <= lsum m (box_vol D)).
    { clear - F2 H HD. assert (H' : forall r, In r l -> content D (pset r) (pvol r)) by (intros; apply H; now right). clear H. induction l as [|r l IH]; intros e He.
      - exists []. split; [intros ? []|]. split; [apply FOP_nil|cbn; lra].
      - inversion F2 as [|? ? F3 F4]; subst. destruct (IH F4 ltac:(intros; apply H'; now right) (e / 2) ltac:(lra)) as (m & M1 & M2 & M3).
        destruct (H' r (or_introl eq_refl) (e / 2) ltac:(lra)) as ((k & (K1 & K2) & K3) & _). exists (k ++ m). split; [|split].
        + intros b Hb. apply in_app_or in Hb as [Hb|Hb]; [destruct (K1 b Hb) as (A & B); split; auto; exists r; split; [now left|auto]|].
          destruct (M1 b Hb) as (A & s & S1 & S2). split; auto. exists s. split; auto. now right.
        + apply FOP_app; auto. intros b c Hb Hc. destruct (K1 b Hb) as (A & B). destruct (M1 c Hc) as (A' & s & S1 & S2). rewrite Forall_forall in F3. now apply (F3 s S1).
        + rewrite lsum_app'. cbn [lsum]. lra. }
    intros e He. destruct (PK (e / 2) ltac:(lra)) as (m & M1 & M2 & M3). destruct (C (e / 2) ltac:(lra)) as (_ & m' & (M4 & M5) & M6).
    destruct (H q (or_introl eq_refl) (e / 2) ltac:(lra)) as ((k & (K1 & K2) & K3) & k' & (K4 & K5) & K6). split.
    + exists (k ++ m). split; [split|rewrite lsum_app'; lra].
      * intros b Hb. apply in_app_or in Hb as [Hb|Hb].
        -- destruct (K1 b Hb) as (A & B). split; auto. intros x Hx. apply S. exists q. split; [now left|auto].
        -- destruct (M1 b Hb) as (A & r & R1 & R2). split; auto. intros x Hx. apply S. exists r. split; [now right|auto].
      * apply FOP_app; auto. intros b c Hb Hc. destruct (K1 b Hb) as (A & B). destruct (M1 c Hc) as (A' & r & R1 & R2). rewrite Forall_forall in F1. now apply (F1 r R1).
    + exists (k' ++ m'). split; [split|rewrite lsum_app'; lra].
      * intros b Hb. apply in_app_or in Hb as [Hb|Hb]; auto.
      * intros x Hx. apply S in Hx as (r & [<-|Hr] & Xr); [destruct (K5 x Xr) as (b & B1 & B2)|destruct (M5 x ltac:(exists r; auto)) as (b & B1 & B2)]; exists b; split; auto; apply in_or_app; auto.
Qed.

(** the part below the graph has a content, which the pieces approximate *)
Lemma below_content (K : (Z -> R) -> Prop) (f : (Z -> R) -> R) C : content D K C -> (forall e, 0 < e -> exists l, dissect K f e l) ->
  exists a, content (D + 1) (below_graph D K f) a /\ forall e l, 0 < e -> dissect K f e l -> lsum l (fun q => Rmax 0 (pval q) * pvol q) - e * C <= a <= lsum l (fun q => Rmax 0 (pval q) * pvol q) + e * C.
Proof.
  intros HC H.
  assert (C0 : 0 <= C) by (eapply content_nonneg; eauto).
  assert (SC : forall e l, dissect K f e l -> lsum l pvol = C).
  { intros e l (A & B & G). apply (content_unique D HD K); auto. apply content_pieces; auto. intros q Hq. apply (G q Hq). }
  assert (NN : forall e l, dissect K f e l -> forall q, In q l -> 0 <= pvol q).
  { intros e l (A & B & G) q Hq. eapply content_nonneg; eauto. apply (G q Hq). }
  assert (LO : forall e l d, 0 < d -> dissect K f e l -> exists m, packed (D + 1) (below_graph D K f) m /\ lsum l (fun q => Rmax 0 (pval q - e) * pvol q) - d <= lsum m (box_vol (D + 1))).
  { intros e l d Hd (A & B & G). destruct (inner_boxes f e d l Hd B G) as (m & M1 & _ & M3 & M4). exists m. split; auto. split; auto. intros b Hb. destruct (M1 b Hb) as (X & Y). split; auto.
    intros x Hx. destruct (Y x Hx) as (Y1 & Y2). split; auto. now apply A. }
  assert (UP : forall e l d, 0 < e -> 0 < d -> dissect K f e l -> exists m, covered (D + 1) (below_graph D K f) m /\ lsum m (box_vol (D + 1)) <= lsum l (fun q => (Rmax 0 (pval q) + e) * pvol q) + d).
  { intros e l d He Hd (A & B & G). destruct (outer_boxes f e d l He Hd G) as (m & (M1 & M2) & M3). exists m. split; auto. split; auto. intros x (X1 & X2). apply M2. split; auto. now apply A. }
  assert (E1 : forall e l, 0 < e -> dissect K f e l -> lsum l (fun q => Rmax 0 (pval q) * pvol q) - e * C <= lsum l (fun q => Rmax 0 (pval q - e) * pvol q)).
  { intros e l He Dl. rewrite <- (SC e l Dl), <- lsum_scal, <- lsum_sub. apply lsum_le. intros q Hq. pose proof (NN e l Dl q Hq).
    assert (Rmax 0 (pval q) - e <= Rmax 0 (pval q - e)) by (unfold Rmax; destruct (Rle_dec 0 (pval q)), (Rle_dec 0 (pval q - e)); lra). nra. }
  assert (E2 : forall e l, 0 < e -> dissect K f e l -> lsum l (fun q => (Rmax 0 (pval q) + e) * pvol q) = lsum l (fun q => Rmax 0 (pval q) * pvol q) + e * C).
  { intros e l He Dl. rewrite <- (SC e l Dl), <- lsum_scal, <- lsum_add. apply lsum_ext. intros. ring. }
  destruct (content_exists (D + 1) ltac:(lia) (below_graph D K f)) as (a & Ca).
  { intros e He. set (e1 := e / (4 * (C + 1))). assert (He1 : 0 < e1) by (unfold e1; apply Rdiv_lt_0_compat; lra). assert (EC : e1 * C <= e / 4).
    { assert (X : e1 * (C + 1) = e / 4) by (unfold e1; field; lra). nra. }
    destruct (H e1 He1) as (l & Dl). destruct (LO e1 l (e / 4) ltac:(lra) Dl) as (m & M1 & M2). destruct (UP e1 l (e / 4) He1 ltac:(lra) Dl) as (m' & M3 & M4).
    exists m, m'. split; auto. split; auto. pose proof (E1 e1 l He1 Dl). rewrite (E2 e1 l He1 Dl) in M4. lra. }
  exists a. split; auto. intros e l He Dl. split.
  - apply Rnot_lt_le. intros L. set (g := lsum l (fun q => Rmax 0 (pval q) * pvol q) - e * C) in *. destruct (LO e l ((g - a) / 2) ltac:(lra) Dl) as (m & M1 & M2).
    assert (lsum m (box_vol (D + 1)) <= a).
    { apply Rnot_lt_le. intros L'. destruct (Ca ((lsum m (box_vol (D + 1)) - a) / 2) ltac:(lra)) as (_ & m' & C1 & C2). pose proof (packed_covered (D + 1) ltac:(lia) _ m m' M1 C1). lra. }
    pose proof (E1 e l He Dl). fold g in H1. lra.
  - apply Rnot_lt_le. intros L. set (g := lsum l (fun q => Rmax 0 (pval q) * pvol q) + e * C) in *. destruct (UP e l ((a - g) / 2) He ltac:(lra) Dl) as (m & M1 & M2). rewrite (E2 e l He Dl) in M2. fold g in M2.
    assert (a <= lsum m (box_vol (D + 1))).
    { apply Rnot_lt_le. intros L'. destruct (Ca ((a - lsum m (box_vol (D + 1))) / 2) ltac:(lra)) as ((m' & C1 & C2) & _). pose proof (packed_covered (D + 1) ltac:(lia) _ m' m C1 M1). lra. }
    lra.
Qed.
Definition neg_piece (q : piece) : piece := (pset q, (pvol q, - pval q)).
Lemma dissect_neg K f e l : dissect K f e l -> dissect K (fun x => - f x) e (map neg_piece l).
Proof.
  intros (A & B & G). split; [|split].
  - intros x. rewrite A. split; intros (q & Hq & X).
    + exists (neg_piece q). split; auto. now apply in_map.
    + apply in_map_iff in Hq as (r & <- & Hr). exists r. auto.
  - clear - B. induction B as [|q l F _ IH]; cbn [map]; [apply FOP_nil|apply FOP_cons; auto]. rewrite Forall_forall in F. apply Forall_forall. intros r Hr. apply in_map_iff in Hr as (s & <- & Hs). exact (F s Hs).
  - intros q Hq. apply in_map_iff in Hq as (r & <- & Hr). destruct (G r Hr) as (G1 & G2). split; auto. intros x Hx. unfold pval, neg_piece. cbn [fst snd].
    replace (- f x - - pval r) with (- (f x - pval r)) by ring. rewrite Rabs_Ropp. now apply G2.
Qed.
Theorem integral_by_pieces (K : (Z -> R) -> Prop) (f : (Z -> R) -> R) C t : content D K C ->
  (forall e, 0 < e -> exists l, dissect K f e l /\ Rabs (lsum l (fun q => pval q * pvol q) - t) <= e * C) -> integral D K f t.
Proof.
  intros HC H. assert (C0 : 0 <= C) by (eapply content_nonneg; eauto).
  destruct (below_content K f C HC) as (a & Ca & Ba). { intros e He. destruct (H e He) as (l & Dl & _). eauto. }
  destruct (below_content K (fun x => - f x) C HC) as (b & Cb & Bb). { intros e He. destruct (H e He) as (l & Dl & _). exists (map neg_piece l). now apply dissect_neg. }
  exists a, b. split; auto. split; auto.
  assert (X : forall e, 0 < e -> Rabs (t - (a - b)) <= 3 * e * C).
  { intros e He. destruct (H e He) as (l & Dl & S). pose proof (Ba e l He Dl) as B1. pose proof (Bb e _ He (dissect_neg _ _ _ _ Dl)) as B2. rewrite lsum_map in B2.
    assert (E : lsum l (fun q => pval q * pvol q) = lsum l (fun q => Rmax 0 (pval q) * pvol q) - lsum l (fun q => Rmax 0 (pval (neg_piece q)) * pvol (neg_piece q))).
    { rewrite <- lsum_sub. apply lsum_ext. intros q _. unfold neg_piece, pval, pvol. cbn [fst snd]. rewrite <- Rmult_minus_distr_r. f_equal.
      unfold Rmax. destruct (Rle_dec 0 (snd (snd q))), (Rle_dec 0 (- snd (snd q))); lra. }
    apply NearN.Rabs_le_inv in S. apply Rabs_le. lra. }
  destruct (Req_dec t (a - b)) as [|N]; auto. exfalso. assert (P : 0 < Rabs (t - (a - b))) by (apply Rabs_pos_lt; lra).
  set (r := Rabs (t - (a - b))) in *. specialize (X (r / (6 * (C + 1))) ltac:(apply Rdiv_lt_0_compat; lra)).
  assert (Y : 3 * (r / (6 * (C + 1))) * (C + 1) = r / 2) by (field; lra).
  assert (0 < r / (6 * (C + 1))) by (apply Rdiv_lt_0_compat; lra). nra.
Qed.
Lemma integral_unique K f t s : integral D K f t -> integral D K f s -> t = s.
Proof.
  intros (a & b & A & B & ->) (a' & b' & A' & B' & ->). rewrite (content_unique (D + 1) ltac:(lia) _ _ _ A A'), (content_unique (D + 1) ltac:(lia) _ _ _ B B'). reflexivity.
Qed.
(** over a set without volume; of a constant *)
Lemma integral_null K f M : content D K 0 -> (forall x, K x -> Rabs (f x) <= M) -> integral D K f 0.
Proof.
  intros HK HM.
  assert (G : forall g, (forall x, K x -> g x <= M) -> content (D + 1) (below_graph D K g) 0).
  { intros g Hg e He. split; [exists []; split; [split; [intros ? []|apply FOP_nil]|cbn; lra]|].
    set (h := Rabs M + 1). assert (Hh : 0 < h) by (pose proof (Rabs_pos M); unfold h; lra).
    destruct (HK (e / h) ltac:(now apply Rdiv_lt_0_compat)) as (_ & l & (L1 & L2) & Ls). exists (map (tall h) l). split.
    - split. + intros b Hb. apply in_map_iff in Hb as (b' & <- & Hb'). apply tall_real; auto.
      + intros x (Kx & H1 & H2). destruct (L2 x Kx) as (b & Hb & Ib). exists (tall h b). split; [now apply in_map|]. apply tall_in. split; auto.
        specialize (Hg x Kx). pose proof (Rle_abs M). unfold h. lra.
    - rewrite tall_sum. apply (Rmult_le_compat_r h) in Ls; [|lra]. replace ((0 + e / h) * h) with e in Ls by (field; lra). lra. }
  exists 0, 0. split; [|split; [|lra]]; apply G; intros x Hx; specialize (HM x Hx); apply NearN.Rabs_le_inv in HM; lra.
Qed.
Lemma integral_const K c C : content D K C -> integral D K (fun _ => c) (c * C).
Proof.
  intros HC. apply (integral_by_pieces K (fun _ => c) C); auto. intros e He. exists [(K, (C, c))]. split.
  - split; [|split]. + intros x. split; [intros H; exists (K, (C, c)); cbn; auto|]. intros (q & [<-|[]] & H). exact H.
    + apply FOP_cons; [apply Forall_nil|apply FOP_nil].
    + intros q [<-|[]]. split; auto. intros x _. unfold pval. cbn. replace (c - c) with 0 by ring. rewrite Rabs_R0. lra.
  - unfold pval, pvol. cbn. replace (c * C + 0 - c * C) with 0 by ring. rewrite Rabs_R0. assert (0 <= C) by (eapply content_nonneg; eauto). nra.
Qed.
End I.
Lemma integral_ext D (K K' : (Z -> R) -> Prop) f f' t : (forall x, K x <-> K' x) -> (forall x, K x -> f x = f' x) -> integral D K f t -> integral D K' f' t.
Proof.
  intros EK EF (a & b & A & B & ->). exists a, b. split; [|split; auto].
  - eapply content_ext; [|exact A]. intros x. unfold below_graph. rewrite <- EK. split; intros (X & Y); split; auto; [rewrite <- EF|rewrite EF]; auto.
  - eapply content_ext; [|exact B]. intros x. unfold below_graph. rewrite <- EK. split; intros (X & Y); split; auto; [rewrite <- EF|rewrite EF]; auto.
Qed.
