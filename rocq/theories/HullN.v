(** * HullN: [rNd_clip] computes the intersection with the half-spaces, over the reals. *)
From Coq Require Import Reals ZArith List Bool Lia Lra Psatz.
From Verif Require Import Base Lib SumR ModelCommon CommonFacts ModelN ModelNC SpecN SpecNC SpecNP RealNum Clip2 Cons2 InsN CutN ClipN CellsN PolyN TruncN NearN.
Import ListNotations.
Open Scope R_scope.

Lemma sdfN_lin D pl (b : vbuf (Z -> T RN)) v : sdfN RN D pl b v = Spl D pl (ps b v).
Proof.
  unfold sdfN, Spl, linN. cbn [nadd nmul RN]. change (T RN) with R in *.
  rewrite (fold_left_lsum (zrange D) (fun i => ps b v i * nN RN pl i) (dN RN pl)). f_equal. apply lsum_ext. intros. apply Rmult_comm.
Qed.
Lemma keepvN_R D pl (b : vbuf (Z -> T RN)) v : keepvN RN D pl b v = true <-> 0 <= Spl D pl (ps b v).
Proof.
  unfold keepvN. rewrite sdfN_lin. rewrite negb_true_iff. split.
  - intros E. destruct (Rle_lt_dec 0 (Spl D pl (ps b v))); auto. exfalso. assert (Rltb (Spl D pl (ps b v)) 0 = true) by now apply Rltb_true. change (Rltb (Spl D pl (ps b v)) 0 = false) in E. congruence.
  - intros E. destruct (nlt RN (Spl D pl (ps b v)) (n0 RN)) eqn:X; auto. change (Rltb (Spl D pl (ps b v)) 0 = true) in X. apply Rltb_true in X. exfalso. lra.
Qed.

Lemma hullN_0 D p x : ~ hullN D 0 p x.
Proof.
  intros H. specialize (H (-1) (fun _ => 0)). unfold halfN, linN in H. rewrite lsum_0 in H by (intros; lra).
  assert (0 <= -1 + 0); [|lra]. apply H. unfold upto. intros; lia.
Qed.
Lemma polytope_simple D n nf nh f bk h fd p : cells D (upto n) nf nh f bk h fd -> polytope D n nh h p -> simple_edges D (upto n) f.
Proof. intros C P. destruct (P 1 ltac:(lra)) as (q & l0 & l & Q & _). eapply realized_simple; eauto. Qed.
Lemma convexN_empty D (p : polyN RN) : (0 <= nfN RN p)%Z -> nvN RN p = 0%Z -> convexN D p.
Proof.
  intros Hnf E. split; auto. exists 0%Z, (nb (vbN RN p)), (nb (vbN RN p)). rewrite E. unfold upto. split.
  - constructor; intros; lia.
  - intros d Hd. exists (ps (vbN RN p)), (fun _ => 0), (fun _ _ => 0). split; [constructor; unfold upto; intros; lia|intros; unfold upto in *; lia].
Qed.

Lemma filter_length_le {A} (K : A -> bool) l : (length (filter K l) <= length l)%nat.
Proof. induction l; cbn; auto. destruct (K a); cbn; lia. Qed.
Lemma cut_edges_le D n keep f : (0 <= D)%Z -> (0 <= n)%Z -> (0 <= cut_edges D n keep f <= n * D)%Z.
Proof.
  intros HD Hn. unfold cut_edges. split; [lia|].
  assert (L : forall (m : Z * Z -> bool) (l : list Z), (length (filter m (flat_map (fun v => map (pair v) (zrange D)) l)) <= length l * Z.to_nat D)%nat).
  { intros m. induction l as [|a r IH]; cbn [flat_map length]; auto. rewrite filter_app, app_length.
    assert (length (filter m (map (pair a) (zrange D))) <= Z.to_nat D)%nat; [|cbn; lia].
    eapply Nat.le_trans; [apply filter_length_le|]. rewrite map_length, length_zrange_nat. lia. }
  specialize (L (fun x => keep (fst x) && negb (keep (f (fst x) (snd x)))) (zrange n)). rewrite length_zrange_nat in L. nia.
Qed.

Section H.
Context (MX D : Z) (fuel : nat).
Hypothesis HD : (3 <= D)%Z.
Hypothesis Hf : (Z.to_nat (MX * D * D * D) <= fuel)%nat.

(** one plane *)
Lemma clipN_hull1 (p : polyN RN) pl rest : (0 < nvN RN p <= MX)%Z -> convexN D p ->
  (clipN_planes RN MX D fuel (pl :: rest) p = clipN_planes RN MX D fuel rest p /\ forall v, upto (nvN RN p) v -> 0 <= Spl D pl (ps (vbN RN p) v))
  \/ (exists p', clipN_planes RN MX D fuel (pl :: rest) p = OK p' /\ nvN RN p' = 0%Z /\ convexN D p' /\ forall v, upto (nvN RN p) v -> Spl D pl (ps (vbN RN p) v) <= 0)
  \/ (exists p', clipN_planes RN MX D fuel (pl :: rest) p = clipN_planes RN MX D fuel rest p' /\ (0 < nvN RN p' <= MX)%Z /\ (nvN RN p' <= nvN RN p * (D + 1))%Z
        /\ convexN D p' /\ forall x, hullP D p' x <-> hullP D p x /\ 0 <= Spl D pl x)
  \/ ((MX < nvN RN p * (D + 1))%Z /\ clipN_planes RN MX D fuel (pl :: rest) p = Err OutOfBounds).
Proof.
  intros Hn (Hnf & nh & bk & h & C & P). pose proof (polytope_simple _ _ _ _ _ _ _ _ _ C P) as SE.
  pose proof (clipN_one RN MX D fuel p pl nh bk h HD ltac:(lia) Hnf Hf C SE rest) as X. cbv zeta in X.
  destruct (nle RN (n0 RN) (minf RN (sdfN RN D pl (vbN RN p)) (nvN RN p) (nbig RN))) eqn:E1.
  { left. split; auto. apply minf_R in E1 as (_ & E1). intros v Hv. rewrite <- sdfN_lin. auto. }
  right. destruct (nle RN (maxf RN (sdfN RN D pl (vbN RN p)) (nvN RN p) (nopp RN (nbig RN))) (n0 RN)) eqn:E2.
  { left. exists (emptyN RN p). split; auto. split; auto. split; [apply convexN_empty; auto|].
    apply maxf_R in E2 as (_ & E2). intros v Hv. rewrite <- sdfN_lin. apply E2. exact Hv. }
  right. pose proof (cut_edges_le D (nvN RN p) (keepvN RN D pl (vbN RN p)) (nb (vbN RN p)) ltac:(lia) ltac:(lia)) as CE.
  pose proof (cnt_nonneg (keepvN RN D pl (vbN RN p)) (nvN RN p)) as C0. pose proof (cnt_le (keepvN RN D pl (vbN RN p)) (nvN RN p) ltac:(lia)) as C1.
  destruct X as [(HM & p' & E & En & Enf & bk' & h' & ov & nw & CC & TT & PO & PN)|(HM & E)]; [left|right; split; auto; nia].
  exists p'. split; auto.
  destruct (least_vertex (nvN RN p) (fun v => - Spl D pl (ps (vbN RN p) v)) ltac:(lia)) as (v0 & Hv0 & M0).
  assert (S0 : 0 < Spl D pl (ps (vbN RN p) v0)).
  { destruct (Rlt_le_dec 0 (Spl D pl (ps (vbN RN p) v0))); auto. exfalso.
    assert (nle RN (maxf RN (sdfN RN D pl (vbN RN p)) (nvN RN p) (nopp RN (nbig RN))) (n0 RN) = true); [|congruence].
    apply maxf_R. split; [cbn; lra|]. intros v Hv. rewrite sdfN_lin. specialize (M0 v Hv). cbv beta in M0. lra. }
  set (keep := keepvN RN D pl (vbN RN p)) in *.
  assert (Kt : forall v, upto (nvN RN p) v -> keep v = true -> 0 <= Spl D pl (ps (vbN RN p) v)) by (intros v _ K; now apply keepvN_R).
  assert (Kf : forall v, upto (nvN RN p) v -> keep v = false -> Spl D pl (ps (vbN RN p) v) < 0).
  { intros v _ K. destruct (Rlt_le_dec (Spl D pl (ps (vbN RN p) v)) 0); auto. apply keepvN_R in r. unfold keep in K. congruence. }
  assert (MI : mixed D (nvN RN p) (nb (vbN RN p)) keep ov nw (fun v => Spl D pl (ps (vbN RN p) v)) (ps (vbN RN p)) (ps (vbN RN p'))).
  { split.
    - intros v k Hv K Hk. destruct (PO v Hv K) as (-> & _). auto.
    - intros v i k Hv Hi Hk K K'. destruct (PN v i Hv Hi K K') as (Y & _). rewrite Y by auto. unfold newposN. rewrite !sdfN_lin. reflexivity. }
  assert (HO : forall v i, upto (nvN RN p) v -> keep v = true -> (0 <= i < D)%Z -> h' (ov v) i = h v i) by (intros v i Hv K Hi; now apply PO).
  assert (H0 : forall v i, upto (nvN RN p) v -> (0 <= i < D)%Z -> keep v = true -> keep (nb (vbN RN p) v i) = false ->
     h' (nw v i) 0%Z = nh /\ forall a, (0 < a < D)%Z -> h' (nw v i) a = h v (other i a)) by (intros v i Hv Hi K K'; now apply PN).
  assert (H1 : forall v i, upto (nvN RN p) v -> (0 <= i < D)%Z -> keep v = true -> keep (nb (vbN RN p) v i) = false -> new_slots D nh h v i (h' (nw v i)))
    by (intros v i Hv Hi K K'; apply other_slots; auto).
  assert (Kf' : forall v, upto (nvN RN p) v -> keep v = false -> Spl D pl (ps (vbN RN p) v) <= 0) by (intros v Hv K; left; auto).
  apply polytope_near in P. 
  split; [|split; [rewrite En; nia|split]].
  - split; [|lia]. rewrite En. assert (keep v0 = true) by (apply keepvN_R; lra).
    unfold upto in Hv0. pose proof (cnt_lt keep v0 (nvN RN p) ltac:(lia) H). pose proof (cnt_nonneg keep v0). lia.
  - split; [lia|]. exists (nh + 1)%Z, bk', h'. split; auto.
    eapply (trunc_polytope D (nvN RN p) (nfN RN p) nh (nb (vbN RN p)) bk h (fdN RN p)); eauto using tr_verts; lia.
  - intros x. unfold hullP. eapply (trunc_hull D (nvN RN p) (nfN RN p) nh (nb (vbN RN p)) bk h (fdN RN p)); eauto using tr_verts; lia.
Qed.

Lemma clipN_hulls planes : forall p : polyN RN, (0 < nvN RN p <= MX)%Z -> convexN D p ->
  (exists p', clipN_planes RN MX D fuel planes p = OK p' /\ (0 <= nvN RN p' <= MX)%Z /\ (nvN RN p' <= nvN RN p * (D + 1) ^ Z.of_nat (length planes))%Z /\ convexN D p'
     /\ ((forall x, hullP D p' x <-> hullP D p x /\ holds D planes x)
         \/ (nvN RN p' = 0%Z /\ forall x, hullP D p x -> ~ strictly D planes x)))
  \/ ((MX < nvN RN p * (D + 1) ^ Z.of_nat (length planes))%Z /\ clipN_planes RN MX D fuel planes p = Err OutOfBounds).
Proof.
  induction planes as [|pl rest IH]; intros p Hn Cv.
  { left. exists p. split; auto. split; [lia|]. split; [cbn [length]; change (Z.of_nat 0) with 0%Z; rewrite Z.pow_0_r; lia|]. split; auto. left. intros x. split; [intros H; split; auto; intros pl []|intros (H & _); auto]. }
  assert (PW : forall a b, (a <= b * (D + 1))%Z -> (a * (D + 1) ^ Z.of_nat (length rest) <= b * (D + 1) ^ Z.of_nat (length (pl :: rest)))%Z).
  { intros a b Hab. cbn [length]. rewrite Nat2Z.inj_succ, Z.pow_succ_r by lia. rewrite Z.mul_assoc. apply Z.mul_le_mono_nonneg_r; auto. apply Z.pow_nonneg. lia. }
  assert (P1 : (1 <= (D + 1) ^ Z.of_nat (length rest))%Z) by (assert (0 < (D + 1) ^ Z.of_nat (length rest))%Z by (apply Z.pow_pos_nonneg; lia); lia).
  destruct (clipN_hull1 p pl rest Hn Cv) as [(E & A)|[(p' & E & E0 & Cv' & A)|[(p' & E & Hn' & Hle & Cv' & A)|(HM & E)]]]; rewrite E.
  - destruct (IH p Hn Cv) as [(p' & E' & R & LE & Cv' & A')|(HM & E')].
    + left. exists p'. split; auto. split; auto. split; [specialize (PW (nvN RN p) (nvN RN p) ltac:(nia)); lia|]. split; auto. destruct A' as [A'|(Z0 & A')].
      * left. intros x. rewrite A'. split.
        { intros (H1 & H2). split; auto. intros pl' [<-|I]; auto. apply (H1 (dN RN pl) (nN RN pl)). exact A. }
        { intros (H1 & H2). split; auto. intros pl' I. apply H2. now right. }
      * right. split; auto. intros x Hx Sx. apply (A' x Hx). intros pl' I. apply Sx. now right.
    + right. split; auto. specialize (PW (nvN RN p) (nvN RN p) ltac:(nia)). lia.
  - left. exists p'. split; auto. split; [lia|]. split; [specialize (PW (nvN RN p) (nvN RN p) ltac:(nia)); nia|]. split; auto. right. split; auto. intros x Hx Sx. specialize (Sx pl ltac:(now left)).
    assert (0 <= linN D (- dN RN pl) (fun k => - nN RN pl k) x).
    { apply Hx. intros v Hv. specialize (A v Hv). unfold halfN, Spl, linN in *. rewrite (lsum_ext _ _ (fun i => (-1) * (nN RN pl i * ps (vbN RN p) v i))) by (intros; lra). rewrite lsum_scal. lra. }
    unfold Spl, linN in *. rewrite (lsum_ext _ _ (fun i => (-1) * (nN RN pl i * x i))) in H by (intros; lra). rewrite lsum_scal in H. lra.
  - destruct (IH p' Hn' Cv') as [(p2 & E' & R & LE & Cv2 & A')|(HM & E')].
    + left. exists p2. split; auto. split; auto. split; [specialize (PW _ _ Hle); lia|]. split; auto. destruct A' as [A'|(Z0 & A')].
      * left. intros x. rewrite A', A. split.
        { intros ((H1 & H2) & H3). split; auto. intros pl' [<-|I]; auto. }
        { intros (H1 & H2). split; [split; auto; apply H2; now left|]. intros pl' I. apply H2. now right. }
      * right. split; auto. intros x Hx Sx. apply (A' x); [apply A; split; auto; left; apply Sx; now left|]. intros pl' I. apply Sx. now right.
    + right. split; auto. specialize (PW _ _ Hle). lia.
  - right. split; auto. specialize (PW (nvN RN p) (nvN RN p) ltac:(nia)). cbn [length]. rewrite Nat2Z.inj_succ, Z.pow_succ_r by lia. nia.
Qed.

Theorem rNd_clip_hull (p : polyN RN) planes : (0 <= nvN RN p <= MX)%Z -> convexN D p ->
  (exists p', rNd_clip RN MX D fuel p planes = OK p' /\ (0 <= nvN RN p' <= MX)%Z /\ (nvN RN p' <= nvN RN p * (D + 1) ^ Z.of_nat (length planes))%Z /\ convexN D p'
     /\ ((forall x, hullP D p' x <-> hullP D p x /\ holds D planes x)
         \/ (nvN RN p' = 0%Z /\ forall x, hullP D p x -> ~ strictly D planes x)))
  \/ ((MX < nvN RN p * (D + 1) ^ Z.of_nat (length planes))%Z /\ rNd_clip RN MX D fuel p planes = Err OutOfBounds).
Proof.
  intros Hn Cv. unfold rNd_clip. destruct (Z.leb_spec (nvN RN p) 0).
  - left. exists p. split; auto. split; auto. split; [replace (nvN RN p) with 0%Z by lia; lia|]. split; auto. left. assert (E : nvN RN p = 0%Z) by lia. unfold hullP. rewrite E.
    intros x. split; [intros H1|intros (H1 & _)]; exfalso; exact (hullN_0 _ _ _ H1).
  - apply clipN_hulls; auto. lia.
Qed.
End H.
