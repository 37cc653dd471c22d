(** * RndV2: the total area that [r2d_rasterize] deposits in rounded arithmetic. *)
From Coq Require Import Reals ZArith List Bool Lia Lra Psatz.
From Verif Require Import Base Lib SumR ModelCommon CommonFacts RealNum Model2 ModelV Spec2 Spec2R Struct2 Reduce2 Mom2 Cons2 Clip2 Glue2 VoxFacts Vox2 RndNum SpecR2 RndC2 RndE2 RndA2 RndM2.
Import ListNotations.
Open Scope R_scope.

(** ** Room in the buffers, for every arithmetic *)
Section Room.
Context (NN : num) (MX : Z).
Open Scope Z_scope.
Lemma split_coord_counts (p o : poly (rvec2 (T NN))) c a : wf2 p -> 0 < nv p -> 3 * nv p <= MX -> 0 <= a < 2 ->
  exists q0 q1, r2d_split_coord NN MX p o c a = OK (q0, q1) /\ wf2 q0 /\ wf2 q1 /\ nv q0 <= 3 * nv p /\ nv q1 <= 3 * nv p.
Proof.
  intros Hw Hp HM Ha. pose proof Hw as (Hn & HL).
  assert (W0 : forall b : vbuf (rvec2 (T NN)), wf2 (PY b 0)).
  { intros b. split; [cbn; lia|]; intros v Hv; cbn in Hv; lia. }
  assert (EX : forall K, 0 <= exits 2 K (nb (vb p)) (nv p) <= nv p).
  { intros K. split; [unfold exits; lia|now apply exits_le]. }
  destruct (split_coord_spec NN MX p o c a Hw ltac:(lia) Ha) as [(H0 & E')|[(H0 & A & E')|[(H0 & A & E')|(x & y & Hx & Hy & Rx & Ry & [(q0 & q1 & E' & SR)|(E' & O)])]]]; [lia| | | |].
  - exists p, (PY (vb o) 0). split; auto. split; auto. split; [apply W0|]. cbn [nv]. lia.
  - exists (PY (vb p) 0), p. split; auto. split; [apply W0|]. split; auto. cbn [nv]. lia.
  - exists q0, q1. split; auto. destruct (split_result_wf NN MX p _ _ q0 q1 Hw SR) as (X0 & X1 & CN & _).
    pose proof (EX (fun v => negb (cright NN c a (vb p) v))). destruct X0 as (Y0 & Z0). destruct X1 as (Y1 & Z1). split; [split; auto|]. split; [split; auto|]. lia.
  - pose proof (EX (fun v => negb (cright NN c a (vb p) v))). lia.
Qed.

Lemma rasterize_room po stk0 mom0 (p : poly (rvec2 (T NN))) B gr d : 0 <= po -> wf2 p -> 0 < nv p ->
  nv p * 3 ^ (Z.log2_up (snd B 0 - fst B 0) + Z.log2_up (snd B 1 - fst B 1)) <= MX -> cells_ok (num_moments2 po) B ->
  exists gr', r2d_rasterize NN MX false po stk0 mom0 p B gr d = OK gr'.
Proof.
  intros Hpo Hw Hp HM HB.
  assert (ED : depth 2 B = Z.log2_up (snd B 0 - fst B 0) + Z.log2_up (snd B 1 - fst B 1)).
  { unfold depth. change (zrange 2) with [0; 1]. cbn [suml]. unfold size. ring. }
  rewrite <- ED in HM. pose proof (depth_nonneg 2 B) as D0.
  destruct (rasterize_main NN MX (fun k q => wf2 q /\ nv q <= MX /\ nv q * 3 ^ k <= MX) (fun _ => False) false po stk0 mom0 p B gr d)
    as [(gr' & l & E & _)|(E & k & q & _ & _ & [])]; eauto.
  - intros k k' q Hk (X1 & X2 & X3). split; auto. split; auto. destruct X1 as (X1 & _).
    destruct (Z.neg_nonneg_cases k'); [rewrite Z.pow_neg_r by auto; lia|]. pose proof (Z.pow_le_mono_r 3 k' k ltac:(lia) Hk). nia.
  - intros k q o c a Hk (X1 & X2 & X3) X4 Ha. left.
    assert (E3 : 3 ^ k = 3 * 3 ^ (k - 1)) by (rewrite <- Z.pow_succ_r by lia; f_equal; lia).
    pose proof (Z.pow_pos_nonneg 3 (k - 1) ltac:(lia) ltac:(lia)) as P1.
    destruct (split_coord_counts q o c a X1 X4 ltac:(nia) Ha) as (q0 & q1 & E & Y1 & Y2 & Y3 & Y4).
    exists q0, q1. split; auto. split; (split; [auto|split; nia]).
  - intros k q mom (X1 & X2 & X3) X4. destruct (r2d_reduce_fills NN MX po q mom Hpo X1 X2) as (m & E & _). eauto.
  - split; auto. split; auto. pose proof (Z.pow_pos_nonneg 3 (depth 2 B) ltac:(lia) D0). nia.
Qed.
End Room.

Section Rnd.
Context (u : R) (rnd : R -> R) (HA : accurate u rnd) (Hu : 0 <= u <= 1 / 100).
Notation FR := (FN rnd).
Lemma Hu10 : 0 <= u <= 1 / 10. Proof. lra. Qed.

Definition span2 (b : box) : nat := Z.to_nat (snd b 0%Z - fst b 0%Z + (snd b 1%Z - fst b 1%Z)).

Lemma within_abs2_le m k v : within_abs2 m v -> m <= k -> within_abs2 k v.
Proof. intros (A & B) H. split; lra. Qed.

Lemma rast_F MX d M (p : pol2) b l :
  rast FR 2 nv (r2d_split_coord FR MX) (fun i => if (i =? 0)%Z then vx d else vy d) p b l ->
  forall m, proper 2 b -> 0 <= m -> m * (1 + 5 * u) ^ span2 b <= M -> wf2 p -> (nv p <= MX)%Z ->
  (forall v, (0 <= v < nv p)%Z -> within_abs2 m (ps (vb p) v)) ->
  (forall x, In x l -> wf2 (snd x) /\ (nv (snd x) <= MX)%Z /\ forall v, (0 <= v < nv (snd x))%Z -> within_abs2 M (ps (vb (snd x)) v))
  /\ Rabs (lsum l (fun x => moment2 (snd x) 0 0) - moment2 p 0 0) <= 30 * u * (M * M) * (lsum l (fun x => IZR (nv (snd x))) - IZR (nv p)).
Proof.
  induction 1 as [p b H0|p b H0 H1|p b o a c q0 q1 l0 l1 H0 Ha Hm Hs R0 IH0 R1 IH1]; intros m Pr Hm0 HM Hw HX HB; change (T FR) with R in *.
  - destruct Hw as (Hn & _). assert (E : nv p = 0%Z) by lia. split; [intros x []|]. cbn [lsum]. unfold moment2. rewrite E. change (zrange 0) with (@nil Z). cbn [lsum].
    rewrite !Rminus_eq_0, Rabs_R0. lra.
  - assert (mM : m <= M). { pose proof (pow_R1_Rle (1 + 5 * u) (span2 b) ltac:(lra)). nra. }
    split.
    + intros x [<-|[]]. cbn [snd]. split; [auto|]. split; [auto|]. intros v Hv. apply (within_abs2_le m); auto.
    + cbn [lsum snd]. rewrite !Rplus_0_r, !Rminus_eq_0, Rabs_R0. lra.
  - destruct (split_boxes 2 b a c Pr Ha Hm) as (P0 & P1 & _ & _).
    assert (SP : (S (span2 (fst b, upd (snd b) a c)) <= span2 b)%nat /\ (S (span2 (upd (fst b) a c, snd b)) <= span2 b)%nat).
    { unfold span2. cbn [fst snd]. pose proof (Pr 0%Z ltac:(lia)). pose proof (Pr 1%Z ltac:(lia)).
      destruct (slot2 a Ha) as [->| ->]; rewrite ?upd_eq, ?upd_neq by lia; lia. }
    assert (mM : m <= M). { pose proof (pow_R1_Rle (1 + 5 * u) (span2 b) ltac:(lra)). nra. }
    assert (HB' : forall v, (0 <= v < nv p)%Z -> within_abs2 M (ps (vb p) v)) by (intros; apply (within_abs2_le m); auto).
    destruct (split_coord_F u rnd HA Hu10 MX m p o q0 q1 _ a Hm0 Hw (conj H0 HX) Ha HB Hs) as (S0 & S1).
    destruct (split_coord_area u rnd HA Hu MX M p o q0 q1 _ a ltac:(lra) Hw (conj H0 HX) Ha HB' Hs) as (SA & _).
    destruct (split_coord_cases FR MX p o (nmul FR (if (a =? 0)%Z then vx d else vy d) (nofZ FR c)) a Hw HX H0 Ha) as [(x0 & x1 & E & W0 & W1 & N0 & N1 & _)|(E & _)].
    2: { change (T FR) with R in *. rewrite Hs in E. discriminate. }
    change (T FR) with R in *. rewrite Hs in E. injection E as <- <-.
    assert (PW : forall k, (S k <= span2 b)%nat -> (m + 5 * u * m) * (1 + 5 * u) ^ k <= M).
    { intros k Hk. eapply Rle_trans; [|exact HM]. replace ((m + 5 * u * m) * (1 + 5 * u) ^ k) with (m * (1 + 5 * u) ^ S k) by (cbn [pow]; ring).
      apply Rmult_le_compat_l; [auto|]. apply Rle_pow; [lra|auto]. }
    destruct (IH0 (m + 5 * u * m) P0 ltac:(nra) (PW _ (proj1 SP)) W0 N0 (fun v Hv => proj1 (proj1 S0 v Hv))) as (A0 & B0).
    destruct (IH1 (m + 5 * u * m) P1 ltac:(nra) (PW _ (proj2 SP)) W1 N1 (fun v Hv => proj1 (proj1 S1 v Hv))) as (A1 & B1).
    split; [intros x Hx; apply in_app_or in Hx as [Hx|Hx]; auto|].
    rewrite !lsum_app. rewrite minus_IZR, plus_IZR in SA.
    set (k := 30 * u * (M * M)) in *. apply rabs_inv in SA, B0, B1. apply Rabs_le. lra.
Qed.

Lemma raster_area_F MX po m G (p : pol2) B (d : rvec2 R) (gr gr' : Z -> R) (l : list (box * pol2)) : (0 <= po)%Z -> wf2 p -> (nv p <= MX)%Z -> cells_ok (num_moments2 po) B ->
  0 <= m -> (forall v, (0 <= v < nv p)%Z -> within_abs2 m (ps (vb p) v)) ->
  2 * u * (IZR MX + 14) <= 1 -> 50 * u * IZR (snd B 0%Z - fst B 0%Z + (snd B 1%Z - fst B 1%Z)) <= 1 ->
  let cells := ((snd B 0%Z - fst B 0%Z) * (snd B 1%Z - fst B 1%Z))%Z in
  0 <= G -> (forall c, (0 <= c < cells)%Z -> Rabs (gr (num_moments2 po * c)%Z) <= G) ->
  raster_result FR MX po p B d gr gr' l false ->
  Rabs (lsum (zrange cells) (fun c => gr' (num_moments2 po * c)%Z - gr (num_moments2 po * c)%Z) - moment2 p 0 0)
    <= 3 * u * (IZR MX + 29) * (G + IZR MX * (m * m)) * IZR cells.
Proof.
  intros Hpo Hw HX HB Hm0 Hm HU1 HU2 cells HG HG' (Rt & ND & (G1 & G2)). change (T FR) with R in *.
  pose proof HB as (HB1 & _).
  assert (Pr : proper 2 B). { intros a Ha. pose proof (HB1 a Ha). lia. }
  set (M := m * (1 + 5 * u) ^ span2 B).
  assert (Ms : M <= 6 / 5 * m).
  { unfold M. assert (E : IZR (snd B 0%Z - fst B 0%Z + (snd B 1%Z - fst B 1%Z)) = INR (span2 B)).
    { unfold span2. rewrite INR_IZR_INZ, Z2Nat.id; [auto|]. pose proof (Pr 0%Z ltac:(lia)). pose proof (Pr 1%Z ltac:(lia)). lia. }
    rewrite E in HU2. pose proof (pow_linear (5 * u) (span2 B) ltac:(lra) ltac:(lra)). nra. }
  assert (M0 : m <= M). { unfold M. pose proof (pow_R1_Rle (1 + 5 * u) (span2 B) ltac:(lra)). nra. }
  destruct (rast_F MX d M p B l Rt m Pr Hm0 ltac:(unfold M; lra) Hw HX Hm) as (Bx & A).
  pose proof (rast_leaves FR 2 nv _ _ p B l Rt Pr) as Lv. rewrite Forall_forall in Lv. change (T FR) with R in *.
  assert (NM : (1 <= num_moments2 po)%Z) by (now apply num_moments2_pos).
  assert (Cr : forall x, In x l -> (0 <= cell2 B (fst (fst x)) < cells)%Z).
  { intros x Hx. unfold cells. rewrite <- vol2. destruct (Lv x Hx) as (S & _ & U). apply cell2_range. intros k Hk. pose proof (S k Hk). pose proof (U k Hk). lia. }
  rewrite (lsum_cells l (fun x => cell2 B (fst (fst x))) cells); auto.
  2: { intros k Hk Hni. rewrite G2; [ring|]. intros x Hx X. apply Hni. apply in_map_iff. exists x. split; auto. nia. }
  assert (MX0 : 0 <= IZR MX). { apply IZR_le. destruct Hw. lia. }
  set (e := 2 * u * (IZR MX + 14)) in *.
  assert (e0 : 0 <= e) by (unfold e; nra).
  (** one cell *)
  assert (One : forall x, In x l -> Rabs (gr' (num_moments2 po * cell2 B (fst (fst x)))%Z - gr (num_moments2 po * cell2 B (fst (fst x)))%Z - moment2 (snd x) 0 0)
     <= e * (G + IZR (nv (snd x)) * (M * M))).
  { intros x Hx. destruct (G1 x Hx) as (m0 & mom & E & F). destruct (Bx x Hx) as (W & NX & V). change (T FR) with R in *.
    specialize (F 0%Z ltac:(lia)). rewrite Z.add_0_r in F. rewrite F.
    destruct (reduce_F u rnd HA Hu10 MX (snd x) m0 po M ltac:(lra) Hpo W NX V) as (mom' & E' & F' & _). rewrite E in E'. injection E' as <-.
    assert (H4 : (1 + u) ^ 4 <= 3 / 2). { pose proof (pow_linear u 4 ltac:(lra)) as X. cbn [INR] in X. lra. }
    specialize (F' 0%nat 0%nat ltac:(lia) H4). change (idx2 (Z.of_nat 0) (Z.of_nat 0)) with 0%Z in F'.
    set (g := gr (num_moments2 po * cell2 B (fst (fst x)))%Z) in *.
    assert (Ng : near u (8 * (0 + 0) + Z.to_nat (nv (snd x)) + 13) g g G).
    { apply (near_up u Hu10 0); [|lia]. apply near_exact. apply HG'. now apply Cr. }
    destruct (near_add u rnd HA Hu10 _ _ _ _ _ _ _ Ng F') as (N & _).
    change (nadd FR g (mom 0%Z)) with (rnd (g + mom 0%Z)).
    replace (rnd (g + mom 0%Z) - g - moment2 (snd x) 0 0) with (rnd (g + mom 0%Z) - (g + moment2 (snd x) 0 0)) by ring.
    eapply Rle_trans; [exact N|]. destruct W as (Wn & _).
    replace (IZR (nv (snd x)) * (2 / INR (0 + 0 + 2) * M ^ (0 + 0 + 2))) with (IZR (nv (snd x)) * (M * M)) by (cbn; field).
    apply Rmult_le_compat_r. { apply Rplus_le_le_0_compat; auto. apply Rmult_le_pos; [now apply IZR_le|nra]. }
    assert (LI : INR (S (8 * (0 + 0) + Z.to_nat (nv (snd x)) + 13)) <= IZR MX + 14).
    { rewrite INR_IZR_INZ. rewrite <- plus_IZR. apply IZR_le. lia. }
    pose proof (pow_linear u (S (8 * (0 + 0) + Z.to_nat (nv (snd x)) + 13)) ltac:(lra)) as X. unfold e in *. nra. }
  set (W := lsum l (fun x => IZR (nv (snd x)))) in *.
  assert (Ln : IZR (Z.of_nat (length l)) <= IZR cells).
  { apply IZR_le. assert (C0 : (0 <= cells)%Z) by (unfold cells; pose proof (Pr 0%Z ltac:(lia)); pose proof (Pr 1%Z ltac:(lia)); nia).
    assert (length (map (fun x => cell2 B (fst (fst x))) l) <= length (zrange cells))%nat.
    { apply NoDup_incl_length; auto. intros k Hk. apply in_map_iff in Hk as (x & <- & Hx). apply in_zrange. auto. }
    unfold zrange in H. rewrite !map_length, seq_length in H. lia. }
  assert (HW : W <= IZR MX * IZR (Z.of_nat (length l))).
  { unfold W. clear -Bx. induction l as [|x l IH]; [cbn; lra|]. cbn [lsum length]. rewrite Nat2Z.inj_succ, succ_IZR.
    destruct (Bx x (or_introl eq_refl)) as (_ & X & _). apply IZR_le in X. specialize (IH (fun y Hy => Bx y (or_intror Hy))). lra. }
  assert (S1 : Rabs (lsum l (fun x => gr' (num_moments2 po * cell2 B (fst (fst x)))%Z - gr (num_moments2 po * cell2 B (fst (fst x)))%Z) - lsum l (fun x => moment2 (snd x) 0 0))
     <= e * (G * IZR (Z.of_nat (length l)) + W * (M * M))).
  { unfold W. clear -One. induction l as [|x l IH]; [cbn; rewrite Rminus_eq_0, Rabs_R0; lra|]. cbn [lsum length]. rewrite Nat2Z.inj_succ, succ_IZR.
    pose proof (One x (or_introl eq_refl)) as X. specialize (IH (fun y Hy => One y (or_intror Hy))). apply rabs_inv in X, IH. apply Rabs_le.
    set (k := M * M) in *. split; nra. }
  assert (W0 : 0 <= W). { unfold W. rewrite <- (lsum_0 l (fun _ => 0)) by auto. apply lsum_le. intros x Hx. apply IZR_le. apply (Bx x Hx). }
  assert (NVp : 0 <= IZR (nv p)). { apply IZR_le. apply Hw. }
  assert (MM : M * M <= 3 / 2 * (m * m)) by nra.
  assert (MM0 : 0 <= M * M) by nra.
  set (L := IZR (Z.of_nat (length l))) in *. assert (L0 : 0 <= L) by (apply IZR_le; lia).
  apply Rle_trans with (e * (G * L + W * (M * M)) + 30 * u * (M * M) * W).
  { apply rabs_inv in S1, A. apply Rabs_le. assert (0 <= 30 * u * (M * M)) by nra. nra. }
  assert (Q1 : G * L <= G * IZR cells) by (apply Rmult_le_compat_l; auto).
  assert (Q2 : W * (M * M) <= IZR MX * IZR cells * (3 / 2 * (m * m))).
  { apply Rmult_le_compat; auto. eapply Rle_trans; [exact HW|]. now apply Rmult_le_compat_l. }
  apply Rle_trans with (e * (G * IZR cells + IZR MX * IZR cells * (3 / 2 * (m * m))) + 30 * u * (IZR MX * IZR cells * (3 / 2 * (m * m)))).
  { apply Rplus_le_compat; [apply Rmult_le_compat_l; lra|]. rewrite Rmult_assoc, (Rmult_comm (M * M)). apply Rmult_le_compat_l; lra. }
  unfold e. set (c := IZR cells) in *. assert (C0 : 0 <= c) by lra. set (mm := m * m). assert (0 <= mm) by (unfold mm; nra).
  assert (T1 : 0 <= IZR MX * c * mm) by (repeat apply Rmult_le_pos; auto). assert (T2 : 0 <= G * c) by (now apply Rmult_le_pos).
  set (t1 := IZR MX * c * mm) in *. set (t2 := G * c) in *.
  replace (3 * u * (IZR MX + 29) * (G + IZR MX * mm) * c) with (3 * u * (IZR MX + 29) * (t2 + t1)) by (unfold t1, t2; ring).
  replace (IZR MX * c * (3 / 2 * mm)) with (3 / 2 * t1) by (unfold t1; ring).
  assert (U1 : 0 <= u * t1) by nra. assert (U2 : 0 <= u * t2) by nra. assert (0 <= u * t1 * IZR MX) by nra. assert (0 <= u * t2 * IZR MX) by nra. nra.
Qed.

Lemma rasterize_area_F MX po stk0 mom0 m G (p : pol2) B (d : rvec2 R) (gr gr' : Z -> R) : (0 <= po)%Z -> wf2 p -> (0 < nv p <= MX)%Z -> cells_ok (num_moments2 po) B ->
  0 <= m -> (forall v, (0 <= v < nv p)%Z -> within_abs2 m (ps (vb p) v)) ->
  2 * u * (IZR MX + 14) <= 1 -> 50 * u * IZR (snd B 0%Z - fst B 0%Z + (snd B 1%Z - fst B 1%Z)) <= 1 ->
  let cells := ((snd B 0%Z - fst B 0%Z) * (snd B 1%Z - fst B 1%Z))%Z in
  0 <= G -> (forall c, (0 <= c < cells)%Z -> Rabs (gr (num_moments2 po * c)%Z) <= G) ->
  r2d_rasterize FR MX false po stk0 mom0 p B gr d = OK gr' ->
  Rabs (lsum (zrange cells) (fun c => gr' (num_moments2 po * c)%Z - gr (num_moments2 po * c)%Z) - moment2 p 0 0)
    <= 3 * u * (IZR MX + 29) * (G + IZR MX * (m * m)) * IZR cells.
Proof.
  intros Hpo Hw Hp HB Hm0 Hm HU1 HU2 cells HG HG' E.
  destruct (rasterize_any FR MX po stk0 mom0 p B gr d Hpo Hw Hp HB) as [(g & l & E' & RR)|(E' & _)]; change (T FR) with R in *; rewrite E in E'; [|discriminate].
  injection E' as <-. exact (raster_area_F MX po m G p B d gr gr' l Hpo Hw (proj2 Hp) HB Hm0 Hm HU1 HU2 HG HG' RR).
Qed.
End Rnd.

(** ** A case: the unit square on a grid of 2 by 2 cells *)
Lemma square_raster (p0 : pol2) stk0 mom0 : let B := ((fun _ => 0%Z), (fun _ => 2%Z)) : box in let d := V2 (1 / 2) (1 / 2) : rvec2 R in
  exists p gr', r2d_init_box (FN rnd53) 256 p0 (V2 0 0) (V2 1 1) = OK p /\ wf2 p /\ (0 < nv p <= 256)%Z
  /\ (forall v, (0 <= v < nv p)%Z -> within_abs2 1 (ps (vb p) v)) /\ cells_ok (num_moments2 2) B
  /\ 2 * u53 * (IZR 256 + 14) <= 1 /\ 50 * u53 * IZR (2 - 0 + (2 - 0)) <= 1
  /\ r2d_rasterize (FN rnd53) 256 false 2 stk0 mom0 p B (fun _ => 0) d = OK gr'.
Proof.
  intros B d. destruct (square_F p0) as (p & E & W & Hn & HB & _). change (T (FN rnd53)) with R in *. exists p.
  assert (C : cells_ok (num_moments2 2) B).
  { split; [intros i _; cbn; unfold int_min, int_max; lia|]. vm_compute. discriminate. }
  destruct (rasterize_room (FN rnd53) 256 2 stk0 mom0 p B (fun _ => 0) d ltac:(lia) W) as (gr' & E'); [change (T (FN rnd53)) with R in *; lia| |exact C|].
  { change (T (FN rnd53)) with R in *. rewrite Hn. vm_compute. discriminate. }
  exists gr'. split; [exact E|]. split; [exact W|]. split; [lia|]. split; [exact HB|]. split; [exact C|].
  assert (U : 0 <= u53 <= 1 / 1000). { unfold u53. cbn. lra. }
  split; [lra|]. split; [change (2 - 0 + (2 - 0))%Z with 4%Z; lra|exact E'].
Qed.
