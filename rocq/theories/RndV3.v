(** * RndV3: the total volume that [r3d_voxelize] deposits in rounded arithmetic. *)
From Coq Require Import Reals ZArith List Bool Lia Lra Psatz.
From Verif Require Vox2 RndM2.
From Verif Require Import Base Lib SumR ModelCommon CommonFacts RealNum Model3 ModelV ModelV3 Spec2 Spec3 Orb3 Struct3 Clip3 Spec3R Mom3 Cons3 Reduce3 Glue3 Small3 VoxFacts Vox3
  RndNum SpecR3 SpecL3 RndC3 RndE3 RndM3 RndA3 RndG3.
Import ListNotations.
Open Scope R_scope.

Section Rnd.
Context (u : R) (rnd : R -> R) (HA : accurate u rnd) (Hu : 0 <= u <= 1 / 100).
Notation FR := (FN rnd).
Let Hu10 : 0 <= u <= 1 / 10. Proof. lra. Qed.

Definition span3 (b : box) : nat := Z.to_nat (snd b 0%Z - fst b 0%Z + (snd b 1%Z - fst b 1%Z) + (snd b 2%Z - fst b 2%Z)).

Lemma split_coord_count MX (p o q0 q1 : pol3) c a : wf3 p -> (0 < nv p <= MX)%Z -> (0 <= a < 3)%Z -> r3d_split_coord FR MX p o c a = OK (q0, q1) ->
  (0 <= nv q0 + nv q1 <= MX)%Z.
Proof.
  intros Hw HM Ha E.
  destruct (split3_coord_spec FR MX p o c a Hw (proj2 HM) Ha) as [(H0 & E')|[(H0 & A & E')|[(H0 & A & E')|(x & y & Hx & Hy & Rx & Ry & [(q' & o1' & E' & SR)|(E' & _)])]]];
    change (T FR) with R in *; rewrite E' in E; inversion E; subst; cbn [nv]; [lia..|].
  destruct (split3_result_wf FR MX p _ _ q0 q1 Hw SR) as ((X0 & _) & (X1 & _) & X2 & X3). change (T FR) with R in *. lia.
Qed.

Lemma vol3_split (b : box) a c : proper 3 b -> (0 <= a < 3)%Z -> (fst b a < c < snd b a)%Z ->
  vol 3 b = (vol 3 (fst b, upd (snd b) a c) + vol 3 (upd (fst b) a c, snd b))%Z
  /\ (S (span3 (fst b, upd (snd b) a c)) <= span3 b)%nat /\ (S (span3 (upd (fst b) a c, snd b)) <= span3 b)%nat.
Proof.
  intros Pr Ha Hc. rewrite !vol3. unfold span3. cbn [fst snd]. pose proof (Pr 0%Z ltac:(lia)). pose proof (Pr 1%Z ltac:(lia)). pose proof (Pr 2%Z ltac:(lia)).
  destruct (slot3 a Ha) as [->|[->| ->]]; rewrite ?upd_eq, ?upd_neq by lia; (split; [ring|lia]).
Qed.

Lemma rast3_F MX d M E (p : pol3) b l :
  rast FR 3 nv (r3d_split_coord FR MX) (dget3 FR d) p b l ->
  forall m e, proper 3 b -> 0 <= m -> 0 <= e -> m * (1 + 5 * u) ^ span3 b <= M -> e + INR (span3 b) * (3200 * u * M ^ 3) <= E -> wf3 p -> (nv p <= MX)%Z ->
  (forall v, (0 <= v < nv p)%Z -> within_abs m (ps (vb p) v)) -> flat_faces e p ->
  (forall x, In x l -> wf3 (snd x) /\ (nv (snd x) <= MX)%Z /\ (forall v, (0 <= v < nv (snd x))%Z -> within_abs M (ps (vb (snd x)) v)) /\ flat_faces E (snd x))
  /\ Rabs (lsum l (fun x => moment3 (snd x) 0 0 0) - moment3 p 0 0 0) <= 2 * IZR MX * E * IZR (vol 3 b - 1).
Proof.
  induction 1 as [p b H0|p b H0 H1|p b o a c q0 q1 l0 l1 H0 Ha Hm Hs R0 IH0 R1 IH1]; intros m e Pr Hm0 He HM HE Hw HX HB HF; change (T FR) with R in *.
  all: assert (PG : 1 <= (1 + 5 * u) ^ span3 b) by (apply pow_R1_Rle; lra).
  all: assert (mM : m <= M) by nra.
  all: assert (G0 : 0 <= 3200 * u * M ^ 3) by (apply (grow u Hu); lra).
  all: assert (EE : e <= E) by (pose proof (pos_INR (span3 b)); nra).
  all: assert (V1 : 1 <= IZR (vol 3 b)) by (apply IZR_le, vol_pos, Pr).
  all: assert (MX0 : 0 <= IZR MX) by (apply IZR_le; destruct Hw; lia).
  all: assert (ME : 0 <= 2 * IZR MX * E) by (apply Rmult_le_pos; lra).
  - split; [intros x []|]. cbn [lsum]. rewrite moment3_empty by auto. rewrite Rminus_eq_0, Rabs_R0, minus_IZR. nra.
  - split.
    + intros x [<-|[]]. cbn [snd]. split; [auto|]. split; [auto|]. split; [|eapply flat_mono; eauto]. intros v Hv. eapply within_mono; eauto.
    + cbn [lsum snd]. rewrite !Rplus_0_r, !Rminus_eq_0, Rabs_R0, minus_IZR. nra.
  - destruct (split_boxes 3 b a c Pr Ha Hm) as (P0 & P1 & _ & _). destruct (vol3_split b a c Pr Ha Hm) as (VS & SP0 & SP1).
    pose proof (split_coord_count MX p o q0 q1 _ a Hw (conj H0 HX) Ha Hs) as CN.
    destruct (split3_coord_F u rnd HA Hu10 MX m p o q0 q1 _ a Hm0 Hw (conj H0 HX) Ha HB Hs) as (S0 & S1).
    destruct (split3_coord_flat u rnd HA Hu MX m e p o q0 q1 _ a Hm0 He Hw (conj H0 HX) Ha HB HF Hs) as (F0 & F1 & SA).
    destruct (split_coord_cases FR MX p o (nmul FR (dget3 FR d a) (nofZ FR c)) a Hw HX H0 Ha) as [(x0 & x1 & E' & W0 & W1 & N0 & N1 & _)|(E' & _)].
    2: { change (T FR) with R in *. rewrite Hs in E'. discriminate. }
    change (T FR) with R in *. rewrite Hs in E'. injection E' as <- <-.
    set (e' := e + 3200 * u * m ^ 3) in *.
    assert (Ge : 0 <= 3200 * u * m ^ 3) by now apply (grow u Hu).
    assert (GM : 3200 * u * m ^ 3 <= 3200 * u * M ^ 3) by (apply Rmult_le_compat_l; [lra|]; apply pow_incr; auto).
    assert (PW : forall k, (S k <= span3 b)%nat -> (m + 5 * u * m) * (1 + 5 * u) ^ k <= M).
    { intros k Hk. eapply Rle_trans; [|exact HM]. replace ((m + 5 * u * m) * (1 + 5 * u) ^ k) with (m * (1 + 5 * u) ^ S k) by (cbn [pow]; ring).
      apply Rmult_le_compat_l; [auto|]. apply Rle_pow; [lra|auto]. }
    assert (PE : forall k, (S k <= span3 b)%nat -> e' + INR k * (3200 * u * M ^ 3) <= E).
    { intros k Hk. eapply Rle_trans; [|exact HE]. apply le_INR in Hk. rewrite S_INR in Hk. unfold e'. nra. }
    assert (EE' : e' <= E). { pose proof (PE _ SP0). pose proof (pos_INR (span3 (fst b, upd (snd b) a c))). nra. }
    destruct (IH0 (m + 5 * u * m) e' P0 ltac:(nra) ltac:(unfold e'; lra) (PW _ SP0) (PE _ SP0) W0 N0 (fun v Hv => proj1 (proj1 S0 v Hv)) F0) as (A0 & B0).
    destruct (IH1 (m + 5 * u * m) e' P1 ltac:(nra) ltac:(unfold e'; lra) (PW _ SP1) (PE _ SP1) W1 N1 (fun v Hv => proj1 (proj1 S1 v Hv)) F1) as (A1 & B1).
    split; [intros x Hx; apply in_app_or in Hx as [Hx|Hx]; auto|].
    rewrite !lsum_app. rewrite VS. rewrite minus_IZR, ?plus_IZR in *.
    assert (SB : 2 * (IZR (nv q0) + IZR (nv q1)) * e' <= 2 * IZR MX * E).
    { rewrite <- plus_IZR. destruct CN as (C0 & C1). apply IZR_le in C0, C1. apply Rmult_le_compat; [lra|unfold e'; lra|lra|exact EE']. }
    set (k := 2 * IZR MX * E) in *. apply rabs_inv in SA, B0, B1. apply Rabs_le. lra.
Qed.

Lemma voxel_volume_F MX po m e G (p : pol3) B (d : rvec3 R) (gr gr' : Z -> R) (l : list (box * pol3)) : (0 <= po)%Z -> wf3 p -> (nv p <= MX)%Z -> cells3_ok (num_moments3 po) B ->
  0 <= m -> 0 <= e -> (forall v, (0 <= v < nv p)%Z -> within_abs m (ps (vb p) v)) -> flat_faces e p ->
  let S := IZR (snd B 0%Z - fst B 0%Z + (snd B 1%Z - fst B 1%Z) + (snd B 2%Z - fst B 2%Z)) in
  2 * u * (3 * IZR MX + 23) <= 1 -> 50 * u * S <= 1 ->
  let cells := ((snd B 0%Z - fst B 0%Z) * (snd B 1%Z - fst B 1%Z) * (snd B 2%Z - fst B 2%Z))%Z in
  0 <= G -> (forall c, (0 <= c < cells)%Z -> Rabs (gr (num_moments3 po * c)%Z) <= G) ->
  voxel_result FR MX po p B d gr gr' l false ->
  Rabs (lsum (zrange cells) (fun c => gr' (num_moments3 po * c)%Z - gr (num_moments3 po * c)%Z) - moment3 p 0 0 0)
    <= (2 * u * (3 * IZR MX + 23) * (G + 6 * IZR MX * m ^ 3) + 2 * IZR MX * (e + 5600 * u * S * m ^ 3)) * IZR cells.
Proof.
  intros Hpo Hw HX HB Hm0 He Hm HF S HU1 HU2 cells HG HG' (Rt & ND & (G1 & G2)). change (T FR) with R in *.
  pose proof HB as (HB1 & _).
  assert (Pr : proper 3 B). { intros a Ha. pose proof (HB1 a Ha). lia. }
  set (M := m * (1 + 5 * u) ^ span3 B).
  assert (ES : S = INR (span3 B)).
  { unfold S, span3. rewrite INR_IZR_INZ, Z2Nat.id; [auto|]. pose proof (Pr 0%Z ltac:(lia)). pose proof (Pr 1%Z ltac:(lia)). pose proof (Pr 2%Z ltac:(lia)). lia. }
  assert (Ms : M <= 6 / 5 * m).
  { unfold M. rewrite ES in HU2. pose proof (RndM2.pow_linear (5 * u) (span3 B) ltac:(lra) ltac:(lra)). nra. }
  assert (M0 : m <= M). { unfold M. pose proof (pow_R1_Rle (1 + 5 * u) (span3 B) ltac:(lra)). nra. }
  assert (m3 : 0 <= m ^ 3) by now apply pow_le.
  assert (M3 : 0 <= M ^ 3 <= 7 / 4 * m ^ 3).
  { split; [apply pow_le; lra|]. apply Rle_trans with ((6 / 5 * m) ^ 3); [apply pow_incr; lra|]. replace ((6 / 5 * m) ^ 3) with (216 / 125 * m ^ 3) by field. lra. }
  assert (S0 : 0 <= S) by (rewrite ES; apply pos_INR).
  set (E := e + 5600 * u * S * m ^ 3).
  assert (HE : e + INR (span3 B) * (3200 * u * M ^ 3) <= E).
  { unfold E. rewrite <- ES. assert (U0 : 0 <= S * (3200 * u)) by (apply Rmult_le_pos; lra). apply Rplus_le_compat_l.
    replace (S * (3200 * u * M ^ 3)) with (S * (3200 * u) * M ^ 3) by ring. replace (5600 * u * S * m ^ 3) with (S * (3200 * u) * (7 / 4 * m ^ 3)) by field.
    apply Rmult_le_compat_l; lra. }
  assert (E0 : 0 <= E). { unfold E. assert (0 <= 5600 * u * S * m ^ 3) by (repeat apply Rmult_le_pos; lra). lra. }
  destruct (rast3_F MX d M E p B l Rt m e Pr Hm0 He ltac:(unfold M; lra) HE Hw HX Hm HF) as (Bx & A).
  pose proof (rast_leaves FR 3 nv _ _ p B l Rt Pr) as Lv. rewrite Forall_forall in Lv. change (T FR) with R in *.
  assert (NM : (1 <= num_moments3 po)%Z) by (now apply num_moments3_pos).
  assert (Cr : forall x, In x l -> (0 <= cell3 B (fst (fst x)) < cells)%Z).
  { intros x Hx. unfold cells. rewrite <- vol3. destruct (Lv x Hx) as (Sb & _ & U). apply cell3_range. intros k Hk. pose proof (Sb k Hk). pose proof (U k Hk). lia. }
  rewrite (Vox2.lsum_cells l (fun x => cell3 B (fst (fst x))) cells); auto.
  2: { intros k Hk Hni. rewrite G2; [ring|]. intros x Hx X. apply Hni. apply in_map_iff. exists x. split; auto. nia. }
  assert (MX0 : 0 <= IZR MX). { apply IZR_le. destruct Hw. lia. }
  set (q := 2 * u * (3 * IZR MX + 23)) in *.
  assert (q0 : 0 <= q) by (unfold q; nra).
  set (D := q * (G + 6 * IZR MX * m ^ 3)). assert (D0 : 0 <= D).
  { unfold D. apply Rmult_le_pos; auto. assert (0 <= 6 * IZR MX * m ^ 3) by (apply Rmult_le_pos; lra). lra. }
  (** one cell *)
  assert (One : forall x, In x l -> Rabs (gr' (num_moments3 po * cell3 B (fst (fst x)))%Z - gr (num_moments3 po * cell3 B (fst (fst x)))%Z - moment3 (snd x) 0 0 0) <= D).
  { intros x Hx. destruct (G1 x Hx) as (m0 & mom & E1 & F). destruct (Bx x Hx) as (W & NX & V & _). change (T FR) with R in *.
    specialize (F 0%Z ltac:(lia)). rewrite Z.add_0_r in F. rewrite F.
    destruct (reduce3_F u rnd HA Hu10 MX (snd x) m0 po M ltac:(lra) Hpo W NX V) as (mom' & E' & F' & _). rewrite E1 in E'. injection E' as <-.
    assert (H6 : (1 + u) ^ (3 * (0 + 0 + 0) + 6) <= 3 / 2). { cbn [Nat.add Nat.mul]. pose proof (RndM2.pow_linear u 6 ltac:(lra)) as X. cbn [INR] in X. lra. }
    specialize (F' 0%nat 0%nat 0%nat ltac:(lia) H6). change (idx3 (Z.of_nat 0) (Z.of_nat 0) (Z.of_nat 0)) with 0%Z in F'.
    set (g := gr (num_moments3 po * cell3 B (fst (fst x)))%Z) in *.
    assert (Ng : near u (12 * (0 + 0 + 0) + 3 * Z.to_nat (nv (snd x)) + 22) g g G).
    { apply (RndM2.near_up u Hu10 0); [|lia]. apply near_exact. apply HG'. now apply Cr. }
    destruct (near_add u rnd HA Hu10 _ _ _ _ _ _ _ Ng F') as (N & _).
    change (nadd FR g (mom 0%Z)) with (rnd (g + mom 0%Z)).
    replace (rnd (g + mom 0%Z) - g - moment3 (snd x) 0 0 0) with (rnd (g + mom 0%Z) - (g + moment3 (snd x) 0 0 0)) by ring.
    eapply Rle_trans; [exact N|]. destruct W as (Wn & _).
    replace (3 * IZR (nv (snd x)) * (3 / INR (0 + 0 + 0 + 3) * M ^ (0 + 0 + 0 + 3))) with (3 * IZR (nv (snd x)) * M ^ 3) by (cbn; field).
    assert (Nx : 0 <= IZR (nv (snd x)) <= IZR MX) by (split; apply IZR_le; auto).
    assert (GG : G + 3 * IZR (nv (snd x)) * M ^ 3 <= G + 6 * IZR MX * m ^ 3).
    { assert (3 * IZR (nv (snd x)) * M ^ 3 <= 3 * IZR MX * (7 / 4 * m ^ 3)) by (apply Rmult_le_compat; lra).
      assert (0 <= IZR MX * m ^ 3) by (apply Rmult_le_pos; lra). lra. }
    assert (0 <= 3 * IZR (nv (snd x)) * M ^ 3) by (apply Rmult_le_pos; lra).
    unfold D. apply Rmult_le_compat; [|lra| |exact GG].
    { pose proof (pow_R1_Rle (1 + u) (Datatypes.S (12 * (0 + 0 + 0) + 3 * Z.to_nat (nv (snd x)) + 22)) ltac:(lra)). lra. }
    assert (LI : INR (Datatypes.S (12 * (0 + 0 + 0) + 3 * Z.to_nat (nv (snd x)) + 22)) <= 3 * IZR MX + 23).
    { rewrite INR_IZR_INZ. rewrite <- mult_IZR, <- plus_IZR. apply IZR_le. lia. }
    pose proof (RndM2.pow_linear u (Datatypes.S (12 * (0 + 0 + 0) + 3 * Z.to_nat (nv (snd x)) + 22)) ltac:(lra)) as X. unfold q in *. nra. }
  assert (Ln : INR (length l) <= IZR cells).
  { rewrite INR_IZR_INZ. apply IZR_le. assert (C0 : (0 <= cells)%Z) by (unfold cells; rewrite <- vol3; pose proof (vol_pos 3 B Pr); lia).
    assert (length (map (fun x => cell3 B (fst (fst x))) l) <= length (zrange cells))%nat.
    { apply NoDup_incl_length; auto. intros k Hk. apply in_map_iff in Hk as (x & <- & Hx). apply in_zrange. auto. }
    unfold zrange in H. rewrite !map_length, seq_length in H. lia. }
  assert (S1 : Rabs (lsum l (fun x => gr' (num_moments3 po * cell3 B (fst (fst x)))%Z - gr (num_moments3 po * cell3 B (fst (fst x)))%Z) - lsum l (fun x => moment3 (snd x) 0 0 0)) <= INR (length l) * D).
  { rewrite <- lsum_sub. now apply RndF3.lsum_abs. }
  rewrite vol3 in A. fold cells in A.
  assert (A2 : 2 * IZR MX * E * IZR (cells - 1) <= 2 * IZR MX * E * IZR cells). { apply Rmult_le_compat_l; [apply Rmult_le_pos; lra|]. apply IZR_le. lia. }
  assert (A3 : INR (length l) * D <= D * IZR cells) by (rewrite Rmult_comm; now apply Rmult_le_compat_l).
  fold D E. apply rabs_inv in S1, A. apply Rabs_le. lra.
Qed.

Lemma voxelize_volume_F MX po stk0 mom0 m e G (p : pol3) B (d : rvec3 R) (gr gr' : Z -> R) : (0 <= po)%Z -> wf3 p -> (0 < nv p <= MX)%Z -> cells3_ok (num_moments3 po) B ->
  0 <= m -> 0 <= e -> (forall v, (0 <= v < nv p)%Z -> within_abs m (ps (vb p) v)) -> flat_faces e p ->
  let S := IZR (snd B 0%Z - fst B 0%Z + (snd B 1%Z - fst B 1%Z) + (snd B 2%Z - fst B 2%Z)) in
  2 * u * (3 * IZR MX + 23) <= 1 -> 50 * u * S <= 1 ->
  let cells := ((snd B 0%Z - fst B 0%Z) * (snd B 1%Z - fst B 1%Z) * (snd B 2%Z - fst B 2%Z))%Z in
  0 <= G -> (forall c, (0 <= c < cells)%Z -> Rabs (gr (num_moments3 po * c)%Z) <= G) ->
  r3d_voxelize FR MX false po stk0 mom0 p B gr d = OK gr' ->
  Rabs (lsum (zrange cells) (fun c => gr' (num_moments3 po * c)%Z - gr (num_moments3 po * c)%Z) - moment3 p 0 0 0)
    <= (2 * u * (3 * IZR MX + 23) * (G + 6 * IZR MX * m ^ 3) + 2 * IZR MX * (e + 5600 * u * S * m ^ 3)) * IZR cells.
Proof.
  intros Hpo Hw Hp HB Hm0 He Hm HF S HU1 HU2 cells HG HG' E.
  destruct (voxelize_any FR MX po stk0 mom0 p B gr d Hpo Hw Hp HB) as [(g & l & E' & RR)|(E' & _)]; change (T FR) with R in *; rewrite E in E'; [|discriminate].
  injection E' as <-. exact (voxel_volume_F MX po m e G p B d gr gr' l Hpo Hw (proj2 Hp) HB Hm0 He Hm HF HU1 HU2 HG HG' RR).
Qed.
End Rnd.

(** ** A case: the unit cube on a grid of 2 by 2 by 2 cells *)
Lemma cube_voxels (p0 : pol3) stk0 mom0 : let B := ((fun _ => 0%Z), (fun _ => 2%Z)) : box in let d := V3 (1 / 2) (1 / 2) (1 / 2) : rvec3 R in
  exists p gr', r3d_init_box (FN rnd53) 512 p0 (V3 0 0 0) (V3 1 1 1) = OK p /\ wf3 p /\ (0 < nv p <= 512)%Z
  /\ (forall v, (0 <= v < nv p)%Z -> within_abs 1 (ps (vb p) v)) /\ flat_faces 0 p /\ cells3_ok (num_moments3 2) B
  /\ 2 * u53 * (3 * IZR 512 + 23) <= 1 /\ 50 * u53 * IZR (2 - 0 + (2 - 0) + (2 - 0)) <= 1
  /\ r3d_voxelize (FN rnd53) 512 false 2 stk0 mom0 p B (fun _ => 0) d = OK gr'.
Proof.
  intros B d. destruct (cube_split_rounded p0) as (p & _ & E & W & Hn & HB & HF & _).
  assert (N8 : nv p = 8%Z). { destruct (init_box_spec3 (FN rnd53) 512 p0 (V3 0 0 0) (V3 1 1 1) ltac:(lia)) as (q & E' & N & _). change (T (FN rnd53)) with R in *. rewrite E in E'. inversion E'; subst. exact N. }
  change (T (FN rnd53)) with R in *. exists p.
  assert (C : cells3_ok (num_moments3 2) B).
  { split; [intros i _; cbn; unfold int_min, int_max; lia|]. vm_compute. discriminate. }
  destruct (voxelize_room_any (FN rnd53) 512 2 stk0 mom0 p B (fun _ => 0) d ltac:(lia) W) as (gr' & l & E' & _); [change (T (FN rnd53)) with R in *; lia| |exact C|].
  { change (T (FN rnd53)) with R in *. rewrite N8. vm_compute. discriminate. }
  exists gr'. split; [exact E|]. split; [exact W|]. split; [lia|]. split; [exact HB|]. split; [exact HF|]. split; [exact C|].
  assert (U : 0 <= u53 <= 1 / 10000). { unfold u53. cbn. lra. }
  split; [lra|]. split; [change (2 - 0 + (2 - 0) + (2 - 0))%Z with 6%Z; lra|exact E'].
Qed.
