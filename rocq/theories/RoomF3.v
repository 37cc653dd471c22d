(** * RoomF3: room for the cuts of convex polyhedra in [r3d_clip], [r3d_split] and
    [r3d_voxelize]. *)
From Coq Require Import Reals ZArith List Bool Lia Lra Psatz.
From Verif Require Import Base Lib SumR ModelCommon CommonFacts Model3 ModelV ModelV3 RealNum SpecN SpecNC SpecF3
  Spec2 Spec3 Mom3 Orb3 Geo3 Cut3 Struct3 Clip3 Spec3R Cons3 Reduce3 Glue3 Fail3 VoxFacts Vox3 GlueV3 SpecC3 Conv3 HullC3 FlagC3 VolC3 LimC3 InitC3 GlueC3 IntC3 RoomC3 Graph3 Small3.
Import ListNotations.
Open Scope R_scope.

Lemma facets_convex (p : pol3) m : facets3 p m -> convex3 p.
Proof. intros (W & nh & lab & _ & H). split; eauto. Qed.
Lemma facets_mono (p : pol3) m m' : (m <= m')%Z -> facets3 p m -> facets3 p m'.
Proof. intros Hm (W & nh & lab & H0 & H). split; auto. exists nh, lab. split; [lia|exact H]. Qed.
Lemma facets_0 (p : pol3) m : (0 <= m)%Z -> nv p = 0%Z -> facets3 p m.
Proof.
  intros Hm E. split; [now apply wf3_empty|]. exists 0%Z, (fun _ => 0%Z). rewrite E. split; [lia|]. split.
  - constructor; unfold isd, below; intros; lia.
  - intros e He. exists (fun _ _ => 0), (fun _ => 0), (fun _ _ => 0). split; [|split]; try (intros ? ?; lia).
    constructor; unfold upto; intros; lia.
Qed.
Lemma convex_facets (p : pol3) : convex3 p -> exists m, facets3 p m.
Proof.
  intros (W & nh & lab & LA & H). exists (Z.max 0 nh). split; auto. pose proof W as (Hn & L & _).
  destruct (Z.eq_dec (nv p) 0) as [E|E]; [destruct (facets_0 p (Z.max 0 nh) ltac:(lia) E) as (_ & X); exact X|].
  exists nh, lab. split; [|auto]. pose proof (l_rng _ _ L 0%Z 0%Z ltac:(unfold below; rn; lia) ltac:(lia)).
  assert (0 <= lab (0, 0) < nh)%Z by (apply (la_rng _ _ _ _ LA); unfold isd, below; cbn; rn; lia). lia.
Qed.
Lemma convex_iff_facets (p : pol3) : convex3 p <-> exists m, facets3 p m.
Proof. split; [apply convex_facets|intros (m & F); now apply (facets_convex p m)]. Qed.
Theorem facets_vertices (p : pol3) m : facets3 p m -> (0 < nv p)%Z -> (nv p + 4 <= 2 * m)%Z.
Proof.
  intros (W & nh & lab & Hm & LA & H) Hp. destruct (H 1 ltac:(lra)) as (q & l0 & l & R & TU & _).
  assert (R' : realized 3 (nv (with_pos p q)) nh (facet lab) (at3 (with_pos p q)) l0 l) by (apply (realized_ext _ _ _ _ q); auto; intros v k _ Hk; symmetry; now apply with_pos_at).
  pose proof (vertices_facets (with_pos p q) nh lab l0 l W LA R' Hp). cbn [with_pos nv] in *. lia.
Qed.
Lemma facets_nonneg (p : pol3) m : facets3 p m -> (0 < nv p)%Z -> (3 <= m)%Z.
Proof. intros F Hp. pose proof (facets_vertices p m F Hp). rn. lia. Qed.

(** ** A cut adds one facet *)
Lemma cut_facets (p p' : pol3) N keep pl pl0 m : pl0 = pl \/ pl0 = flip3 pl -> facets3 p m -> cut_of RN p keep (meetR pl p) N p' ->
  (forall v, (0 <= v < nv p)%Z -> keep v = true -> 0 <= sdist3 pl0 (ps (vb p) v)) ->
  (forall v, (0 <= v < nv p)%Z -> keep v = false -> sdist3 pl0 (ps (vb p) v) <= 0) ->
  ((forall v, (0 <= v < nv p)%Z -> keep v = true -> 0 < sdist3 pl0 (ps (vb p) v)) \/ (forall v, (0 <= v < nv p)%Z -> keep v = false -> sdist3 pl0 (ps (vb p) v) < 0)) ->
  facets3 p' (m + 1).
Proof.
  intros E0 (W & nh & lab & Hm & LA & PO) (b' & K & M & HK & C & CO) Kt Kf KS. pose proof W as (Hn & L & _).
  assert (NE : forall v w, (0 <= v < nv p)%Z -> (0 <= w < nv p)%Z -> keep v = true -> keep w = false -> sdist3 pl (ps (vb p) v) <> sdist3 pl (ps (vb p) w)).
  { intros v w Hv Hw Kv Kw. pose proof (Kt v Hv Kv). pose proof (Kf w Hw Kw).
    assert (X : 0 < sdist3 pl0 (ps (vb p) v) \/ sdist3 pl0 (ps (vb p) w) < 0) by (destruct KS as [KS|KS]; [left|right]; auto).
    destruct E0 as [->| ->]; rewrite ?sdist3_flip in *; lra. }
  destruct (labels_cut p p' N K (meetR pl p) M b' nh lab W C CO LA) as (lab' & LA' & LO & LN).
  destruct (cut_convex_labels p p' N keep K (meetR pl p) M b' nh lab W HK C CO LA pl0 Kt Kf KS) with (lab' := lab') as (P' & HU); auto.
  { intros v i k Hv Hi Hk Kv Kw w a b. unfold meetR, dtgt. cbn [fst snd]. unfold at3, a, b. apply meet_co; auto. apply NE; auto. apply (l_rng _ _ L); auto. }
  split; [eapply cut_wf; eauto|]. exists (nh + 1)%Z, lab'. split; [lia|]. auto.
Qed.
(** both sides of a split, and the number of crossed edges *)
Lemma split_facets MX (p o0 o1 : pol3) pl m : facets3 p m -> (nv p <= MX)%Z ->
  split3_result RN MX p (sdf3 RN pl (vb p)) (rightv3 RN pl (vb p)) o0 o1 -> facets3 o0 (m + 1) /\ facets3 o1 (m + 1).
Proof.
  intros F HM S. pose proof F as (W & _).
  assert (RT : forall v, rightv3 RN pl (vb p) v = true -> sdist3 pl (ps (vb p) v) < 0).
  { intros v. unfold rightv3. rewrite sdf3_sdist. cbn. intros X. now apply Rltb_true in X. }
  assert (RF : forall v, rightv3 RN pl (vb p) v = false -> 0 <= sdist3 pl (ps (vb p) v)).
  { intros v. unfold rightv3. rewrite sdf3_sdist. cbn. intros X. apply Rltb_false in X. lra. }
  assert (HSD : forall u v, (0 <= u < nv p)%Z -> (0 <= v < nv p)%Z -> rightv3 RN pl (vb p) u = false -> rightv3 RN pl (vb p) v = true ->
     (0 <= sdist3 pl (ps (vb p) u) /\ sdist3 pl (ps (vb p) v) < 0) \/ (sdist3 pl (ps (vb p) u) <= 0 /\ 0 < sdist3 pl (ps (vb p) v))).
  { intros a b _ _ Ra Rb. left. auto. }
  assert (SD : forall v, (0 <= v < nv p)%Z -> @eq R (sdf3 RN pl (vb p) v) (sdist3 pl (ps (vb p) v))) by (intros; apply sdf3_sdist).
  destruct (split3_cuts pl p o0 o1 _ _ MX W SD HSD S) as (C0 & C1). split.
  - apply (cut_facets p o0 _ _ pl pl m (or_introl eq_refl) F C0).
    + intros w Hw K. apply negb_true_iff in K. auto. + intros w Hw K. apply negb_false_iff in K. apply Rlt_le. auto. + right. intros w Hw K. apply negb_false_iff in K. auto.
  - apply (cut_facets p o1 _ _ pl (flip3 pl) m (or_intror eq_refl) F C1).
    + intros w Hw K. rewrite sdist3_flip. specialize (RT w K). lra. + intros w Hw K. rewrite sdist3_flip. specialize (RF w K). lra. + left. intros w Hw K. rewrite sdist3_flip. specialize (RT w K). lra.
Qed.
Theorem exits_facets (p : pol3) m pl u v : facets3 p m -> (0 <= u < nv p)%Z -> (0 <= v < nv p)%Z -> rightv3 RN pl (vb p) u = false -> rightv3 RN pl (vb p) v = true ->
  (nv p + 2 * exits 3 (fun v => negb (rightv3 RN pl (vb p) v)) (nb (vb p)) (nv p) <= 4 * m - 4)%Z.
Proof.
  intros F Hu Hv Ru Rv. pose proof F as (W & _). pose proof W as (Hn & L & _). set (MX := (4 * nv p)%Z).
  pose proof (facets_nonneg p m F ltac:(rn; lia)) as M4.
  destruct (split31_spec RN MX pl p p p W ltac:(unfold MX; rn; lia)) as [(H0 & _)|[(H0 & A & _)|[(H0 & A & _)|(u' & v' & _ & _ & _ & _ & [(q' & o0 & o1 & _ & S)|(q' & _ & X)])]]].
  - rn. lia.
  - rewrite A in Rv by auto. discriminate.
  - rewrite A in Ru by auto. discriminate.
  - destruct (split_facets MX p o0 o1 pl m F ltac:(unfold MX; rn; lia) S) as (F0 & F1). destruct S as (_ & _ & _ & SE).
    assert (B : forall o : pol3, facets3 o (m + 1) -> (nv o <= 2 * m - 2)%Z). { intros o Fo. destruct (Z.ltb_spec 0 (nv o)); [pose proof (facets_vertices o _ Fo H)|]; rn; lia. }
    pose proof (B _ F0). pose proof (B _ F1). rn. lia.
  - exfalso. pose proof (exits3_le (fun v => negb (rightv3 RN pl (vb p) v)) (nb (vb p)) (nv p) Hn L). rn. unfold MX in X. lia.
Qed.

(** ** [r3d_clip] *)
Lemma clip_planes_facets MX planes : forall (p : pol3) m, facets3 p m -> (nv p <= MX)%Z -> (3 * (m + Z.of_nat (length planes)) <= MX + 7)%Z ->
  exists p', clip3_planes RN MX planes p = OK (p', 1%Z) /\ facets3 p' (m + Z.of_nat (length planes)).
Proof.
  induction planes as [|pl rest IH]; intros p m F HM R.
  { exists p. split; [reflexivity|]. cbn. now rewrite Z.add_0_r. }
  pose proof F as (W & _). pose proof W as (Hn & L & _). cbn [length] in R. rewrite Nat2Z.inj_succ in R.
  destruct (clip3_step_R MX pl rest p W HM) as [(A & E')|[(A & (v & Hv & B) & E')|((v & Hv & Sv) & (u & Hu & Su) & [(q & (N & CO) & Wq & Mq & Rm & E')|(q & E' & O)])]]; rn; rewrite E'.
  - destruct (IH p m F HM ltac:(lia)) as (p' & E & F'). exists p'. split; auto. eapply facets_mono; [|exact F']. cbn [length]. lia.
  - eexists. split; [reflexivity|]. pose proof (facets_nonneg p m F ltac:(rn; lia)). apply facets_0; [lia|reflexivity].
  - assert (KT : forall v, keepR pl p v = true <-> 0 <= sdist3 pl (ps (vb p) v)) by (intros; unfold keepR; apply Rleb_true).
    assert (KF : forall v, keepR pl p v = false -> sdist3 pl (ps (vb p) v) < 0).
    { intros w Kv. destruct (Rle_dec 0 (sdist3 pl (ps (vb p) w))) as [Q|Q]; [apply KT in Q; congruence|lra]. }
    assert (Fq : facets3 q (m + 1)).
    { apply (cut_facets p q N (keepR pl p) pl pl m (or_introl eq_refl) F CO); [intros w _; apply KT|intros; apply Rlt_le; auto|right; auto]. }
    destruct (IH q (m + 1)%Z Fq Mq ltac:(lia)) as (p' & E & F'). exists p'. split; auto. eapply facets_mono; [|exact F']. cbn [length]. lia.
  - exfalso. assert (EX : crossings3 pl p = exits 3 (fun v => negb (rightv3 RN pl (vb p) v)) (nb (vb p)) (nv p)).
    { unfold crossings3. apply exits3_ext; auto. intros w Hw. unfold keepR, rightv3. rewrite sdf3_sdist. cbn. destruct (Rleb 0 (sdist3 pl (ps (vb p) w))) eqn:E1; destruct (Rltb (sdist3 pl (ps (vb p) w)) 0) eqn:E2; auto; exfalso.
      - apply Rleb_true in E1. apply Rltb_true in E2. lra.
      - apply Rltb_false in E2. assert (T : Rleb 0 (sdist3 pl (ps (vb p) w)) = true) by (apply Rleb_true; lra). congruence. }
    assert (Ru : rightv3 RN pl (vb p) u = false). { unfold rightv3. rewrite sdf3_sdist. cbn. apply Rltb_false. lra. }
    assert (Rv : rightv3 RN pl (vb p) v = true). { unfold rightv3. rewrite sdf3_sdist. cbn. apply Rltb_true. lra. }
    pose proof (exits_facets p m pl u v F Hu Hv Ru Rv) as X. rewrite <- EX in X. pose proof (facets_vertices p m F ltac:(rn; lia)). rn. lia.
Qed.
Theorem clip_facets MX (p : pol3) planes m : facets3 p m -> (0 < nv p <= MX)%Z -> (3 * (m + Z.of_nat (length planes)) <= MX + 7)%Z ->
  exists p', r3d_clip RN MX p planes = OK (p', 1%Z) /\ facets3 p' (m + Z.of_nat (length planes)).
Proof. intros F HM R. rewrite r3d_clip_pre by (rn; lia). apply clip_planes_facets; auto. rn; lia. Qed.

(** ** [r3d_split] *)
Theorem split_facets_room MX pl ins m : Forall (fun i : pol3 * (pol3 * pol3) => facets3 (fst i) m /\ (nv (fst i) <= MX)%Z) ins -> (4 * m - 4 <= MX)%Z ->
  exists outs, r3d_split RN MX pl ins = OK (outs, 1%Z)
  /\ Forall (fun o : pol3 * (pol3 * pol3) => facets3 (fst (snd o)) (m + 1) /\ facets3 (snd (snd o)) (m + 1)) outs.
Proof.
  intros H R. induction H as [|[p [a b]] rest (F & HM) _ (outs & IH & FO)]; cbn [r3d_split]; [exists []; split; auto|]. cbn [fst] in *. pose proof F as (W & _).
  assert (ZF : (0 < nv p)%Z -> facets3 (zero_poly3 RN : pol3) (m + 1)). { intros Hp. pose proof (facets_nonneg p m F Hp). apply facets_0; [lia|reflexivity]. }
  assert (PF : facets3 p (m + 1)) by (eapply facets_mono; [|exact F]; lia).
  destruct (split31_spec RN MX pl p a b W HM) as [(H0 & E')|[(H0 & A & E')|[(H0 & A & E')|(u & v & Hu & Hv & Ru & Rv & [(q' & x & y & E' & S)|(q' & E' & C)])]]]; rn;
    rewrite E'; cbn [bind]; rewrite ?IH; cbn [bind].
  - eexists. split; [reflexivity|]. constructor; auto. cbn [fst snd].
    destruct F as (_ & nh & lab & Hm & _). split; apply facets_0; auto; lia.
  - eexists. split; [reflexivity|]. constructor; auto.
  - eexists. split; [reflexivity|]. constructor; auto.
  - eexists. split; [reflexivity|]. constructor; auto. cbn [fst snd]. now apply (split_facets MX p x y pl m).
  - exfalso. pose proof (exits_facets p m pl u v F Hu Hv Ru Rv) as X. rn. lia.
Qed.

(** ** [r3d_split_coord] *)
Lemma cright_flip (p : pol3) coord ax v : rightv3 RN (flip3 (axis_plane3 ax coord)) (vb p) v = cright3 RN coord ax (vb p) v.
Proof.
  unfold rightv3, cright3. rewrite sdf3_sdist, sdist3_flip, axis_sdist3.
  change (@csd3 RN coord ax (vb p) v) with (coordR3 ax (ps (vb p) v) - coord). cbn.
  destruct (Rltb (- (coordR3 ax (ps (vb p) v) - coord)) 0) eqn:E1; destruct (Rltb 0 (coordR3 ax (ps (vb p) v) - coord)) eqn:E2; auto; exfalso.
  - apply Rltb_true in E1. apply Rltb_false in E2. lra.
  - apply Rltb_false in E1. apply Rltb_true in E2. lra.
Qed.
Theorem split_coord_facets MX (p o1 : pol3) coord ax m : facets3 p m -> (0 < nv p <= MX)%Z -> (0 <= ax < 3)%Z -> (4 * m - 4 <= MX)%Z ->
  exists q0 q1, r3d_split_coord RN MX p o1 coord ax = OK (q0, q1) /\ facets3 q0 (m + 1) /\ facets3 q1 (m + 1) /\ (nv q0 <= MX)%Z /\ (nv q1 <= MX)%Z.
Proof.
  intros F HM Hax HR. set (pl := axis_plane3 ax coord). pose proof F as (W & _). pose proof W as (Hn & L & _).
  pose proof (facets_nonneg p m F ltac:(rn; lia)) as M3.
  assert (SD : forall v, (0 <= v < nv p)%Z -> @eq R (csd3 RN coord ax (vb p) v) (sdist3 pl (ps (vb p) v))).
  { intros v Hv. unfold csd3, pl. rewrite axis_sdist3. reflexivity. }
  assert (RT : forall v, (0 <= v < nv p)%Z -> cright3 RN coord ax (vb p) v = true -> 0 < sdist3 pl (ps (vb p) v)).
  { intros v Hv. unfold cright3. rewrite SD by auto. cbn. intros X. now apply Rltb_true in X. }
  assert (RF : forall v, (0 <= v < nv p)%Z -> cright3 RN coord ax (vb p) v = false -> sdist3 pl (ps (vb p) v) <= 0).
  { intros v Hv. unfold cright3. rewrite SD by auto. cbn. intros X. now apply Rltb_false in X. }
  assert (PF : facets3 p (m + 1)) by (eapply facets_mono; [|exact F]; lia).
  destruct (split3_coord_spec RN MX p o1 coord ax W ltac:(rn; lia) Hax) as [(H0 & E')|[(H0 & A & E')|[(H0 & A & E')|(u & v & Hu & Hv & Ru & Rv & [(q0 & q1 & E' & S)|(E' & X)])]]]; rn.
  - lia.
  - eexists _, _. split; [exact E'|]. split; auto. split; [apply facets_0; [lia|reflexivity]|]. cbn [nv]. lia.
  - eexists _, _. split; [exact E'|]. split; [apply facets_0; [lia|reflexivity]|]. cbn [nv]. split; auto. lia.
  - exists q0, q1. split; [exact E'|].
    assert (HSD : forall u v, (0 <= u < nv p)%Z -> (0 <= v < nv p)%Z -> cright3 RN coord ax (vb p) u = false ->
       cright3 RN coord ax (vb p) v = true ->
       (0 <= sdist3 pl (ps (vb p) u) /\ sdist3 pl (ps (vb p) v) < 0) \/ (sdist3 pl (ps (vb p) u) <= 0 /\ 0 < sdist3 pl (ps (vb p) v))).
    { intros a b Ha Hb Ra Rb. right. auto. }
    destruct (split3_cuts pl p q0 q1 _ _ MX W SD HSD S) as (C0 & C1).
    destruct (split3_result_wf RN MX p _ _ q0 q1 W S) as (X0 & X1 & X2 & X3). pose proof X0 as (Y0 & _). pose proof X1 as (Y1 & _). rn.
    split; [|split; [|lia]].
    + apply (cut_facets p q0 _ _ pl (flip3 pl) m (or_intror eq_refl) F C0).
      * intros w Hw K. apply negb_true_iff in K. rewrite sdist3_flip. specialize (RF w Hw K). lra.
      * intros w Hw K. apply negb_false_iff in K. rewrite sdist3_flip. specialize (RT w Hw K). lra.
      * right. intros w Hw K. apply negb_false_iff in K. rewrite sdist3_flip. specialize (RT w Hw K). lra.
    + apply (cut_facets p q1 _ _ pl pl m (or_introl eq_refl) F C1).
      * intros w Hw K. apply Rlt_le. auto.
      * intros w Hw K. auto.
      * left. auto.
  - exfalso. pose proof (exits_facets p m (flip3 pl) u v F Hu Hv) as B. unfold pl in B. rewrite !cright_flip in B. specialize (B Ru Rv).
    rewrite (exits3_ext _ (fun v => negb (cright3 RN coord ax (vb p) v))) in B; auto.
    + rn. lia.
    + intros w _. now rewrite cright_flip.
Qed.

(** ** [r3d_voxelize] *)
Theorem voxelize_facets MX sh po stk0 mom0 (p : pol3) B gr d m : (0 <= po)%Z -> facets3 p m -> (nv p <= MX)%Z -> cells3_ok (num_moments3 po) B ->
  (4 * (m + depth 3 B) <= MX + 8)%Z -> exists gr', r3d_voxelize RN MX sh po stk0 mom0 p B gr d = OK gr'.
Proof.
  intros Hpo F HM HB HR. destruct (Z.leb_spec (nv p) 0) as [L|L].
  { exists gr. eapply voxelize_empty_c; eauto. }
  pose proof (depth_nonneg 3 B) as D0.
  destruct (voxelize_main RN MX (fun k q => facets3 q (m + depth 3 B - k) /\ (nv q <= MX)%Z) (fun _ => False) sh po stk0 mom0 p B gr d)
    as [(gr' & l & E & _)|(E & k & q & _ & _ & [])]; auto.
  - intros k k' q Hk (X1 & X2). split; auto. eapply facets_mono; [|exact X1]. lia.
  - intros k q o c a Hk (X1 & X2) X4 Ha. left.
    destruct (split_coord_facets MX q o c a _ X1 ltac:(rn; lia) Ha ltac:(lia)) as (q0 & q1 & E & F0 & F1 & N0 & N1).
    exists q0, q1. split; [exact E|]. replace (m + depth 3 B - k + 1)%Z with (m + depth 3 B - (k - 1))%Z in F0, F1 by lia. auto.
  - intros k q mom (X1 & X2) X4. destruct (reduce_both MX sh po q mom Hpo (proj1 X1) X2) as (m' & E & _). eauto.
  - split; auto. now replace (m + depth 3 B - depth 3 B)%Z with m by lia.
  - eauto.
Qed.
Lemma log2_up_le a : (1 <= a)%Z -> (Z.log2_up a <= Z.log2 a + 1)%Z.
Proof. intros H. pose proof (Z.le_log2_up_succ_log2 a). lia. Qed.
Lemma log2_mul3 a b c n : (1 <= a)%Z -> (1 <= b)%Z -> (1 <= c)%Z -> (0 <= n)%Z -> (a * b * c < 2 ^ n)%Z -> (Z.log2 a + Z.log2 b + Z.log2 c < n)%Z.
Proof.
  intros Ha Hb Hc Hn H. pose proof (Z.log2_mul_below a b ltac:(lia) ltac:(lia)). pose proof (Z.log2_mul_below (a * b) c ltac:(nia) ltac:(lia)).
  assert (Z.log2 (a * b * c) < n)%Z by (apply Z.log2_lt_pow2; [nia|auto]). lia.
Qed.
Lemma depth_cells nm B : (1 <= nm)%Z -> cells3_ok nm B -> (depth 3 B <= 33)%Z.
Proof.
  intros Hn (H1 & H2). pose proof (H1 0%Z ltac:(lia)) as A. pose proof (H1 1%Z ltac:(lia)) as C. pose proof (H1 2%Z ltac:(lia)) as E.
  unfold depth, size. change (zrange 3) with [0; 1; 2]%Z. cbn [suml].
  set (a := (snd B 0 - fst B 0)%Z) in *. set (b := (snd B 1 - fst B 1)%Z) in *. set (c := (snd B 2 - fst B 2)%Z) in *.
  pose proof (log2_up_le a ltac:(lia)). pose proof (log2_up_le b ltac:(lia)). pose proof (log2_up_le c ltac:(lia)).
  assert (a * b * c < 2 ^ 31)%Z. { change (2 ^ 31)%Z with (int_max + 1)%Z. assert (0 < a * b * c)%Z by (apply Z.mul_pos_pos; [apply Z.mul_pos_pos|]; lia). nia. }
  pose proof (log2_mul3 a b c 31 ltac:(lia) ltac:(lia) ltac:(lia) ltac:(lia) H4). lia.
Qed.
(** with the buffers of [src/r3d.h], any grid *)
Corollary voxelize_97 sh po stk0 mom0 (p : pol3) B gr d : (0 <= po)%Z -> facets3 p 97 -> cells3_ok (num_moments3 po) B ->
  exists gr', r3d_voxelize RN 512 sh po stk0 mom0 p B gr d = OK gr'.
Proof.
  intros Hpo F HB. apply (voxelize_facets 512 sh po stk0 mom0 p B gr d 97); auto.
  - destruct (Z.leb_spec (nv p) 0) as [L|L]; [lia|]. pose proof (facets_vertices p 97 F L). lia.
  - pose proof (depth_cells _ B (num_moments3_pos po Hpo) HB). lia.
Qed.

(** ** [r3d_clamp_ibox] *)
Theorem clamp_facets MX (p : pol3) B cb (d : rvec3 R) m : facets3 p m -> (nv p <= MX)%Z -> (3 * (m + 6) <= MX + 7)%Z ->
  (0 < nv p)%Z -> exists q, r3d_clip RN MX p (clamp_faces d cb B) = OK (q, 1%Z) /\ facets3 q (m + 6).
Proof.
  intros F HM HR Hp. pose proof (faces3_length RN (dget3 RN d) cb B) as LN. rewrite clamp_faces_eq in LN.
  destruct (clip_facets MX p (clamp_faces d cb B) m F ltac:(rn; lia) ltac:(rn; lia)) as (q & E & Fq). exists q. split; auto. eapply facets_mono; [|exact Fq]. rn; lia.
Qed.

(** ** The shapes of [r3d_init_box] and [r3d_init_tet] *)
Theorem init_box_facets MX (p p' : pol3) lo hi : (8 <= MX)%Z -> x3 lo <= x3 hi -> y3 lo <= y3 hi -> z3 lo <= z3 hi -> r3d_init_box RN MX p lo hi = OK p' -> facets3 p' 6 /\ nv p' = 8%Z.
Proof.
  intros HM HX HY HZ E. destruct (init_box_spec3 RN MX p lo hi HM) as (q & E' & Hn & A & P). rn. rewrite E in E'. injection E' as <-. split; auto.
  split; [exact (box_wf RN p' Hn A)|]. exists 6%Z, box_lab. split; [lia|]. split; [now apply box_labels|]. rewrite Hn. intros e He.
  set (hi' := V3 (x3 hi + e / 2) (y3 hi + e / 2) (z3 hi + e / 2)). exists (box_pos lo hi'), (box_l0 lo hi'), box_l. split; [apply box_realized; cbn; lra|]. split; [apply box_turned|].
  intros v k Hv Hk. rewrite (box_at p' lo hi P v k Hv Hk). unfold box_pos, hi', co3. cbn [x3 y3 z3].
  apply Rabs_def1; destruct (box_bit v k =? 0)%Z; destruct (k =? 0)%Z; try destruct (k =? 1)%Z; lra.
Qed.
Theorem init_tet_facets MX (p p' : pol3) (a b c d : rvec3 R) : (4 <= MX)%Z -> 0 < (r3d_orient RN a b c d : R) -> r3d_init_tet RN MX p a b c d = OK p' -> facets3 p' 4 /\ nv p' = 4%Z.
Proof.
  intros HM HO E. destruct (init_tet_spec RN MX p a b c d HM) as (q & E' & Hn & A & P). rn. rewrite E in E'. injection E' as <-. split; auto.
  assert (HV : 0 < tet_vol (co3 a) (co3 b) (co3 c) (co3 d)).
  { replace (tet_vol (co3 a) (co3 b) (co3 c) (co3 d)) with (6 * (r3d_orient RN a b c d : R)); [lra|]. unfold r3d_orient, tet_vol, SpecC3.det3, co3. cbn. field. }
  split; [exact (tet_wf RN p' Hn A)|]. exists 4%Z, tet_lab. split; [lia|]. split.
  - rewrite Hn. apply (labels_table tet_tab); [exact A| |vm_compute; reflexivity].
    assert (W : wf3 (PY (VB tet_tab (fun _ => V3 0 0 0)) 4%Z : pol3)) by (apply (tet_wf RN); [reflexivity|intros v i _ _; reflexivity]). apply W.
  - intros e He. rewrite Hn. exists (tet_pos (co3 a) (co3 b) (co3 c) (co3 d)), (tet_l0 (co3 a) (co3 b) (co3 c) (co3 d)), (tet_l (co3 a) (co3 b) (co3 c) (co3 d)).
    split; [now apply tet_realized|]. split.
    + intros v Hv. rewrite tet_normals by auto. assert (0 < tet_vol (co3 a) (co3 b) (co3 c) (co3 d) * tet_vol (co3 a) (co3 b) (co3 c) (co3 d)) by (now apply Rmult_lt_0_compat). lra.
    + change (zrange 4) with [0; 1; 2; 3]%Z in P. cbn [map] in P. injection P as P0 P1 P2 P3.
      intros v k Hv Hk. unfold at3. destruct (four v Hv) as [->|[->|[->| ->]]]; rewrite ?P0, ?P1, ?P2, ?P3; unfold tet_pos; cbn [Z.eqb Pos.eqb]; rewrite Rminus_eq_0, Rabs_R0; auto.
Qed.
