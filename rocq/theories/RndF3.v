(** * RndF3: volumes of one side of a cut whose faces are only nearly flat. *)
From Coq Require Import Reals ZArith List Bool Lia Lra Psatz.
From Verif Require Import Base Lib ModelCommon CommonFacts Model3 Spec2 Spec3 Orb3 Cut3 Clip2 Struct3 Clip3 FaceSpec3 Face3
  HPoly HShift HInt RealNum SumR Spec3R Mom3 Geo3 CutSum3 Cons2 Cons3 RndNum SpecR3 SpecL3.
Import ListNotations.
Open Scope R_scope.

Notation T0 := (tet3 0 0 0).
Lemma T0_det a b c : 6 * T0 a b c = x3 a * (y3 b * z3 c - y3 c * z3 b) - x3 b * (y3 a * z3 c - y3 c * z3 a) + x3 c * (y3 a * z3 b - y3 b * z3 a).
Proof. unfold tet3. rewrite tet_int_Hn. unfold Hn. rewrite H_000. unfold det3, pt3, deg. cbn. field. Qed.
Lemma T0_cocycle a b c d : T0 a b c - T0 a b d + T0 a c d - T0 b c d = - (svol6 a b c d / 6).
Proof.
  pose proof (T0_det a b c). pose proof (T0_det a b d). pose proof (T0_det a c d). pose proof (T0_det b c d). unfold svol6.
  apply Rmult_eq_reg_l with 6; [|lra]. match goal with |- 6 * (?p - ?q + ?r - ?s) = _ => replace (6 * (p - q + r - s)) with (6 * p - 6 * q + 6 * r - 6 * s) by ring end.
  rewrite H, H0, H1, H2. field.
Qed.

Lemma lsum_abs {A} (l : list A) (g : A -> R) e : (forall x, In x l -> Rabs (g x) <= e) -> Rabs (lsum l g) <= INR (length l) * e.
Proof.
  induction l as [|x l IH]; intros H; cbn [lsum length].
  - rewrite Rabs_R0. cbn. lra.
  - rewrite S_INR. eapply Rle_trans; [apply Rabs_triang|]. pose proof (H x (or_introl eq_refl)). pose proof (IH (fun y Hy => H y (or_intror Hy))). lra.
Qed.

Lemma darts3_len n : (0 <= n)%Z -> length (darts 3 n) = (3 * Z.to_nat n)%nat.
Proof. intros H. rewrite (darts_list_prod 3 n) by lia. rewrite prod_length. unfold zrange. rewrite !map_length, !seq_length. lia. Qed.

(** changing the apex of every face *)
Section Apex.
Context (f : Z -> Z -> Z) (Dom : Z -> Prop) (n : Z) (ds : list dart).
Hypothesis L : links f Dom.
Hypothesis HB : forall v, Dom v -> (0 <= v < n)%Z.
Hypothesis ND : NoDup ds.
Hypothesis HI : forall d, In d ds <-> isd Dom d.
Lemma apex_change_e e (pos : Z -> rvec3 R) (A A' : dart -> rvec3 R) :
  (forall d, isd Dom d -> A (fnext f d) = A d) ->
  (forall d, isd Dom d -> A' (fnext f d) = A' d) ->
  (forall d, isd Dom d -> Rabs (svol6 (A d) (A' d) (pos (dtgt f d)) (pos (fst d))) <= e) ->
  Rabs (lsum ds (fun d => T0 (A' d) (pos (dtgt f d)) (pos (fst d))) - lsum ds (fun d => T0 (A d) (pos (dtgt f d)) (pos (fst d))))
    <= INR (length ds) * (e / 6).
Proof.
  intros HA HA' HV.
  set (g := fun d => T0 (A d) (A' d) (pos (fst d))).
  set (w := fun d => svol6 (A d) (A' d) (pos (dtgt f d)) (pos (fst d)) / 6).
  assert (E : lsum ds (fun d => T0 (A' d) (pos (dtgt f d)) (pos (fst d)))
    = lsum ds (fun d => ((T0 (A d) (pos (dtgt f d)) (pos (fst d)) + w d) + g (fnext f d)) - g d)).
  { apply lsum_ext. intros d Hd. apply HI in Hd. pose proof (T0_cocycle (A d) (A' d) (pos (dtgt f d)) (pos (fst d))) as C.
    unfold g, w. rewrite HA, HA' by auto. rewrite fst_fnext. lra. }
  rewrite E. rewrite lsum_sub, !lsum_add, (sum_fnext f Dom n ds L HB ND HI).
  match goal with |- Rabs ?x <= _ => replace x with (lsum ds w) by ring end.
  apply lsum_abs. intros d Hd. apply HI in Hd. unfold w. unfold Rdiv. rewrite Rabs_mult, (Rabs_pos_eq (/ 6)) by lra.
  apply Rmult_le_compat_r; [lra|]. now apply HV.
Qed.
End Apex.

Section CutE.
Context (f f' : Z -> Z -> Z) (n : Z) (K : Z -> bool) (M : dart -> Z).
Hypothesis Hn : (0 <= n)%Z.
Hypothesis L : links f (below n).
Hypothesis P : simple_faces f (below n).
Hypothesis C : cutg f f' n K M.
Context (pos pos' : Z -> rvec3 R) (Pt : dart -> rvec3 R) (a : dart -> rvec3 R) (B : rvec3 R) (e : R).
Notation cross := (Cut3.cross f n K). Notation sig := (Cut3.sig f n K).
Notation isd0 := (isd (below n)).
Hypothesis Hpos : forall v, (0 <= v < n)%Z -> pos' v = pos v.
Hypothesis HPt : forall x, cross x -> pos' (M x) = Pt x.
Hypothesis Ha_face : forall d, isd0 d -> a (fnext f d) = a d.
Hypothesis Hcap : forall x, cross x -> Rabs (svol6 B (a (dopp f x)) (Pt x) (Pt (sig x))) <= e.
Notation apex' := (apex' f n K M a B).
Notation ds' := (ds' f n K M).
Notation part3 := (part3 f K pos Pt a B 0 0 0).

Lemma cut_sum_e :
  Rabs (lsum ds' (fun d => T0 (apex' d) (pos' (dtgt f' d)) (pos' (fst d))) - lsum (darts 3 n) part3) <= INR (length (crosses f n K)) * (e / 6).
Proof.
  set (w := fun x => svol6 B (a (dopp f x)) (Pt x) (Pt (sig x)) / 6).
  assert (X : lsum ds' (fun d => T0 (apex' d) (pos' (dtgt f' d)) (pos' (fst d))) = lsum (darts 3 n) part3 + lsum (crosses f n K) w).
  2: { rewrite X. match goal with |- Rabs ?x <= _ => replace x with (lsum (crosses f n K) w) by ring end.
    apply lsum_abs. intros d Hd. apply in_crosses in Hd; auto. unfold w, Rdiv. rewrite Rabs_mult, (Rabs_pos_eq (/ 6)) by lra.
    apply Rmult_le_compat_r; [lra|]. now apply Hcap. }
  unfold CutSum3.ds'. rewrite lsum_app, lsum_flat_map.
  set (g1 := fun d : dart => if K (dtgt f d) then T0 (a d) (pos (dtgt f d)) (pos (fst d)) else T0 (a d) (Pt d) (pos (fst d))).
  assert (E1 : lsum (filter (fun d => K (fst d)) (darts 3 n)) (fun d => T0 (apex' d) (pos' (dtgt f' d)) (pos' (fst d)))
     = lsum (filter (fun d => K (fst d)) (darts 3 n)) g1).
  { apply lsum_ext. intros d Hd. apply filter_In in Hd as (Hd & Kd). apply (isd_in n) in Hd. rewrite apex_old by auto.
    rewrite (Hpos (fst d)) by apply Hd. unfold g1. destruct (K (dtgt f d)) eqn:Kt.
    - unfold Spec3.dtgt at 1. rewrite (c_in _ _ _ _ _ C d) by auto. rewrite Hpos; auto.
      apply (l_rng _ _ L); apply Hd.
    - assert (Hx : cross d) by (split; auto). unfold Spec3.dtgt at 1.
      destruct (c_new _ _ _ _ _ C d Hx) as (_ & -> & _). now rewrite HPt. }
  rewrite E1. clear E1.
  pose proof (fun x i => apex_new f f' n K M C a B x i) as AN.
  set (F := fun x : dart => T0 (a x) (pos' (f' (M x) 1%Z)) (Pt x)).
  assert (E2 : lsum (crosses f n K) (fun x => lsum [(M x, 0%Z); (M x, 1%Z); (M x, 2%Z)]
       (fun d => T0 (apex' d) (pos' (dtgt f' d)) (pos' (fst d))))
     = lsum (crosses f n K) (fun x => T0 (a (dopp f x)) (pos (fst x)) (Pt x) + T0 B (Pt (sig x)) (Pt x) + F x)).
  { apply lsum_ext. intros x Hx. apply in_crosses in Hx; auto. cbn [lsum]. rewrite !AN by auto. cbn [Z.eqb Pos.eqb fst].
    unfold Spec3.dtgt. cbn [fst snd].
    destruct (c_new _ _ _ _ _ C x Hx) as (_ & _ & ->). destruct (c_cap _ _ _ _ _ C x Hx) as (-> & _).
    rewrite !HPt by (auto; apply sig_cross; auto).
    assert (below n (fst x)) as Hfx by apply Hx. rewrite (Hpos (fst x)) by apply Hfx. unfold F. ring. }
  rewrite E2. clear E2. rewrite lsum_add.
  assert (SB : forall g, lsum (crosses f n K) (fun x => g (sig x)) = lsum (crosses f n K) g).
  { intros g. apply (lsum_bij sig); try (apply NoDup_crosses; auto).
    - intros x Hx. apply in_crosses in Hx; auto. apply in_crosses; auto. apply sig_cross; auto.
    - intros x y Hx Hy. apply in_crosses in Hx; auto. apply in_crosses in Hy; auto. apply sig_inj; auto.
    - intros y Hy. apply in_crosses in Hy; auto. destruct (sig_surj f n K L y Hn Hy) as (x & Hx & E).
      exists x. split; auto. apply in_crosses; auto. }
  rewrite <- (SB F). rewrite <- lsum_add.
  assert (E3 : lsum (crosses f n K) (fun x => T0 (a (dopp f x)) (pos (fst x)) (Pt x) + T0 B (Pt (sig x)) (Pt x) + F (sig x))
    = lsum (crosses f n K) (fun x => (T0 (a (dopp f x)) (pos (fst x)) (Pt x) + T0 B (a (dopp f x)) (Pt x)) - T0 B (a (sig x)) (Pt (sig x)) + w x)).
  { apply lsum_ext. intros x Hx. apply in_crosses in Hx; auto. unfold F, w.
    destruct (c_cap _ _ _ _ _ C x Hx) as (_ & ->). rewrite HPt by auto.
    pose proof (sig_cross f n K L x Hx) as Hs.
    assert (Ea : a (sig x) = a (dopp f x)).
    { apply (a_sf f n L a Ha_face); [apply isd_opp; auto; apply Hx|]. apply sig_face; auto. }
    rewrite Ea.
    pose proof (T0_cocycle B (a (dopp f x)) (Pt x) (Pt (sig x))) as CC.
    rewrite (tet3_swap2 0 0 0 B (Pt x) (Pt (sig x))). lra. }
  rewrite E3. clear E3. rewrite lsum_add, lsum_sub, (SB (fun x => T0 B (a x) (Pt x))). rewrite <- lsum_sub.
  (* right-hand side *)
  set (h := fun d : dart => if crossb f K (dopp f d) then T0 (a d) (pos (dtgt f d)) (Pt (dopp f d)) + T0 B (a d) (Pt (dopp f d)) else 0).
  assert (E4 : lsum (darts 3 n) part3 = lsum (darts 3 n) (fun d => (if K (fst d) then g1 d else 0)
     - (if crossb f K d then T0 B (a d) (Pt d) else 0) + h d)).
  { apply lsum_ext. intros d Hd. apply (isd_in n) in Hd. unfold CutSum3.part3, g1, h, crossb.
    rewrite (dtgt_opp f (below n) L d Hd). unfold dsrc. cbn [fst Spec3.dopp].
    destruct (K (fst d)), (K (dtgt f d)); cbn; ring. }
  rewrite E4. clear E4. rewrite (lsum_add (darts 3 n)), (lsum_sub (darts 3 n)).
  rewrite <- (lsum_filter (fun d => K (fst d)) (darts 3 n) g1).
  rewrite <- (lsum_filter (crossb f K) (darts 3 n) (fun d => T0 B (a d) (Pt d))).
  assert (E5 : lsum (darts 3 n) h = lsum (crosses f n K) (fun x => T0 (a (dopp f x)) (pos (fst x)) (Pt x) + T0 B (a (dopp f x)) (Pt x))).
  { rewrite <- (sum_opp f (below n) (darts 3 n) L (NoDup_darts 3 n Hn) (fun d => iff_sym (isd_in n d))).
    unfold crosses. rewrite lsum_filter. apply lsum_ext. intros d Hd. apply (isd_in n) in Hd. unfold h.
    rewrite (opp_opp f (below n) L d Hd), (dtgt_opp f (below n) L d Hd). reflexivity. }
  rewrite E5. rewrite (lsum_sub (crosses f n K)). unfold crosses. lra.
Qed.
End CutE.

(** ** One side *)
Section Side.
Context (p p' : pol3) (keep : Z -> bool) (np : dart -> rvec3 R) (N : Z).
Notation f := (nb (vb p)). Notation n := (nv p). Notation pos := (ps (vb p)).
Hypothesis Hw : wf3 p.
Hypothesis HC : cut_of RN p keep np N p'.
Context (a : dart -> rvec3 R) (B : rvec3 R) (Q : dart -> rvec3 R -> Prop) (Cp : rvec3 R -> Prop) (e : R).
Notation cross := (Cut3.cross f n keep).
Notation isd0 := (isd (below n)).
(** [Q d]: near the face of [d]; [Cp]: near the cutting plane *)
Hypothesis Ha_face : forall d, isd0 d -> a (fnext f d) = a d.
Hypothesis HQ4 : forall d x1 x2 x3 x4, isd0 d -> Q d x1 -> Q d x2 -> Q d x3 -> Q d x4 -> Rabs (svol6 x1 x2 x3 x4) <= e.
Hypothesis HC4 : forall x1 x2 x3 x4, Cp x1 -> Cp x2 -> Cp x3 -> Cp x4 -> Rabs (svol6 x1 x2 x3 x4) <= e.
Hypothesis Qa : forall d, isd0 d -> Q d (a d).
Hypothesis Qv : forall d d', isd0 d -> same_face f d d' -> Q d (pos (fst d')).
Hypothesis Qx : forall d x, isd0 d -> cross x -> same_face f d x \/ same_face f d (dopp f x) -> Q d (np x).
Hypothesis CB : Cp B.
Hypothesis Cx : forall x, cross x -> Cp (np x).
Hypothesis Ca : forall x, cross x -> Cp (a (dopp f x)).
Hypothesis He : 0 <= e.

Lemma side_flat_volume : flat_faces e p' /\
  Rabs (moment3 p' 0 0 0 - lsum (darts 3 n) (part3 f keep pos np a B 0 0 0)) <= 2 / 3 * IZR (nv p') * e.
Proof.
  destruct Hw as (Hn & L & P). destruct (cut_of_wf RN p keep np N p' Hw HC) as ((Hn' & L' & P') & _).
  change (T RN) with R in *.
  destruct HC as (b' & K & M & HK & C3 & (En & Hc)). change (T RN) with R in *.
  pose proof (cu_n _ _ _ _ _ _ _ C3) as HnN. pose proof (cu_g _ _ _ _ _ _ _ C3) as C.
  pose proof (cut3_dom _ _ _ _ _ _ _ C3) as HD.
  assert (HX : forall x, Cut3.cross f n K x -> cross x) by (intros x; apply cross_ext; auto).
  pose proof (cut_links f (nb b') n K M Hn L P C) as LL.
  assert (Hg : forall u i, Cut3.Dom' f n K M u -> (0 <= i < 3)%Z ->
     nb (vb p') (cnt K u) i = cnt K (nb b' u i)).
  { intros u i Du Hi. apply HD in Du as (Hu & Ku). apply (Hc u Hu Ku). auto. }
  assert (Hps : forall u, Cut3.Dom' f n K M u -> ps (vb p') (cnt K u) = ps b' u).
  { intros u Du. apply HD in Du as (Hu & Ku). apply (Hc u Hu Ku). }
  assert (HN : (0 <= N)%Z) by lia.
  pose proof (fun d => apex_face f (nb b') n K M Hn L P C a B Ha_face d) as AF.
  pose proof (cu_ps _ _ _ _ _ _ _ C3) as HPs. pose proof (fun x Hx => proj2 (cu_new _ _ _ _ _ _ _ C3 x Hx)) as HPt.
  set (ap := CutSum3.apex' f n K M a B) in *.
  assert (FP : forall d, isd (Cut3.Dom' f n K M) d -> exists S : rvec3 R -> Prop,
     (forall x1 x2 x3 x4, S x1 -> S x2 -> S x3 -> S x4 -> Rabs (svol6 x1 x2 x3 x4) <= e)
     /\ S (ap d) /\ forall d', same_face (nb b') d d' -> S (ps b' (fst d'))).
  { intros d Hd.
    assert (AN : forall x i, Cut3.cross f n K x -> ap (M x, i) = if (i =? 0)%Z then a (dopp f x) else if (i =? 1)%Z then a x else B)
      by (intros x i Hx; exact (apex_new f (nb b') n K M C a B x i Hx)).
    assert (W : (exists d0, isd0 d0 /\ part_of f n K M d0 d /\ ap d = a d0) \/ (cap f n K M d /\ ap d = B)).
    { destruct (isd'_cases f n K M d Hd) as [(D0 & Kd)|(x & Hx & [->|[->| ->]])].
      - left. exists d. split; auto. split; [left; auto using sf_refl|]. unfold ap. now apply apex_old.
      - left. exists (dopp f x). split; [apply isd_opp; auto; apply Hx|]. split; [|now rewrite AN].
        right. left. exists x. split; auto. split; auto. apply sf_refl.
      - left. exists x. split; [apply Hx|]. split; [|now rewrite AN].
        right. right. exists x. split; auto. split; auto. apply sf_refl.
      - right. split; [exists x; auto|]. now rewrite AN. }
    destruct W as [(d0 & H0 & Pd & E)|(Cd & E)]; rewrite E.
    - exists (Q d0). split; [intros; eapply HQ4; eauto|]. split; [now apply Qa|]. intros d' S.
      assert (Pd' : part_of f n K M d0 d').
      { revert S. apply (face_inv (nb b')); auto. intros; now apply (part_step f (nb b') n K M Hn L P C). }
      destruct Pd' as [((Hd' & Hi) & Kd & Sf)|[(y & Hy & -> & Sf)|(x & Hx & -> & Sf)]].
      + rewrite HPs by apply Hd'. now apply Qv.
      + cbn [fst]. rewrite HPt by auto. apply Qx; auto.
      + cbn [fst]. rewrite HPt by auto. apply Qx; auto.
    - exists Cp. split; [auto|]. split; auto. intros d' S.
      pose proof (sf_cap f (nb b') n K M Hn L P C d d' S Cd) as (y & Hy & ->). cbn [fst]. rewrite HPt; auto. }
  set (dd := CutSum3.ds' f n K M).
  assert (Hin : forall d, In d dd <-> isd (Cut3.Dom' f n K M) d) by (apply in_ds'; auto).
  assert (ND : NoDup dd) by (eapply NoDup_ds'; eauto).
  assert (RI : forall d, isd (below (nv p')) d -> exists d', isd (Cut3.Dom' f n K M) d' /\ ren K d' = d).
  { intros d Hd. rewrite En in Hd. destruct (ren_surj _ N K HN HD d Hd) as (e1 & De & <-). eauto. }
  assert (HRI : forall d, isd (Cut3.Dom' f n K M) d -> isd (below (nv p')) (ren K d)).
  { intros d Hd. rewrite En. now apply (ren_isd _ N K HD). }
  assert (RS : forall d d', isd (Cut3.Dom' f n K M) d -> same_face (nb (vb p')) (ren K d) d' -> exists d1, isd (Cut3.Dom' f n K M) d1 /\ same_face (nb b') d d1 /\ ps (vb p') (fst d') = ps b' (fst d1)).
  { intros d d' Hd S. assert (D' : isd (below (nv p')) d') by (eapply sf_isd; eauto).
    destruct (RI d' D') as (d1 & D1 & <-). exists d1. split; auto. apply (ren_sf (nb b') _ _ N K HN HD LL Hg) in S; auto. split; auto.
    unfold ren. cbn [fst]. apply Hps. apply D1. }
  split.
  - intros d d1 d2 d3 d4 Hd S1 S2 S3 S4. destruct (RI d Hd) as (d0 & D0 & <-). destruct (FP d0 D0) as (S & X1 & X2 & X3).
    destruct (RS d0 d1 D0 S1) as (? & ? & ? & ->). destruct (RS d0 d2 D0 S2) as (? & ? & ? & ->). destruct (RS d0 d3 D0 S3) as (? & ? & ? & ->). destruct (RS d0 d4 D0 S4) as (? & ? & ? & ->).
    apply X1; apply X3; auto.
  - rewrite (lsum_ext (darts 3 n) (part3 f keep pos np a B 0 0 0) (part3 f K pos np a B 0 0 0)).
    2: { intros d Hd. apply (isd_in n) in Hd. unfold part3.
         assert (below n (fst d)) by apply Hd. assert (below n (dtgt f d)) by (apply (l_rng _ _ L); apply Hd).
         rewrite !HK by auto. reflexivity. }
    pose proof (cut_sum_e f (nb b') n K M Hn L C pos (ps b') np a B e HPs HPt Ha_face) as CE. fold ap dd in CE.
    specialize (CE ltac:(intros x Hx; apply HC4; auto; apply Cx, HX, sig_cross; auto)).
    set (A := fun d : dart => ps (vb p') (fst (lead (nb (vb p')) (nv p') (ren K d)))).
    assert (E1 : moment3 p' 0 0 0 = lsum dd (fun d => T0 (A d) (ps b' (dtgt (nb b') d)) (ps b' (fst d)))).
    { unfold moment3. cbv zeta.
      match goal with |- lsum _ ?F = _ => rewrite <- (lsum_bij (ren K) dd (darts 3 (nv p')) F ND) end.
      - apply lsum_ext. intros d Hd. apply Hin in Hd. unfold A.
        assert (E : dtgt (nb (vb p')) (ren K d) = cnt K (dtgt (nb b') d)).
        { unfold dtgt, ren. cbn [fst snd]. apply Hg; apply Hd. }
        rewrite E. rewrite Hps by (apply (l_rng _ _ LL); apply Hd).
        unfold ren at 2. cbn [fst]. rewrite Hps by apply Hd. reflexivity.
      - apply NoDup_darts; auto.
      - intros d Hd. apply Hin in Hd. apply (isd_in (nv p')). auto.
      - intros d d' Hd Hd'. apply Hin in Hd. apply Hin in Hd'. apply (ren_inj _ N K HD); auto.
      - intros d Hd. apply (isd_in (nv p')) in Hd. destruct (RI d Hd) as (d' & De & <-). exists d'. split; auto. now apply Hin. }
    assert (AC : Rabs (lsum dd (fun d => T0 (ap d) (ps b' (dtgt (nb b') d)) (ps b' (fst d))) - lsum dd (fun d => T0 (A d) (ps b' (dtgt (nb b') d)) (ps b' (fst d))))
       <= INR (length dd) * (e / 6)).
    { apply (apex_change_e (nb b') (Cut3.Dom' f n K M) N dd LL); auto.
      + intros v Hv. apply HD in Hv. tauto.
      + intros d Hd. unfold A. rewrite <- (ren_fnext (nb b') _ _ N K HN HD LL Hg) by auto. f_equal. f_equal.
        symmetry. apply (lead_sf _ _ Hn' L'); auto. apply sf_step.
      + intros d Hd. destruct (FP d Hd) as (S & X1 & X2 & X3). destruct (lead_ok _ _ Hn' L' (ren K d) (HRI d Hd)) as (S0 & _).
        destruct (RS d _ Hd S0) as (d1 & D1 & S1 & E). apply X1; auto.
        * unfold A. rewrite E. auto.
        * change (dtgt (nb b') d) with (fst (fnext (nb b') d)). apply X3, sf_step.
        * apply X3, sf_refl. }
    assert (LD : (length dd <= 3 * Z.to_nat (nv p'))%nat).
    { assert (length (map (ren K) dd) <= length (darts 3 (nv p')))%nat.
      { apply NoDup_incl_length.
        - apply NoDup_map_inj; auto. intros x y Hx Hy. apply Hin in Hx. apply Hin in Hy. apply (ren_inj _ N K HD); auto.
        - intros d Hd. apply in_map_iff in Hd as (d' & <- & Hd'). apply Hin in Hd'. apply (isd_in (nv p')). auto. }
      rewrite map_length in H. pose proof (darts3_len (nv p') Hn'). lia. }
    assert (LC : (3 * length (crosses f n K) <= length dd)%nat).
    { unfold dd, CutSum3.ds'. rewrite app_length.
      assert (FM : forall l : list dart, length (flat_map (fun x => [(M x, 0%Z); (M x, 1%Z); (M x, 2%Z)]) l) = (3 * length l)%nat) by (induction l as [|x l IH]; cbn [flat_map length app]; [|rewrite IH]; lia).
      rewrite FM. lia. }
    rewrite E1.
    assert (X1 : INR (length dd) <= 3 * IZR (nv p')).
    { apply le_INR in LD. rewrite mult_INR, (INR_IZR_INZ (Z.to_nat (nv p'))), Z2Nat.id in LD by auto. cbn [INR] in LD. lra. }
    assert (X2 : 3 * INR (length (crosses f n K)) <= INR (length dd)).
    { apply le_INR in LC. rewrite mult_INR in LC. cbn [INR] in LC. lra. }
    apply rabs_inv in AC. apply rabs_inv in CE. apply Rabs_le. split; nra.
Qed.
End Side.
