(** * Cons3: exact-arithmetic facts about 3D clipping and splitting. *)
From Coq Require Import Reals ZArith List Bool Lia Lra.
From Verif Require Import Base Lib ModelCommon CommonFacts Model3 Spec2 Spec3 Orb3 Cut3 Clip2 Struct3 Clip3 FaceSpec3 Face3
  HPoly HShift HInt RealNum SumR Spec3R Mom3 Geo3 CutSum3 Cons2.
Import ListNotations.
Open Scope R_scope.

Lemma sdf3_sdist pl (b : buf3) v : @eq R (sdf3 RN pl b v) (sdist3 pl (ps b v)).
Proof. unfold sdf3, dot3, sdist3. cbn. ring. Qed.

Lemma cut3_ext {V} (b0 : vbuf V) n N K np np' M b' :
  (forall x, Cut3.cross (nb b0) n K x -> np x = np' x) ->
  cut3 b0 n N K np M b' -> cut3 b0 n N K np' M b'.
Proof.
  intros E C. destruct C. constructor; auto. intros x Hx. rewrite <- E by auto. auto.
Qed.
Lemma cut_of_ext (p : pol3) keep keep' np np' N p' :
  (forall v, (0 <= v < nv p)%Z -> keep v = keep' v) ->
  (forall x, Cut3.cross (nb (vb p)) (nv p) keep x -> np x = np' x) ->
  links (nb (vb p)) (below (nv p)) ->
  cut_of RN p keep np N p' -> cut_of RN p keep' np' N p'.
Proof.
  intros E1 E2 L (b' & K & M & HK & C & Hc). exists b', K, M. split.
  - intros v Hv. rewrite HK; auto.
  - split; auto. eapply cut3_ext; [|exact C]. intros x Hx. apply E2.
    revert Hx. apply cross_ext; auto.
Qed.

(** ** The moment and the planes of one side of a cut *)
Section Side.
Context (p p' : pol3) (keep : Z -> bool) (np : dart -> rvec3 R) (N : Z).
Notation f := (nb (vb p)). Notation n := (nv p). Notation pos := (ps (vb p)).
Hypothesis Hw : wf3 p.
Hypothesis HC : cut_of RN p keep np N p'.
Context (pl : plane3 R) (Hpl : proper pl) (a : dart -> rvec3 R) (B : rvec3 R).
Notation cross := (Cut3.cross f n keep).
Notation isd0 := (isd (below n)).
Hypothesis HPon : forall x, cross x -> sdist3 pl (np x) = 0.
Hypothesis HPseg : forall x, cross x -> exists t, np x = lerp3 t (pos (fst x)) (pos (dtgt f x)).
Hypothesis Ha_face : forall d, isd0 d -> a (fnext f d) = a d.
Hypothesis Ha_on : forall d, isd0 d -> exists g, proper g /\ sdist3 g (a d) = 0
  /\ forall e, same_face f d e -> sdist3 g (pos (fst e)) = 0.
Hypothesis Ha_cut : forall x, cross x -> sdist3 pl (a x) = 0 /\ sdist3 pl (a (dopp f x)) = 0.
Hypothesis HB : sdist3 pl B = 0.

Lemma side_planar_moment : planar_faces p' /\
  forall i j k, moment3 p' i j k = lsum (darts 3 n) (part3 f keep pos np a B i j k).
Proof.
  destruct Hw as (Hn & L & P). destruct (cut_of_wf RN p keep np N p' Hw HC) as ((Hn' & L' & P') & _).
  change (T RN) with R in *.
  destruct HC as (b' & K & M & HK & C3 & (En & Hc)). change (T RN) with R in *.
  pose proof (cu_n _ _ _ _ _ _ _ C3) as HnN. pose proof (cu_g _ _ _ _ _ _ _ C3) as C.
  pose proof (cut3_dom _ _ _ _ _ _ _ C3) as HD.
  assert (HX : forall x, Cut3.cross f n K x -> cross x) by (intros x; apply cross_ext; auto).
  pose proof (cut_links f (nb b') n K M Hn L P C) as LL.
  assert (Hg : forall u i, Cut3.Dom' f n K M u -> (0 <= i < 3)%Z ->
     nb (vb p') (cnt K u) i = cnt K (nb b' u i)).
  { intros u i Du Hi. apply HD in Du as (Hu & Ku). apply (Hc u Hu Ku). auto. }
  assert (Hps : forall u, Cut3.Dom' f n K M u -> ps (vb p') (cnt K u) = ps b' u).
  { intros u Du. apply HD in Du as (Hu & Ku). apply (Hc u Hu Ku). }
  assert (HN : (0 <= N)%Z) by lia.
  pose proof (fun d => apex_face f (nb b') n K M Hn L P C a B Ha_face d) as AF.
  pose proof (fun d => face_plane f (nb b') n K M Hn L P C pl Hpl pos (ps b') np a B
     (cu_ps _ _ _ _ _ _ _ C3) (fun x Hx => proj2 (cu_new _ _ _ _ _ _ _ C3 x Hx))
     (fun x Hx => HPon x (HX x Hx)) (fun x Hx => HPseg x (HX x Hx)) Ha_on HB d) as FP.
  split.
  - intros d Hd. rewrite En in Hd.
    destruct (ren_surj _ N K HN HD d Hd) as (e & De & <-).
    destruct (FP e De) as (g & Hg1 & Hg2 & Hg3). exists g. split; auto.
    intros e' He'. rewrite <- En in Hd.
    assert (De' : isd (below (nv p')) e') by (eapply sf_isd; eauto). rewrite En in De'.
    destruct (ren_surj _ N K HN HD e' De') as (e1 & De1 & <-).
    apply (ren_sf (nb b') _ _ N K HN HD LL Hg) in He'; auto.
    unfold ren. cbn [fst]. rewrite Hps by apply De1. auto.
  - intros i j k.
    rewrite (lsum_ext (darts 3 n) (part3 f keep pos np a B i j k) (part3 f K pos np a B i j k)).
    2: { intros d Hd. apply (isd_in n) in Hd. unfold part3.
         assert (below n (fst d)) by apply Hd. assert (below n (dtgt f d)) by (apply (l_rng _ _ L); apply Hd).
         rewrite !HK by auto. reflexivity. }
    etransitivity; [|refine (cut_sum f (nb b') n K M Hn L C pl Hpl pos (ps b') np a B
      (cu_ps _ _ _ _ _ _ _ C3) (fun x Hx => proj2 (cu_new _ _ _ _ _ _ _ C3 x Hx))
      (fun x Hx => HPon x (HX x Hx)) Ha_face (fun x Hx => Ha_cut x (HX x Hx)) HB i j k)].
    set (dd := CutSum3.ds' f n K M).
    assert (Hin : forall d, In d dd <-> isd (Cut3.Dom' f n K M) d) by (apply in_ds'; auto).
    assert (ND : NoDup dd) by (eapply NoDup_ds'; eauto).
    set (A := fun d : dart => ps (vb p') (fst (lead (nb (vb p')) (nv p') (ren K d)))).
    transitivity (lsum dd (fun d => tet3 i j k (A d) (ps b' (dtgt (nb b') d)) (ps b' (fst d)))).
    { unfold moment3. cbv zeta.
      match goal with |- lsum _ ?F = _ => rewrite <- (lsum_bij (ren K) dd (darts 3 (nv p')) F ND) end.
      - apply lsum_ext. intros d Hd. apply Hin in Hd. unfold A.
        assert (E : dtgt (nb (vb p')) (ren K d) = cnt K (dtgt (nb b') d)).
        { unfold dtgt, ren. cbn [fst snd]. apply Hg; apply Hd. }
        rewrite E. rewrite Hps by (apply (l_rng _ _ LL); apply Hd).
        unfold ren at 2. cbn [fst]. rewrite Hps by apply Hd. reflexivity.
      - apply NoDup_darts; auto.
      - intros d Hd. apply Hin in Hd. apply (isd_in (nv p')). rewrite En.
        now apply (ren_isd _ N K HD).
      - intros d e Hd He. apply Hin in Hd. apply Hin in He. apply (ren_inj _ N K HD); auto.
      - intros d Hd. apply (isd_in (nv p')) in Hd. rewrite En in Hd.
        destruct (ren_surj _ N K HN HD d Hd) as (e & De & <-). exists e. split; auto. now apply Hin. }
    assert (HRI : forall d, isd (Cut3.Dom' f n K M) d -> isd (below (nv p')) (ren K d)).
    { intros d Hd. rewrite En. now apply (ren_isd _ N K HD). }
    symmetry. apply (apex_change (nb b') (Cut3.Dom' f n K M) N dd LL); auto.
    + intros v Hv. apply HD in Hv. tauto.
    + intros d Hd. unfold A. rewrite <- (ren_fnext (nb b') _ _ N K HN HD LL Hg) by auto. f_equal. f_equal.
      symmetry. apply (lead_sf _ _ Hn' L'); auto. apply sf_step.
    + intros d Hd. destruct (FP d Hd) as (g & Hg1 & Hg2 & Hg3).
      apply (plane_vol6 g); auto.
      * unfold A. destruct (lead_ok _ _ Hn' L' (ren K d) (HRI d Hd)) as (S & _).
        assert (De' : isd (below (nv p')) (lead (nb (vb p')) (nv p') (ren K d))) by (eapply sf_isd; eauto).
        rewrite En in De'. destruct (ren_surj _ N K HN HD _ De') as (e1 & De1 & E1).
        rewrite <- En in E1. rewrite <- E1. unfold ren. cbn [fst]. rewrite Hps by apply De1.
        apply Hg3. apply (ren_sf (nb b') _ _ N K HN HD LL Hg); auto. rewrite E1. auto.
      * change (dtgt (nb b') d) with (fst (fnext (nb b') d)). apply Hg3, sf_step.
      * apply Hg3, sf_refl.
Qed.
End Side.

(** ** An apex on the cutting plane for every face that reaches it *)
Section Apex.
Context (pl : plane3 R) (p : pol3).
Notation f := (nb (vb p)). Notation n := (nv p). Notation pos := (ps (vb p)).
Notation s v := (sdist3 pl (pos v)).
Notation isd0 := (isd (below n)).
Hypothesis Hw : wf3 p.
Hypothesis HP : planar_faces p.

Definition face_find (t : Z -> bool) (d : dart) : option dart :=
  find (fun e => on_face f n d e && t (fst e)) (darts 3 n).
Definition apexF (d : dart) : rvec3 R :=
  match face_find (fun v => Rleb 0 (s v)) d, face_find (fun v => Rleb (s v) 0) d with
  | Some e1, Some e2 => if Rleb (s (fst e1)) 0 then pos (fst e1) else meet3 pl (pos (fst e1)) (pos (fst e2))
  | _, _ => pos (fst (lead f n d)) end.

Lemma find_ext {A} (P Q : A -> bool) l : (forall x, In x l -> P x = Q x) -> find P l = find Q l.
Proof. induction l as [|x l IH]; cbn; auto. intros E. rewrite E by auto. destruct (Q x); auto. Qed.
Lemma on_face_next d e : isd0 d -> on_face f n (fnext f d) e = on_face f n d e.
Proof.
  destruct Hw as (Hn & L & P). intros Hd. pose proof (isd_fnext f _ L d Hd) as Hd'.
  apply eq_iff_eq_true. rewrite !(on_face_spec f n L) by auto. split; intros S.
  - eapply sf_trans; [apply sf_step|exact S].
  - eapply sf_trans; [|exact S]. apply (sf_sym f (below n) L n (below_b n)); auto. apply sf_step.
Qed.
Lemma apexF_face d : isd0 d -> apexF (fnext f d) = apexF d.
Proof.
  intros Hd. unfold apexF, face_find. destruct Hw as (Hn & L & P).
  rewrite !(find_ext (fun e => on_face f n (fnext f d) e && _) (fun e => on_face f n d e && _) (darts 3 n))
    by (intros; rewrite on_face_next by auto; reflexivity).
  rewrite (lead_sf f n Hn L d (fnext f d)); auto. apply sf_step.
Qed.
Lemma face_find_some t d e : isd0 d -> face_find t d = Some e -> same_face f d e /\ t (fst e) = true.
Proof.
  intros Hd E. apply find_some in E as (_ & E). apply andb_true_iff in E as (E1 & E2).
  destruct Hw as (Hn & L & P). apply (on_face_spec f n L) in E1; auto.
Qed.
Lemma face_find_ex t d e : isd0 d -> same_face f d e -> t (fst e) = true -> exists e', face_find t d = Some e'.
Proof.
  intros Hd S Te. destruct Hw as (Hn & L & P). unfold face_find. destruct (find _ _) as [e'|] eqn:E; eauto.
  exfalso. pose proof (find_none _ _ E e) as X. cbv beta in X. rewrite Te in X.
  assert (on_face f n d e = true) by (apply on_face_spec; auto).
  rewrite H in X. discriminate X. apply (isd_in n). eapply sf_isd; eauto.
Qed.
Lemma apexF_on d : isd0 d -> exists g, proper g /\ sdist3 g (apexF d) = 0
  /\ forall e, same_face f d e -> sdist3 g (pos (fst e)) = 0.
Proof.
  intros Hd. destruct (HP d Hd) as (g & Hg & G). exists g. split; auto. split; auto.
  destruct Hw as (Hn & L & P).
  assert (X : sdist3 g (pos (fst (lead f n d))) = 0) by (apply G, (lead_ok f n Hn L d Hd)).
  unfold apexF. destruct (face_find _ d) as [e1|] eqn:E1; auto.
  destruct (face_find (fun v => Rleb (s v) 0) d) as [e2|] eqn:E2; auto.
  apply face_find_some in E1 as (S1 & T1); auto. apply face_find_some in E2 as (S2 & T2); auto.
  destruct (Rleb (s (fst e1)) 0) eqn:E; auto. rb. rewrite meet3_lerp by lra.
  rewrite sdist3_lerp, !G by auto. ring.
Qed.
Lemma apexF_cut d e1 e2 : isd0 d -> same_face f d e1 -> same_face f d e2 ->
  0 <= s (fst e1) -> s (fst e2) <= 0 -> sdist3 pl (apexF d) = 0.
Proof.
  intros Hd S1 S2 T1 T2. unfold apexF.
  destruct (face_find_ex (fun v => Rleb 0 (s v)) d e1 Hd S1 ltac:(now apply Rleb_true)) as (e1' & F1).
  destruct (face_find_ex (fun v => Rleb (s v) 0) d e2 Hd S2 ltac:(now apply Rleb_true)) as (e2' & F2).
  rewrite F1, F2. apply face_find_some in F1 as (S1' & T1'); auto. apply face_find_some in F2 as (S2' & T2'); auto.
  destruct (Rleb (s (fst e1')) 0) eqn:E; rb; [lra|]. apply meet3_on. lra.
Qed.
(** a dart whose ends are on both sides (or on the plane) *)
Lemma apexF_edge d : isd0 d ->
  (0 <= s (fst d) /\ s (dtgt f d) <= 0) \/ (s (fst d) <= 0 /\ 0 <= s (dtgt f d)) ->
  sdist3 pl (apexF d) = 0 /\ sdist3 pl (apexF (dopp f d)) = 0.
Proof.
  intros Hd H. destruct Hw as (Hn & L & P). pose proof (isd_opp f _ L d Hd) as Ho.
  assert (E : fst (fnext f (dopp f d)) = fst d) by (rewrite fst_fnext; apply (dtgt_opp f _ L d Hd)).
  split; destruct H as [(H1 & H2)|(H1 & H2)].
  - apply (apexF_cut d d (fnext f d)); auto using sf_refl, sf_step.
  - apply (apexF_cut d (fnext f d) d); auto using sf_refl, sf_step.
  - apply (apexF_cut (dopp f d) (fnext f (dopp f d)) (dopp f d)); auto using sf_refl, sf_step. rewrite E. auto.
  - apply (apexF_cut (dopp f d) (dopp f d) (fnext f (dopp f d))); auto using sf_refl, sf_step. rewrite E. auto.
Qed.

(** the moment may be computed with these apexes *)
Lemma moment3_apexF i j k : moment3 p i j k
  = lsum (darts 3 n) (fun d => tet3 i j k (apexF d) (pos (dtgt f d)) (pos (fst d))).
Proof.
  destruct Hw as (Hn & L & P). symmetry.
  apply (apex_change f (below n) n (darts 3 n) L (below_b n) (NoDup_darts 3 n Hn) (fun d => iff_sym (isd_in n d)) i j k pos
    (fun d => pos (fst (lead f n d))) apexF).
  - intros d Hd. do 2 f_equal. symmetry. apply (lead_sf f n Hn L); auto. apply sf_step.
  - apply apexF_face.
  - intros d Hd. destruct (apexF_on d Hd) as (g & Hg & G1 & G2). apply (plane_vol6 g); auto.
    + apply G2, (lead_ok f n Hn L d Hd).
    + apply (G2 (fnext f d)), sf_step.
    + apply G2, sf_refl.
Qed.
End Apex.

(** ** One plane *)
Definition keepR (pl : plane3 R) (p : pol3) (v : Z) : bool := Rleb 0 (sdist3 pl (ps (vb p) v)).
Definition meetR (pl : plane3 R) (p : pol3) (d : dart) : rvec3 R :=
  meet3 pl (ps (vb p) (fst d)) (ps (vb p) (dtgt (nb (vb p)) d)).
Definition cutR3 (pl : plane3 R) (p p' : pol3) : Prop := exists N, cut_of RN p (keepR pl p) (meetR pl p) N p'.
Definition crossings3 (pl : plane3 R) (p : pol3) : Z := exits 3 (keepR pl p) (nb (vb p)) (nv p).

Lemma exits3_ext keep keep' f n : links f (below n) -> (forall v, (0 <= v < n)%Z -> keep v = keep' v) ->
  exits 3 keep f n = exits 3 keep' f n.
Proof.
  intros HL E. unfold exits. do 2 f_equal. apply filter_ext_in. intros [v q] Hi. cbn [fst snd].
  change 3%nat with (Z.to_nat 3) in Hi. rewrite <- (darts_list_prod 3 n) in Hi by lia. apply in_darts in Hi as (Hv & Hq).
  rewrite E by auto. rewrite (E (f v q)); auto. apply (l_rng _ _ HL); auto.
Qed.

Lemma clip3_step_R MX (pl : plane3 R) (rest : list (plane3 R)) (p : pol3) : wf3 p -> (nv p <= MX)%Z ->
  ((forall v, (0 <= v < nv p)%Z -> 0 <= sdist3 pl (ps (vb p) v))
     /\ clip3_planes RN MX (pl :: rest) p = clip3_planes RN MX rest p)
  \/ ((forall v, (0 <= v < nv p)%Z -> sdist3 pl (ps (vb p) v) <= 0)
     /\ (exists v, (0 <= v < nv p)%Z /\ sdist3 pl (ps (vb p) v) < 0)
     /\ clip3_planes RN MX (pl :: rest) p = OK (PY (vb p) 0%Z, 1%Z))
  \/ ((exists v, (0 <= v < nv p)%Z /\ sdist3 pl (ps (vb p) v) < 0)
     /\ (exists v, (0 <= v < nv p)%Z /\ 0 < sdist3 pl (ps (vb p) v))
     /\ ((exists p', cutR3 pl p p' /\ wf3 p' /\ (nv p' <= MX)%Z
           /\ (nv p + crossings3 pl p <= MX)%Z
           /\ clip3_planes RN MX (pl :: rest) p = clip3_planes RN MX rest p')
         \/ (exists p', clip3_planes RN MX (pl :: rest) p = OK (p', 0%Z) /\ (MX < nv p + crossings3 pl p)%Z))).
Proof.
  intros Hw HM. pose proof Hw as (Hn & HL & HS). cbn [clip3_planes].
  destruct (clip3_sd_spec RN MX (vb p) (nv p) pl) as (s & E & _ & _ & _ & Emin & Emax); [lia|].
  rn. rewrite E. cbn [bind]. pose proof big_pos as BP.
  change (nle RN (n0 RN) (smin3 RN s)) with (Rleb 0 (smin3 RN s)).
  change (nle RN (smax3 RN s) (n0 RN)) with (Rleb (smax3 RN s) 0).
  assert (NG : forall P : Z -> Prop, ~ (forall v, (0 <= v < nv p)%Z -> ~ P v) -> exists v, (0 <= v < nv p)%Z /\ P v).
  { intros P X. apply Classical_Pred_Type.not_all_ex_not in X as (v & X).
    exists v. apply Classical_Prop.imply_to_and in X as (X1 & X2). apply Classical_Prop.NNPP in X2. auto. }
  assert (KE : forall v, (0 <= v < nv p)%Z -> keepv3 RN pl (vb p) v = keepR pl p v).
  { intros v Hv. unfold keepv3, keepR. rewrite sdf3_sdist. cbn.
    unfold Rleb, Rltb. destruct (Rle_dec 0 _), (Rlt_dec _ 0); auto; lra. }
  assert (CR : crossings3 pl p = exits 3 (keepv3 RN pl (vb p)) (nb (vb p)) (nv p)).
  { apply exits3_ext; auto. intros v Hv. symmetry. auto. }
  destruct (Rleb 0 (smin3 RN s)) eqn:E1.
  { left. split; auto. intros v Hv. rewrite Emin in E1. apply minf_R in E1 as (_ & X). rewrite <- sdf3_sdist. auto. }
  assert (X1 : exists v, (0 <= v < nv p)%Z /\ sdist3 pl (ps (vb p) v) < 0).
  { apply NG. intros X. assert (Rleb 0 (smin3 RN s) = true); [|congruence]. rewrite Emin.
    apply minf_R. split; [cbn; lra|]. intros v Hv. specialize (X v Hv). rewrite sdf3_sdist. cbv beta in X. lra. }
  right. destruct (Rleb (smax3 RN s) 0) eqn:E2.
  { left. split; auto. intros v Hv. rewrite Emax in E2. apply maxf_R in E2 as (_ & X). rewrite <- sdf3_sdist. auto. }
  right. split; auto. split.
  { apply NG. intros X. assert (Rleb (smax3 RN s) 0 = true); [|congruence]. rewrite Emax.
    apply maxf_R. split; [cbn; lra|]. intros v Hv. specialize (X v Hv). rewrite sdf3_sdist. cbv beta in X. lra. }
  destruct (clip3_step_spec RN MX p pl s Hw HM E) as [(p' & Q1 & Q2 & Q3)|(p' & Q1 & Q2)].
  - rn. left. exists p'. rewrite Q1. cbn [bind].
    destruct (cut_of_wf RN p _ _ _ p' Hw Q3) as (W' & M').
    split; [|split; [exact W'|split; [rn; lia|split; [rewrite CR; rn; lia|reflexivity]]]].
    eexists. eapply cut_of_ext; [exact KE| |exact HL|exact Q3].
    intros x Hx. unfold newpos3, meetR, meet3. rewrite !sdf3_sdist. reflexivity.
  - rn. right. exists p'. rewrite Q1, CR. cbn [bind]. auto.
Qed.

Section Plane.
Context (pl : plane3 R) (Hpl : proper pl) (p : pol3).
Notation f := (nb (vb p)). Notation n := (nv p). Notation pos := (ps (vb p)).
Notation s v := (sdist3 pl (pos v)).
Notation isd0 := (isd (below n)).
Hypothesis Hw : wf3 p.
Context (a : dart -> rvec3 R) (B : rvec3 R).
Hypothesis Ha_face : forall d, isd0 d -> a (fnext f d) = a d.
Hypothesis Ha_on : forall d, isd0 d -> exists g, proper g /\ sdist3 g (a d) = 0
  /\ forall e, same_face f d e -> sdist3 g (pos (fst e)) = 0.
Hypothesis Ha_edge : forall d, isd0 d ->
  (0 <= s (fst d) /\ s (dtgt f d) <= 0) \/ (s (fst d) <= 0 /\ 0 <= s (dtgt f d)) ->
  sdist3 pl (a d) = 0 /\ sdist3 pl (a (dopp f d)) = 0.
Hypothesis HB : sdist3 pl B = 0.

Lemma cutR3_facts p' : cutR3 pl p p' -> planar_faces p' /\
  forall i j k, moment3 p' i j k = lsum (darts 3 n) (part3 f (keepR pl p) pos (meetR pl p) a B i j k).
Proof.
  intros (N & HC).
  assert (HX : forall x, Cut3.cross f n (keepR pl p) x -> isd0 x /\ 0 <= s (fst x) /\ s (dtgt f x) < 0).
  { intros x (A1 & A2 & A3). unfold keepR in *. rb. auto. }
  apply (side_planar_moment p p' (keepR pl p) (meetR pl p) N Hw HC pl Hpl a B); auto.
  - intros x Hx. destruct (HX x Hx) as (_ & A1 & A2). unfold meetR. apply meet3_on. lra.
  - intros x Hx. destruct (HX x Hx) as (_ & A1 & A2). unfold meetR. rewrite meet3_lerp by lra. eauto.
  - intros x Hx. destruct (HX x Hx) as (A0 & A1 & A2). apply Ha_edge; auto. left. lra.
Qed.

(** flat triangles on the plane *)
Lemma flat_T i j k d q r : sdist3 pl (a d) = 0 -> sdist3 pl q = 0 -> sdist3 pl r = 0 ->
  tet3 i j k (a d) q r = tet3 i j k B (a d) q - tet3 i j k B (a d) r + tet3 i j k B q r.
Proof.
  intros A1 A2 A3. pose proof (tet3_cocycle i j k B (a d) q r) as CC.
  rewrite (plane_vol6 pl) in CC by auto. specialize (CC eq_refl). lra.
Qed.

Lemma part3_below i j k : (forall v, (0 <= v < n)%Z -> s v <= 0) ->
  lsum (darts 3 n) (part3 f (keepR pl p) pos (meetR pl p) a B i j k) = 0.
Proof.
  intros HA. destruct Hw as (Hn & L & P).
  set (Z0 := fun d : dart => if Rleb 0 (s (fst d)) then tet3 i j k B (a d) (pos (fst d)) else 0).
  set (W := fun d : dart => if Rleb 0 (s (fst d)) then if Rleb 0 (s (dtgt f d)) then
      tet3 i j k B (pos (dtgt f d)) (pos (fst d)) else 0 else 0).
  transitivity (lsum (darts 3 n) (fun d => (Z0 (fnext f d) + W d) - Z0 d)).
  2: { rewrite lsum_sub, lsum_add.
       rewrite (sum_fnext f (below n) n (darts 3 n) L (below_b n) (NoDup_darts 3 n Hn) (fun d => iff_sym (isd_in n d)) Z0).
       rewrite (sum_odd f (below n) (darts 3 n) L (NoDup_darts 3 n Hn) (fun d => iff_sym (isd_in n d)) W); [ring|].
       intros d Hd. unfold W. rewrite (dtgt_opp f _ L d Hd). unfold dsrc. cbn [fst Spec3.dopp].
       destruct (Rleb 0 (s (fst d))), (Rleb 0 (s (dtgt f d))); try ring. apply tet3_swap2. }
  apply lsum_ext. intros d Hd. apply (isd_in n) in Hd. unfold part3, Z0, W, keepR.
  rewrite Ha_face by auto. rewrite fst_fnext.
  pose proof (HA _ (proj1 Hd)) as S1.
  assert (Ht : below n (dtgt f d)) by (apply (l_rng _ _ L); apply Hd). pose proof (HA _ Ht) as S2.
  unfold meetR. rewrite (dtgt_opp f _ L d Hd). unfold dsrc. cbn [fst Spec3.dopp].
  destruct (Rleb 0 (s (fst d))) eqn:E1; destruct (Rleb 0 (s (dtgt f d))) eqn:E2; rb.
  - destruct (Ha_edge d Hd ltac:(lra)) as (A1 & _). rewrite (flat_T i j k d) by lra. ring.
  - rewrite (meet3_on_l pl _ _) by lra. rewrite tet3_same2. ring.
  - rewrite (meet3_on_l pl _ _) by lra. rewrite tet3_same2. ring.
  - ring.
Qed.

(** the moment after one plane, in all three cases *)
Lemma clip3_1_moment MX p' : (nv p <= MX)%Z -> clip3_planes RN MX [pl] p = OK (p', 1%Z) ->
  (forall i j k, moment3 p i j k = lsum (darts 3 n) (fun d => tet3 i j k (a d) (pos (dtgt f d)) (pos (fst d)))) ->
  forall i j k, moment3 p' i j k = lsum (darts 3 n) (part3 f (keepR pl p) pos (meetR pl p) a B i j k).
Proof.
  intros HM E Hm i j k. pose proof Hw as (Hn & L & P).
  destruct (clip3_step_R MX pl [] p Hw HM) as [(A & E')|[(A & A' & E')|(A & A' & [(q & C & W & M & R & E')|(q & E' & C)])]];
    rn; rewrite E' in E.
  - cbn in E. assert (p' = p) as -> by (inversion E; auto). rewrite Hm. apply lsum_ext. intros d Hd. apply (isd_in n) in Hd.
    assert (Ht : below n (dtgt f d)) by (apply (l_rng _ _ L); apply Hd).
    unfold part3, keepR. rewrite !(proj2 (Rleb_true _ _)) by (apply A; auto; apply Hd). reflexivity.
  - assert (p' = PY (vb p) 0%Z) as -> by (inversion E; auto). rewrite moment3_empty by (cbn; lia). symmetry. now apply part3_below.
  - cbn in E. assert (p' = q) as -> by (inversion E; auto). now apply cutR3_facts.
  - inversion E.
Qed.
End Plane.

Lemma flip_edge (x y : R) : (0 <= - x /\ - y <= 0) \/ (- x <= 0 /\ 0 <= - y) -> (0 <= x /\ y <= 0) \/ (x <= 0 /\ 0 <= y).
Proof. lra. Qed.

(** one plane and its opposite *)
Lemma clip3_1_conserves MX pl (p p1 p2 : pol3) i j k :
  proper pl -> wf3 p -> planar_faces p -> (nv p <= MX)%Z ->
  clip3_planes RN MX [pl] p = OK (p1, 1%Z) -> clip3_planes RN MX [flip3 pl] p = OK (p2, 1%Z) ->
  moment3 p1 i j k + moment3 p2 i j k = moment3 p i j k.
Proof.
  intros Hpl Hw HP HM E1 E2. pose proof Hw as (Hn & L & P).
  set (a := apexF pl p). set (B := base3 pl).
  pose proof (apexF_face pl p Hw) as AF. pose proof (apexF_on pl p Hw HP) as AO.
  pose proof (apexF_edge pl p Hw) as AE. pose proof (base3_on pl Hpl) as HB.
  assert (AE' : forall d, isd (below (nv p)) d ->
     (0 <= sdist3 (flip3 pl) (ps (vb p) (fst d)) /\ sdist3 (flip3 pl) (ps (vb p) (dtgt (nb (vb p)) d)) <= 0)
     \/ (sdist3 (flip3 pl) (ps (vb p) (fst d)) <= 0 /\ 0 <= sdist3 (flip3 pl) (ps (vb p) (dtgt (nb (vb p)) d))) ->
     sdist3 (flip3 pl) (a d) = 0 /\ sdist3 (flip3 pl) (a (dopp (nb (vb p)) d)) = 0).
  { intros d Hd H. rewrite !sdist3_flip in *. apply flip_edge in H. destruct (AE d Hd H) as (X & Y).
    unfold a. lra. }
  assert (HB' : sdist3 (flip3 pl) B = 0) by (rewrite sdist3_flip; unfold B; lra).
  rewrite (clip3_1_moment pl Hpl p Hw a B AF AO AE HB MX p1 HM E1 (moment3_apexF pl p Hw HP)).
  rewrite (clip3_1_moment (flip3 pl) (flip3_proper pl Hpl) p Hw a B AF AO AE' HB' MX p2 HM E2 (moment3_apexF pl p Hw HP)).
  rewrite (moment3_apexF pl p Hw HP). fold a. rewrite <- lsum_add.
  set (f := nb (vb p)). set (pos := ps (vb p)).
  set (on := fun v => Rleb 0 (sdist3 pl (pos v)) && Rleb (sdist3 pl (pos v)) 0).
  set (Z0 := fun d : dart => if on (fst d) then tet3 i j k B (a d) (pos (fst d)) else 0).
  set (W := fun d : dart => if on (fst d) && on (dtgt f d) then
      tet3 i j k B (pos (dtgt f d)) (pos (fst d)) else 0).
  transitivity (lsum (darts 3 (nv p)) (fun d => (tet3 i j k (a d) (pos (dtgt f d)) (pos (fst d)) + Z0 (fnext f d) + W d) - Z0 d)).
  2: { rewrite lsum_sub, !lsum_add.
       rewrite (sum_fnext f (below (nv p)) (nv p) (darts 3 (nv p)) L (below_b _) (NoDup_darts 3 _ Hn) (fun d => iff_sym (isd_in _ d)) Z0).
       rewrite (sum_odd f (below (nv p)) (darts 3 (nv p)) L (NoDup_darts 3 _ Hn) (fun d => iff_sym (isd_in _ d)) W); [ring|].
       intros d Hd. unfold W. rewrite (dtgt_opp f _ L d Hd). unfold dsrc. cbn [fst Spec3.dopp].
       rewrite (andb_comm (on (dtgt f d))). destruct (on (fst d) && on (dtgt f d)); try ring. apply tet3_swap2. }
  apply lsum_ext. intros d Hd. apply (isd_in (nv p)) in Hd. unfold part3, Z0, W, on, keepR, meetR. fold f pos.
  assert (Ea : a (fnext f d) = a d) by (apply AF; auto). rewrite Ea. rewrite fst_fnext.
  rewrite (dtgt_opp f _ L d Hd). unfold dsrc. change (fst (dopp f d)) with (dtgt f d).
  set (v := pos (fst d)). set (w := pos (dtgt f d)).
  assert (AX : (0 <= sdist3 pl v /\ sdist3 pl w <= 0) \/ (sdist3 pl v <= 0 /\ 0 <= sdist3 pl w) -> sdist3 pl (a d) = 0)
    by (intros; apply AE; auto).
  clearbody v w. rewrite !sdist3_flip.
  assert (CS : forall x, (Rleb 0 x = true /\ Rleb x 0 = true /\ Rleb 0 (- x) = true /\ x = 0)
     \/ (Rleb 0 x = true /\ Rleb x 0 = false /\ Rleb 0 (- x) = false /\ 0 < x)
     \/ (Rleb 0 x = false /\ Rleb x 0 = true /\ Rleb 0 (- x) = true /\ x < 0)).
  { intros x. destruct (Rtotal_order x 0) as [Q|[Q|Q]].
    - right. right. rewrite !Rleb_true, !Rleb_false. lra.
    - left. rewrite !Rleb_true. lra.
    - right. left. rewrite !Rleb_true, !Rleb_false. lra. }
  assert (ML : sdist3 pl v <> sdist3 pl w -> tet3 i j k (a d) w (meet3 pl v w) + tet3 i j k (a d) (meet3 pl v w) v = tet3 i j k (a d) w v).
  { intros D. rewrite meet3_lerp by auto. apply tet3_line. }
  destruct (CS (sdist3 pl v)) as [(A1 & A2 & A3 & Sa)|[(A1 & A2 & A3 & Sa)|(A1 & A2 & A3 & Sa)]];
  destruct (CS (sdist3 pl w)) as [(B1 & B2 & B3 & Sb)|[(B1 & B2 & B3 & Sb)|(B1 & B2 & B3 & Sb)]];
    rewrite ?A1, ?A2, ?A3, ?B1, ?B2, ?B3; cbn [andb];
    rewrite ?(meet3_flip pl v w), ?(meet3_flip pl w v) by lrb;
    try (specialize (ML ltac:(lrb)));
    try (rewrite <- (meet3_comm pl v w) in * by lrb);
    try (rewrite (meet3_on_l pl v w) in * by lrb);
    try (rewrite (meet3_comm pl v w) in * by lrb; rewrite (meet3_on_l pl w v) in * by lrb);
    rewrite ?tet3_same2 in *; try lra.
  pose proof (plane_vol6 pl B (a d) w v Hpl HB (AX ltac:(lra)) Sb Sa) as V.
  pose proof (tet3_cocycle i j k B (a d) w v V). lra.
Qed.

(** ** Sequences of planes *)
Lemma proper_of_differ pl a b : sdist3 pl a <> sdist3 pl b -> proper pl.
Proof.
  intros D. unfold proper. destruct (Req_dec (x3 (n3 pl)) 0) as [X|X]; auto.
  destruct (Req_dec (y3 (n3 pl)) 0) as [Y|Y]; auto. destruct (Req_dec (z3 (n3 pl)) 0) as [Z|Z]; auto.
  exfalso. apply D. unfold sdist3. rewrite X, Y, Z. ring.
Qed.

Lemma clip3_planes_planar MX (planes : list (plane3 R)) : forall (p p' : pol3), wf3 p -> planar_faces p -> (nv p <= MX)%Z ->
  clip3_planes RN MX planes p = OK (p', 1%Z) -> planar_faces p'.
Proof.
  induction planes as [|pl rest IH]; intros p p' Hw HP HM E.
  { cbn in E. inversion E; subst. auto. }
  destruct (clip3_step_R MX pl rest p Hw HM) as [(A & E')|[(A & A' & E')|((u & Hu & Su) & (v & Hv & Sv) & [(q & C & W & M & R & E')|(q & E' & C)])]];
    rn; rewrite E' in E.
  - eauto.
  - inversion E; subst. intros d (Hd & _). cbn in Hd. unfold below in Hd. lia.
  - apply (IH q p'); auto.
    assert (Hpl : proper pl) by (apply (proper_of_differ pl (ps (vb p) u) (ps (vb p) v)); lra).
    apply (cutR3_facts pl Hpl p Hw (apexF pl p) (base3 pl)); auto.
    + apply apexF_face; auto.
    + apply apexF_on; auto.
    + apply apexF_edge; auto.
    + apply base3_on; auto.
  - inversion E.
Qed.

Lemma clip3_planes_empty MX (planes : list (plane3 R)) (p : pol3) : nv p = 0%Z -> (0 <= MX)%Z ->
  clip3_planes RN MX planes p = OK (p, 1%Z).
Proof.
  intros H0 HM. induction planes as [|pl rest IH]; auto.
  destruct (clip3_step_R MX pl rest p) as [(_ & E)|[(_ & (v & Hv & _) & _)|((v & Hv & _) & _)]]; try lia.
  - split; [lia|]. rewrite H0. split.
    + constructor; unfold below; intros; lia.
    + intros d e (Hd & _). unfold below in Hd. lia.
  - rn. now rewrite E.
Qed.
Lemma clip3_planes_app MX (pre : list (plane3 R)) : forall (p : pol3) (post : list (plane3 R)), (0 <= MX)%Z ->
  clip3_planes RN MX (pre ++ post) p
  = let* (q, st) := clip3_planes RN MX pre p in if (st =? 1)%Z then clip3_planes RN MX post q else OK (q, st).
Proof.
  induction pre as [|pl rest IH]; intros p post HM; auto. cbn [app clip3_planes]. rn.
  destruct (clip3_sd RN MX (vb p) (nv p) pl) as [s|]; auto. cbn [bind].
  destruct (nle RN (n0 RN) (smin3 RN s)); auto.
  destruct (nle RN (smax3 RN s) (n0 RN)).
  - cbn [bind Z.eqb Pos.eqb]. symmetry. apply clip3_planes_empty; auto.
  - destruct (clip3_cut RN MX (vb p) (nv p) (sdists3 RN s) (clipped3 RN s)) as [[q []]|]; auto. cbn [bind]. auto.
Qed.

(** after any planes [pre] *)
Lemma clip3_conserves MX (pre : list (plane3 R)) pl (p p0 p1 p2 : pol3) i j k :
  proper pl -> wf3 p -> planar_faces p -> (nv p <= MX)%Z ->
  clip3_planes RN MX pre p = OK (p0, 1%Z) ->
  clip3_planes RN MX (pre ++ [pl]) p = OK (p1, 1%Z) -> clip3_planes RN MX (pre ++ [flip3 pl]) p = OK (p2, 1%Z) ->
  moment3 p1 i j k + moment3 p2 i j k = moment3 p0 i j k.
Proof.
  intros Hpl Hw HP HM E0 E1 E2. pose proof Hw as (Hn & _).
  rewrite clip3_planes_app in E1, E2 by lia. rewrite E0 in E1, E2. cbn [bind Z.eqb Pos.eqb] in *.
  destruct (clip3_planes_struct RN MX pre p Hw HM) as [(q & Eq & Wq & Mq)|(q & Eq & _)];
    rn; rewrite E0 in Eq; [|inversion Eq].
  assert (p0 = q) as -> by (inversion Eq; auto).
  assert (HPq : planar_faces q) by exact (clip3_planes_planar MX pre p q Hw HP HM E0).
  eapply clip3_1_conserves; eauto.
Qed.

(** ** Where the vertices come from *)
Lemma cut_of_vertex (p p' : pol3) keep np N : wf3 p -> cut_of RN p keep np N p' ->
  forall v, (0 <= v < nv p')%Z ->
   (exists u, (0 <= u < nv p)%Z /\ keep u = true /\ ps (vb p') v = ps (vb p) u)
   \/ (exists x, Cut3.cross (nb (vb p)) (nv p) keep x /\ (0 <= fst x < nv p)%Z /\ (0 <= dtgt (nb (vb p)) x < nv p)%Z
        /\ ps (vb p') v = np x).
Proof.
  intros (Hn & L & P) (b' & K & M & HK & C3 & (En & Hc)) v Hv. rn.
  pose proof (cu_n _ _ _ _ _ _ _ C3) as HnN. rewrite En in Hv.
  destruct (cnt_surj K N v) as (u & Hu & Ku & <-); [lia|lia|].
  destruct (Hc u Hu Ku) as (-> & _).
  destruct (Z_lt_le_dec u (nv p)) as [Q|Q].
  - left. exists u. rewrite (cu_ps _ _ _ _ _ _ _ C3 u) by lia. rewrite <- HK by lia. split; [lia|]. auto.
  - right. destruct (proj1 (cu_dom _ _ _ _ _ _ _ C3 u ltac:(lia)) Ku) as (x & Hx & ->). exists x.
    split; [revert Hx; apply cross_ext; auto|]. split; [apply Hx|].
    split; [apply (l_rng _ _ L); apply Hx|]. apply (cu_new _ _ _ _ _ _ _ C3 x Hx).
Qed.

Definition inside_all3 (planes : list (plane3 R)) (p : pol3) : Prop :=
  forall v pl, (0 <= v < nv p)%Z -> In pl planes -> 0 <= sdist3 pl (ps (vb p) v).

Lemma cutR3_halfspace pl g (p q : pol3) : wf3 p -> cutR3 pl p q ->
  (forall v, (0 <= v < nv p)%Z -> 0 <= sdist3 g (ps (vb p) v)) ->
  forall v, (0 <= v < nv q)%Z -> 0 <= sdist3 g (ps (vb q) v).
Proof.
  intros Hw (N & C) Hg v Hv.
  destruct (cut_of_vertex p q _ _ N Hw C v Hv) as [(u & Hu & Ku & ->)|(x & (_ & K1 & K2) & H1 & H2 & ->)]; auto.
  unfold keepR in *. rb. unfold meetR. destruct (sdist3_meet pl g _ _ K1 K2) as (t & Ht & ->).
  pose proof (Hg _ H1). pose proof (Hg _ H2). nra.
Qed.
Lemma cutR3_inside pl (p q : pol3) : wf3 p -> cutR3 pl p q ->
  forall v, (0 <= v < nv q)%Z -> 0 <= sdist3 pl (ps (vb q) v).
Proof.
  intros Hw (N & C) v Hv.
  destruct (cut_of_vertex p q _ _ N Hw C v Hv) as [(u & Hu & Ku & ->)|(x & (_ & K1 & K2) & H1 & H2 & ->)];
    unfold keepR in *; rb; auto.
  unfold meetR. rewrite meet3_on; lra.
Qed.

Lemma clip3_planes_halfspace MX (planes : list (plane3 R)) g : forall (p p' : pol3), wf3 p -> (nv p <= MX)%Z ->
  clip3_planes RN MX planes p = OK (p', 1%Z) ->
  (forall v, (0 <= v < nv p)%Z -> 0 <= sdist3 g (ps (vb p) v)) ->
  forall v, (0 <= v < nv p')%Z -> 0 <= sdist3 g (ps (vb p') v).
Proof.
  induction planes as [|pl rest IH]; intros p p' Hw HM E Hg.
  { cbn in E. inversion E; subst. auto. }
  destruct (clip3_step_R MX pl rest p Hw HM) as [(A & E')|[(A & B & E')|(A & B & [(q & C & W & M & R & E')|(q & E' & C)])]];
    rn; rewrite E' in E.
  - eauto.
  - inversion E; subst. cbn. intros. lia.
  - apply (IH q p' W M E). exact (cutR3_halfspace pl g p q Hw C Hg).
  - inversion E.
Qed.
Lemma clip3_planes_inside MX (planes : list (plane3 R)) : forall (p p' : pol3), wf3 p -> (nv p <= MX)%Z ->
  clip3_planes RN MX planes p = OK (p', 1%Z) -> inside_all3 planes p'.
Proof.
  induction planes as [|pl rest IH]; intros p p' Hw HM E.
  { intros v pl Hv []. }
  destruct (clip3_step_R MX pl rest p Hw HM) as [(A & E')|[(A & B & E')|(A & B & [(q & C & W & M & R & E')|(q & E' & C)])]];
    rn; rewrite E' in E.
  - intros v pl' Hv [->|HI]; [|eapply IH; eauto].
    eapply (clip3_planes_halfspace MX rest pl' p p'); eauto.
  - inversion E; subst. intros v pl' Hv. cbn in Hv. lia.
  - intros v pl' Hv [->|HI]; [|eapply IH; eauto].
    apply (clip3_planes_halfspace MX rest pl' q p' W M E (cutR3_inside pl' p q Hw C) v Hv).
  - inversion E.
Qed.

(** ** Splits *)
Section SplitR3.
Context (pl : plane3 R) (p o0 o1 : pol3) (sd : Z -> R) (right : Z -> bool) (MX : Z).
Notation f := (nb (vb p)). Notation n := (nv p). Notation pos := (ps (vb p)).
Notation s v := (sdist3 pl (pos v)).
Hypothesis Hw : wf3 p.
Hypothesis Hsd : forall v, (0 <= v < n)%Z -> sd v = s v.
Hypothesis Hside : forall u v, (0 <= u < n)%Z -> (0 <= v < n)%Z -> right u = false -> right v = true ->
  (0 <= s u /\ s v < 0) \/ (s u <= 0 /\ 0 < s v).
Hypothesis HS : split3_result RN MX p sd right o0 o1.
Notation N := (nv p + 2 * exits 3 (fun v => negb (right v)) (nb (vb p)) (nv p))%Z.

Lemma split3_cuts : cut_of RN p (fun v => negb (right v)) (meetR pl p) N o0 /\ cut_of RN p right (meetR pl p) N o1.
Proof.
  destruct HS as (_ & C0 & C1 & _). destruct Hw as (Hn & L & P). split.
  - eapply cut_of_ext; [| |exact L|exact C0]; auto.
    intros x (Dx & _). unfold newpos3, meetR, meet3. rn.
    rewrite !Hsd by (apply Dx || apply (l_rng _ _ L); apply Dx). reflexivity.
  - eapply cut_of_ext; [| |exact L|exact C1]; auto.
    intros y (Dy & K1 & K2). unfold newpos3', newpos3, meetR. rn.
    rewrite (dtgt_opp f _ L y Dy). unfold dsrc. change (fst (dopp f y)) with (dtgt f y).
    assert (Hy : below n (fst y)) by apply Dy. assert (Ht : below n (dtgt f y)) by (apply (l_rng _ _ L); apply Dy).
    rewrite !Hsd by auto. rewrite (meet3_comm pl (pos (fst y))).
    + reflexivity.
    + destruct (Hside (dtgt f y) (fst y)) as [(X & Y)|(X & Y)]; auto; lra.
Qed.

Lemma split3_vertices g : (forall v, (0 <= v < n)%Z -> 0 <= sdist3 g (pos v)) ->
  (forall v, (0 <= v < nv o0)%Z -> 0 <= sdist3 g (ps (vb o0) v))
  /\ (forall v, (0 <= v < nv o1)%Z -> 0 <= sdist3 g (ps (vb o1) v)).
Proof.
  intros Hg. destruct split3_cuts as (C0 & C1).
  assert (MT : forall x, (0 <= fst x < n)%Z -> (0 <= dtgt f x < n)%Z ->
     (0 <= s (fst x) /\ s (dtgt f x) < 0) \/ (s (fst x) <= 0 /\ 0 < s (dtgt f x)) -> 0 <= sdist3 g (meetR pl p x)).
  { intros x H1 H2 [(A & B)|(A & B)]; unfold meetR.
    - destruct (sdist3_meet pl g _ _ A B) as (t & Ht & ->). pose proof (Hg _ H1). pose proof (Hg _ H2). nra.
    - rewrite <- meet3_flip by lra.
      destruct (sdist3_meet (flip3 pl) g (pos (fst x)) (pos (dtgt f x))) as (t & Ht & ->); try (rewrite sdist3_flip; lra).
      pose proof (Hg _ H1). pose proof (Hg _ H2). nra. }
  split; intros v Hv.
  - destruct (cut_of_vertex p o0 _ _ _ Hw C0 v Hv) as [(u & Hu & _ & ->)|(x & (_ & K1 & K2) & H1 & H2 & ->)]; auto.
    apply MT; auto. apply negb_true_iff in K1. apply negb_false_iff in K2. apply Hside; auto.
  - destruct (cut_of_vertex p o1 _ _ _ Hw C1 v Hv) as [(u & Hu & _ & ->)|(x & (_ & K1 & K2) & H1 & H2 & ->)]; auto.
    assert (E : meetR pl p x = meet3 pl (pos (dtgt f x)) (pos (fst x))).
    { apply meet3_comm. destruct (Hside (dtgt f x) (fst x) H2 H1 K2 K1) as [(X & Y)|(X & Y)]; lra. }
    rewrite E. clear E. destruct (Hside (dtgt f x) (fst x) H2 H1 K2 K1) as [(A & B)|(A & B)].
    + destruct (sdist3_meet pl g _ _ A B) as (t & Ht & ->). pose proof (Hg _ H1). pose proof (Hg _ H2). nra.
    + rewrite <- meet3_flip by lra.
      destruct (sdist3_meet (flip3 pl) g (pos (dtgt f x)) (pos (fst x))) as (t & Ht & ->); try (rewrite sdist3_flip; lra).
      pose proof (Hg _ H1). pose proof (Hg _ H2). nra.
Qed.

(** vertices of each part: kept, or on the plane *)
Lemma split3_sides :
  (forall v, (0 <= v < nv o0)%Z -> sdist3 pl (ps (vb o0) v) = 0 \/ exists u, (0 <= u < n)%Z /\ right u = false /\ ps (vb o0) v = pos u)
  /\ (forall v, (0 <= v < nv o1)%Z -> sdist3 pl (ps (vb o1) v) = 0 \/ exists u, (0 <= u < n)%Z /\ right u = true /\ ps (vb o1) v = pos u).
Proof.
  destruct split3_cuts as (C0 & C1). split; intros v Hv.
  - destruct (cut_of_vertex p o0 _ _ _ Hw C0 v Hv) as [(u & Hu & Ku & E)|(x & (_ & K1 & K2) & H1 & H2 & ->)].
    + right. exists u. apply negb_true_iff in Ku. auto.
    + left. apply negb_true_iff in K1. apply negb_false_iff in K2. unfold meetR. apply meet3_on.
      destruct (Hside _ _ H1 H2 K1 K2) as [(X & Y)|(X & Y)]; lra.
  - destruct (cut_of_vertex p o1 _ _ _ Hw C1 v Hv) as [(u & Hu & Ku & E)|(x & (_ & K1 & K2) & H1 & H2 & ->)]; eauto.
    left. unfold meetR. apply meet3_on.
    destruct (Hside _ _ H2 H1 K2 K1) as [(X & Y)|(X & Y)]; lra.
Qed.

Hypothesis Hcut : exists u v, (0 <= u < n)%Z /\ (0 <= v < n)%Z /\ right u = false /\ right v = true.
Lemma split3_moment : planar_faces p -> planar_faces o0 /\ planar_faces o1
  /\ forall i j k, moment3 o0 i j k + moment3 o1 i j k = moment3 p i j k.
Proof.
  intros HP. destruct split3_cuts as (C0 & C1). destruct Hw as (Hn & L & P).
  assert (Hpl : proper pl).
  { destruct Hcut as (u & v & Hu & Hv & Ru & Rv). apply (proper_of_differ pl (pos u) (pos v)).
    destruct (Hside u v Hu Hv Ru Rv) as [(X & Y)|(X & Y)]; lra. }
  set (a := apexF pl p). set (B := base3 pl).
  pose proof (apexF_face pl p Hw) as AF. pose proof (apexF_on pl p Hw HP) as AO.
  pose proof (apexF_edge pl p Hw) as AE. pose proof (base3_on pl Hpl) as HB.
  assert (ED : forall x, isd (below n) x -> right (fst x) <> right (dtgt f x) ->
     ((0 <= s (fst x) /\ s (dtgt f x) <= 0) \/ (s (fst x) <= 0 /\ 0 <= s (dtgt f x))) /\ s (fst x) <> s (dtgt f x)).
  { intros x Dx NE. assert (H1 : below n (fst x)) by apply Dx.
    assert (H2 : below n (dtgt f x)) by (apply (l_rng _ _ L); apply Dx).
    destruct (right (fst x)) eqn:R1, (right (dtgt f x)) eqn:R2; try congruence.
    - destruct (Hside _ _ H2 H1 R2 R1) as [(X & Y)|(X & Y)]; lra.
    - destruct (Hside _ _ H1 H2 R1 R2) as [(X & Y)|(X & Y)]; lra. }
  assert (GO : forall keep o, (forall x, Cut3.cross f n keep x -> right (fst x) <> right (dtgt f x)) ->
     cut_of RN p keep (meetR pl p) N o ->
     planar_faces o /\ forall i j k, moment3 o i j k = lsum (darts 3 n) (part3 f keep pos (meetR pl p) a B i j k)).
  { intros keep o HK C. apply (side_planar_moment p o keep (meetR pl p) N Hw C pl Hpl a B); auto.
    - intros x Hx. apply meet3_on. apply ED; auto. apply Hx.
    - intros x Hx. unfold meetR. rewrite meet3_lerp; [eauto|]. apply ED; auto. apply Hx.
    - intros x Hx. apply AE; [apply Hx|]. apply ED; auto. apply Hx. }
  destruct (GO (fun v => negb (right v)) o0 ltac:(intros x (_ & K1 & K2) Q; cbn beta in K1, K2; rewrite Q in K1; congruence) C0) as (P0 & M0).
  destruct (GO right o1 ltac:(intros x (_ & K1 & K2); congruence) C1) as (P1 & M1).
  split; auto. split; auto. intros i j k. rewrite M0, M1, (moment3_apexF pl p Hw HP), <- lsum_add. fold a.
  apply lsum_ext. intros d Hd. apply (isd_in n) in Hd. unfold part3, meetR.
  rewrite (dtgt_opp f _ L d Hd). unfold dsrc. change (fst (dopp f d)) with (dtgt f d).
  specialize (ED d Hd).
  destruct (right (fst d)), (right (dtgt f d)); cbn [negb]; try ring.
  - destruct (ED ltac:(discriminate)) as (_ & NE). rewrite (meet3_comm pl (pos (dtgt f d))) by auto.
    rewrite meet3_lerp by auto. rewrite <- (tet3_line i j k (a d) (pos (fst d)) (pos (dtgt f d))
      (s (fst d) / (s (fst d) - s (dtgt f d)))). ring.
  - destruct (ED ltac:(discriminate)) as (_ & NE). rewrite (meet3_comm pl (pos (dtgt f d))) by auto.
    rewrite meet3_lerp by auto. rewrite <- (tet3_line i j k (a d) (pos (fst d)) (pos (dtgt f d))
      (s (fst d) / (s (fst d) - s (dtgt f d)))). ring.
Qed.
End SplitR3.

Lemma planar_empty (q : pol3) : nv q = 0%Z -> planar_faces q.
Proof. intros E d (Hd & _). rewrite E in Hd. unfold below in Hd. lia. Qed.
Lemma wf3_empty (q : pol3) : nv q = 0%Z -> wf3 q.
Proof.
  intros E. split; [lia|]. rewrite E. split.
  - constructor; unfold below; intros; lia.
  - intros d e (Hd & _). unfold below in Hd. lia.
Qed.

(** [r3d_split] of one polyhedron, exact arithmetic. *)
Lemma split31_R MX pl (p op on q o0 o1 : pol3) : wf3 p -> (nv p <= MX)%Z ->
  r3d_split1 RN MX pl p op on = OK ((q, (o0, o1)), true) ->
  (planar_faces p -> planar_faces o0 /\ planar_faces o1
     /\ forall i j k, moment3 o0 i j k + moment3 o1 i j k = moment3 p i j k)
  /\ (forall v, (0 <= v < nv o0)%Z -> 0 <= sdist3 pl (ps (vb o0) v))
  /\ (forall v, (0 <= v < nv o1)%Z -> sdist3 pl (ps (vb o1) v) <= 0)
  /\ (forall g, (forall v, (0 <= v < nv p)%Z -> 0 <= sdist3 g (ps (vb p) v)) ->
        (forall v, (0 <= v < nv o0)%Z -> 0 <= sdist3 g (ps (vb o0) v))
        /\ (forall v, (0 <= v < nv o1)%Z -> 0 <= sdist3 g (ps (vb o1) v))).
Proof.
  intros Hw HM E.
  assert (RT : forall v, rightv3 RN pl (vb p) v = true -> sdist3 pl (ps (vb p) v) < 0).
  { intros v. unfold rightv3. rewrite sdf3_sdist. cbn. intros X. now apply Rltb_true in X. }
  assert (RF : forall v, rightv3 RN pl (vb p) v = false -> 0 <= sdist3 pl (ps (vb p) v)).
  { intros v. unfold rightv3. rewrite sdf3_sdist. cbn. intros X. apply Rltb_false in X. lra. }
  assert (EM : forall i j k, moment3 (zero_poly3 RN) i j k = 0) by (intros; apply moment3_empty; cbn; lia).
  assert (EP : planar_faces (zero_poly3 RN)) by (apply planar_empty; reflexivity).
  assert (EZ : nv (zero_poly3 RN) = 0%Z) by reflexivity.
  destruct (split31_spec RN MX pl p op on Hw HM) as [(H0 & E')|[(H0 & A & E')|[(H0 & A & E')|(u & v & Hu & Hv & Ru & Rv & [(q' & o0' & o1' & E' & S)|(q' & E' & _)])]]];
    rn; rewrite E' in E; inversion E; subst; rn.
  - split; [|split; [|split]].
    + intros _. split; auto. split; auto. intros. rewrite EM, (moment3_empty q) by lia. ring.
    + intros. lia.
    + intros. lia.
    + intros. split; intros; lia.
  - split; [|split; [|split]].
    + intros. split; auto. split; auto. intros. rewrite EM. ring.
    + auto.
    + intros. lia.
    + intros. split; auto. intros; lia.
  - split; [|split; [|split]].
    + intros. split; auto. split; auto. intros. rewrite EM. ring.
    + intros. lia.
    + intros. left. auto.
    + intros. split; auto. intros; lia.
  - assert (HSD : forall u v, (0 <= u < nv p)%Z -> (0 <= v < nv p)%Z -> rightv3 RN pl (vb p) u = false ->
       rightv3 RN pl (vb p) v = true ->
       (0 <= sdist3 pl (ps (vb p) u) /\ sdist3 pl (ps (vb p) v) < 0) \/ (sdist3 pl (ps (vb p) u) <= 0 /\ 0 < sdist3 pl (ps (vb p) v))).
    { intros a b _ _ Ra Rb. left. auto. }
    assert (SD : forall v, (0 <= v < nv p)%Z -> @eq R (sdf3 RN pl (vb p) v) (sdist3 pl (ps (vb p) v))) by (intros; apply sdf3_sdist).
    destruct (split3_sides pl p o0 o1 (sdf3 RN pl (vb p)) _ MX Hw SD HSD S) as (V0 & V1).
    split; [|split; [|split]].
    + intros HP. apply (split3_moment pl p o0 o1 (sdf3 RN pl (vb p)) _ MX Hw SD HSD S); auto. exists u, v. auto.
    + intros x Hx. destruct (V0 x Hx) as [->|(y & Hy & Ry & ->)]; [lra|auto].
    + intros x Hx. destruct (V1 x Hx) as [->|(y & Hy & Ry & ->)]; [lra|]. left. auto.
    + intros g Hg. apply (split3_vertices pl p o0 o1 (sdf3 RN pl (vb p)) _ MX Hw SD HSD S g Hg).
Qed.

(** coordinate planes *)
Definition coordR3 (ax : Z) (q : rvec3 R) : R := if (ax =? 0)%Z then x3 q else if (ax =? 1)%Z then y3 q else z3 q.
Definition axis_plane3 (ax : Z) (coord : R) : plane3 R :=
  if (ax =? 0)%Z then PL3 (V3 1 0 0) (- coord) else if (ax =? 1)%Z then PL3 (V3 0 1 0) (- coord) else PL3 (V3 0 0 1) (- coord).
Lemma axis_sdist3 ax coord q : sdist3 (axis_plane3 ax coord) q = coordR3 ax q - coord.
Proof. unfold sdist3, axis_plane3, coordR3. destruct (ax =? 0)%Z; [|destruct (ax =? 1)%Z]; cbn; ring. Qed.

Lemma split3_coord_R MX (p o1 q0 q1 : pol3) coord ax : wf3 p -> (nv p <= MX)%Z -> (0 <= ax < 3)%Z ->
  nv o1 = 0%Z \/ (0 < nv p)%Z ->
  r3d_split_coord RN MX p o1 coord ax = OK (q0, q1) ->
  wf3 q0 /\ wf3 q1 /\ (nv q0 <= MX)%Z /\ (nv q1 <= MX)%Z
  /\ (planar_faces p -> planar_faces q0 /\ planar_faces q1
      /\ forall i j k, moment3 q0 i j k + moment3 q1 i j k = moment3 p i j k)
  /\ (forall v, (0 <= v < nv q0)%Z -> coordR3 ax (ps (vb q0) v) <= coord)
  /\ (forall v, (0 <= v < nv q1)%Z -> coord <= coordR3 ax (ps (vb q1) v))
  /\ (forall g, (forall v, (0 <= v < nv p)%Z -> 0 <= sdist3 g (ps (vb p) v)) ->
        (forall v, (0 <= v < nv q0)%Z -> 0 <= sdist3 g (ps (vb q0) v))
        /\ (forall v, (0 <= v < nv q1)%Z -> 0 <= sdist3 g (ps (vb q1) v))).
Proof.
  intros Hw HM Hax Ho E. set (pl := axis_plane3 ax coord).
  assert (SD : forall v, (0 <= v < nv p)%Z -> @eq R (csd3 RN coord ax (vb p) v) (sdist3 pl (ps (vb p) v))).
  { intros v Hv. unfold csd3, pl. rewrite axis_sdist3. reflexivity. }
  assert (RT : forall v, (0 <= v < nv p)%Z -> cright3 RN coord ax (vb p) v = true -> 0 < sdist3 pl (ps (vb p) v)).
  { intros v Hv. unfold cright3. rewrite SD by auto. cbn. intros X. now apply Rltb_true in X. }
  assert (RF : forall v, (0 <= v < nv p)%Z -> cright3 RN coord ax (vb p) v = false -> sdist3 pl (ps (vb p) v) <= 0).
  { intros v Hv. unfold cright3. rewrite SD by auto. cbn. intros X. now apply Rltb_false in X. }
  assert (LE : forall x, sdist3 pl x <= 0 -> coordR3 ax x <= coord).
  { intros x. unfold pl. rewrite axis_sdist3. lra. }
  assert (GE : forall x, 0 <= sdist3 pl x -> coord <= coordR3 ax x).
  { intros x. unfold pl. rewrite axis_sdist3. lra. }
  pose proof Hw as (Hn & HL & HPp).
  destruct (split3_coord_spec RN MX p o1 coord ax Hw HM Hax) as [(H0 & E')|[(H0 & A & E')|[(H0 & A & E')|(u & v & Hu & Hv & Ru & Rv & [(q' & o1' & E' & S)|(E' & _)])]]];
    rn; rewrite E' in E; inversion E; subst; rn.
  - assert (nv q1 = 0%Z) by lia. split; auto. split. { now apply wf3_empty. } split; [lia|]. split; [lia|].
    split; [|split; [|split]].
    + intros. split; auto. split; [now apply planar_empty|]. intros. rewrite (moment3_empty q0), (moment3_empty q1) by lia. ring.
    + intros. lia.
    + intros. lia.
    + intros. split; intros; lia.
  - split; auto. split. { now apply wf3_empty. } split; [lia|]. split; [cbn; lia|].
    split; [|split; [|split]].
    + intros. split; auto. split; [now apply planar_empty|]. intros. rewrite (moment3_empty (PY (vb o1) 0%Z)) by (cbn; lia). ring.
    + intros. apply LE. auto.
    + cbn. intros. lia.
    + cbn. intros. split; auto. intros; lia.
  - split. { now apply wf3_empty. } split; auto. split; [cbn; lia|]. split; [lia|].
    split; [|split; [|split]].
    + intros. split; [now apply planar_empty|]. split; auto. intros. rewrite (moment3_empty (PY (vb q1) 0%Z)) by (cbn; lia). ring.
    + cbn. intros. lia.
    + intros. apply GE. left. auto.
    + cbn. intros. split; auto. intros; lia.
  - assert (HSD : forall u v, (0 <= u < nv p)%Z -> (0 <= v < nv p)%Z -> cright3 RN coord ax (vb p) u = false ->
       cright3 RN coord ax (vb p) v = true ->
       (0 <= sdist3 pl (ps (vb p) u) /\ sdist3 pl (ps (vb p) v) < 0) \/ (sdist3 pl (ps (vb p) u) <= 0 /\ 0 < sdist3 pl (ps (vb p) v))).
    { intros a b Ha Hb Ra Rb. right. auto. }
    destruct (split3_sides pl p q0 q1 (csd3 RN coord ax (vb p)) _ MX Hw SD HSD S) as (V0 & V1).
    destruct (split3_result_wf RN MX p _ _ q0 q1 Hw S) as (W0 & W1 & W2 & W3). rn.
    pose proof W0 as (W0' & _). pose proof W1 as (W1' & _).
    split; auto. split; auto. split; [lia|]. split; [lia|].
    split; [|split; [|split]].
    + intros HP. apply (split3_moment pl p q0 q1 (csd3 RN coord ax (vb p)) _ MX Hw SD HSD S); auto. exists u, v. auto.
    + intros x Hx. apply LE. destruct (V0 x Hx) as [->|(y & Hy & Ry & ->)]; [lra|auto].
    + intros x Hx. apply GE. destruct (V1 x Hx) as [->|(y & Hy & Ry & ->)]; [lra|left; auto].
    + intros g Hg. apply (split3_vertices pl p q0 q1 (csd3 RN coord ax (vb p)) _ MX Hw SD HSD S g Hg).
Qed.
