(** * CutSum3: moments of one side of a cut, in exact arithmetic. *)
From Coq Require Import Reals ZArith List Bool Lia Lra.
From Verif Require Import Base Lib ModelCommon CommonFacts Model3 Spec3 Orb3 Cut3 Struct3 FaceSpec3 Face3 HPoly HShift HInt RealNum SumR Spec3R Mom3 Geo3.
Import ListNotations.
Open Scope R_scope.

Section CutSum.
Context (f f' : Z -> Z -> Z) (n : Z) (K : Z -> bool) (M : dart -> Z).
Hypothesis Hn : (0 <= n)%Z.
Hypothesis L : links f (below n).
Hypothesis P : simple_faces f (below n).
Hypothesis C : cutg f f' n K M.
Context (pl : plane3 R) (Hpl : proper pl).
Context (pos pos' : Z -> rvec3 R) (Pt : dart -> rvec3 R) (a : dart -> rvec3 R) (B : rvec3 R).
Notation cross := (Cut3.cross f n K). Notation sig := (Cut3.sig f n K).
Notation isd0 := (isd (below n)).
Notation Dom' := (Cut3.Dom' f n K M).
Notation isd' := (isd Dom').
Hypothesis Hpos : forall v, (0 <= v < n)%Z -> pos' v = pos v.
Hypothesis HPt : forall x, cross x -> pos' (M x) = Pt x.
Hypothesis HPon : forall x, cross x -> sdist3 pl (Pt x) = 0.
Hypothesis HPseg : forall x, cross x -> exists t, Pt x = lerp3 t (pos (fst x)) (pos (dtgt f x)).
(** [a d] is a point of the plane of the face of [d] ... *)
Hypothesis Ha_face : forall d, isd0 d -> a (fnext f d) = a d.
Hypothesis Ha_on : forall d, isd0 d -> exists g, proper g /\ sdist3 g (a d) = 0
  /\ forall e, same_face f d e -> sdist3 g (pos (fst e)) = 0.
(** ... and of the cutting plane when the face is cut *)
Hypothesis Ha_cut : forall x, cross x -> sdist3 pl (a x) = 0 /\ sdist3 pl (a (dopp f x)) = 0.
Hypothesis HB : sdist3 pl B = 0.

Lemma a_sf d e : isd0 d -> same_face f d e -> a e = a d.
Proof.
  intros Hd (k & ->). induction k; cbn [iter]; auto. rewrite Ha_face; auto. apply isd_iter; auto.
Qed.

(** the apex used for each face of the result *)
Definition apex' (d : dart) : rvec3 R :=
  if (fst d <? n)%Z then a d else
  match find (fun x => (M x =? fst d)%Z) (crosses f n K) with
  | Some x => if (snd d =? 0)%Z then a (dopp f x) else if (snd d =? 1)%Z then a x else B
  | None => B end.
Lemma apex_old d : isd0 d -> apex' d = a d.
Proof. intros (H & _). unfold apex'. destruct (Z.ltb_spec (fst d) n); auto. unfold below in H. lia. Qed.
Lemma apex_find x : cross x -> find (fun y => (M y =? M x)%Z) (crosses f n K) = Some x.
Proof.
  intros Hx. destruct (find _ _) as [y|] eqn:E.
  - apply find_some in E as (I & E). apply Z.eqb_eq in E. apply in_crosses in I; auto.
    f_equal. apply (c_inj _ _ _ _ _ C); auto.
  - exfalso. pose proof (find_none _ _ E x) as X. cbv beta in X.
    rewrite Z.eqb_refl in X. discriminate X. apply in_crosses; auto.
Qed.
Lemma apex_new x i : cross x -> apex' (M x, i) = if (i =? 0)%Z then a (dopp f x) else if (i =? 1)%Z then a x else B.
Proof.
  intros Hx. unfold apex'. cbn [fst snd]. rewrite apex_find by auto.
  pose proof (c_new _ _ _ _ _ C x Hx) as (X & _). destruct (Z.ltb_spec (M x) n); auto. lia.
Qed.

Lemma apex_face d : isd' d -> apex' (fnext f' d) = apex' d.
Proof.
  intros Hd.
  destruct (isd'_cases f n K M d Hd) as [(D0 & Kd)|(x & Hx & [->|[->| ->]])].
  - rewrite (apex_old d D0). destruct (K (dtgt f d)) eqn:Kt.
    + rewrite (fn_in f f' n K M Hn L P C d D0 Kd Kt). rewrite apex_old by (apply isd_fnext; auto). auto.
    + assert (Hx : cross d) by (split; auto). rewrite (fn_cross f f' n K M Hn L P C d Hx).
      now rewrite apex_new.
  - rewrite (fn_new0 f f' n K M Hn L P C x Hx), apex_new by auto. cbn [Z.eqb].
    rewrite apex_old by (apply isd_rot; apply Hx). rewrite <- (fnext_opp f (below n) L x) by apply Hx.
    apply Ha_face. apply isd_opp; auto. apply Hx.
  - destruct (sig_surj f n K L x Hn Hx) as (y & Hy & <-).
    rewrite (fn_new1 f f' n K M Hn L P C y Hy), !apex_new by auto. cbn [Z.eqb Pos.eqb].
    symmetry. apply a_sf; [apply isd_opp; auto; apply Hy|]. apply sig_face; auto.
  - rewrite (fn_new2 f f' n K M Hn L P C x Hx), !apex_new; auto. apply sig_cross; auto.
Qed.

(** every face of the result lies in a plane, with its apex *)
Definition part_of (d0 : dart) (d : dart) : Prop :=
  (isd0 d /\ K (fst d) = true /\ same_face f d0 d)
  \/ (exists y, cross y /\ d = (M y, 0%Z) /\ same_face f d0 (dopp f y))
  \/ (exists x, cross x /\ d = (M x, 1%Z) /\ same_face f d0 x).
Lemma part_step d0 d : isd0 d0 -> part_of d0 d -> part_of d0 (fnext f' d).
Proof.
  intros H0 [(D0 & Kd & S)|[(y & Hy & -> & S)|(x & Hx & -> & S)]].
  - destruct (K (dtgt f d)) eqn:Kt.
    + rewrite (fn_in f f' n K M Hn L P C d D0 Kd Kt). left. split; [apply isd_fnext; auto|].
      split; auto. eapply sf_trans; [exact S|apply sf_step].
    + assert (Hx : cross d) by (split; auto). rewrite (fn_cross f f' n K M Hn L P C d Hx).
      right. right. exists d. auto.
  - rewrite (fn_new0 f f' n K M Hn L P C y Hy). left. split; [apply isd_rot; apply Hy|].
    split; [apply Hy|]. rewrite <- (fnext_opp f (below n) L y) by apply Hy.
    eapply sf_trans; [exact S|apply sf_step].
  - destruct (sig_surj f n K L x Hn Hx) as (y & Hy & <-).
    rewrite (fn_new1 f f' n K M Hn L P C y Hy). right. left. exists y. split; auto. split; auto.
    eapply sf_trans; [exact S|].
    apply (sf_sym f (below n) L n (below_b n)); [apply isd_opp; auto; apply Hy|]. apply sig_face; auto.
Qed.
Lemma sf_opp_ends g d0 y : isd0 y -> same_face f d0 (dopp f y) ->
  (forall e, same_face f d0 e -> sdist3 g (pos (fst e)) = 0) ->
  sdist3 g (pos (fst y)) = 0 /\ sdist3 g (pos (dtgt f y)) = 0.
Proof.
  intros Hy S G. split.
  - change (fst y) with (fst (drot y)). apply G. rewrite <- (fnext_opp f (below n) L y) by auto.
    eapply sf_trans; [exact S|apply sf_step].
  - apply (G (dopp f y)); auto.
Qed.
Lemma sf_ends g d0 y : same_face f d0 y ->
  (forall e, same_face f d0 e -> sdist3 g (pos (fst e)) = 0) ->
  sdist3 g (pos (fst y)) = 0 /\ sdist3 g (pos (dtgt f y)) = 0.
Proof.
  intros S G. split; [apply G; auto|].
  rewrite <- (fst_fnext f). apply G. eapply sf_trans; [exact S|apply sf_step].
Qed.
Lemma seg_on g x : cross x -> sdist3 g (pos (fst x)) = 0 /\ sdist3 g (pos (dtgt f x)) = 0 -> sdist3 g (Pt x) = 0.
Proof. intros Hx (A1 & A2). destruct (HPseg x Hx) as (t & ->). rewrite sdist3_lerp, A1, A2. ring. Qed.
Lemma part_on g d0 d : isd0 d0 -> (forall e, same_face f d0 e -> sdist3 g (pos (fst e)) = 0) ->
  part_of d0 d -> sdist3 g (pos' (fst d)) = 0.
Proof.
  intros H0 G [((Hd & Hi) & Kd & S)|[(y & Hy & -> & S)|(x & Hx & -> & S)]].
  - rewrite Hpos by apply Hd. auto.
  - cbn [fst]. rewrite HPt by auto. apply seg_on; auto. eapply sf_opp_ends; eauto. apply Hy.
  - cbn [fst]. rewrite HPt by auto. apply seg_on; auto. eapply sf_ends; eauto.
Qed.

Lemma face_plane d : isd' d -> exists g, proper g /\ sdist3 g (apex' d) = 0
  /\ forall e, same_face f' d e -> sdist3 g (pos' (fst e)) = 0.
Proof.
  intros Hd.
  assert (W : (exists d0, isd0 d0 /\ part_of d0 d /\ apex' d = a d0) \/ (cap f n K M d /\ apex' d = B)).
  { destruct (isd'_cases f n K M d Hd) as [(D0 & Kd)|(x & Hx & [->|[->| ->]])].
    - left. exists d. split; auto. split; [left; auto using sf_refl|]. now apply apex_old.
    - left. exists (dopp f x). split; [apply isd_opp; auto; apply Hx|]. split; [|now rewrite apex_new].
      right. left. exists x. split; auto. split; auto. apply sf_refl.
    - left. exists x. split; [apply Hx|]. split; [|now rewrite apex_new].
      right. right. exists x. split; auto. split; auto. apply sf_refl.
    - right. split; [exists x; auto|]. now rewrite apex_new. }
  destruct W as [(d0 & H0 & Pd & E)|(Cd & E)]; rewrite E.
  - destruct (Ha_on d0 H0) as (g & Hg & Ga & G). exists g. split; auto. split; auto.
    intros e S. apply (part_on g d0); auto.
    revert S. apply (face_inv f'); auto. intros; now apply part_step.
  - exists pl. split; auto. split; auto. intros e S.
    pose proof (sf_cap f f' n K M Hn L P C d e S Cd) as (y & Hy & ->). cbn [fst]. rewrite HPt; auto.
Qed.

(** ** the sum over the darts of the result *)
Context (i j k : nat).
Notation T3 := (tet3 i j k).
Notation Gf := (fun q r => T3 B q r).

Definition ds' : list dart := filter (fun d => K (fst d)) (darts 3 n)
  ++ flat_map (fun x => [(M x, 0%Z); (M x, 1%Z); (M x, 2%Z)]) (crosses f n K).
Lemma in_ds' d : In d ds' <-> isd' d.
Proof.
  unfold ds'. rewrite in_app_iff, filter_In, in_flat_map. split.
  - intros [(I & Kd)|(x & Hx & I)].
    + apply (isd_in n) in I. now apply in_old.
    + apply in_crosses in Hx; auto. cbn in I. destruct I as [<-|[<-|[<-|[]]]]; apply in_new; auto; lia.
  - intros Hd. destruct (isd'_cases f n K M d Hd) as [(D0 & Kd)|(x & Hx & E)].
    + left. split; auto. now apply (isd_in n).
    + right. exists x. split; [apply in_crosses; auto|]. cbn. intuition.
Qed.
Lemma NoDup_ds' : NoDup ds'.
Proof.
  apply NoDup_app'.
  - apply NoDup_filter, NoDup_darts; auto.
  - assert (HI : forall x, In x (crosses f n K) -> cross x) by (intros x; apply in_crosses; auto).
    pose proof (NoDup_crosses f n K Hn) as ND. revert HI ND. generalize (crosses f n K).
    induction l as [|x l IH]; intros HI ND; cbn [flat_map]; [constructor|]. inversion ND; subst.
    apply NoDup_app'; [|apply IH; auto; intros; apply HI; cbn; auto|].
    + repeat (constructor; [cbn; intuition congruence|]). constructor.
    + intros d Hd Hd'. apply in_flat_map in Hd' as (y & Hy & Hd').
      assert (E : M x = M y).
      { cbn in Hd, Hd'. destruct Hd as [<-|[<-|[<-|[]]]]; destruct Hd' as [E|[E|[E|[]]]]; congruence. }
      apply (c_inj _ _ _ _ _ C) in E; [subst; auto|apply HI; cbn; auto|apply HI; cbn; auto].
  - intros d Hd Hd'. apply filter_In in Hd as (Hd & _). apply (isd_in n) in Hd. destruct Hd as (Hd & _).
    apply in_flat_map in Hd' as (y & Hy & Hd'). apply in_crosses in Hy; auto.
    pose proof (c_new _ _ _ _ _ C y Hy) as (X & _). unfold below in Hd.
    cbn in Hd'. destruct Hd' as [<-|[<-|[<-|[]]]]; cbn in Hd; lia.
Qed.

(** contribution of one old dart to the side [K] *)
Definition part3 (d : dart) : R :=
  if K (fst d) then
    if K (dtgt f d) then T3 (a d) (pos (dtgt f d)) (pos (fst d))
    else T3 (a d) (Pt d) (pos (fst d)) - T3 B (a d) (Pt d)
  else if K (dtgt f d) then T3 (a d) (pos (dtgt f d)) (Pt (dopp f d)) + T3 B (a d) (Pt (dopp f d)) else 0.

Lemma cut_sum :
  lsum ds' (fun d => T3 (apex' d) (pos' (dtgt f' d)) (pos' (fst d))) = lsum (darts 3 n) part3.
Proof.
  unfold ds'. rewrite lsum_app, lsum_flat_map.
  set (g1 := fun d : dart => if K (dtgt f d) then T3 (a d) (pos (dtgt f d)) (pos (fst d)) else T3 (a d) (Pt d) (pos (fst d))).
  assert (E1 : lsum (filter (fun d => K (fst d)) (darts 3 n)) (fun d => T3 (apex' d) (pos' (dtgt f' d)) (pos' (fst d)))
     = lsum (filter (fun d => K (fst d)) (darts 3 n)) g1).
  { apply lsum_ext. intros d Hd. apply filter_In in Hd as (Hd & Kd). apply (isd_in n) in Hd. rewrite apex_old by auto.
    rewrite (Hpos (fst d)) by apply Hd. unfold g1. destruct (K (dtgt f d)) eqn:Kt.
    - unfold Spec3.dtgt at 1. rewrite (c_in _ _ _ _ _ C d) by auto. rewrite Hpos; auto.
      apply (l_rng _ _ L); apply Hd.
    - assert (Hx : cross d) by (split; auto). unfold Spec3.dtgt at 1.
      destruct (c_new _ _ _ _ _ C d Hx) as (_ & -> & _). now rewrite HPt. }
  rewrite E1. clear E1.
  set (F := fun x : dart => T3 (a x) (pos' (f' (M x) 1%Z)) (Pt x)).
  assert (E2 : lsum (crosses f n K) (fun x => lsum [(M x, 0%Z); (M x, 1%Z); (M x, 2%Z)]
       (fun d => T3 (apex' d) (pos' (dtgt f' d)) (pos' (fst d))))
     = lsum (crosses f n K) (fun x => T3 (a (dopp f x)) (pos (fst x)) (Pt x) + T3 B (Pt (sig x)) (Pt x) + F x)).
  { apply lsum_ext. intros x Hx. apply in_crosses in Hx; auto. cbn [lsum]. rewrite !apex_new by auto. cbn [Z.eqb Pos.eqb fst].
    unfold Spec3.dtgt. cbn [fst snd].
    destruct (c_new _ _ _ _ _ C x Hx) as (_ & _ & ->). destruct (c_cap _ _ _ _ _ C x Hx) as (-> & _).
    rewrite !HPt by (auto; apply sig_cross; auto).
    assert (below n (fst x)) as Hfx by apply Hx. rewrite (Hpos (fst x)) by apply Hfx. unfold F. ring. }
  rewrite E2. clear E2. rewrite lsum_add.
  assert (SB : forall g, lsum (crosses f n K) (fun x => g (sig x)) = lsum (crosses f n K) g).
  { intros g. apply (lsum_bij sig); try (apply NoDup_crosses; auto).
    - intros x Hx. apply in_crosses in Hx; auto. apply in_crosses; auto. apply sig_cross; auto.
    - intros x y Hx Hy. apply in_crosses in Hx; auto. apply in_crosses in Hy; auto. apply sig_inj; auto.
    - intros y Hy. apply in_crosses in Hy; auto. destruct (sig_surj f n K L y Hn Hy) as (x & Hx & E).
      exists x. split; auto. apply in_crosses; auto. }
  rewrite <- (SB F). rewrite <- lsum_add.
  assert (E3 : lsum (crosses f n K) (fun x => T3 (a (dopp f x)) (pos (fst x)) (Pt x) + T3 B (Pt (sig x)) (Pt x) + F (sig x))
    = lsum (crosses f n K) (fun x => (T3 (a (dopp f x)) (pos (fst x)) (Pt x) + T3 B (a (dopp f x)) (Pt x)) - T3 B (a (sig x)) (Pt (sig x)))).
  { apply lsum_ext. intros x Hx. apply in_crosses in Hx; auto. unfold F.
    destruct (c_cap _ _ _ _ _ C x Hx) as (_ & ->). rewrite HPt by auto.
    pose proof (sig_cross f n K L x Hx) as Hs.
    assert (Ea : a (sig x) = a (dopp f x)).
    { apply a_sf; [apply isd_opp; auto; apply Hx|]. apply sig_face; auto. }
    rewrite Ea.
    pose proof (tet3_cocycle i j k B (a (dopp f x)) (Pt x) (Pt (sig x))) as CC.
    rewrite (tet3_swap2 i j k B (Pt x) (Pt (sig x))).
    assert (V : vol6 B (a (dopp f x)) (Pt x) (Pt (sig x)) = 0).
    { apply (plane_vol6 pl); auto. apply Ha_cut; auto. }
    specialize (CC V). lra. }
  rewrite E3. clear E3. rewrite lsum_sub, (SB (fun x => T3 B (a x) (Pt x))). rewrite <- lsum_sub.
  (* right-hand side *)
  set (h := fun d : dart => if crossb f K (dopp f d) then T3 (a d) (pos (dtgt f d)) (Pt (dopp f d)) + T3 B (a d) (Pt (dopp f d)) else 0).
  assert (E4 : lsum (darts 3 n) part3 = lsum (darts 3 n) (fun d => (if K (fst d) then g1 d else 0)
     - (if crossb f K d then T3 B (a d) (Pt d) else 0) + h d)).
  { apply lsum_ext. intros d Hd. apply (isd_in n) in Hd. unfold part3, g1, h, crossb.
    rewrite (dtgt_opp f (below n) L d Hd). unfold dsrc. cbn [fst Spec3.dopp].
    destruct (K (fst d)), (K (dtgt f d)); cbn; ring. }
  rewrite E4. clear E4. rewrite (lsum_add (darts 3 n)), (lsum_sub (darts 3 n)).
  rewrite <- (lsum_filter (fun d => K (fst d)) (darts 3 n) g1).
  rewrite <- (lsum_filter (crossb f K) (darts 3 n) (fun d => T3 B (a d) (Pt d))).
  assert (E5 : lsum (darts 3 n) h = lsum (crosses f n K) (fun x => T3 (a (dopp f x)) (pos (fst x)) (Pt x) + T3 B (a (dopp f x)) (Pt x))).
  { rewrite <- (sum_opp f (below n) (darts 3 n) L (NoDup_darts 3 n Hn) (fun d => iff_sym (isd_in n d))).
    unfold crosses. rewrite lsum_filter. apply lsum_ext. intros d Hd. apply (isd_in n) in Hd. unfold h.
    rewrite (opp_opp f (below n) L d Hd), (dtgt_opp f (below n) L d Hd). reflexivity. }
  rewrite E5. rewrite (lsum_sub (crosses f n K)). unfold crosses. lra.
Qed.
End CutSum.
