(** * Cons2: exact-arithmetic facts about 2D clipping and splitting. *)
From Coq Require Import Reals ZArith List Bool Lia Lra Permutation.
From Verif Require Import Base Lib ModelCommon CommonFacts Model2 Spec2 Struct2 Clip2 HPoly HShift HInt
  RealNum SumR Reduce2 Mom2 Spec2R.
Import ListNotations.
Open Scope R_scope.
Notation pol2 := (poly (rvec2 R)).
Notation buf2 := (vbuf (rvec2 R)).
Ltac lrb := try lra; let X := fresh in intro X; lra.
Ltac rb := repeat match goal with
  | H : Rleb _ _ = true |- _ => apply Rleb_true in H
  | H : Rleb _ _ = false |- _ => apply Rleb_false in H
  | H : Rltb _ _ = true |- _ => apply Rltb_true in H
  | H : Rltb _ _ = false |- _ => apply Rltb_false in H end.
Ltac rn := change (T RN) with R in *.

Lemma sdf_sdist pl (b : buf2) v : @eq R (sdf RN pl b v) (sdist pl (ps b v)).
Proof. unfold sdf, dot2, sdist. cbn. ring. Qed.

Lemma minf_R f n m0 : Rleb 0 (minf RN f n m0) = true <-> 0 <= m0 /\ (forall v, (0 <= v < n)%Z -> 0 <= f v).
Proof.
  rewrite Rleb_true. unfold minf.
  assert (G : forall l m, 0 <= fold_left (fun m v => if nlt RN (f v) m then f v else m) l m <-> 0 <= m /\ (forall v, In v l -> 0 <= f v)).
  { induction l; intros m; cbn [fold_left].
    - split; [intros; split; auto; intros ? []|tauto].
    - rewrite IHl. cbn. destruct (Rltb (f a) m) eqn:E.
      + apply Rltb_true in E. split; intros (X & Y); split; try lra; intros; auto. destruct H; subst; auto.
      + apply Rltb_false in E. split; intros (X & Y); split; try lra; intros; auto. destruct H; subst; auto. lra. }
  rewrite G. split; intros (X & Y); split; auto; intros; apply Y; now apply in_zrange.
Qed.
Lemma maxf_R f n m0 : Rleb (maxf RN f n m0) 0 = true <-> m0 <= 0 /\ (forall v, (0 <= v < n)%Z -> f v <= 0).
Proof.
  rewrite Rleb_true. unfold maxf.
  assert (G : forall l m, fold_left (fun m v => if nlt RN m (f v) then f v else m) l m <= 0 <-> m <= 0 /\ (forall v, In v l -> f v <= 0)).
  { induction l; intros m; cbn [fold_left].
    - split; [intros; split; auto; intros ? []|tauto].
    - rewrite IHl. cbn. destruct (Rltb m (f a)) eqn:E.
      + apply Rltb_true in E. split; intros (X & Y); split; try lra; intros; auto. destruct H; subst; auto.
      + apply Rltb_false in E. split; intros (X & Y); split; try lra; intros; auto. destruct H; subst; auto. lra. }
  rewrite G. split; intros (X & Y); split; auto; intros; apply Y; now apply in_zrange.
Qed.

Lemma cut2_ext {V} (b0 : vbuf V) n N K np np' b' :
  (forall v q, (0 <= v < n)%Z -> (0 <= q < 2)%Z -> np v q = np' v q) ->
  cut2 b0 n N K np b' -> cut2 b0 n N K np' b'.
Proof.
  intros E C. destruct C. constructor; auto.
  intros v q Hv Hq K1 K2. rewrite <- E by auto. auto.
Qed.

(** result of a cut by a plane *)
Definition cutR (pl : plane2 R) (p p' : pol2) : Prop :=
  exists N b' K,
     (forall v, (0 <= v < nv p)%Z -> K v = Rleb 0 (sdist pl (ps (vb p) v)))
  /\ (forall v, (nv p <= v)%Z -> K v = true)
  /\ cut2 (vb p) (nv p) N K (fun v q => meet pl (ps (vb p) v) (ps (vb p) (nb (vb p) v q))) b'
  /\ compressed 2 K N b' p'.

Definition crossings (pl : plane2 R) (p : pol2) : Z :=
  exits 2 (fun v => Rleb 0 (sdist pl (ps (vb p) v))) (nb (vb p)) (nv p).

Lemma exits_ext keep keep' f n : linked f n -> (forall v, (0 <= v < n)%Z -> keep v = keep' v) ->
  exits 2 keep f n = exits 2 keep' f n.
Proof.
  intros HL E. unfold exits. do 2 f_equal. apply filter_ext_in. intros [v q] Hi. cbn [fst snd].
  change 2%nat with (Z.to_nat 2) in Hi. rewrite <- (darts_list_prod 2 n) in Hi by lia. apply in_darts in Hi as (Hv & Hq).
  destruct (HL v Hv) as (A & B & _). rewrite E by auto. rewrite (E (f v q)); auto.
  destruct (slot2 q Hq); subst; auto.
Qed.

Lemma clip_step_R MX (pl : plane2 R) (rest : list (plane2 R)) (p : pol2) : wf2 p -> (nv p <= MX)%Z ->
  ((forall v, (0 <= v < nv p)%Z -> 0 <= sdist pl (ps (vb p) v))
     /\ clip_planes RN MX (pl :: rest) p = clip_planes RN MX rest p)
  \/ ((forall v, (0 <= v < nv p)%Z -> sdist pl (ps (vb p) v) <= 0)
     /\ (exists v, (0 <= v < nv p)%Z /\ sdist pl (ps (vb p) v) < 0)
     /\ clip_planes RN MX (pl :: rest) p = OK (PY (vb p) 0%Z))
  \/ ((exists v, (0 <= v < nv p)%Z /\ sdist pl (ps (vb p) v) < 0)
     /\ (exists v, (0 <= v < nv p)%Z /\ 0 < sdist pl (ps (vb p) v))
     /\ ((exists p', cutR pl p p' /\ wf2 p' /\ (nv p' <= MX)%Z
           /\ (nv p + crossings pl p <= MX)%Z
           /\ clip_planes RN MX (pl :: rest) p = clip_planes RN MX rest p')
         \/ (clip_planes RN MX (pl :: rest) p = Err OutOfBounds /\ (MX < nv p + crossings pl p)%Z))).
Proof.
  intros Hw HM. pose proof Hw as (Hn & HL). cbn [clip_planes].
  destruct (clip_sd_spec RN MX (vb p) (nv p) pl) as (s & E & _ & _ & _ & Emin & Emax); [lia|].
  rn. rewrite E. cbn [bind]. pose proof big_pos as BP.
  change (nle RN (n0 RN) (smin RN s)) with (Rleb 0 (smin RN s)).
  change (nle RN (smax RN s) (n0 RN)) with (Rleb (smax RN s) 0).
  assert (NG : forall P : Z -> Prop, ~ (forall v, (0 <= v < nv p)%Z -> ~ P v) -> exists v, (0 <= v < nv p)%Z /\ P v).
  { intros P X. apply Classical_Pred_Type.not_all_ex_not in X as (v & X).
    exists v. apply Classical_Prop.imply_to_and in X as (X1 & X2). apply Classical_Prop.NNPP in X2. auto. }
  assert (CR : crossings pl p = exits 2 (keepv RN pl (vb p)) (nb (vb p)) (nv p)).
  { apply exits_ext; auto. intros v Hv. unfold keepv. rewrite sdf_sdist. cbn.
    unfold Rleb, Rltb. destruct (Rle_dec 0 _), (Rlt_dec _ 0); auto; lra. }
  destruct (Rleb 0 (smin RN s)) eqn:E1.
  { left. split; auto. intros v Hv. rewrite Emin in E1. apply minf_R in E1 as (_ & X). rewrite <- sdf_sdist. auto. }
  assert (X1 : exists v, (0 <= v < nv p)%Z /\ sdist pl (ps (vb p) v) < 0).
  { apply NG. intros X. assert (Rleb 0 (smin RN s) = true); [|congruence]. rewrite Emin.
    apply minf_R. split; [cbn; lra|]. intros v Hv. specialize (X v Hv). rewrite sdf_sdist. cbv beta in X. lra. }
  right. destruct (Rleb (smax RN s) 0) eqn:E2.
  { left. split; auto. intros v Hv. rewrite Emax in E2. apply maxf_R in E2 as (_ & X). rewrite <- sdf_sdist. auto. }
  right. split; auto. split.
  { apply NG. intros X. assert (Rleb (smax RN s) 0 = true); [|congruence]. rewrite Emax.
    apply maxf_R. split; [cbn; lra|]. intros v Hv. specialize (X v Hv). rewrite sdf_sdist. cbv beta in X. lra. }
  destruct (clip_step_spec RN MX p pl s Hw HM E) as [(p' & N & b' & K & Q1 & Q2 & Q3 & Q4 & Q5 & Q6 & Q7)|(Q1 & Q2)].
  - rn. left. exists p'. rewrite Q1. split; [|split; [|split; [|split; auto]]].
    + exists N, b', K. split; [|split; [auto|split; auto]].
      * intros v Hv. rewrite Q4 by auto. unfold keepv. rewrite sdf_sdist. cbn.
        unfold Rleb, Rltb. destruct (Rle_dec 0 _), (Rlt_dec _ 0); auto; lra.
      * eapply cut2_ext; [|exact Q6]. intros v q Hv Hq. unfold newpos2, meet. rewrite !sdf_sdist. reflexivity.
    + exact (compressed_linked _ _ _ _ _ _ _ Q6 Q7).
    + destruct Q7 as (-> & _). pose proof (c_n _ _ _ _ _ _ Q6). pose proof (cnt_le K N). lia.
    + rewrite CR. lia.
  - rn. right. rewrite Q1, CR. auto.
Qed.

Lemma clip_planes_empty MX (planes : list (plane2 R)) (p : pol2) : nv p = 0%Z -> (0 <= MX)%Z -> clip_planes RN MX planes p = OK p.
Proof.
  intros H0 HM. induction planes as [|pl rest IH]; auto.
  destruct (clip_step_R MX pl rest p) as [(_ & E)|[(_ & (v & Hv & _) & _)|((v & Hv & _) & _)]]; try lia.
  - split; [lia|]. intros v Hv. lia.
  - rn. now rewrite E.
Qed.

(** the planes act one after the other *)
Lemma clip_planes_app MX (pre : list (plane2 R)) : forall (p : pol2) (post : list (plane2 R)), (0 <= MX)%Z ->
  clip_planes RN MX (pre ++ post) p = let* q := clip_planes RN MX pre p in clip_planes RN MX post q.
Proof.
  induction pre as [|pl rest IH]; intros p post HM; auto. cbn [app clip_planes]. rn.
  destruct (clip_sd RN MX (vb p) (nv p) pl) as [s|]; auto. cbn [bind].
  destruct (nle RN (n0 RN) (smin RN s)); auto.
  destruct (nle RN (smax RN s) (n0 RN)).
  - cbn [bind]. symmetry. apply clip_planes_empty; auto.
  - destruct (clip_cut RN MX (vb p) (nv p) (sdists RN s) (clipped RN s)); auto. cbn [bind]. auto.
Qed.

(** ** Where the vertices of the result come from *)
Lemma cutR_vertex pl (p p' : pol2) : linked (nb (vb p)) (nv p) -> cutR pl p p' ->
  forall v, (0 <= v < nv p')%Z ->
   (exists u, (0 <= u < nv p)%Z /\ 0 <= sdist pl (ps (vb p) u) /\ ps (vb p') v = ps (vb p) u)
   \/ (exists u q, (0 <= u < nv p)%Z /\ (0 <= q < 2)%Z /\ (0 <= nb (vb p) u q < nv p)%Z
        /\ 0 <= sdist pl (ps (vb p) u) /\ sdist pl (ps (vb p) (nb (vb p) u q)) < 0
        /\ ps (vb p') v = meet pl (ps (vb p) u) (ps (vb p) (nb (vb p) u q))).
Proof.
  intros HL (N & b' & K & HK1 & HK2 & C & (Hn & Hc)) v Hv. rewrite Hn in Hv.
  pose proof (c_n _ _ _ _ _ _ C).
  destruct (cnt_surj K N v) as (u & Hu & Ku & <-); [lia|lia|].
  destruct (Hc u Hu Ku) as (-> & _).
  destruct (Z_lt_le_dec u (nv p)) as [L|L].
  - left. exists u. split; [lia|]. rewrite (c_ps _ _ _ _ _ _ C u) by lia. split; auto.
    rewrite HK1 in Ku by lia. now apply Rleb_true.
  - right. destruct (c_src _ _ _ _ _ _ C u ltac:(lia) Ku) as (w & q & Hw & Hq & Kw & Kx & E & _).
    destruct (c_new _ _ _ _ _ _ C w q Hw Hq Kw Kx) as (_ & Y).
    exists w, q. rewrite E in Y. rewrite Y.
    assert ((0 <= nb (vb p) w q < nv p)%Z).
    { destruct (HL w Hw) as (A & B & _). destruct (slot2 q Hq); subst; auto. }
    rewrite HK1 in Kw, Kx by auto. apply Rleb_true in Kw. apply Rleb_false in Kx. repeat split; auto; lia.
Qed.

(** signed distances are convex along an edge *)
Lemma sdist_meet pl g a b : 0 <= sdist pl a -> sdist pl b < 0 ->
  exists t, 0 <= t <= 1 /\ sdist g (meet pl a b) = t * sdist g a + (1 - t) * sdist g b.
Proof.
  intros A B. exists (- sdist pl b / (sdist pl a - sdist pl b)). split.
  - split.
    + apply Rmult_le_pos; [lra|]. left. apply Rinv_0_lt_compat. lra.
    + apply (Rmult_le_reg_r (sdist pl a - sdist pl b)); [lra|]. unfold Rdiv. rewrite Rmult_assoc, Rinv_l by lra. lra.
  - unfold meet, wav2. set (sa := sdist pl a) in *. set (sb := sdist pl b) in *. clearbody sa sb.
    unfold sdist. cbn. field. lra.
Qed.

Definition inside_all (planes : list (plane2 R)) (p : pol2) : Prop :=
  forall v pl, (0 <= v < nv p)%Z -> In pl planes -> 0 <= sdist pl (ps (vb p) v).

(** half-planes containing the polygon keep containing it *)
Lemma clip_planes_halfplane MX (planes : list (plane2 R)) g : forall (p p' : pol2), wf2 p -> (nv p <= MX)%Z ->
  clip_planes RN MX planes p = OK p' ->
  (forall v, (0 <= v < nv p)%Z -> 0 <= sdist g (ps (vb p) v)) ->
  forall v, (0 <= v < nv p')%Z -> 0 <= sdist g (ps (vb p') v).
Proof.
  induction planes as [|pl rest IH]; intros p p' Hw HM E Hg.
  { cbn in E. inversion E; subst. auto. }
  destruct (clip_step_R MX pl rest p Hw HM) as [(A & E')|[(A & B & E')|(A & B & [(q & C & W & M & R & E')|(E' & C)])]];
    rn; rewrite E' in E.
  - eauto.
  - inversion E; subst. cbn. intros. lia.
  - apply (IH q p'); auto. intros v Hv.
    destruct (cutR_vertex pl p q (proj2 Hw) C v Hv) as [(u & Hu & Su & ->)|(u & k & Hu & Hk & Hx & Su & Sx & ->)]; auto.
    destruct (sdist_meet pl g _ _ Su Sx) as (t & Ht & ->).
    pose proof (Hg _ Hu). pose proof (Hg _ Hx). nra.
  - discriminate.
Qed.

Lemma clip_planes_inside MX (planes : list (plane2 R)) : forall (p p' : pol2), wf2 p -> (nv p <= MX)%Z ->
  clip_planes RN MX planes p = OK p' -> inside_all planes p'.
Proof.
  induction planes as [|pl rest IH]; intros p p' Hw HM E.
  { intros v pl Hv []. }
  destruct (clip_step_R MX pl rest p Hw HM) as [(A & E')|[(A & B & E')|(A & B & [(q & C & W & M & R & E')|(E' & C)])]];
    rn; rewrite E' in E.
  - intros v pl' Hv [->|HI].
    + eapply (clip_planes_halfplane MX rest pl' p p'); eauto.
    + eapply IH; eauto.
  - inversion E; subst. intros v pl' Hv. cbn in Hv. lia.
  - intros v pl' Hv [->|HI].
    + eapply (clip_planes_halfplane MX rest pl' q p'); eauto.
      intros u Hu.
      destruct (cutR_vertex pl' p q (proj2 Hw) C u Hu) as [(w & Hw' & Sw & ->)|(w & k & Hw' & Hk & Hx & Sw & Sx & ->)]; auto.
      rewrite meet_on; lra.
    + eapply IH; eauto.
  - discriminate.
Qed.

(** ** Moments of the two sides *)
Section Sides.
Context (i j : nat) (pl : plane2 R).
Hypothesis Hnz : vx (pn pl) <> 0 \/ vy (pn pl) <> 0.
Notation f := (edge2 i j).
Notation s := (sdist pl).

(** part of edge a->b on the side of [pl] *)
Definition side_part (a b : rvec2 R) : R :=
  if Rleb 0 (s a) then
    if Rleb 0 (s b) then f a b else f a (meet pl a b) - Phi2 pl i j (meet pl a b)
  else if Rleb 0 (s b) then f (meet pl a b) b + Phi2 pl i j (meet pl a b) else 0.

Lemma cutR_moment (p p' : pol2) : linked (nb (vb p)) (nv p) -> cutR pl p p' ->
  moment2 p' i j = lsum (zrange (nv p)) (fun v => side_part (ps (vb p) v) (ps (vb p) (nb (vb p) v 0%Z))).
Proof.
  intros HL (N & b' & K & HK1 & HK2 & C & P).
  unfold moment2. change (lsum _ _) with (esumR f (vb p') (nv p')) at 1.
  rewrite (compressed_esum f _ _ _ _ _ _ C p' P).
  rewrite (cut_esum f (fun q => s q = 0) (Phi2 pl i j)
     (fun q q' A B => edge2_on pl Hnz i j q q' A B) _ _ _ _ _ _ HL C).
  - apply lsum_ext. intros v Hv. apply in_zrange in Hv. unfold edge_part, side_part.
    destruct (HL v Hv) as (A & _ & B & _). rewrite !HK1 by auto. rewrite B.
    destruct (Rleb 0 (s (ps (vb p) v))) eqn:E1; destruct (Rleb 0 (s (ps (vb p) (nb (vb p) v 0%Z)))) eqn:E2; auto.
    rewrite (meet_comm pl (ps (vb p) v)); auto.
    apply Rleb_false in E1. apply Rleb_true in E2. lra.
  - intros v q Hv Hq Kv Kx.
    assert ((0 <= nb (vb p) v q < nv p)%Z).
    { destruct (HL v Hv) as (A & B & _). destruct (slot2 q Hq); subst; auto. }
    rewrite HK1 in Kv, Kx by auto. apply Rleb_true in Kv. apply Rleb_false in Kx.
    apply meet_on. lra.
Qed.

Lemma lsum_next (p : pol2) g : linked (nb (vb p)) (nv p) ->
  lsum (zrange (nv p)) (fun v => g (nb (vb p) v 0%Z)) = lsum (zrange (nv p)) g.
Proof.
  intros HL. apply (lsum_bij (fun v => nb (vb p) v 0%Z)); try apply NoDup_zrange.
  - intros v Hv. apply in_zrange in Hv. apply in_zrange. apply HL; auto.
  - intros u v Hu Hv E. apply in_zrange in Hu. apply in_zrange in Hv.
    destruct (HL u Hu) as (_ & _ & A & _). destruct (HL v Hv) as (_ & _ & B & _). congruence.
  - intros v Hv. apply in_zrange in Hv. exists (nb (vb p) v 1%Z).
    destruct (HL v Hv) as (_ & A & _ & B). split; auto. now apply in_zrange.
Qed.

(** the moment after one plane, in all three cases *)
Lemma clip1_moment MX (p p' : pol2) : wf2 p -> (nv p <= MX)%Z -> clip_planes RN MX [pl] p = OK p' ->
  moment2 p' i j = lsum (zrange (nv p)) (fun v => side_part (ps (vb p) v) (ps (vb p) (nb (vb p) v 0%Z))).
Proof.
  intros Hw HM E. pose proof Hw as (Hn & HL).
  destruct (clip_step_R MX pl [] p Hw HM) as [(A & E')|[(A & B & E')|(A & B & [(q & C & W & M & R & E')|(E' & C)])]];
    rn; rewrite E' in E.
  - cbn in E. inversion E; subst. apply lsum_ext. intros v Hv. apply in_zrange in Hv. unfold side_part.
    destruct (HL v Hv) as (L & _). rewrite !(proj2 (Rleb_true _ _)) by auto. reflexivity.
  - inversion E; subst. change (moment2 (PY (vb p) 0%Z) i j) with 0.
    set (Z0 := fun v => if Rleb 0 (s (ps (vb p) v)) then Phi2 pl i j (ps (vb p) v) else 0).
    transitivity (lsum (zrange (nv p)) (fun v => Z0 (nb (vb p) v 0%Z) - Z0 v)).
    { rewrite lsum_sub, (lsum_next p Z0) by auto. ring. }
    apply lsum_ext. intros v Hv. apply in_zrange in Hv. unfold side_part, Z0.
    destruct (HL v Hv) as (L & _). pose proof (A v Hv). pose proof (A _ L).
    destruct (Rleb 0 (s (ps (vb p) v))) eqn:E1; destruct (Rleb 0 (s (ps (vb p) (nb (vb p) v 0%Z)))) eqn:E2;
      rb.
    + rewrite (edge2_on pl Hnz); [reflexivity|lra|lra].
    + rewrite meet_on_l by lrb. rewrite edge2_same. ring.
    + rewrite <- meet_comm by lrb. rewrite meet_on_l by lrb. rewrite edge2_same. ring.
    + ring.
  - cbn in E. inversion E; subst. now apply cutR_moment.
  - discriminate.
Qed.
End Sides.

Lemma sdist_flip pl q : sdist (flip pl) q = - sdist pl q.
Proof. unfold sdist, flip. cbn. ring. Qed.
Lemma base_flip pl : vx (pn pl) <> 0 \/ vy (pn pl) <> 0 -> base_pt (flip pl) = base_pt pl.
Proof.
  intros H. unfold base_pt, flip. cbn [pn pd vx vy].
  assert (vx (pn pl) * vx (pn pl) + vy (pn pl) * vy (pn pl) <> 0) by (clear - H; nra).
  f_equal; field; lra.
Qed.
Lemma meet_flip pl a b : sdist pl a <> sdist pl b -> meet (flip pl) a b = meet pl a b.
Proof. intros E. unfold meet, wav2. rewrite !sdist_flip. cbn. f_equal; field; lra. Qed.

(** one plane and its opposite *)
Lemma clip1_conserves MX pl (p p1 p2 : pol2) i j :
  vx (pn pl) <> 0 \/ vy (pn pl) <> 0 -> wf2 p -> (nv p <= MX)%Z ->
  clip_planes RN MX [pl] p = OK p1 -> clip_planes RN MX [flip pl] p = OK p2 ->
  moment2 p1 i j + moment2 p2 i j = moment2 p i j.
Proof.
  intros Hnz Hw HM E1 E2. pose proof Hw as (Hn & HL).
  assert (Hnz' : vx (pn (flip pl)) <> 0 \/ vy (pn (flip pl)) <> 0) by (cbn; destruct Hnz; [left|right]; lra).
  rewrite (clip1_moment i j pl Hnz MX p p1), (clip1_moment i j (flip pl) Hnz' MX p p2) by auto.
  rewrite <- lsum_add.
  set (Z0 := fun v => if Rleb 0 (sdist pl (ps (vb p) v)) then
     if Rleb (sdist pl (ps (vb p) v)) 0 then Phi2 pl i j (ps (vb p) v) else 0 else 0).
  transitivity (lsum (zrange (nv p)) (fun v =>
     (edge2 i j (ps (vb p) v) (ps (vb p) (nb (vb p) v 0%Z)) + Z0 (nb (vb p) v 0%Z)) - Z0 v)).
  2: { rewrite lsum_sub, lsum_add, (lsum_next p Z0) by auto. unfold moment2. ring. }
  apply lsum_ext. intros v Hv. apply in_zrange in Hv. unfold side_part, Z0, Phi2. rewrite base_flip by auto.
  set (a := ps (vb p) v). set (b := ps (vb p) (nb (vb p) v 0%Z)). rewrite !sdist_flip.
  assert (PH : forall q q', sdist pl q = 0 -> sdist pl q' = 0 ->
     edge2 i j q q' = edge2 i j (base_pt pl) q' - edge2 i j (base_pt pl) q) by (intros; apply (edge2_on pl Hnz); auto).
  assert (CS : forall x, (Rleb 0 x = true /\ Rleb x 0 = true /\ Rleb 0 (- x) = true /\ x = 0)
     \/ (Rleb 0 x = true /\ Rleb x 0 = false /\ Rleb 0 (- x) = false /\ 0 < x)
     \/ (Rleb 0 x = false /\ Rleb x 0 = true /\ Rleb 0 (- x) = true /\ x < 0)).
  { intros x. destruct (Rtotal_order x 0) as [L|[L|L]].
    - right. right. rewrite !Rleb_true, !Rleb_false. lra.
    - left. rewrite !Rleb_true. lra.
    - right. left. rewrite !Rleb_true, !Rleb_false. lra. }
  destruct (CS (sdist pl a)) as [(A1 & A2 & A3 & Sa)|[(A1 & A2 & A3 & Sa)|(A1 & A2 & A3 & Sa)]];
  destruct (CS (sdist pl b)) as [(B1 & B2 & B3 & Sb)|[(B1 & B2 & B3 & Sb)|(B1 & B2 & B3 & Sb)]];
    rewrite ?A1, ?A2, ?A3, ?B1, ?B2, ?B3;
    rewrite ?meet_flip by lrb;
    try (pose proof (meet_split pl i j a b ltac:(lrb)));
    try (rewrite (meet_on_l pl a b) in * by lrb);
    try (rewrite <- (meet_comm pl a b) in * by lrb; rewrite (meet_on_l pl b a) in * by lrb);
    rewrite ?edge2_same in *; try rewrite (PH a b) by lra; try lra.
Qed.

(** general form: after any planes [pre] *)
Lemma clip_conserves MX (pre : list (plane2 R)) pl (p p0 p1 p2 : pol2) i j :
  vx (pn pl) <> 0 \/ vy (pn pl) <> 0 -> wf2 p -> (nv p <= MX)%Z ->
  clip_planes RN MX pre p = OK p0 ->
  clip_planes RN MX (pre ++ [pl]) p = OK p1 -> clip_planes RN MX (pre ++ [flip pl]) p = OK p2 ->
  moment2 p1 i j + moment2 p2 i j = moment2 p0 i j.
Proof.
  intros Hnz Hw HM E0 E1 E2. pose proof Hw as (Hn & _).
  rewrite clip_planes_app in E1, E2 by lia. rewrite E0 in E1, E2. cbn [bind] in *.
  destruct (clip_planes_struct RN MX pre p Hw HM) as [(q & Eq & Wq & Mq & _)|(Eq & _)];
    rewrite E0 in Eq; inversion Eq; subst.
  eapply clip1_conserves; eauto.
Qed.

(** ** Splits *)
Section SplitR.
Context (pl : plane2 R) (p o0 o1 : pol2) (sd : Z -> R) (right : Z -> bool) (c : R) (MX : Z).
Hypothesis Hw : wf2 p.
Hypothesis Hc : c <> 0.
Hypothesis Hsd : forall v, (0 <= v < nv p)%Z -> sd v = c * sdist pl (ps (vb p) v).
Hypothesis Hright : forall u v, (0 <= u < nv p)%Z -> (0 <= v < nv p)%Z -> right u = false -> right v = true ->
  sdist pl (ps (vb p) u) <> sdist pl (ps (vb p) v).
Hypothesis HS : split_result RN MX p sd right o0 o1.

Lemma split_newpos u v q : (0 <= u < nv p)%Z -> (0 <= v < nv p)%Z -> nb (vb p) u q = v ->
  right u = false -> right v = true ->
  newpos2 RN (vb p) sd u q = meet pl (ps (vb p) u) (ps (vb p) v).
Proof.
  intros Hu Hv E Ru Rv. unfold newpos2. change (T RN) with R. rewrite E. pose proof (Hright u v Hu Hv Ru Rv) as D.
  rewrite (Hsd u Hu), (Hsd v Hv). unfold meet, wav2. cbn. f_equal; field; split; auto; intro X; apply D; nra.
Qed.

Lemma lnk v q : (0 <= v < nv p)%Z -> (0 <= q < 2)%Z -> (0 <= nb (vb p) v q < nv p)%Z /\ nb (vb p) (nb (vb p) v q) (1 - q) = v.
Proof.
  intros Hv Hq. destruct Hw as (_ & HL). destruct (HL v Hv) as (A & B & C & D).
  destruct (slot2 q Hq); subst; auto.
Qed.

Lemma split_moment i j :
  vx (pn pl) <> 0 \/ vy (pn pl) <> 0 -> moment2 o0 i j + moment2 o1 i j = moment2 p i j.
Proof.
  intros Hnz. destruct HS as (N & b' & Ka & Kb & _ & _ & HK & _ & C0 & P0 & C1 & P1).
  change (T RN) with R in HK, C0, P0, C1, P1.
  pose proof Hw as (Hn & HL).
  unfold moment2.
  change (lsum (zrange (nv o0)) _) with (esumR (edge2 i j) (vb o0) (nv o0)) at 1.
  change (lsum (zrange (nv o1)) _) with (esumR (edge2 i j) (vb o1) (nv o1)) at 1.
  rewrite (compressed_esum (edge2 i j) _ _ _ _ _ _ C0 o0 P0).
  rewrite (compressed_esum (edge2 i j) _ _ _ _ _ _ C1 o1 P1).
  rewrite (cut_esum (edge2 i j) (fun q => sdist pl q = 0) (Phi2 pl i j)
     (fun q q' A B => edge2_on pl Hnz i j q q' A B) _ _ _ _ _ _ HL C0).
  2: { intros v q Hv Hq Kv Kx. destruct (lnk v q Hv Hq) as (L & _).
       destruct (HK v Hv) as (K1 & _). destruct (HK _ L) as (K2 & _). rewrite Kv in K1. rewrite Kx in K2.
       destruct (right v) eqn:R1; try discriminate. destruct (right (nb (vb p) v q)) eqn:R2; try discriminate.
       rewrite (split_newpos v (nb (vb p) v q) q) by auto. apply meet_on. auto. }
  rewrite (cut_esum (edge2 i j) (fun q => sdist pl q = 0) (Phi2 pl i j)
     (fun q q' A B => edge2_on pl Hnz i j q q' A B) _ _ _ _ _ _ HL C1).
  2: { intros v q Hv Hq Kv Kx. destruct (lnk v q Hv Hq) as (L & L').
       destruct (HK v Hv) as (_ & K1). destruct (HK _ L) as (_ & K2). rewrite Kv in K1. rewrite Kx in K2.
       unfold newpos2'. change (T RN) with R. rewrite (split_newpos (nb (vb p) v q) v (1 - q)) by auto. apply meet_on. auto. }
  rewrite <- lsum_add. apply lsum_ext. intros v Hv. apply in_zrange in Hv. unfold edge_part.
  destruct (lnk v 0%Z Hv ltac:(lia)) as (L & L'). change (1 - 0)%Z with 1%Z in L'.
  destruct (HK v Hv) as (-> & ->). destruct (HK _ L) as (-> & ->).
  destruct (right v) eqn:R1; destruct (right (nb (vb p) v 0%Z)) eqn:R2; cbn [negb].
  - ring.
  - unfold newpos2'. change (T RN) with R. change (1 - 0)%Z with 1%Z.
    rewrite (split_newpos (nb (vb p) v 0%Z) v 1) by auto.
    assert (D : sdist pl (ps (vb p) (nb (vb p) v 0%Z)) <> sdist pl (ps (vb p) v)) by auto.
    rewrite (meet_comm pl (ps (vb p) v)) by auto.
    pose proof (meet_split pl i j (ps (vb p) v) (ps (vb p) (nb (vb p) v 0%Z)) ltac:(auto)). lra.
  - unfold newpos2'. change (T RN) with R. change (1 - 1)%Z with 0%Z. rewrite L'.
    rewrite (split_newpos v (nb (vb p) v 0%Z) 0) by auto.
    assert (D : sdist pl (ps (vb p) v) <> sdist pl (ps (vb p) (nb (vb p) v 0%Z))) by auto.
    pose proof (meet_split pl i j _ _ D). lra.
  - ring.
Qed.

(** where the vertices of the two parts come from *)
Lemma split_vertices :
  (forall v, (0 <= v < nv o0)%Z ->
     (exists u, (0 <= u < nv p)%Z /\ right u = false /\ ps (vb o0) v = ps (vb p) u)
     \/ (exists u w q, (0 <= u < nv p)%Z /\ (0 <= w < nv p)%Z /\ (0 <= q < 2)%Z /\ nb (vb p) u q = w
          /\ right u = false /\ right w = true /\ ps (vb o0) v = meet pl (ps (vb p) u) (ps (vb p) w)))
  /\ (forall v, (0 <= v < nv o1)%Z ->
     (exists u, (0 <= u < nv p)%Z /\ right u = true /\ ps (vb o1) v = ps (vb p) u)
     \/ (exists u w q, (0 <= u < nv p)%Z /\ (0 <= w < nv p)%Z /\ (0 <= q < 2)%Z /\ nb (vb p) u q = w
          /\ right u = false /\ right w = true /\ ps (vb o1) v = meet pl (ps (vb p) u) (ps (vb p) w))).
Proof.
  destruct HS as (N & b' & Ka & Kb & _ & _ & HK & _ & C0 & (P0 & Q0) & C1 & (P1 & Q1)).
  change (T RN) with R in HK, C0, P0, C1, P1, Q0, Q1.
  pose proof (c_n _ _ _ _ _ _ C0) as HN.
  split; intros v Hv.
  - rewrite P0 in Hv. destruct (cnt_surj Ka N v) as (u & Hu & Ku & <-); [lia|lia|].
    destruct (Q0 u Hu Ku) as (-> & _). destruct (Z_lt_le_dec u (nv p)) as [L|L].
    + left. exists u. split; [lia|]. destruct (HK u ltac:(lia)) as (K1 & _). rewrite Ku in K1.
      rewrite (c_ps _ _ _ _ _ _ C0 u) by lia. split; auto. destruct (right u); auto; discriminate.
    + right. destruct (c_src _ _ _ _ _ _ C0 u ltac:(lia) Ku) as (w & q & Hw' & Hq & Kw & Kx & E & _).
      destruct (c_new _ _ _ _ _ _ C0 w q Hw' Hq Kw Kx) as (_ & Y). rewrite E in Y.
      destruct (lnk w q Hw' Hq) as (L1 & L2). exists w, (nb (vb p) w q), q.
      destruct (HK w Hw') as (K1 & _). destruct (HK _ L1) as (K2 & _). rewrite Kw in K1. rewrite Kx in K2.
      destruct (right w) eqn:R1; try discriminate. destruct (right (nb (vb p) w q)) eqn:R2; try discriminate.
      repeat split; auto; try lia. rewrite Y. apply split_newpos; auto.
  - rewrite P1 in Hv. destruct (cnt_surj Kb N v) as (u & Hu & Ku & <-); [lia|lia|].
    destruct (Q1 u Hu Ku) as (-> & _). destruct (Z_lt_le_dec u (nv p)) as [L|L].
    + left. exists u. split; [lia|]. destruct (HK u ltac:(lia)) as (_ & K1). rewrite Ku in K1.
      rewrite (c_ps _ _ _ _ _ _ C1 u) by lia. split; auto.
    + right. destruct (c_src _ _ _ _ _ _ C1 u ltac:(lia) Ku) as (w & q & Hw' & Hq & Kw & Kx & E & _).
      destruct (c_new _ _ _ _ _ _ C1 w q Hw' Hq Kw Kx) as (_ & Y). rewrite E in Y.
      destruct (lnk w q Hw' Hq) as (L1 & L2). exists (nb (vb p) w q), w, (1 - q)%Z.
      destruct (HK w Hw') as (_ & K1). destruct (HK _ L1) as (_ & K2). rewrite Kw in K1. rewrite Kx in K2.
      repeat split; auto; try lia. rewrite Y. unfold newpos2'. change (T RN) with R. apply split_newpos; auto.
Qed.
End SplitR.

Lemma sdist_meet' pl g a b : (sdist pl a <= 0 /\ 0 < sdist pl b) \/ (0 <= sdist pl a /\ sdist pl b < 0) ->
  exists t, 0 <= t <= 1 /\ sdist g (meet pl a b) = t * sdist g a + (1 - t) * sdist g b.
Proof.
  intros [(A & B)|(A & B)]; [|now apply sdist_meet].
  destruct (sdist_meet (flip pl) g a b) as (t & Ht & E).
  - rewrite sdist_flip. lra.
  - rewrite sdist_flip. lra.
  - exists t. split; auto. rewrite meet_flip in E; auto. intro; lra.
Qed.

Lemma nz_of_differ pl a b : sdist pl a <> sdist pl b -> vx (pn pl) <> 0 \/ vy (pn pl) <> 0.
Proof.
  intros D. destruct (Req_dec (vx (pn pl)) 0) as [X|X]; auto. destruct (Req_dec (vy (pn pl)) 0) as [Y|Y]; auto.
  exfalso. apply D. unfold sdist. rewrite X, Y. ring.
Qed.

(** [r2d_split] of one polygon, exact arithmetic: linkage, moments, sides. *)
Lemma split1_R MX pl (p op on q o0 o1 : pol2) : wf2 p -> (nv p <= MX)%Z ->
  r2d_split1 RN MX pl p op on = OK (q, (o0, o1)) ->
  (forall i j, moment2 o0 i j + moment2 o1 i j = moment2 p i j)
  /\ (forall v, (0 <= v < nv o0)%Z -> sdist pl (ps (vb o0) v) <= 0)
  /\ (forall v, (0 <= v < nv o1)%Z -> 0 <= sdist pl (ps (vb o1) v))
  /\ (forall g, (forall v, (0 <= v < nv p)%Z -> 0 <= sdist g (ps (vb p) v)) ->
        (forall v, (0 <= v < nv o0)%Z -> 0 <= sdist g (ps (vb o0) v))
        /\ (forall v, (0 <= v < nv o1)%Z -> 0 <= sdist g (ps (vb o1) v))).
Proof.
  intros Hw HM E.
  assert (SD : forall v, @eq R (sidesd RN pl (vb p) v) (-1 * sdist pl (ps (vb p) v))).
  { intros v. unfold sidesd. rewrite sdf_sdist. cbn. ring. }
  assert (RT : forall v, rightv RN pl (vb p) v = true -> 0 < sdist pl (ps (vb p) v)).
  { intros v. unfold rightv. rewrite SD. cbn. intros X. apply Rltb_true in X. lra. }
  assert (RF : forall v, rightv RN pl (vb p) v = false -> sdist pl (ps (vb p) v) <= 0).
  { intros v. unfold rightv. rewrite SD. cbn. intros X. apply Rltb_false in X. lra. }
  destruct (split1_spec RN MX pl p op on Hw HM) as [(H0 & E')|[(H0 & A & E')|[(H0 & A & E')|(u & v & Hu & Hv & Ru & Rv & [(q' & o0' & o1' & E' & S)|(E' & _)])]]];
    rn; rewrite E' in E; inversion E; subst.
  - split; [|split; [|split]].
    + intros. unfold moment2. rewrite H0. cbn. ring.
    + cbn. intros. lia.
    + cbn. intros. lia.
    + cbn. intros. split; intros; lia.
  - split; [|split; [|split]].
    + intros. unfold moment2 at 2. cbn. ring.
    + intros. apply RF. auto.
    + cbn. intros. lia.
    + cbn. intros. split; auto. intros; lia.
  - split; [|split; [|split]].
    + intros. unfold moment2 at 1. cbn. ring.
    + cbn. intros. lia.
    + intros. left. apply RT. auto.
    + cbn. intros. split; auto. intros; lia.
  - assert (HR : forall u v, (0 <= u < nv p)%Z -> (0 <= v < nv p)%Z -> rightv RN pl (vb p) u = false ->
       rightv RN pl (vb p) v = true -> sdist pl (ps (vb p) u) <> sdist pl (ps (vb p) v)).
    { intros a b _ _ Ra Rb. apply RF in Ra. apply RT in Rb. intro. lra. }
    split.
    { intros i j. eapply (split_moment pl p o0 o1 (sidesd RN pl (vb p)) (rightv RN pl (vb p)) (-1) MX Hw); auto.
      - lra.
      - eapply nz_of_differ. apply (HR u v); auto. }
    destruct (split_vertices pl p o0 o1 (sidesd RN pl (vb p)) (rightv RN pl (vb p)) (-1) MX Hw) as (V0 & V1); auto.
    { lra. }
    split; [|split].
    + intros x Hx. destruct (V0 x Hx) as [(y & Hy & Ry & ->)|(y & z & k & Hy & Hz & Hk & En & Ry & Rz & ->)]; auto.
      rewrite meet_on by auto. lra.
    + intros x Hx. destruct (V1 x Hx) as [(y & Hy & Ry & ->)|(y & z & k & Hy & Hz & Hk & En & Ry & Rz & ->)].
      * left. auto.
      * rewrite meet_on by auto. lra.
    + intros g Hg. split; intros x Hx.
      * destruct (V0 x Hx) as [(y & Hy & Ry & ->)|(y & z & k & Hy & Hz & Hk & En & Ry & Rz & ->)]; auto.
        destruct (sdist_meet' pl g (ps (vb p) y) (ps (vb p) z)) as (t & Ht & ->).
        { apply RF in Ry. apply RT in Rz. lra. }
        pose proof (Hg _ Hy). pose proof (Hg _ Hz). nra.
      * destruct (V1 x Hx) as [(y & Hy & Ry & ->)|(y & z & k & Hy & Hz & Hk & En & Ry & Rz & ->)]; auto.
        destruct (sdist_meet' pl g (ps (vb p) y) (ps (vb p) z)) as (t & Ht & ->).
        { apply RF in Ry. apply RT in Rz. lra. }
        pose proof (Hg _ Hy). pose proof (Hg _ Hz). nra.
Qed.

(** the coordinate line [pos.xy[ax] = coord] *)
Definition axis_plane (ax : Z) (coord : R) : plane2 R :=
  if (ax =? 0)%Z then PL2 (V2 1 0) (- coord) else PL2 (V2 0 1) (- coord).
Definition coordR (ax : Z) (q : rvec2 R) : R := if (ax =? 0)%Z then vx q else vy q.
Lemma axis_sdist ax coord q : sdist (axis_plane ax coord) q = coordR ax q - coord.
Proof. unfold sdist, axis_plane, coordR. destruct (ax =? 0)%Z; cbn; ring. Qed.

(** [r2d_split_coord], exact arithmetic. *)
Lemma split_coord_R MX (p o1 q0 q1 : pol2) coord ax : wf2 p -> (nv p <= MX)%Z -> (0 <= ax < 2)%Z ->
  nv o1 = 0%Z \/ (0 < nv p)%Z ->
  r2d_split_coord RN MX p o1 coord ax = OK (q0, q1) ->
  wf2 q0 /\ wf2 q1 /\ (nv q0 <= MX)%Z /\ (nv q1 <= MX)%Z
  /\ (forall i j, moment2 q0 i j + moment2 q1 i j = moment2 p i j)
  /\ (forall v, (0 <= v < nv q0)%Z -> coordR ax (ps (vb q0) v) <= coord)
  /\ (forall v, (0 <= v < nv q1)%Z -> coord <= coordR ax (ps (vb q1) v))
  /\ (forall g, (forall v, (0 <= v < nv p)%Z -> 0 <= sdist g (ps (vb p) v)) ->
        (forall v, (0 <= v < nv q0)%Z -> 0 <= sdist g (ps (vb q0) v))
        /\ (forall v, (0 <= v < nv q1)%Z -> 0 <= sdist g (ps (vb q1) v))).
Proof.
  intros Hw HM Hax Ho E. set (pl := axis_plane ax coord).
  assert (SD : forall v, @eq R (csd RN coord ax (vb p) v) (1 * sdist pl (ps (vb p) v))).
  { intros v. unfold csd, pl. rewrite axis_sdist. unfold coordv, coordR. cbn. ring. }
  assert (RT : forall v, cright RN coord ax (vb p) v = true -> 0 < sdist pl (ps (vb p) v)).
  { intros v. unfold cright. rewrite SD. cbn. intros X. apply Rltb_true in X. lra. }
  assert (RF : forall v, cright RN coord ax (vb p) v = false -> sdist pl (ps (vb p) v) <= 0).
  { intros v. unfold cright. rewrite SD. cbn. intros X. apply Rltb_false in X. lra. }
  assert (LE : forall x, sdist pl x <= 0 -> coordR ax x <= coord).
  { intros x. unfold pl. rewrite axis_sdist. lra. }
  assert (GE : forall x, 0 <= sdist pl x -> coord <= coordR ax x).
  { intros x. unfold pl. rewrite axis_sdist. lra. }
  pose proof Hw as (Hn & HL).
  destruct (split_coord_spec RN MX p o1 coord ax Hw HM Hax) as [(H0 & E')|[(H0 & A & E')|[(H0 & A & E')|(u & v & Hu & Hv & Ru & Rv & [(q' & o1' & E' & S)|(E' & _)])]]];
    rn; rewrite E' in E; inversion E; subst.
  - assert (nv q1 = 0%Z) by lia. split; auto. split. { split; [lia|]. intros v Hv. lia. } split; [lia|]. split; [lia|].
    split; [|split; [|split]].
    + intros. unfold moment2. rewrite H0, H. cbn. ring.
    + intros. lia.
    + intros. lia.
    + intros. split; intros; lia.
  - split; auto. split. { split; [cbn; lia|]. intros v Hv. cbn in Hv. lia. } split; [lia|]. split; [cbn; lia|].
    split; [|split; [|split]].
    + intros. unfold moment2 at 2. cbn. ring.
    + intros. apply LE. auto.
    + cbn. intros. lia.
    + cbn. intros. split; auto. intros; lia.
  - split. { split; [cbn; lia|]. intros v Hv. cbn in Hv. lia. } split; auto. split; [cbn; lia|]. split; [lia|].
    split; [|split; [|split]].
    + intros. unfold moment2 at 1. cbn. ring.
    + cbn. intros. lia.
    + intros. apply GE. left. auto.
    + cbn. intros. split; auto. intros; lia.
  - assert (HR : forall u v, (0 <= u < nv p)%Z -> (0 <= v < nv p)%Z -> cright RN coord ax (vb p) u = false ->
       cright RN coord ax (vb p) v = true -> sdist pl (ps (vb p) u) <> sdist pl (ps (vb p) v)).
    { intros a b _ _ Ra Rb. apply RF in Ra. apply RT in Rb. intro. lra. }
    destruct (split_result_wf RN MX p _ _ q0 q1 Hw S) as (W0 & W1 & _ & B & _). rn.
    pose proof W0 as (B0 & _). pose proof W1 as (B1 & _).
    split; auto. split; auto. split; [lia|]. split; [lia|].
    split.
    { intros i j. eapply (split_moment pl p q0 q1 (csd RN coord ax (vb p)) (cright RN coord ax (vb p)) 1 MX Hw); auto.
      eapply nz_of_differ. apply (HR u v); auto. }
    destruct (split_vertices pl p q0 q1 (csd RN coord ax (vb p)) (cright RN coord ax (vb p)) 1 MX Hw) as (V0 & V1); auto.
    split; [|split].
    + intros x Hx. apply LE. destruct (V0 x Hx) as [(y & Hy & Ry & ->)|(y & z & k & Hy & Hz & Hk & En & Ry & Rz & ->)]; auto.
      rewrite meet_on by auto. lra.
    + intros x Hx. apply GE. destruct (V1 x Hx) as [(y & Hy & Ry & ->)|(y & z & k & Hy & Hz & Hk & En & Ry & Rz & ->)].
      * left. auto.
      * rewrite meet_on by auto. lra.
    + intros g Hg. split; intros x Hx.
      * destruct (V0 x Hx) as [(y & Hy & Ry & ->)|(y & z & k & Hy & Hz & Hk & En & Ry & Rz & ->)]; auto.
        destruct (sdist_meet' pl g (ps (vb p) y) (ps (vb p) z)) as (t & Ht & ->).
        { apply RF in Ry. apply RT in Rz. lra. }
        pose proof (Hg _ Hy). pose proof (Hg _ Hz). nra.
      * destruct (V1 x Hx) as [(y & Hy & Ry & ->)|(y & z & k & Hy & Hz & Hk & En & Ry & Rz & ->)]; auto.
        destruct (sdist_meet' pl g (ps (vb p) y) (ps (vb p) z)) as (t & Ht & ->).
        { apply RF in Ry. apply RT in Rz. lra. }
        pose proof (Hg _ Hy). pose proof (Hg _ Hz). nra.
Qed.
