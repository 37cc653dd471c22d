(** * Misc2: further facts on 2D clip and split, and the buffer-overflow witnesses. *)
From Coq Require Import Reals ZArith List Bool Lia Lra Psatz.
From Verif Require Import Base Lib ModelCommon CommonFacts Model2 Spec2 Struct2 Clip2 HPoly HInt
  RealNum SumR Spec2R Mom2 Cons2.
Import ListNotations.
Open Scope R_scope.

(** ** Convex combinations *)
(** [q] is a convex combination of the vertices of [p] *)
Definition in_hull (p : pol2) (q : rvec2 R) : Prop :=
  exists w : Z -> R, (forall v, 0 <= w v) /\ lsum (zrange (nv p)) w = 1
   /\ vx q = lsum (zrange (nv p)) (fun v => w v * vx (ps (vb p) v))
   /\ vy q = lsum (zrange (nv p)) (fun v => w v * vy (ps (vb p) v)).

Lemma lsum_delta n u (f : Z -> R) : (0 <= u < n)%Z ->
  lsum (zrange n) (fun v => (if (v =? u)%Z then 1 else 0) * f v) = f u.
Proof.
  intros Hu. assert (0 <= n)%Z by lia.
  assert (X : forall m, (0 <= m)%Z -> lsum (zrange m) (fun v => (if (v =? u)%Z then 1 else 0) * f v)
     = if (u <? m)%Z then f u else 0).
  { intros m Hm. revert m Hm. apply zrange_ind.
    - cbn. destruct (Z.ltb_spec u 0); [lia|reflexivity].
    - intros m Hm IH. rewrite zrange_succ, lsum_app, IH by lia. cbn [lsum].
      destruct (Z.ltb_spec u m); destruct (Z.ltb_spec u (m + 1)); destruct (Z.eqb_spec m u); try lia; subst; lra. }
  rewrite X by lia. destruct (Z.ltb_spec u n); [reflexivity|lia].
Qed.

Lemma hull_vertex (p : pol2) u : (0 <= u < nv p)%Z -> in_hull p (ps (vb p) u).
Proof.
  intros Hu. exists (fun v => if (v =? u)%Z then 1 else 0). split.
  { intros v. destruct (v =? u)%Z; lra. }
  split; [|split; symmetry; now apply (lsum_delta (nv p) u (fun v => _ (ps (vb p) v)))].
  transitivity (lsum (zrange (nv p)) (fun v => (if (v =? u)%Z then 1 else 0) * 1)); [apply lsum_ext; intros; ring|].
  now apply (lsum_delta (nv p) u (fun _ => 1)).
Qed.

Lemma hull_combo (p : pol2) a b t : in_hull p a -> in_hull p b -> 0 <= t <= 1 ->
  in_hull p (V2 (t * vx a + (1 - t) * vx b) (t * vy a + (1 - t) * vy b)).
Proof.
  intros (w & W1 & W2 & W3 & W4) (w' & V1 & V2' & V3 & V4) Ht.
  exists (fun v => t * w v + (1 - t) * w' v). split.
  { intros v. pose proof (W1 v). pose proof (V1 v). nra. }
  assert (LS : forall f, lsum (zrange (nv p)) (fun v => (t * w v + (1 - t) * w' v) * f v)
     = t * lsum (zrange (nv p)) (fun v => w v * f v) + (1 - t) * lsum (zrange (nv p)) (fun v => w' v * f v)).
  { intros f. rewrite <- !lsum_scal, <- lsum_add. apply lsum_ext. intros. ring. }
  split; [|cbn [vx vy]; rewrite W3, V3, W4, V4, !LS; auto].
  pose proof (LS (fun _ => 1)) as L.
  rewrite (lsum_ext _ (fun v => (t * w v + (1 - t) * w' v) * 1) (fun v => t * w v + (1 - t) * w' v)) in L by (intros; ring).
  rewrite L. rewrite (lsum_ext _ (fun v => w v * 1) w), (lsum_ext _ (fun v => w' v * 1) w') by (intros; ring).
  rewrite W2, V2'. ring.
Qed.

Lemma meet_combo pl a b : 0 <= sdist pl a -> sdist pl b < 0 ->
  exists t, 0 <= t <= 1 /\ meet pl a b = V2 (t * vx a + (1 - t) * vx b) (t * vy a + (1 - t) * vy b).
Proof.
  intros A B. exists (- sdist pl b / (sdist pl a - sdist pl b)). split.
  - split.
    + apply Rmult_le_pos; [lra|]. left. apply Rinv_0_lt_compat. lra.
    + apply (Rmult_le_reg_r (sdist pl a - sdist pl b)); [lra|]. unfold Rdiv. rewrite Rmult_assoc, Rinv_l by lra. lra.
  - unfold meet, wav2. cbn. f_equal; field; lra.
Qed.

Lemma clip_planes_hull MX (planes : list (plane2 R)) (p0 : pol2) : forall (p p' : pol2), wf2 p -> (nv p <= MX)%Z ->
  clip_planes RN MX planes p = OK p' ->
  (forall v, (0 <= v < nv p)%Z -> in_hull p0 (ps (vb p) v)) ->
  forall v, (0 <= v < nv p')%Z -> in_hull p0 (ps (vb p') v).
Proof.
  induction planes as [|pl rest IH]; intros p p' Hw HM E Hg.
  { cbn in E. inversion E; subst. auto. }
  destruct (clip_step_R MX pl rest p Hw HM) as [(A & E')|[(A & B & E')|(A & B & [(q & C & W & M & R & E')|(E' & C)])]];
    rn; rewrite E' in E.
  - eauto.
  - inversion E; subst. cbn. intros. lia.
  - apply (IH q p'); auto. intros v Hv.
    destruct (cutR_vertex pl p q (proj2 Hw) C v Hv) as [(u & Hu & Su & ->)|(u & k & Hu & Hk & Hx & Su & Sx & ->)]; auto.
    destruct (meet_combo pl _ _ Su Sx) as (t & Ht & ->). apply hull_combo; auto.
  - discriminate.
Qed.

(** ** The entry point [r2d_clip] *)
Lemma r2d_clip_R MX (planes : list (plane2 R)) (p p' : pol2) : wf2 p -> (nv p <= MX)%Z ->
  r2d_clip RN MX p planes = OK p' ->
  inside_all planes p' /\ forall v, (0 <= v < nv p')%Z -> in_hull p (ps (vb p') v).
Proof.
  intros Hw HM E. unfold r2d_clip in E. rn. destruct (Z.leb_spec (nv p) 0) as [L|L].
  - injection E as <-. split; [intros v pl Hv; lia|intros v Hv; lia].
  - split.
    + now apply (clip_planes_inside MX planes p p').
    + apply (clip_planes_hull MX planes p p p'); auto. intros. now apply hull_vertex.
Qed.

Lemma r2d_clip_inside_id MX (planes : list (plane2 R)) (p : pol2) : wf2 p -> (nv p <= MX)%Z ->
  inside_all planes p -> r2d_clip RN MX p planes = OK p.
Proof.
  intros Hw HM Hi. unfold r2d_clip. rn. destruct (Z.leb_spec (nv p) 0) as [L|L]; auto.
  induction planes as [|pl rest IH]; auto.
  assert (A0 : forall v, (0 <= v < nv p)%Z -> 0 <= sdist pl (ps (vb p) v)) by (intros v Hv; apply Hi; [auto|now left]).
  destruct (clip_step_R MX pl rest p Hw HM) as [(A & E')|[(A & (v & Hv & B) & E')|((v & Hv & B) & _)]].
  - rn. rewrite E'. apply IH. intros v q Hv Hq. apply Hi; auto. now right.
  - pose proof (A0 v Hv). lra.
  - pose proof (A0 v Hv). lra.
Qed.

Lemma r2d_clip_outside1 MX (pl : plane2 R) rest (p : pol2) : wf2 p -> (nv p <= MX)%Z ->
  (forall v, (0 <= v < nv p)%Z -> sdist pl (ps (vb p) v) <= 0) ->
  (exists v, (0 <= v < nv p)%Z /\ sdist pl (ps (vb p) v) < 0) ->
  r2d_clip RN MX p (pl :: rest) = OK (PY (vb p) 0%Z).
Proof.
  intros Hw HM Ha (v & Hv & Hs). unfold r2d_clip. rn. destruct (Z.leb_spec (nv p) 0) as [L|L]; [lia|].
  destruct (clip_step_R MX pl rest p Hw HM) as [(A & E')|[(_ & _ & E')|(_ & (u & Hu & B) & _)]].
  - pose proof (A v Hv). lra.
  - exact E'.
  - pose proof (Ha u Hu). lra.
Qed.

Lemma fin_max (f : Z -> R) n : (0 < n)%Z -> exists u, (0 <= u < n)%Z /\ forall v, (0 <= v < n)%Z -> f v <= f u.
Proof.
  intros Hn. assert (X : forall m, (0 <= m)%Z -> (0 < m)%Z -> exists u, (0 <= u < m)%Z /\ forall v, (0 <= v < m)%Z -> f v <= f u).
  { apply (zrange_ind (fun m => (0 < m)%Z -> exists u, (0 <= u < m)%Z /\ forall v, (0 <= v < m)%Z -> f v <= f u)); [lia|].
    intros m Hm IH _. destruct (Z.eq_dec m 0) as [->|Hm0].
    - exists 0%Z. split; [lia|]. intros v Hv. replace v with 0%Z by lia. lra.
    - destruct IH as (u & Hu & Hm'); [lia|]. destruct (Rle_lt_dec (f m) (f u)).
      + exists u. split; [lia|]. intros v Hv. destruct (Z.eq_dec v m) as [->|]; auto. apply Hm'. lia.
      + exists m. split; [lia|]. intros v Hv. destruct (Z.eq_dec v m) as [->|]; [lra|].
        pose proof (Hm' v ltac:(lia)). lra. }
  apply X; lia.
Qed.

(** strictly outside any one of the planes: empty *)
Lemma r2d_clip_outside MX (planes : list (plane2 R)) (p p' : pol2) : wf2 p -> (nv p <= MX)%Z ->
  r2d_clip RN MX p planes = OK p' ->
  (exists pl, In pl planes /\ forall v, (0 <= v < nv p)%Z -> sdist pl (ps (vb p) v) < 0) -> nv p' = 0%Z.
Proof.
  intros Hw HM E (pl & Hpl & Ho). unfold r2d_clip in E. rn. destruct (Z.leb_spec (nv p) 0) as [L|L].
  { inversion E; subst. destruct Hw. lia. }
  destruct (clip_planes_struct RN MX planes p Hw HM) as [(p2 & E2 & (Hn2 & _) & _)|(E2 & _)]; rn; [|congruence].
  rewrite E2 in E. inversion E; subst p2.
  destruct (Z.eq_dec (nv p') 0); auto. exfalso.
  destruct (fin_max (fun v => sdist pl (ps (vb p) v)) (nv p)) as (u & Hu & Hmax); [lia|].
  set (e := sdist pl (ps (vb p) u)) in *. assert (e < 0) by (apply Ho; auto).
  pose (g := PL2 (V2 (- vx (pn pl)) (- vy (pn pl))) (- pd pl + e) : plane2 R).
  assert (G : forall q, sdist g q = e - sdist pl q) by (intros; unfold g, sdist; cbn; ring).
  assert (0 <= sdist g (ps (vb p') 0%Z)).
  { apply (clip_planes_halfplane MX planes g p p'); auto; [|lia]. intros v Hv. rewrite G. pose proof (Hmax v Hv). lra. }
  assert (0 <= sdist pl (ps (vb p') 0%Z)).
  { apply (clip_planes_inside MX planes p p'); auto. lia. }
  rewrite G in *. lra.
Qed.

Lemma r2d_clip_nil MX (NN : num) (p : poly (rvec2 (T NN))) : r2d_clip NN MX p [] = OK p.
Proof. unfold r2d_clip. now destruct (nv p <=? 0)%Z. Qed.
Lemma r2d_clip_empty MX (NN : num) (p : poly (rvec2 (T NN))) planes : nv p = 0%Z -> r2d_clip NN MX p planes = OK p.
Proof. intros E. unfold r2d_clip. now rewrite E. Qed.

(** conservation for [r2d_clip] *)
Lemma r2d_clip_conserves MX (pre : list (plane2 R)) pl (p p0 p1 p2 : pol2) i j :
  vx (pn pl) <> 0 \/ vy (pn pl) <> 0 -> wf2 p -> (nv p <= MX)%Z ->
  r2d_clip RN MX p pre = OK p0 -> r2d_clip RN MX p (pre ++ [pl]) = OK p1 -> r2d_clip RN MX p (pre ++ [flip pl]) = OK p2 ->
  moment2 p1 i j + moment2 p2 i j = moment2 p0 i j.
Proof.
  intros Hz Hw HM. unfold r2d_clip. rn. destruct (Z.leb_spec (nv p) 0) as [L|L].
  - intros E0 E1 E2. inversion E0; inversion E1; inversion E2; subst. unfold moment2.
    assert (nv p2 = 0%Z) as -> by (destruct Hw; lia). cbn. ring.
  - intros. eapply (clip_conserves MX pre pl p p0 p1 p2); eauto.
Qed.

(** ** split as a list operation *)
Lemma r2d_split_list NN MX pl ps0 rs : r2d_split NN MX pl ps0 = OK rs <->
  Forall2 (fun x r => r2d_split1 NN MX pl (fst x) (fst (snd x)) (snd (snd x)) = OK r) ps0 rs.
Proof.
  revert rs. induction ps0 as [|[p [a b]] rest IH]; intros rs; cbn [r2d_split].
  - split; intros X; [inversion X; constructor|inversion X; reflexivity].
  - split; intros X.
    + destruct (r2d_split1 NN MX pl p a b) eqn:E; cbn [bind] in X; [|discriminate].
      destruct (r2d_split NN MX pl rest) eqn:E'; cbn [bind] in X; [|discriminate].
      inversion X; subst. constructor; auto. apply IH. auto.
    + inversion X as [|x r xs rs' H1 H2]; subst. cbn [fst snd] in H1. rewrite H1. cbn [bind].
      apply IH in H2. rewrite H2. reflexivity.
Qed.

Lemma split1_struct NN MX pl (p opos oneg q o0 o1 : poly (rvec2 (T NN))) : wf2 p -> (nv p <= MX)%Z ->
  r2d_split1 NN MX pl p opos oneg = OK (q, (o0, o1)) ->
  wf2 o0 /\ wf2 o1 /\ (nv o0 <= MX)%Z /\ (nv o1 <= MX)%Z
  /\ (distinct2 (nb (vb p)) (nv p) -> distinct2 (nb (vb o0)) (nv o0) /\ distinct2 (nb (vb o1)) (nv o1)).
Proof.
  intros Hw HM E.
  assert (W0 : forall b : vbuf (rvec2 (T NN)), wf2 (PY b 0)) by (intros b; split; cbn; [lia|intros v Hv; lia]).
  assert (D0 : forall b : vbuf (rvec2 (T NN)), distinct2 (nb b) 0) by (intros b v Hv; lia).
  destruct (split1_spec NN MX pl p opos oneg Hw HM) as [(A & E')|[(A & B & E')|[(A & B & E')|(u & v & Hu & Hv & Ru & Rv & [(q' & a & b & E' & S)|(E' & _)])]]];
    rewrite E' in E; inversion E; subst; unfold zero_poly; cbn [nv vb]; clear E.
  - split; [apply W0|]. split; [apply W0|]. split; [lia|]. split; [lia|]. split; intros x Hx; lia.
  - split; [auto|]. split; [apply W0|]. split; [lia|]. split; [lia|]. split; [auto|]. intros x Hx; lia.
  - split; [apply W0|]. split; [auto|]. split; [lia|]. split; [lia|]. split; [|auto]. intros x Hx; lia.
  - destruct (split_result_wf NN MX p _ _ o0 o1 Hw S) as (X1 & X2 & X3 & X4 & X5).
    destruct X1 as (Y1 & Y2), X2 as (Z1 & Z2). split; [split; auto|]. split; [split; auto|]. split; [lia|]. split; [lia|]. auto.
Qed.
