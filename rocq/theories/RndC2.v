(** * RndC2: [r2d_clip], [r2d_split] and [r2d_split_coord] in rounded arithmetic. *)
From Coq Require Import Reals ZArith List Bool Lia Lra Psatz.
From Verif Require Import Base Lib SumR ModelCommon CommonFacts RealNum Model2 Spec2 Spec2R Struct2 Clip2 Mom2 Cons2 SpecC2 RastC2 RndNum SpecR2.
Import ListNotations.
Open Scope R_scope.

(** ** Where the vertices of a cut come from *)
Lemma cut2_vertex (p q : pol2) N b' K np : cut2 (vb p) (nv p) N K np b' -> compressed 2 K N b' q ->
  forall v, (0 <= v < nv q)%Z ->
   (exists a, (0 <= a < nv p)%Z /\ K a = true /\ ps (vb q) v = ps (vb p) a)
   \/ (exists w k, (0 <= w < nv p)%Z /\ (0 <= k < 2)%Z /\ K w = true /\ K (nb (vb p) w k) = false /\ ps (vb q) v = np w k).
Proof.
  intros C (P0 & Q0) v Hv. pose proof (c_n _ _ _ _ _ _ C) as HN. rewrite P0 in Hv. destruct (cnt_surj K N v) as (a & Ha & Ka & <-); [lia|lia|].
  destruct (Q0 a Ha Ka) as (-> & _). destruct (Z_lt_le_dec a (nv p)) as [L|L].
  - left. exists a. split; [lia|]. split; auto. apply (c_ps _ _ _ _ _ _ C). lia.
  - right. destruct (c_src _ _ _ _ _ _ C a ltac:(lia) Ka) as (w & k & Hw' & Hk & Kw & Kx & E & _).
    destruct (c_new _ _ _ _ _ _ C w k Hw' Hk Kw Kx) as (_ & Y). rewrite E in Y. exists w, k. auto.
Qed.
Lemma cut2_kept (p q : pol2) N b' K np : cut2 (vb p) (nv p) N K np b' -> compressed 2 K N b' q ->
  forall v, (0 <= v < nv p)%Z -> K v = true -> exists v', (0 <= v' < nv q)%Z /\ ps (vb q) v' = ps (vb p) v.
Proof.
  intros C (P0 & Q0) v Hv Kv. pose proof (c_n _ _ _ _ _ _ C) as HN. exists (cnt K v).
  split; [rewrite P0; split; [apply cnt_nonneg|apply cnt_lt; auto; lia]|].
  destruct (Q0 v ltac:(lia) Kv) as (-> & _). apply (c_ps _ _ _ _ _ _ C). auto.
Qed.

Definition lerp2 (t : R) (a b : rvec2 R) : rvec2 R := V2 ((1 - t) * vx a + t * vx b) ((1 - t) * vy a + t * vy b).
Lemma sdist_lerp2 g t a b : sdist g (lerp2 t a b) = (1 - t) * sdist g a + t * sdist g b.
Proof. unfold sdist, lerp2. cbn [vx vy]. ring. Qed.
Lemma hull2_lerp p t a b : hull2 p a -> hull2 p b -> 0 <= t <= 1 -> hull2 p (lerp2 t a b).
Proof. intros A B Ht pl H. rewrite sdist_lerp2. pose proof (A pl H). pose proof (B pl H). nra. Qed.

Section Rnd.
Context (u : R) (rnd : R -> R) (HA : accurate u rnd) (Hu : 0 <= u <= 1 / 10).
Notation FR := (FN rnd).

Definition rsd2 (pl : plane2 R) (p : pol2) (v : Z) : R := sdf FR pl (vb p) v.
Definition rside2 (pl : plane2 R) (p : pol2) (v : Z) : R := sidesd FR pl (vb p) v.

Lemma pow3 : (1 + u) ^ 3 - 1 <= 5 * u.
Proof. cbn [pow]. nra. Qed.
Lemma pow5 : (1 + u) ^ 5 - 1 <= 7 * u.
Proof.
  cbn [pow]. assert (u * u <= u * (1 / 10)) by (apply Rmult_le_compat_l; lra).
  assert (u * u * u <= u * (1 / 100)) by nra. assert (u * u * u * u <= u * (1 / 1000)) by nra. assert (u * u * u * u * u <= u * (1 / 10000)) by nra. nra.
Qed.
Lemma normal_size2_pos g : 0 <= normal_size2 g.
Proof. unfold normal_size2. pose proof (Rabs_pos (vx (pn g))). pose proof (Rabs_pos (vy (pn g))). lra. Qed.
Lemma plane_size2_pos g m : 0 <= m -> 0 <= plane_size2 g m.
Proof. intros. unfold plane_size2. pose proof (Rabs_pos (pd g)). pose proof (normal_size2_pos g). assert (0 <= normal_size2 g * m) by (apply Rmult_le_pos; auto). lra. Qed.

Lemma rsd2_n pl (p : pol2) v m : within_abs2 m (ps (vb p) v) -> near u 3 (rsd2 pl p v) (sdist pl (ps (vb p) v)) (plane_size2 pl m).
Proof.
  destruct (ps (vb p) v) as [x y] eqn:Ev. unfold within_abs2. cbn [vx vy]. intros (Hx & Hy).
  unfold rsd2, sdf. change (T FR) with R. rewrite Ev. destruct pl as [[a b] d]. unfold sdist, dot2, plane_size2, normal_size2. cbn [vx vy pn pd nadd nmul FN T].
  pose proof (near_mul u rnd HA Hu 0 0 _ _ _ _ _ _ (near_exact u x m Hx) (near_exact u a _ (Rle_refl _))) as N1.
  pose proof (near_mul u rnd HA Hu 0 0 _ _ _ _ _ _ (near_exact u y m Hy) (near_exact u b _ (Rle_refl _))) as N2.
  cbn [Nat.add] in *.
  pose proof (near_add u rnd HA Hu _ _ _ _ _ _ _ N1 N2) as N4.
  pose proof (near_add u rnd HA Hu _ _ _ _ _ _ _ (near_mono u Hu _ 2 _ _ _ _ (near_exact u d _ (Rle_refl _)) ltac:(lia) (Rle_refl _)) N4) as N6.
  replace (d + (a * x + b * y)) with (d + (x * a + y * b)) by ring.
  replace (Rabs d + (Rabs a + Rabs b) * m) with (Rabs d + (m * Rabs a + m * Rabs b)) by ring. exact N6.
Qed.
Lemma within_pos m x : within_abs2 m x -> 0 <= m.
Proof. intros (H & _). pose proof (Rabs_pos (vx x)). lra. Qed.
Lemma rsd2_near pl (p : pol2) v m : within_abs2 m (ps (vb p) v) -> Rabs (rsd2 pl p v - sdist pl (ps (vb p) v)) <= 5 * u * plane_size2 pl m.
Proof.
  intros H. destruct (rsd2_n pl p v m H) as (N & _). eapply Rle_trans; [exact N|]. apply Rmult_le_compat_r; [|apply pow3].
  apply plane_size2_pos. eapply within_pos; eauto.
Qed.
Lemma rside2_near pl (p : pol2) v m : within_abs2 m (ps (vb p) v) -> Rabs (rside2 pl p v - sdist (flip pl) (ps (vb p) v)) <= 7 * u * plane_size2 pl m.
Proof.
  intros H. pose proof (rsd2_n pl p v m H) as N.
  assert (M1 : near u 1 (rnd (IZR (-1))) (-1) 1). { apply (near_rnd u rnd HA Hu). apply near_exact. rewrite Rabs_left; lra. }
  pose proof (near_mul u rnd HA Hu _ _ _ _ _ _ _ _ N M1) as (N2 & _). cbn [Nat.add] in N2.
  unfold flip, sdist. cbn [pn pd vx vy].
  change (rside2 pl p v) with (rnd (rsd2 pl p v * rnd (IZR (-1)))).
  replace (- pd pl + (- vx (pn pl) * vx (ps (vb p) v) + - vy (pn pl) * vy (ps (vb p) v))) with (sdist pl (ps (vb p) v) * -1) by (unfold sdist; ring).
  eapply Rle_trans; [exact N2|]. rewrite Rmult_1_r. apply Rmult_le_compat_r; [|apply pow5]. apply plane_size2_pos. eapply within_pos; eauto.
Qed.
Lemma csd2_near coord ax m (p : pol2) v : within_abs2 m (ps (vb p) v) ->
  Rabs (csd FR coord ax (vb p) v - sdist (axis_plane ax coord) (ps (vb p) v)) <= 7 * u * plane_size2 (axis_plane ax coord) m.
Proof.
  intros HW. pose proof (within_pos _ _ HW) as M0. destruct HW as (H1 & H2). rewrite axis_sdist. change (csd FR coord ax (vb p) v) with (rnd (coordR ax (ps (vb p) v) - coord)).
  assert (CB : Rabs (coordR ax (ps (vb p) v)) <= m) by (unfold coordR; destruct (ax =? 0)%Z; auto).
  assert (PS : plane_size2 (axis_plane ax coord) m = Rabs coord + m).
  { unfold plane_size2, normal_size2, axis_plane. destruct (ax =? 0)%Z; cbn [pd pn vx vy]; rewrite Rabs_Ropp, Rabs_R0, Rabs_R1; ring. }
  rewrite PS. eapply Rle_trans; [apply (rnd_near u rnd HA Hu _ (Rabs coord + m))|].
  - unfold Rminus. eapply Rle_trans; [apply Rabs_triang|]. rewrite Rabs_Ropp. lra.
  - pose proof (Rabs_pos coord). assert (0 <= u * (Rabs coord + m)) by (apply Rmult_le_pos; lra). lra.
Qed.

Lemma clip_step_F MX (pl : plane2 R) (rest : list (plane2 R)) (p : pol2) : wf2 p -> (nv p <= MX)%Z ->
  ((forall v, (0 <= v < nv p)%Z -> 0 <= rsd2 pl p v)
     /\ clip_planes FR MX (pl :: rest) p = clip_planes FR MX rest p)
  \/ ((forall v, (0 <= v < nv p)%Z -> rsd2 pl p v <= 0)
     /\ clip_planes FR MX (pl :: rest) p = OK (PY (vb p) 0%Z))
  \/ (exists p' N b' K, (forall v, (0 <= v < nv p)%Z -> K v = Rleb 0 (rsd2 pl p v))
      /\ cut2 (vb p) (nv p) N K (newpos2 FR (vb p) (rsd2 pl p)) b' /\ compressed 2 K N b' p' /\ wf2 p' /\ (nv p' <= MX)%Z
           /\ clip_planes FR MX (pl :: rest) p = clip_planes FR MX rest p')
  \/ clip_planes FR MX (pl :: rest) p = Err OutOfBounds.
Proof.
  intros Hw HM. pose proof Hw as (Hn & HL). cbn [clip_planes].
  destruct (clip_sd_spec FR MX (vb p) (nv p) pl) as (s & E & _ & _ & _ & Emin & Emax); [lia|].
  change (T FR) with R in *. rewrite E. cbn [bind].
  assert (BP : 0 < rnd (10 ^ 30)) by (apply (rnd_pos u rnd HA Hu); lra).
  change (nle FR (n0 FR) (smin FR s)) with (Rleb 0 (smin FR s)).
  change (nle FR (smax FR s) (n0 FR)) with (Rleb (smax FR s) 0).
  destruct (Rleb 0 (smin FR s)) eqn:E1.
  { left. split; auto. rewrite Emin in E1. apply (minf_R (sdf FR pl (vb p))) in E1 as (_ & X). exact X. }
  right. destruct (Rleb (smax FR s) 0) eqn:E2.
  { left. split; auto. rewrite Emax in E2. apply (maxf_R (sdf FR pl (vb p))) in E2 as (_ & X). exact X. }
  right. destruct (clip_step_spec FR MX p pl s Hw HM E) as [(p' & N & b' & K & Q1 & Q2 & Q3 & Q4 & Q5 & Q6 & Q7)|(Q1 & Q2)].
  - left. exists p', N, b', K. split; [|split; [exact Q6|split; [exact Q7|split; [exact (compressed_linked _ _ _ _ _ _ _ Q6 Q7)|split]]]].
    + intros v Hv. rewrite Q4 by auto. change (negb (Rltb (rsd2 pl p v) 0) = Rleb 0 (rsd2 pl p v)).
      unfold Rleb, Rltb. destruct (Rle_dec 0 (rsd2 pl p v)), (Rlt_dec (rsd2 pl p v) 0); auto; exfalso; lra.
    + pose proof (proj1 Q7) as X. change (T FR) with R in *. rewrite X. pose proof (c_n _ _ _ _ _ _ Q6). pose proof (cnt_le K N). lia.
    + change (T FR) with R in *. rewrite Q1. reflexivity.
  - right. change (T FR) with R in *. rewrite Q1. reflexivity.
Qed.

Lemma combo_abs2 c a b m : 0 <= c <= 1 -> Rabs a <= m -> Rabs b <= m -> Rabs ((1 - c) * a + c * b) <= m.
Proof.
  intros Hc Ha Hb. eapply Rle_trans; [apply Rabs_triang|]. rewrite !Rabs_mult, (Rabs_pos_eq c), (Rabs_pos_eq (1 - c)) by lra. nra.
Qed.
Lemma combo_near2 c a b a' b' e : 0 <= c <= 1 -> Rabs (a - a') <= e -> Rabs (b - b') <= e ->
  Rabs ((1 - c) * a + c * b - ((1 - c) * a' + c * b')) <= e.
Proof.
  intros Hc Ha Hb. replace ((1 - c) * a + c * b - ((1 - c) * a' + c * b')) with ((1 - c) * (a - a') + c * (b - b')) by ring.
  now apply combo_abs2.
Qed.
Lemma sdist_near2 g x y e : near2 e x y -> Rabs (sdist g x - sdist g y) <= normal_size2 g * e.
Proof.
  intros (H1 & H2). unfold sdist, normal_size2.
  replace (pd g + (vx (pn g) * vx x + vy (pn g) * vy x) - (pd g + (vx (pn g) * vx y + vy (pn g) * vy y)))
    with (vx (pn g) * (vx x - vx y) + vy (pn g) * (vy x - vy y)) by ring.
  eapply Rle_trans; [apply Rabs_triang|]. rewrite !Rabs_mult.
  pose proof (Rabs_pos (vx (pn g))). pose proof (Rabs_pos (vy (pn g))). nra.
Qed.
Lemma near2_trans x y z a b : near2 a x y -> near2 b y z -> near2 (a + b) x z.
Proof.
  intros (X1 & X2) (Y1 & Y2).
  assert (G : forall p q r, Rabs (p - q) <= a -> Rabs (q - r) <= b -> Rabs (p - r) <= a + b).
  { intros p q r H H'. replace (p - r) with ((p - q) + (q - r)) by ring. eapply Rle_trans; [apply Rabs_triang|]. lra. }
  split; eauto.
Qed.
Lemma lerp2_within c a b m : 0 <= c <= 1 -> within_abs2 m a -> within_abs2 m b -> within_abs2 m (lerp2 c a b).
Proof. intros Hc (A1 & A2) (B1 & B2). unfold within_abs2, lerp2. cbn [vx vy]. split; now apply combo_abs2. Qed.
Lemma lerp2_near c a b a' b' e : 0 <= c <= 1 -> near2 e a a' -> near2 e b b' -> near2 e (lerp2 c a b) (lerp2 c a' b').
Proof. intros Hc (A1 & A2) (B1 & B2). unfold near2, lerp2. cbn [vx vy]. split; now apply combo_near2. Qed.
Lemma near2_within x y e m : near2 e x y -> within_abs2 m y -> within_abs2 (m + e) x.
Proof.
  intros (X1 & X2) (Y1 & Y2).
  assert (G : forall p q, Rabs (p - q) <= e -> Rabs q <= m -> Rabs p <= m + e).
  { intros p q H H'. replace p with ((p - q) + q) by ring. eapply Rle_trans; [apply Rabs_triang|]. lra. }
  split; eauto.
Qed.
Lemma near2_mono x y e e' : near2 e x y -> e <= e' -> near2 e' x y.
Proof. intros (X1 & X2) H. split; lra. Qed.
Lemma near2_refl x : near2 0 x x.
Proof. unfold near2. rewrite !Rminus_eq_0, Rabs_R0. lra. Qed.
Lemma within2_mono a b x : within_abs2 a x -> a <= b -> within_abs2 b x.
Proof. intros (X & Y) H. split; lra. Qed.

Lemma weights2 sa sb : (0 <= sa /\ sb < 0) \/ (sa <= 0 /\ 0 < sb) -> 0 <= sa / (sa - sb) <= 1 /\ (1 - sa / (sa - sb)) * sa + sa / (sa - sb) * sb = 0.
Proof.
  intros H. split; [|field; lra]. destruct H as [(H1 & H2)|(H1 & H2)].
  - split; [apply Rmult_le_pos; [lra|left; apply Rinv_0_lt_compat; lra]|].
    apply Rmult_le_reg_r with (sa - sb); [lra|]. unfold Rdiv. rewrite Rmult_assoc, Rinv_l by lra. lra.
  - replace (sa / (sa - sb)) with (- sa / (sb - sa)) by (field; lra). split; [apply Rmult_le_pos; [lra|left; apply Rinv_0_lt_compat; lra]|].
    apply Rmult_le_reg_r with (sb - sa); [lra|]. unfold Rdiv. rewrite Rmult_assoc, Rinv_l by lra. lra.
Qed.
Lemma wav2_near sa sb a b m : (0 <= sa /\ sb < 0) \/ (sa <= 0 /\ 0 < sb) -> within_abs2 m a -> within_abs2 m b ->
  near2 (5 * u * m) (wav2 FR a (- sb) b sa) (lerp2 (sa / (sa - sb)) a b).
Proof.
  intros H (A1 & A2) (B1 & B2). unfold near2, lerp2, wav2. cbn [vx vy nadd nmul ndiv FN].
  assert (G : forall x y, (1 - sa / (sa - sb)) * x + sa / (sa - sb) * y = (- sb * x + sa * y) / (- sb + sa)) by (intros; field; lra).
  rewrite !G. split; (apply (wav_near u rnd HA Hu); auto; lra).
Qed.

(** ** One cut *)
Definition from_cut2 (s : Z -> R) (p : pol2) (m : R) (pick : Z -> Prop) (q : pol2) : Prop := forall v, (0 <= v < nv q)%Z ->
  (exists a, (0 <= a < nv p)%Z /\ pick a /\ ps (vb q) v = ps (vb p) a)
  \/ (exists a b c, (0 <= a < nv p)%Z /\ (0 <= b < nv p)%Z /\ 0 <= c <= 1 /\ (1 - c) * s a + c * s b = 0
       /\ near2 (5 * u * m) (ps (vb q) v) (lerp2 c (ps (vb p) a) (ps (vb p) b))).

Section Cut.
Context (s : Z -> R) (p q : pol2) (m : R) (pick : Z -> Prop).
Hypothesis Hm0 : 0 <= m.
Hypothesis Hm : forall v, (0 <= v < nv p)%Z -> within_abs2 m (ps (vb p) v).
Hypothesis HC : from_cut2 s p m pick q.

Let um : 0 <= 5 * u * m. Proof. apply Rmult_le_pos; lra. Qed.

Lemma cut2F_within v : (0 <= v < nv q)%Z -> within_abs2 (m + 5 * u * m) (ps (vb q) v).
Proof.
  intros Hv. destruct (HC v Hv) as [(a & Ha & Ka & ->)|(a & b & c & Ha & Hb & Hc & _ & NR)].
  - destruct (Hm a Ha) as (X & Y). split; lra.
  - eapply near2_within; [exact NR|]. apply lerp2_within; auto.
Qed.
Lemma cut2F_hull (p0 : pol2) e : (forall v, (0 <= v < nv p)%Z -> exists x, hull2 p0 x /\ near2 e (ps (vb p) v) x) -> 
  forall v, (0 <= v < nv q)%Z -> exists x, hull2 p0 x /\ near2 (e + 5 * u * m) (ps (vb q) v) x.
Proof.
  intros HI v Hv. destruct (HC v Hv) as [(a & Ha & Ka & ->)|(a & b & c & Ha & Hb & Hc & _ & NR)].
  - destruct (HI a Ha) as (x & X1 & X2). exists x. split; auto. eapply near2_mono; [exact X2|lra].
  - destruct (HI a Ha) as (x & X1 & X2). destruct (HI b Hb) as (y & Y1 & Y2). exists (lerp2 c x y).
    split; [now apply hull2_lerp|]. rewrite Rplus_comm. eapply near2_trans; [exact NR|]. now apply lerp2_near.
Qed.
Lemma cut2F_old g t : (forall v, (0 <= v < nv p)%Z -> - t <= sdist g (ps (vb p) v)) ->
  forall v, (0 <= v < nv q)%Z -> - (t + normal_size2 g * (5 * u * m)) <= sdist g (ps (vb q) v).
Proof.
  intros HI v Hv. destruct (HC v Hv) as [(a & Ha & Ka & ->)|(a & b & c & Ha & Hb & Hc & _ & NR)].
  - pose proof (HI a Ha). pose proof (normal_size2_pos g). assert (0 <= normal_size2 g * (5 * u * m)) by (apply Rmult_le_pos; auto). lra.
  - pose proof (sdist_near2 g _ _ _ NR) as SS. apply rabs_inv in SS. rewrite sdist_lerp2 in SS.
    pose proof (HI a Ha). pose proof (HI b Hb). nra.
Qed.
Context (pl : plane2 R) (t : R).
Hypothesis Hs : forall v, (0 <= v < nv p)%Z -> Rabs (s v - sdist pl (ps (vb p) v)) <= t.
Lemma cut2F_new v : (0 <= v < nv q)%Z -> 
  ((forall a, (0 <= a < nv p)%Z -> pick a -> 0 <= s a) -> - (t + normal_size2 pl * (5 * u * m)) <= sdist pl (ps (vb q) v))
  /\ ((forall a, (0 <= a < nv p)%Z -> pick a -> s a <= 0) -> sdist pl (ps (vb q) v) <= t + normal_size2 pl * (5 * u * m)).
Proof.
  intros Hv. pose proof (normal_size2_pos pl). assert (0 <= normal_size2 pl * (5 * u * m)) by (apply Rmult_le_pos; auto).
  destruct (HC v Hv) as [(a & Ha & Ka & ->)|(a & b & c & Ha & Hb & Hc & HZ & NR)].
  - pose proof (Hs a Ha) as SS. apply rabs_inv in SS. split; intros HP; pose proof (HP a Ha Ka); lra.
  - pose proof (sdist_near2 pl _ _ _ NR) as SS. apply rabs_inv in SS. rewrite sdist_lerp2 in SS.
    pose proof (Hs a Ha) as S1. apply rabs_inv in S1. pose proof (Hs b Hb) as S2. apply rabs_inv in S2.
    set (sa := sdist pl (ps (vb p) a)) in *. set (sb := sdist pl (ps (vb p) b)) in *.
    assert ((1 - c) * (s a - t) <= (1 - c) * sa <= (1 - c) * (s a + t)) by (split; apply Rmult_le_compat_l; lra).
    assert (c * (s b - t) <= c * sb <= c * (s b + t)) by (split; apply Rmult_le_compat_l; lra). split; intros; lra.
Qed.
End Cut.

Lemma cut2_from (s : Z -> R) (p q : pol2) m K np N b' : wf2 p -> (forall v, (0 <= v < nv p)%Z -> within_abs2 m (ps (vb p) v)) ->
  cut2 (vb p) (nv p) N K np b' -> compressed 2 K N b' q ->
  (forall w k, (0 <= w < nv p)%Z -> (0 <= k < 2)%Z -> K w = true -> K (nb (vb p) w k) = false -> exists a b, (0 <= a < nv p)%Z /\ (0 <= b < nv p)%Z
     /\ ((0 <= s a /\ s b < 0) \/ (s a <= 0 /\ 0 < s b)) /\ np w k = wav2 FR (ps (vb p) a) (- s b) (ps (vb p) b) (s a)) ->
  from_cut2 s p m (fun v => K v = true) q.
Proof.
  intros Hw Hm C P HX v Hv. destruct (cut2_vertex p q _ _ _ _ C P v Hv) as [(a & Ha & Ka & E)|(w & k & Hw' & Hk & Kw & Kx & E)].
  - left. eauto.
  - right. destruct (HX w k Hw' Hk Kw Kx) as (a & b & Ha & Hb & SG & E'). rewrite E, E'. destruct (weights2 _ _ SG) as (W1 & W2).
    exists a, b, (s a / (s a - s b)). split; [auto|]. split; [auto|]. split; [auto|]. split; [auto|]. apply wav2_near; auto.
Qed.

(** ** All planes *)
Lemma plane_size2_mono g a b : a <= b -> plane_size2 g a <= plane_size2 g b.
Proof. intros H. unfold plane_size2. pose proof (normal_size2_pos g). nra. Qed.
Definition drift2 (k : nat) : R := (1 + 5 * u) ^ k.
Lemma drift2_ge k : 1 <= drift2 k.
Proof. apply pow_R1_Rle. lra. Qed.
Lemma drift2_S k : drift2 (S k) = drift2 k + 5 * u * drift2 k.
Proof. unfold drift2. cbn [pow]. ring. Qed.

Definition inv2 (p0 : pol2) (M Mn m : R) (done : list (plane2 R)) (p : pol2) : Prop :=
  (forall v, (0 <= v < nv p)%Z -> within_abs2 m (ps (vb p) v))
  /\ (forall v, (0 <= v < nv p)%Z -> exists x, hull2 p0 x /\ near2 (m - M) (ps (vb p) v) x)
  /\ (forall v g, (0 <= v < nv p)%Z -> In g done -> - (5 * u * plane_size2 g Mn + normal_size2 g * (m - M)) <= sdist g (ps (vb p) v)).
Lemma inv2_mono p0 M Mn m m' done p : inv2 p0 M Mn m done p -> m <= m' -> inv2 p0 M Mn m' done p.
Proof.
  intros (I1 & I2 & I3) H. split; [|split].
  - intros v Hv. eapply within2_mono; eauto.
  - intros v Hv. destruct (I2 v Hv) as (x & X1 & X2). exists x. split; auto. eapply near2_mono; [exact X2|lra].
  - intros v g Hv Hg. pose proof (I3 v g Hv Hg). pose proof (normal_size2_pos g). nra.
Qed.

Lemma clip_planes_F MX (p0 : pol2) M Mn (planes : list (plane2 R)) : 0 <= M -> forall k done (p p' : pol2), wf2 p -> (nv p <= MX)%Z ->
  M * drift2 (k + length planes) <= Mn -> inv2 p0 M Mn (M * drift2 k) done p ->
  clip_planes FR MX planes p = OK p' -> inv2 p0 M Mn (M * drift2 (k + length planes)) (done ++ planes) p'.
Proof.
  intros HM0. induction planes as [|pl rest IH]; intros k done p p' Hw HM HMn I E.
  { cbn in E. inversion E; subst. now rewrite app_nil_r, Nat.add_0_r. }
  assert (LE : forall j, M * drift2 j <= M * drift2 (S j)).
  { intros j. rewrite drift2_S. pose proof (drift2_ge j). assert (0 <= M * (5 * u * drift2 j)) by (repeat apply Rmult_le_pos; lra). lra. }
  assert (LK : M * drift2 k <= Mn).
  { eapply Rle_trans; [|exact HMn]. apply Rmult_le_compat_l; auto. apply Rle_pow; [lra|lia]. }
  cbn [length] in *. replace (k + S (length rest))%nat with (S k + length rest)%nat in * by lia.
  replace (done ++ pl :: rest) with ((done ++ [pl]) ++ rest) by now rewrite <- app_assoc.
  destruct (clip_step_F MX pl rest p Hw HM) as [(A & E')|[(A & E')|[(q & N & b' & K & HK & C & P & W & Mq & E')|E']]];
    change (T FR) with R in *; rewrite E' in E.
  - apply (IH (S k) (done ++ [pl]) p p'); auto. pose proof (inv2_mono _ _ _ _ _ _ _ I (LE k)) as (I1 & I2 & I3). split; [|split]; auto.
    intros v g Hv Hg. apply in_app_or in Hg as [Hg|[<-|[]]]; auto.
    pose proof (rsd2_near pl p v _ (proj1 I v Hv)) as SS. apply rabs_inv in SS. pose proof (A v Hv).
    pose proof (plane_size2_mono pl _ _ LK). pose proof (normal_size2_pos pl). pose proof (LE k). pose proof (drift2_ge k).
    assert (0 <= normal_size2 pl * (M * drift2 (S k) - M)) by (apply Rmult_le_pos; nra). nra.
  - inversion E; subst. split; [|split]; cbn [nv]; intros; lia.
  - apply (IH (S k) (done ++ [pl]) q p'); auto. destruct I as (I1 & I2 & I3). pose proof (drift2_S k) as DS.
    assert (EM : M * drift2 (S k) = M * drift2 k + 5 * u * (M * drift2 k)) by (rewrite DS; ring).
    pose proof (drift2_ge k) as DG. assert (M1 : 0 <= M * drift2 k) by (apply Rmult_le_pos; lra).
    assert (KP : forall a, (0 <= a < nv p)%Z -> K a = true -> 0 <= rsd2 pl p a). { intros a Ha Ka. rewrite HK in Ka by auto. now apply Rleb_true. }
    assert (FC : from_cut2 (rsd2 pl p) p (M * drift2 k) (fun v => K v = true) q).
    { apply (cut2_from (rsd2 pl p) p q _ K _ N b' Hw I1 C P). intros w j Hw' Hj Kw Kx. destruct Hw as (Hn & HL).
      assert (Hx : (0 <= nb (vb p) w j < nv p)%Z). { destruct (HL w Hw') as (X & Y & _). destruct (slot2 j Hj); subst; auto. }
      exists w, (nb (vb p) w j). split; auto. split; auto. split; [|reflexivity]. left. split; [auto|]. rewrite HK in Kx by auto. now apply Rleb_false. }
    split; [|split].
    + intros v Hv. rewrite EM. apply (cut2F_within (rsd2 pl p) p q _ _ M1 I1 FC v Hv).
    + intros v Hv. replace (M * drift2 (S k) - M) with ((M * drift2 k - M) + 5 * u * (M * drift2 k)) by (rewrite EM; ring).
      now apply (cut2F_hull (rsd2 pl p) p q _ _ M1 FC).
    + intros v g Hv Hg. apply in_app_or in Hg as [Hg|[<-|[]]].
      * pose proof (cut2F_old (rsd2 pl p) p q _ _ M1 FC g (5 * u * plane_size2 g Mn + normal_size2 g * (M * drift2 k - M)) (fun v Hv => I3 v g Hv Hg) v Hv) as X.
        rewrite EM. lra.
      * pose proof (proj1 (cut2F_new (rsd2 pl p) p q _ _ M1 FC pl _ (fun v Hv => rsd2_near pl p v _ (I1 v Hv)) v Hv) KP) as X. rewrite EM.
        pose proof (plane_size2_mono pl _ _ LK). pose proof (normal_size2_pos pl).
        assert (0 <= normal_size2 pl * (M * drift2 k - M)) by (apply Rmult_le_pos; nra). nra.
  - inversion E.
Qed.

Lemma clip_planes_keeps MX M x : within_abs2 M x -> forall (planes : list (plane2 R)) (p p' : pol2), wf2 p -> (nv p <= MX)%Z ->
  clip_planes FR MX planes p = OK p' ->
  (forall pl, In pl planes -> 5 * u * plane_size2 pl M < sdist pl x) ->
  (exists v, (0 <= v < nv p)%Z /\ ps (vb p) v = x) -> exists v, (0 <= v < nv p')%Z /\ ps (vb p') v = x.
Proof.
  intros Hx. induction planes as [|pl rest IH]; intros p p' Hw HM E HI (v & Hv & Ev).
  { cbn in E. inversion E; subst. eauto. }
  assert (RP : 0 < rsd2 pl p v).
  { pose proof (rsd2_near pl p v M ltac:(now rewrite Ev)) as SS. rewrite Ev in SS. apply rabs_inv in SS. pose proof (HI pl (or_introl eq_refl)). lra. }
  destruct (clip_step_F MX pl rest p Hw HM) as [(A & E')|[(A & E')|[(q & N & b' & K & HK & C & P & W & Mq & E')|E']]];
    change (T FR) with R in *; rewrite E' in E.
  - apply (IH p p'); eauto. intros g Hg. apply HI. now right.
  - specialize (A v Hv). lra.
  - apply (IH q p'); auto. { intros g Hg. apply HI. now right. }
    destruct (cut2_kept p q _ _ _ _ C P v Hv) as (v' & Hv' & E2); [rewrite HK by auto; apply Rleb_true; lra|]. exists v'. rewrite E2. auto.
  - inversion E.
Qed.

Lemma r2d_clip_F MX M (planes : list (plane2 R)) (p p' : pol2) : 0 <= M -> wf2 p -> (nv p <= MX)%Z ->
  (forall v, (0 <= v < nv p)%Z -> within_abs2 M (ps (vb p) v)) ->
  r2d_clip FR MX p planes = OK p' ->
  let Mn := M * (1 + 5 * u) ^ length planes in
  (forall v, (0 <= v < nv p')%Z -> within_abs2 Mn (ps (vb p') v)
     /\ (exists x, hull2 p x /\ near2 (Mn - M) (ps (vb p') v) x)
     /\ (forall pl, In pl planes -> - (5 * u * plane_size2 pl Mn + normal_size2 pl * (Mn - M)) <= sdist pl (ps (vb p') v)))
  /\ (forall v, (0 <= v < nv p)%Z -> (forall pl, In pl planes -> 5 * u * plane_size2 pl M < sdist pl (ps (vb p) v)) ->
        exists v', (0 <= v' < nv p')%Z /\ ps (vb p') v' = ps (vb p) v).
Proof.
  intros HM0 Hw HM HB E Mn. unfold r2d_clip in E. change (T FR) with R in *. destruct (nv p <=? 0)%Z eqn:E0.
  { inversion E; subst. apply Z.leb_le in E0. split; intros; lia. }
  split.
  - assert (I : inv2 p M Mn (M * drift2 (0 + length planes)) (nil ++ planes) p').
    { apply (clip_planes_F MX p M Mn planes HM0 0 nil p p'); auto; [unfold Mn, drift2; cbn [Nat.add]; lra|].
      unfold drift2. cbn [pow]. rewrite Rmult_1_r. split; [|split]; auto.
      - intros v Hv. exists (ps (vb p) v). split; [now apply hull2_vertex|]. unfold near2. rewrite !Rminus_eq_0, Rabs_R0. lra.
      - intros v g _ []. }
    cbn [Nat.add app] in I. unfold drift2 in I. fold Mn in I. destruct I as (I1 & I2 & I3). intros v Hv. auto.
  - intros v Hv Hp. apply (clip_planes_keeps MX M (ps (vb p) v) (HB v Hv) planes p p'); eauto.
Qed.

(** ** Splits *)
Section Side.
Context (pl : plane2 R) (p : pol2) (m : R) (s : Z -> R).
Hypothesis Hw : wf2 p.
Hypothesis Hm0 : 0 <= m.
Hypothesis Hm : forall v, (0 <= v < nv p)%Z -> within_abs2 m (ps (vb p) v).
Hypothesis Hs : forall v, (0 <= v < nv p)%Z -> Rabs (s v - sdist pl (ps (vb p) v)) <= 7 * u * plane_size2 pl m.
Notation side_near2 := (side_near2 u).

Let um : 0 <= 5 * u * m. Proof. apply Rmult_le_pos; lra. Qed.

Lemma side_self2 sg : sg = 1 \/ sg = -1 -> (forall v, (0 <= v < nv p)%Z -> 0 <= sg * s v) -> side_near2 pl m p p sg.
Proof.
  intros Hg HI. split; [|eauto]. intros v Hv. split; [eapply within2_mono; [apply Hm; auto|lra]|]. split.
  { exists (ps (vb p) v). split; [now apply hull2_vertex|]. eapply near2_mono; [apply near2_refl|auto]. }
  pose proof (Hs v Hv) as SS. apply rabs_inv in SS. pose proof (HI v Hv). pose proof (normal_size2_pos pl).
  assert (0 <= normal_size2 pl * (5 * u * m)) by (apply Rmult_le_pos; auto). destruct Hg; subst; lra.
Qed.
Lemma side_none2 sg (q : pol2) : sg = 1 \/ sg = -1 -> nv q = 0%Z -> (forall v, (0 <= v < nv p)%Z -> sg * s v <= 0) -> side_near2 pl m p q sg.
Proof.
  intros Hg Hq HI. split; [intros v Hv; lia|]. intros v Hv X. exfalso.
  pose proof (Hs v Hv) as SS. apply rabs_inv in SS. pose proof (HI v Hv). destruct Hg; subst; lra.
Qed.
Lemma side_cut2 sg (q : pol2) K np N b' : sg = 1 \/ sg = -1 ->
  cut2 (vb p) (nv p) N K np b' -> compressed 2 K N b' q ->
  (forall v, (0 <= v < nv p)%Z -> K v = true -> 0 <= sg * s v) -> (forall v, (0 <= v < nv p)%Z -> K v = false -> sg * s v <= 0) ->
  (forall w k, (0 <= w < nv p)%Z -> (0 <= k < 2)%Z -> K w = true -> K (nb (vb p) w k) = false -> exists a b, (0 <= a < nv p)%Z /\ (0 <= b < nv p)%Z
     /\ ((0 <= s a /\ s b < 0) \/ (s a <= 0 /\ 0 < s b)) /\ np w k = wav2 FR (ps (vb p) a) (- s b) (ps (vb p) b) (s a)) ->
  side_near2 pl m p q sg.
Proof.
  intros Hg C P K1 K2 HX. pose proof (cut2_from s p q m K np N b' Hw Hm C P HX) as FC. split.
  - intros v Hv. split; [now apply (cut2F_within s p q m _ Hm0 Hm FC)|]. split.
    + destruct (cut2F_hull s p q m _ Hm0 FC p 0) with (v := v) as (x & X1 & X2); auto.
      { intros w Hw'. exists (ps (vb p) w). split; [now apply hull2_vertex|apply near2_refl]. }
      exists x. split; auto. now rewrite Rplus_0_l in X2.
    + destruct (cut2F_new s p q m _ Hm0 FC pl _ Hs v Hv) as (N1 & N2). destruct Hg; subst.
      * rewrite Rmult_1_l. apply N1. intros a Ha Ka. pose proof (K1 a Ha Ka). lra.
      * assert (sdist pl (ps (vb q) v) <= 7 * u * plane_size2 pl m + normal_size2 pl * (5 * u * m)); [|lra].
        apply N2. intros a Ha Ka. pose proof (K1 a Ha Ka). lra.
  - intros v Hv X. apply (cut2_kept p q _ _ _ _ C P v Hv).
    destruct (K v) eqn:Kv; auto. pose proof (K2 v Hv Kv). pose proof (Hs v Hv) as SS. apply rabs_inv in SS. destruct Hg; subst; lra.
Qed.

Lemma split_sides2 MX (q0 q1 : pol2) right sg : sg = 1 \/ sg = -1 -> split_result FR MX p s right q0 q1 ->
  (forall v, (0 <= v < nv p)%Z -> right v = false -> 0 <= sg * s v) -> (forall v, (0 <= v < nv p)%Z -> right v = true -> sg * s v < 0) ->
  side_near2 pl m p q0 sg /\ side_near2 pl m p q1 (- sg).
Proof.
  intros Hg (N & b' & Ka & Kb & _ & _ & HK & _ & C0 & P0 & C1 & P1) R0 R1. change (T FR) with R in *. pose proof Hw as (Hn & HL).
  assert (HT : forall w k, (0 <= w < nv p)%Z -> (0 <= k < 2)%Z -> (0 <= nb (vb p) w k < nv p)%Z /\ nb (vb p) (nb (vb p) w k) (1 - k) = w).
  { intros w k Hw' Hk. destruct (HL w Hw') as (X & Y & Z1 & Z2). destruct (slot2 k Hk); subst; auto. }
  split.
  - apply (side_cut2 sg q0 _ _ _ _ Hg C0 P0).
    + intros v Hv K. rewrite (proj1 (HK v Hv)) in K. apply negb_true_iff in K. auto.
    + intros v Hv K. rewrite (proj1 (HK v Hv)) in K. apply negb_false_iff in K. pose proof (R1 v Hv K). lra.
    + intros w k Hw' Hk K1 K2. destruct (HT w k Hw' Hk) as (H2 & _). rewrite (proj1 (HK w Hw')) in K1. rewrite (proj1 (HK _ H2)) in K2.
      apply negb_true_iff in K1. apply negb_false_iff in K2. exists w, (nb (vb p) w k). split; auto. split; auto. split; [|reflexivity].
      pose proof (R0 _ Hw' K1). pose proof (R1 _ H2 K2). destruct Hg; subst; lra.
  - apply (side_cut2 (- sg) q1 _ _ _ _ ltac:(lra) C1 P1).
    + intros v Hv K. rewrite (proj2 (HK v Hv)) in K. pose proof (R1 v Hv K). lra.
    + intros v Hv K. rewrite (proj2 (HK v Hv)) in K. pose proof (R0 v Hv K). lra.
    + intros w k Hw' Hk K1 K2. destruct (HT w k Hw' Hk) as (H2 & H3). rewrite (proj2 (HK w Hw')) in K1. rewrite (proj2 (HK _ H2)) in K2.
      exists (nb (vb p) w k), w. split; auto. split; auto. split.
      * pose proof (R1 _ Hw' K1). pose proof (R0 _ H2 K2). destruct Hg; subst; lra.
      * unfold newpos2', newpos2. change (T FR) with R. rewrite H3. reflexivity.
Qed.
End Side.

Lemma normal_size2_flip pl : normal_size2 (flip pl) = normal_size2 pl.
Proof. unfold normal_size2, flip. cbn [pn vx vy]. now rewrite !Rabs_Ropp. Qed.
Lemma plane_size2_flip pl m : plane_size2 (flip pl) m = plane_size2 pl m.
Proof. unfold plane_size2. rewrite normal_size2_flip. unfold flip. cbn [pd]. now rewrite Rabs_Ropp. Qed.
Lemma side_near2_flip pl m p q sg : side_near2 u (flip pl) m p q sg -> side_near2 u pl m p q (- sg).
Proof.
  unfold side_near2. rewrite normal_size2_flip, plane_size2_flip. intros (H1 & H2). split.
  - intros v Hv. destruct (H1 v Hv) as (X & Y & Z). rewrite sdist_flip in Z. split; auto. split; auto. lra.
  - intros v Hv X. apply H2; auto. rewrite sdist_flip. lra.
Qed.

Lemma split1_F MX pl m (p op on q o0 o1 : pol2) : 0 <= m -> wf2 p -> (nv p <= MX)%Z ->
  (forall v, (0 <= v < nv p)%Z -> within_abs2 m (ps (vb p) v)) ->
  r2d_split1 FR MX pl p op on = OK (q, (o0, o1)) -> side_near2 u pl m p o0 (-1) /\ side_near2 u pl m p o1 1.
Proof.
  intros Hm0 Hw HM Hm E. set (s := rside2 pl p).
  assert (Hs : forall v, (0 <= v < nv p)%Z -> Rabs (s v - sdist (flip pl) (ps (vb p) v)) <= 7 * u * plane_size2 (flip pl) m).
  { intros. rewrite plane_size2_flip. apply rside2_near; auto. }
  assert (RT : forall v, rightv FR pl (vb p) v = true -> s v < 0).
  { intros v X. change (Rltb (s v) 0 = true) in X. now apply Rltb_true in X. }
  assert (RF : forall v, rightv FR pl (vb p) v = false -> 0 <= s v).
  { intros v X. change (Rltb (s v) 0 = false) in X. apply Rltb_false in X. lra. }
  assert (G : side_near2 u (flip pl) m p o0 1 /\ side_near2 u (flip pl) m p o1 (- (1))).
  { destruct (split1_spec FR MX pl p op on Hw HM) as [(H0 & E')|[(H0 & A & E')|[(H0 & A & E')|(x & y & Hx & Hy & Rx & Ry & [(q' & o0' & o1' & E' & SR)|(E' & _)])]]];
      change (T FR) with R in *; rewrite E' in E; inversion E; subst.
    - split; apply (side_none2 (flip pl) q m s); auto; try lra; intros; lia.
    - split; [apply (side_self2 (flip pl) o0 m s)|apply (side_none2 (flip pl) o0 m s)]; auto; try lra; intros v Hv; pose proof (RF v (A v Hv)); lra.
    - split; [apply (side_none2 (flip pl) o1 m s)|apply (side_self2 (flip pl) o1 m s)]; auto; try lra; intros v Hv; pose proof (RT v (A v Hv)); lra.
    - apply (split_sides2 (flip pl) p m s Hw Hm0 Hm Hs MX o0 o1 (rightv FR pl (vb p)) 1); auto.
      + intros v Hv X. pose proof (RF v X). lra.
      + intros v Hv X. pose proof (RT v X). lra. }
  destruct G as (G0 & G1). apply side_near2_flip in G0, G1. split; [exact G0|]. now rewrite Ropp_involutive in G1.
Qed.

Lemma split_coord_F MX m (p o1 q0 q1 : pol2) coord ax : 0 <= m -> wf2 p -> (0 < nv p <= MX)%Z -> (0 <= ax < 2)%Z ->
  (forall v, (0 <= v < nv p)%Z -> within_abs2 m (ps (vb p) v)) ->
  r2d_split_coord FR MX p o1 coord ax = OK (q0, q1) ->
  side_near2 u (axis_plane ax coord) m p q0 (-1) /\ side_near2 u (axis_plane ax coord) m p q1 1.
Proof.
  intros Hm0 Hw HM Hax Hm E. set (pl := axis_plane ax coord). set (s := (fun v => csd FR coord ax (vb p) v) : Z -> R).
  assert (Hs : forall v, (0 <= v < nv p)%Z -> Rabs (s v - sdist pl (ps (vb p) v)) <= 7 * u * plane_size2 pl m) by (intros; apply csd2_near; auto).
  assert (RT : forall v, cright FR coord ax (vb p) v = true -> 0 < s v).
  { intros v X. change (Rltb 0 (s v) = true) in X. now apply Rltb_true in X. }
  assert (RF : forall v, cright FR coord ax (vb p) v = false -> s v <= 0).
  { intros v X. change (Rltb 0 (s v) = false) in X. apply Rltb_false in X. lra. }
  destruct (split_coord_spec FR MX p o1 coord ax Hw (proj2 HM) Hax) as [(H0 & E')|[(H0 & A & E')|[(H0 & A & E')|(x & y & Hx & Hy & Rx & Ry & [(q' & o1' & E' & SR)|(E' & _)])]]];
    change (T FR) with R in *; rewrite E' in E; inversion E; subst.
  - lia.
  - split; [apply (side_self2 pl q0 m s)|apply (side_none2 pl q0 m s)]; auto; intros v Hv; pose proof (RF v (A v Hv)); lra.
  - split; [apply (side_none2 pl q1 m s)|apply (side_self2 pl q1 m s)]; auto; intros v Hv; pose proof (RT v (A v Hv)); lra.
  - assert (E1 : - (-1) = 1) by ring. rewrite <- E1. apply (split_sides2 pl p m s Hw Hm0 Hm Hs MX q0 q1 (cright FR coord ax (vb p)) (-1)); auto.
    + intros v Hv X. pose proof (RF v X). lra.
    + intros v Hv X. pose proof (RT v X). lra.
Qed.
End Rnd.
