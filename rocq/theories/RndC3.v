(** * RndC3: [r3d_clip] in rounded arithmetic. *)
From Coq Require Import Reals ZArith List Bool Lia Lra Psatz.
From Verif Require Import Base Lib ModelCommon CommonFacts RealNum Model3 Spec2 Spec3 Spec3R Orb3 Cut3 Clip2 Struct3 Clip3 Cons2 Cons3 Geo3 Glue3 RndNum SpecR3.
Import ListNotations.
Open Scope R_scope.

Section Rnd.
Context (u : R) (rnd : R -> R) (HA : accurate u rnd) (Hu : 0 <= u <= 1 / 10).
Notation FR := (FN rnd).

Definition rsd (pl : plane3 R) (p : pol3) (v : Z) : R := sdf3 FR pl (vb p) v.

Lemma rsd_near pl (p : pol3) v m : within_abs m (ps (vb p) v) -> Rabs (rsd pl p v - sdist3 pl (ps (vb p) v)) <= 5 * u * plane_size pl m.
Proof.
  destruct (ps (vb p) v) as [x y z] eqn:Ev. unfold within_abs. cbn [x3 y3 z3]. intros (Hx & Hy & Hz).
  unfold rsd, sdf3. change (T FR) with R. rewrite Ev. destruct pl as [[a b c] d]. unfold sdist3, dot3, plane_size. cbn [x3 y3 z3 n3 d3 nadd nmul FN T].
  pose proof (near_mul u rnd HA Hu 0 0 _ _ _ _ _ _ (near_exact u x m Hx) (near_exact u a _ (Rle_refl _))) as N1.
  pose proof (near_mul u rnd HA Hu 0 0 _ _ _ _ _ _ (near_exact u y m Hy) (near_exact u b _ (Rle_refl _))) as N2.
  pose proof (near_mul u rnd HA Hu 0 0 _ _ _ _ _ _ (near_exact u z m Hz) (near_exact u c _ (Rle_refl _))) as N3.
  cbn [Nat.add] in *.
  pose proof (near_add u rnd HA Hu _ _ _ _ _ _ _ N1 N2) as N4.
  pose proof (near_add u rnd HA Hu _ _ _ _ _ _ _ N4 (near_mono u Hu _ 2 _ _ _ _ N3 ltac:(lia) (Rle_refl _))) as N5.
  pose proof (near_add u rnd HA Hu _ _ _ _ _ _ _ (near_mono u Hu _ 3 _ _ _ _ (near_exact u d _ (Rle_refl _)) ltac:(lia) (Rle_refl _)) N5) as (N6 & _).
  replace (d + (a * x + b * y + c * z)) with (d + (x * a + y * b + z * c)) by ring.
  eapply Rle_trans; [exact N6|]. pose proof (pow4 u Hu) as P4.
  unfold normal_size. cbn [n3 x3 y3 z3].
  replace (Rabs d + (m * Rabs a + m * Rabs b + m * Rabs c)) with (Rabs d + (Rabs a + Rabs b + Rabs c) * m) by ring.
  apply Rmult_le_compat_r; auto. pose proof (Rabs_pos x). pose proof (Rabs_pos a). pose proof (Rabs_pos b). pose proof (Rabs_pos c). pose proof (Rabs_pos d).
  apply Rplus_le_le_0_compat; [lra|apply Rmult_le_pos; lra].
Qed.

Lemma clip3_step_F MX (pl : plane3 R) (rest : list (plane3 R)) (p : pol3) : wf3 p -> (nv p <= MX)%Z ->
  ((forall v, (0 <= v < nv p)%Z -> 0 <= rsd pl p v)
     /\ clip3_planes FR MX (pl :: rest) p = clip3_planes FR MX rest p)
  \/ ((forall v, (0 <= v < nv p)%Z -> rsd pl p v <= 0)
     /\ clip3_planes FR MX (pl :: rest) p = OK (PY (vb p) 0%Z, 1%Z))
  \/ (exists p' N, cut_of RN p (fun v => Rleb 0 (rsd pl p v)) (newpos3 FR (vb p) (rsd pl p)) N p' /\ wf3 p' /\ (nv p' <= MX)%Z
           /\ clip3_planes FR MX (pl :: rest) p = clip3_planes FR MX rest p')
  \/ (exists p', clip3_planes FR MX (pl :: rest) p = OK (p', 0%Z)).
Proof.
  intros Hw HM. pose proof Hw as (Hn & HL & HS). cbn [clip3_planes].
  destruct (clip3_sd_spec FR MX (vb p) (nv p) pl) as (s & E & _ & _ & _ & Emin & Emax); [lia|].
  change (T FR) with R in *. rewrite E. cbn [bind].
  assert (BP : 0 < rnd (10 ^ 30)) by (apply (rnd_pos u rnd HA Hu); lra).
  change (nle FR (n0 FR) (smin3 FR s)) with (Rleb 0 (smin3 FR s)).
  change (nle FR (smax3 FR s) (n0 FR)) with (Rleb (smax3 FR s) 0).
  assert (KE : forall v, (0 <= v < nv p)%Z -> keepv3 FR pl (vb p) v = Rleb 0 (rsd pl p v)).
  { intros v Hv. change (negb (Rltb (rsd pl p v) 0) = Rleb 0 (rsd pl p v)).
    unfold Rleb, Rltb. destruct (Rle_dec 0 (rsd pl p v)), (Rlt_dec (rsd pl p v) 0); auto; exfalso; lra. }
  destruct (Rleb 0 (smin3 FR s)) eqn:E1.
  { left. split; auto. rewrite Emin in E1. apply (minf_R (sdf3 FR pl (vb p))) in E1 as (_ & X). exact X. }
  right. destruct (Rleb (smax3 FR s) 0) eqn:E2.
  { left. split; auto. rewrite Emax in E2. apply (maxf_R (sdf3 FR pl (vb p))) in E2 as (_ & X). exact X. }
  right. destruct (clip3_step_spec FR MX p pl s Hw HM E) as [(p' & Q1 & Q2 & Q3)|(p' & Q1 & Q2)].
  - left. exists p', (nv p + exits 3 (keepv3 FR pl (vb p)) (nb (vb p)) (nv p))%Z.
    destruct (cut_of_wf FR p _ _ _ p' Hw Q3) as (W' & M').
    split; [|split; [exact W'|split; [exact (Z.le_trans _ _ _ M' Q2)|]]].
    + eapply cut_of_ext; [exact KE| |exact HL|exact Q3]. intros; reflexivity.
    + change (T FR) with R in *. rewrite Q1. reflexivity.
  - right. exists p'. change (T FR) with R in *. rewrite Q1. reflexivity.
Qed.

(** a cut keeps the vertices it keeps *)
Lemma cut_of_kept (p p' : pol3) keep np N : wf3 p -> cut_of RN p keep np N p' ->
  forall v, (0 <= v < nv p)%Z -> keep v = true -> exists v', (0 <= v' < nv p')%Z /\ ps (vb p') v' = ps (vb p) v.
Proof.
  intros (Hn & L & P) (b' & K & M & HK & C3 & (En & Hc)) v Hv Kv. change (T RN) with R in *.
  pose proof (cu_n _ _ _ _ _ _ _ C3) as HnN. rewrite <- HK in Kv by auto.
  exists (cnt K v). split; [rewrite En; split; [apply cnt_nonneg|apply cnt_lt; auto; lia]|].
  destruct (Hc v ltac:(lia) Kv) as (-> & _). apply (cu_ps _ _ _ _ _ _ _ C3 v); auto.
Qed.

Lemma combo_abs c a b m : 0 <= c <= 1 -> Rabs a <= m -> Rabs b <= m -> Rabs ((1 - c) * a + c * b) <= m.
Proof.
  intros Hc Ha Hb. eapply Rle_trans; [apply Rabs_triang|]. rewrite !Rabs_mult, (Rabs_pos_eq c), (Rabs_pos_eq (1 - c)) by lra. nra.
Qed.
Lemma combo_near c a b a' b' e : 0 <= c <= 1 -> Rabs (a - a') <= e -> Rabs (b - b') <= e ->
  Rabs ((1 - c) * a + c * b - ((1 - c) * a' + c * b')) <= e.
Proof.
  intros Hc Ha Hb. replace ((1 - c) * a + c * b - ((1 - c) * a' + c * b')) with ((1 - c) * (a - a') + c * (b - b')) by ring.
  now apply combo_abs.
Qed.
Lemma sdist_near g x y e : near3 e x y -> Rabs (sdist3 g x - sdist3 g y) <= normal_size g * e.
Proof.
  intros (H1 & H2 & H3). unfold sdist3, normal_size.
  replace (d3 g + (x3 (n3 g) * x3 x + y3 (n3 g) * y3 x + z3 (n3 g) * z3 x) - (d3 g + (x3 (n3 g) * x3 y + y3 (n3 g) * y3 y + z3 (n3 g) * z3 y)))
    with (x3 (n3 g) * (x3 x - x3 y) + y3 (n3 g) * (y3 x - y3 y) + z3 (n3 g) * (z3 x - z3 y)) by ring.
  eapply Rle_trans; [apply Rabs_triang|]. eapply Rle_trans; [apply Rplus_le_compat_r, Rabs_triang|]. rewrite !Rabs_mult.
  pose proof (Rabs_pos (x3 (n3 g))). pose proof (Rabs_pos (y3 (n3 g))). pose proof (Rabs_pos (z3 (n3 g))). nra.
Qed.
Lemma normal_size_pos g : 0 <= normal_size g.
Proof. unfold normal_size. pose proof (Rabs_pos (x3 (n3 g))). pose proof (Rabs_pos (y3 (n3 g))). pose proof (Rabs_pos (z3 (n3 g))). lra. Qed.
Lemma near3_trans x y z a b : near3 a x y -> near3 b y z -> near3 (a + b) x z.
Proof.
  intros (X1 & X2 & X3) (Y1 & Y2 & Y3).
  assert (G : forall p q r, Rabs (p - q) <= a -> Rabs (q - r) <= b -> Rabs (p - r) <= a + b).
  { intros p q r H H'. replace (p - r) with ((p - q) + (q - r)) by ring. eapply Rle_trans; [apply Rabs_triang|]. lra. }
  split; [|split]; eauto.
Qed.
Lemma lerp_within c a b m : 0 <= c <= 1 -> within_abs m a -> within_abs m b -> within_abs m (lerp3 c a b).
Proof. intros Hc (A1 & A2 & A3) (B1 & B2 & B3). unfold within_abs, lerp3. cbn [x3 y3 z3]. split; [|split]; now apply combo_abs. Qed.
Lemma lerp_near c a b a' b' e : 0 <= c <= 1 -> near3 e a a' -> near3 e b b' -> near3 e (lerp3 c a b) (lerp3 c a' b').
Proof. intros Hc (A1 & A2 & A3) (B1 & B2 & B3). unfold near3, lerp3. cbn [x3 y3 z3]. split; [|split]; now apply combo_near. Qed.
Lemma near3_within x y e m : near3 e x y -> within_abs m y -> within_abs (m + e) x.
Proof.
  intros (X1 & X2 & X3) (Y1 & Y2 & Y3).
  assert (G : forall p q, Rabs (p - q) <= e -> Rabs q <= m -> Rabs p <= m + e).
  { intros p q H H'. replace p with ((p - q) + q) by ring. eapply Rle_trans; [apply Rabs_triang|]. lra. }
  split; [|split]; eauto.
Qed.
Lemma near3_mono x y e e' : near3 e x y -> e <= e' -> near3 e' x y.
Proof. intros (X1 & X2 & X3) H. split; [|split]; lra. Qed.
Lemma near3_refl x : near3 0 x x.
Proof. unfold near3. rewrite !Rminus_eq_0, Rabs_R0. lra. Qed.

(** the computed new vertex is close to a point of the edge; [sa] and [sb] are the computed distances *)
Lemma weights sa sb : (0 <= sa /\ sb < 0) \/ (sa <= 0 /\ 0 < sb) -> 0 <= sa / (sa - sb) <= 1 /\ (1 - sa / (sa - sb)) * sa + sa / (sa - sb) * sb = 0.
Proof.
  intros H. split; [|field; lra]. destruct H as [(H1 & H2)|(H1 & H2)].
  - split; [apply Rmult_le_pos; [lra|left; apply Rinv_0_lt_compat; lra]|].
    apply Rmult_le_reg_r with (sa - sb); [lra|]. unfold Rdiv. rewrite Rmult_assoc, Rinv_l by lra. lra.
  - replace (sa / (sa - sb)) with (- sa / (sb - sa)) by (field; lra). split; [apply Rmult_le_pos; [lra|left; apply Rinv_0_lt_compat; lra]|].
    apply Rmult_le_reg_r with (sb - sa); [lra|]. unfold Rdiv. rewrite Rmult_assoc, Rinv_l by lra. lra.
Qed.
Lemma wav3_near sa sb a b m : (0 <= sa /\ sb < 0) \/ (sa <= 0 /\ 0 < sb) -> within_abs m a -> within_abs m b ->
  near3 (5 * u * m) (wav3 FR a (- sb) b sa) (lerp3 (sa / (sa - sb)) a b).
Proof.
  intros H (A1 & A2 & A3) (B1 & B2 & B3). unfold near3, lerp3, wav3. cbn [x3 y3 z3 nadd nmul ndiv FN].
  assert (G : forall x y, (1 - sa / (sa - sb)) * x + sa / (sa - sb) * y = (- sb * x + sa * y) / (- sb + sa)) by (intros; field; lra).
  rewrite !G. split; [|split]; (apply (wav_near u rnd HA Hu); auto; lra).
Qed.

(** ** One cut *)
(** [p] is cut into [q], which keeps the vertices [pick]; [s] are the computed distances *)
Definition from_cut (s : Z -> R) (p : pol3) (m : R) (pick : Z -> Prop) (q : pol3) : Prop := forall v, (0 <= v < nv q)%Z ->
  (exists a, (0 <= a < nv p)%Z /\ pick a /\ ps (vb q) v = ps (vb p) a)
  \/ (exists a b c, (0 <= a < nv p)%Z /\ (0 <= b < nv p)%Z /\ 0 <= c <= 1 /\ (1 - c) * s a + c * s b = 0
       /\ near3 (5 * u * m) (ps (vb q) v) (lerp3 c (ps (vb p) a) (ps (vb p) b))).

Section Cut.
Context (s : Z -> R) (p q : pol3) (m : R) (pick : Z -> Prop).
Hypothesis Hm0 : 0 <= m.
Hypothesis Hm : forall v, (0 <= v < nv p)%Z -> within_abs m (ps (vb p) v).
Hypothesis HC : from_cut s p m pick q.

Let um : 0 <= 5 * u * m. Proof. apply Rmult_le_pos; lra. Qed.

Lemma cutF_within v : (0 <= v < nv q)%Z -> within_abs (m + 5 * u * m) (ps (vb q) v).
Proof.
  intros Hv. destruct (HC v Hv) as [(a & Ha & Ka & ->)|(a & b & c & Ha & Hb & Hc & _ & NR)].
  - destruct (Hm a Ha) as (X & Y & Z). split; [|split]; lra.
  - eapply near3_within; [exact NR|]. apply lerp_within; auto.
Qed.
Lemma cutF_hull (p0 : pol3) e : (forall v, (0 <= v < nv p)%Z -> exists x, in_hull3 p0 x /\ near3 e (ps (vb p) v) x) -> 
  forall v, (0 <= v < nv q)%Z -> exists x, in_hull3 p0 x /\ near3 (e + 5 * u * m) (ps (vb q) v) x.
Proof.
  intros HI v Hv. destruct (HC v Hv) as [(a & Ha & Ka & ->)|(a & b & c & Ha & Hb & Hc & _ & NR)].
  - destruct (HI a Ha) as (x & X1 & X2). exists x. split; auto. eapply near3_mono; [exact X2|lra].
  - destruct (HI a Ha) as (x & X1 & X2). destruct (HI b Hb) as (y & Y1 & Y2). exists (lerp3 c x y).
    split; [now apply hull3_combo|]. rewrite Rplus_comm. eapply near3_trans; [exact NR|]. now apply lerp_near.
Qed.
Lemma cutF_old g t : (forall v, (0 <= v < nv p)%Z -> - t <= sdist3 g (ps (vb p) v)) ->
  forall v, (0 <= v < nv q)%Z -> - (t + normal_size g * (5 * u * m)) <= sdist3 g (ps (vb q) v).
Proof.
  intros HI v Hv. destruct (HC v Hv) as [(a & Ha & Ka & ->)|(a & b & c & Ha & Hb & Hc & _ & NR)].
  - pose proof (HI a Ha). pose proof (normal_size_pos g). assert (0 <= normal_size g * (5 * u * m)) by (apply Rmult_le_pos; auto). lra.
  - pose proof (sdist_near g _ _ _ NR) as SS. apply rabs_inv in SS. rewrite sdist3_lerp in SS.
    pose proof (HI a Ha). pose proof (HI b Hb). nra.
Qed.
Context (pl : plane3 R) (t : R).
Hypothesis Hs : forall v, (0 <= v < nv p)%Z -> Rabs (s v - sdist3 pl (ps (vb p) v)) <= t.
Lemma cutF_new v : (0 <= v < nv q)%Z -> 
  ((forall a, (0 <= a < nv p)%Z -> pick a -> 0 <= s a) -> - (t + normal_size pl * (5 * u * m)) <= sdist3 pl (ps (vb q) v))
  /\ ((forall a, (0 <= a < nv p)%Z -> pick a -> s a <= 0) -> sdist3 pl (ps (vb q) v) <= t + normal_size pl * (5 * u * m)).
Proof.
  intros Hv. pose proof (normal_size_pos pl). assert (0 <= normal_size pl * (5 * u * m)) by (apply Rmult_le_pos; auto).
  destruct (HC v Hv) as [(a & Ha & Ka & ->)|(a & b & c & Ha & Hb & Hc & HZ & NR)].
  - pose proof (Hs a Ha) as SS. apply rabs_inv in SS. split; intros HP; pose proof (HP a Ha Ka); lra.
  - pose proof (sdist_near pl _ _ _ NR) as SS. apply rabs_inv in SS. rewrite sdist3_lerp in SS.
    pose proof (Hs a Ha) as S1. apply rabs_inv in S1. pose proof (Hs b Hb) as S2. apply rabs_inv in S2.
    set (sa := sdist3 pl (ps (vb p) a)) in *. set (sb := sdist3 pl (ps (vb p) b)) in *.
    assert ((1 - c) * (s a - t) <= (1 - c) * sa <= (1 - c) * (s a + t)) by (split; apply Rmult_le_compat_l; lra).
    assert (c * (s b - t) <= c * sb <= c * (s b + t)) by (split; apply Rmult_le_compat_l; lra). split; intros; lra.
Qed.
End Cut.

Lemma cut_from (s : Z -> R) (p q : pol3) m keep np N : wf3 p -> (forall v, (0 <= v < nv p)%Z -> within_abs m (ps (vb p) v)) ->
  cut_of RN p keep np N q ->
  (forall x, Cut3.cross (nb (vb p)) (nv p) keep x -> exists a b, (0 <= a < nv p)%Z /\ (0 <= b < nv p)%Z
     /\ ((0 <= s a /\ s b < 0) \/ (s a <= 0 /\ 0 < s b)) /\ np x = wav3 FR (ps (vb p) a) (- s b) (ps (vb p) b) (s a)) ->
  from_cut s p m (fun v => keep v = true) q.
Proof.
  intros Hw Hm HC HX v Hv. destruct (cut_of_vertex p q _ _ N Hw HC v Hv) as [(a & Ha & Ka & E)|(x & Hx & H1 & H2 & E)].
  - left. eauto.
  - right. destruct (HX x Hx) as (a & b & Ha & Hb & SG & E'). rewrite E, E'. destruct (weights _ _ SG) as (W1 & W2).
    exists a, b, (s a / (s a - s b)). split; [auto|]. split; [auto|]. split; [auto|]. split; [auto|]. apply wav3_near; auto.
Qed.

(** ** All planes *)
Lemma plane_size_mono g a b : a <= b -> plane_size g a <= plane_size g b.
Proof. intros H. unfold plane_size. pose proof (normal_size_pos g). nra. Qed.
Lemma within_mono a b x : within_abs a x -> a <= b -> within_abs b x.
Proof. intros (X & Y & Z) H. split; [|split]; lra. Qed.

Definition drift (k : nat) : R := (1 + 5 * u) ^ k.
Lemma drift_ge k : 1 <= drift k.
Proof. apply pow_R1_Rle. lra. Qed.
Lemma drift_S k : drift (S k) = drift k + 5 * u * drift k.
Proof. unfold drift. cbn [pow]. ring. Qed.

(** vertices of [p] are close to the hull of [p0] and nearly inside the planes [done] *)
Definition inv (p0 : pol3) (M Mn m : R) (done : list (plane3 R)) (p : pol3) : Prop :=
  (forall v, (0 <= v < nv p)%Z -> within_abs m (ps (vb p) v))
  /\ (forall v, (0 <= v < nv p)%Z -> exists x, in_hull3 p0 x /\ near3 (m - M) (ps (vb p) v) x)
  /\ (forall v g, (0 <= v < nv p)%Z -> In g done -> - (5 * u * plane_size g Mn + normal_size g * (m - M)) <= sdist3 g (ps (vb p) v)).

Lemma inv_mono p0 M Mn m m' done p : inv p0 M Mn m done p -> m <= m' -> inv p0 M Mn m' done p.
Proof.
  intros (I1 & I2 & I3) H. split; [|split].
  - intros v Hv. eapply within_mono; eauto.
  - intros v Hv. destruct (I2 v Hv) as (x & X1 & X2). exists x. split; auto. eapply near3_mono; [exact X2|lra].
  - intros v g Hv Hg. pose proof (I3 v g Hv Hg). pose proof (normal_size_pos g). nra.
Qed.

Lemma clip3_planes_F MX (p0 : pol3) M Mn (planes : list (plane3 R)) : 0 <= M -> forall k done (p p' : pol3), wf3 p -> (nv p <= MX)%Z ->
  M * drift (k + length planes) <= Mn -> inv p0 M Mn (M * drift k) done p ->
  clip3_planes FR MX planes p = OK (p', 1%Z) -> inv p0 M Mn (M * drift (k + length planes)) (done ++ planes) p'.
Proof.
  intros HM0. induction planes as [|pl rest IH]; intros k done p p' Hw HM HMn I E.
  { cbn in E. inversion E; subst. now rewrite app_nil_r, Nat.add_0_r. }
  assert (LE : forall j, M * drift j <= M * drift (S j)).
  { intros j. rewrite drift_S. pose proof (drift_ge j). assert (0 <= M * (5 * u * drift j)) by (repeat apply Rmult_le_pos; lra). lra. }
  assert (LK : M * drift k <= Mn).
  { eapply Rle_trans; [|exact HMn]. apply Rmult_le_compat_l; auto. apply Rle_pow; [lra|lia]. }
  cbn [length] in *. replace (k + S (length rest))%nat with (S k + length rest)%nat in * by lia.
  replace (done ++ pl :: rest) with ((done ++ [pl]) ++ rest) by now rewrite <- app_assoc.
  destruct (clip3_step_F MX pl rest p Hw HM) as [(A & E')|[(A & E')|[(q & N & C & W & Mq & E')|(q & E')]]];
    rn; rewrite E' in E.
  - apply (IH (S k) (done ++ [pl]) p p'); auto. pose proof (inv_mono _ _ _ _ _ _ _ I (LE k)) as (I1 & I2 & I3). split; [|split]; auto.
    intros v g Hv Hg. apply in_app_or in Hg as [Hg|[<-|[]]]; auto.
    pose proof (rsd_near pl p v _ (proj1 I v Hv)) as SS. apply rabs_inv in SS. pose proof (A v Hv).
    pose proof (plane_size_mono pl _ _ LK). pose proof (normal_size_pos pl). pose proof (LE k). pose proof (drift_ge k).
    assert (0 <= normal_size pl * (M * drift (S k) - M)) by (apply Rmult_le_pos; nra). nra.
  - inversion E; subst. split; [|split]; cbn [nv]; intros; lia.
  - apply (IH (S k) (done ++ [pl]) q p'); auto. destruct I as (I1 & I2 & I3). pose proof (drift_S k) as DS.
    assert (EM : M * drift (S k) = M * drift k + 5 * u * (M * drift k)) by (rewrite DS; ring).
    pose proof (drift_ge k) as DG. assert (M1 : 0 <= M * drift k) by (apply Rmult_le_pos; lra).
    assert (FC : from_cut (rsd pl p) p (M * drift k) (fun v => Rleb 0 (rsd pl p v) = true) q).
    { apply (cut_from (rsd pl p) p q _ _ _ N Hw I1 C). intros x (Dx & K1 & K2). apply Rleb_true in K1. apply Rleb_false in K2.
      exists (fst x), (dtgt (nb (vb p)) x). split; [apply Dx|]. split; [destruct Hw as (_ & L & _); apply (l_rng _ _ L); apply Dx|].
      split; [left; auto|reflexivity]. }
    split; [|split].
    + intros v Hv. rewrite EM. apply (cutF_within (rsd pl p) p q _ _ M1 I1 FC v Hv).
    + intros v Hv. replace (M * drift (S k) - M) with ((M * drift k - M) + 5 * u * (M * drift k)) by (rewrite EM; ring).
      now apply (cutF_hull (rsd pl p) p q _ _ M1 FC).
    + intros v g Hv Hg. apply in_app_or in Hg as [Hg|[<-|[]]].
      * pose proof (cutF_old (rsd pl p) p q _ _ M1 FC g (5 * u * plane_size g Mn + normal_size g * (M * drift k - M)) (fun v Hv => I3 v g Hv Hg) v Hv) as X.
        rewrite EM. lra.
      * pose proof (proj1 (cutF_new (rsd pl p) p q _ _ M1 FC pl _ (fun v Hv => rsd_near pl p v _ (I1 v Hv)) v Hv) (fun a _ Ka => proj1 (Rleb_true _ _) Ka)) as X. rewrite EM.
        pose proof (plane_size_mono pl _ _ LK). pose proof (normal_size_pos pl). pose proof (drift_ge k).
        assert (0 <= normal_size pl * (M * drift k - M)) by (apply Rmult_le_pos; nra). nra.
  - inversion E.
Qed.

(** vertices well inside all planes are still there *)
Lemma clip3_planes_keeps MX M x : within_abs M x -> forall (planes : list (plane3 R)) (p p' : pol3), wf3 p -> (nv p <= MX)%Z ->
  clip3_planes FR MX planes p = OK (p', 1%Z) ->
  (forall pl, In pl planes -> 5 * u * plane_size pl M < sdist3 pl x) ->
  (exists v, (0 <= v < nv p)%Z /\ ps (vb p) v = x) -> exists v, (0 <= v < nv p')%Z /\ ps (vb p') v = x.
Proof.
  intros Hx. induction planes as [|pl rest IH]; intros p p' Hw HM E HI (v & Hv & Ev).
  { cbn in E. inversion E; subst. eauto. }
  assert (RP : 0 < rsd pl p v).
  { pose proof (rsd_near pl p v M ltac:(now rewrite Ev)) as SS. rewrite Ev in SS. apply rabs_inv in SS. pose proof (HI pl (or_introl eq_refl)). lra. }
  destruct (clip3_step_F MX pl rest p Hw HM) as [(A & E')|[(A & E')|[(q & N & C & W & Mq & E')|(q & E')]]];
    rn; rewrite E' in E.
  - apply (IH p p'); eauto. intros g Hg. apply HI. now right.
  - specialize (A v Hv). lra.
  - apply (IH q p'); auto. { intros g Hg. apply HI. now right. }
    destruct (cut_of_kept p q _ _ N Hw C v Hv) as (v' & Hv' & E2); [apply Rleb_true; lra|]. exists v'. rewrite E2. auto.
  - inversion E.
Qed.

Lemma r3d_clip_F MX M (planes : list (plane3 R)) (p p' : pol3) : 0 <= M -> wf3 p -> (nv p <= MX)%Z ->
  (forall v, (0 <= v < nv p)%Z -> within_abs M (ps (vb p) v)) ->
  r3d_clip FR MX p planes = OK (p', 1%Z) ->
  let Mn := M * (1 + 5 * u) ^ length planes in
  (forall v, (0 <= v < nv p')%Z -> within_abs Mn (ps (vb p') v)
     /\ (exists x, in_hull3 p x /\ near3 (Mn - M) (ps (vb p') v) x)
     /\ (forall pl, In pl planes -> - (5 * u * plane_size pl Mn + normal_size pl * (Mn - M)) <= sdist3 pl (ps (vb p') v)))
  /\ (forall v, (0 <= v < nv p)%Z -> (forall pl, In pl planes -> 5 * u * plane_size pl M < sdist3 pl (ps (vb p) v)) ->
        exists v', (0 <= v' < nv p')%Z /\ ps (vb p') v' = ps (vb p) v).
Proof.
  intros HM0 Hw HM HB E Mn. unfold r3d_clip in E. change (T FR) with R in *. destruct (nv p <=? 0)%Z; [inversion E|].
  split.
  - assert (I : inv p M Mn (M * drift (0 + length planes)) (nil ++ planes) p').
    { apply (clip3_planes_F MX p M Mn planes HM0 0 nil p p'); auto; [unfold Mn, drift; cbn [Nat.add]; lra|].
      unfold drift. cbn [pow]. rewrite Rmult_1_r. split; [|split]; auto.
      - intros v Hv. exists (ps (vb p) v). split; [now apply hull3_vertex|]. unfold near3. rewrite !Rminus_eq_0, Rabs_R0. lra.
      - intros v g _ []. }
    cbn [Nat.add app] in I. unfold drift in I. fold Mn in I. destruct I as (I1 & I2 & I3). intros v Hv. auto.
  - intros v Hv Hp. apply (clip3_planes_keeps MX M (ps (vb p) v) (HB v Hv) planes p p'); eauto.
Qed.

(** ** Splits *)
Notation side_near := (side_near u).

Section Side.
Context (pl : plane3 R) (p : pol3) (m : R) (s : Z -> R).
Hypothesis Hw : wf3 p.
Hypothesis Hm0 : 0 <= m.
Hypothesis Hm : forall v, (0 <= v < nv p)%Z -> within_abs m (ps (vb p) v).
Hypothesis Hs : forall v, (0 <= v < nv p)%Z -> Rabs (s v - sdist3 pl (ps (vb p) v)) <= 5 * u * plane_size pl m.

Let um : 0 <= 5 * u * m. Proof. apply Rmult_le_pos; lra. Qed.

Lemma side_self sg : sg = 1 \/ sg = -1 -> (forall v, (0 <= v < nv p)%Z -> 0 <= sg * s v) -> side_near pl m p p sg.
Proof.
  intros Hg HI. split; [|eauto]. intros v Hv. split; [eapply within_mono; [apply Hm; auto|lra]|]. split.
  { exists (ps (vb p) v). split; [now apply hull3_vertex|]. eapply near3_mono; [apply near3_refl|auto]. }
  pose proof (Hs v Hv) as SS. apply rabs_inv in SS. pose proof (HI v Hv). pose proof (normal_size_pos pl).
  assert (0 <= normal_size pl * (5 * u * m)) by (apply Rmult_le_pos; auto). destruct Hg; subst; lra.
Qed.
Lemma side_none sg (q : pol3) : sg = 1 \/ sg = -1 -> nv q = 0%Z -> (forall v, (0 <= v < nv p)%Z -> sg * s v <= 0) -> side_near pl m p q sg.
Proof.
  intros Hg Hq HI. split; [intros v Hv; lia|]. intros v Hv X. exfalso.
  pose proof (Hs v Hv) as SS. apply rabs_inv in SS. pose proof (HI v Hv). destruct Hg; subst; lra.
Qed.
Lemma side_cut sg (q : pol3) keep np N : sg = 1 \/ sg = -1 ->
  cut_of RN p keep np N q ->
  (forall v, (0 <= v < nv p)%Z -> keep v = true -> 0 <= sg * s v) -> (forall v, (0 <= v < nv p)%Z -> keep v = false -> sg * s v <= 0) ->
  (forall x, Cut3.cross (nb (vb p)) (nv p) keep x -> exists a b, (0 <= a < nv p)%Z /\ (0 <= b < nv p)%Z
     /\ ((0 <= s a /\ s b < 0) \/ (s a <= 0 /\ 0 < s b)) /\ np x = wav3 FR (ps (vb p) a) (- s b) (ps (vb p) b) (s a)) ->
  side_near pl m p q sg.
Proof.
  intros Hg HC K1 K2 HX. pose proof (cut_from s p q m keep np N Hw Hm HC HX) as FC. split.
  - intros v Hv. split; [now apply (cutF_within s p q m _ Hm0 Hm FC)|]. split.
    + destruct (cutF_hull s p q m _ Hm0 FC p 0) with (v := v) as (x & X1 & X2); auto.
      { intros w Hw'. exists (ps (vb p) w). split; [now apply hull3_vertex|apply near3_refl]. }
      exists x. split; auto. now rewrite Rplus_0_l in X2.
    + destruct (cutF_new s p q m _ Hm0 FC pl _ Hs v Hv) as (N1 & N2). destruct Hg; subst.
      * rewrite Rmult_1_l. apply N1. intros a Ha Ka. pose proof (K1 a Ha Ka). lra.
      * assert (sdist3 pl (ps (vb q) v) <= 5 * u * plane_size pl m + normal_size pl * (5 * u * m)); [|lra].
        apply N2. intros a Ha Ka. pose proof (K1 a Ha Ka). lra.
  - intros v Hv X. apply (cut_of_kept p q keep np N Hw HC v Hv).
    destruct (keep v) eqn:Kv; auto. pose proof (K2 v Hv Kv). pose proof (Hs v Hv) as SS. apply rabs_inv in SS. destruct Hg; subst; lra.
Qed.

(** both outputs of a split that cuts *)
Lemma split_sides MX (q0 q1 : pol3) right sg : sg = 1 \/ sg = -1 -> split3_result FR MX p s right q0 q1 ->
  (forall v, (0 <= v < nv p)%Z -> right v = false -> 0 <= sg * s v) -> (forall v, (0 <= v < nv p)%Z -> right v = true -> sg * s v < 0) ->
  side_near pl m p q0 sg /\ side_near pl m p q1 (- sg).
Proof.
  intros Hg (_ & C0 & C1 & _) R0 R1. change (T FR) with R in *. pose proof Hw as (Hn & L & P).
  assert (HT : forall x, isd (below (nv p)) x -> (0 <= fst x < nv p)%Z /\ (0 <= dtgt (nb (vb p)) x < nv p)%Z).
  { intros x Dx. split; [apply Dx|apply (l_rng _ _ L); apply Dx]. }
  split.
  - apply (side_cut sg q0 _ _ _ Hg C0).
    + intros v Hv K. apply negb_true_iff in K. auto.
    + intros v Hv K. apply negb_false_iff in K. pose proof (R1 v Hv K). lra.
    + intros x (Dx & K1 & K2). destruct (HT x Dx) as (H1 & H2). apply negb_true_iff in K1. apply negb_false_iff in K2.
      exists (fst x), (dtgt (nb (vb p)) x). split; auto. split; auto. split; [|reflexivity].
      pose proof (R0 _ H1 K1). pose proof (R1 _ H2 K2). destruct Hg; subst; lra.
  - apply (side_cut (- sg) q1 _ _ _ ltac:(lra) C1).
    + intros v Hv K. pose proof (R1 v Hv K). lra.
    + intros v Hv K. pose proof (R0 v Hv K). lra.
    + intros x (Dx & K1 & K2). destruct (HT x Dx) as (H1 & H2).
      exists (dtgt (nb (vb p)) x), (fst x). split; auto. split; auto. split.
      * pose proof (R1 _ H1 K1). pose proof (R0 _ H2 K2). destruct Hg; subst; lra.
      * unfold newpos3', newpos3. change (T FR) with R. rewrite (dtgt_opp (nb (vb p)) _ L x Dx). reflexivity.
Qed.
End Side.

Lemma split31_F MX pl m (p op on q o0 o1 : pol3) : 0 <= m -> wf3 p -> (nv p <= MX)%Z ->
  (forall v, (0 <= v < nv p)%Z -> within_abs m (ps (vb p) v)) ->
  r3d_split1 FR MX pl p op on = OK ((q, (o0, o1)), true) -> side_near pl m p o0 1 /\ side_near pl m p o1 (-1).
Proof.
  intros Hm0 Hw HM Hm E. assert (Hs : forall v, (0 <= v < nv p)%Z -> Rabs (rsd pl p v - sdist3 pl (ps (vb p) v)) <= 5 * u * plane_size pl m) by (intros; apply rsd_near; auto).
  assert (RT : forall v, rightv3 FR pl (vb p) v = true -> rsd pl p v < 0).
  { intros v X. change (Rltb (rsd pl p v) 0 = true) in X. now apply Rltb_true in X. }
  assert (RF : forall v, rightv3 FR pl (vb p) v = false -> 0 <= rsd pl p v).
  { intros v X. change (Rltb (rsd pl p v) 0 = false) in X. apply Rltb_false in X. lra. }
  destruct (split31_spec FR MX pl p op on Hw HM) as [(H0 & E')|[(H0 & A & E')|[(H0 & A & E')|(x & y & Hx & Hy & Rx & Ry & [(q' & o0' & o1' & E' & SR)|(q' & E' & _)])]]];
    change (T FR) with R in *; rewrite E' in E; inversion E; subst.
  - split; apply (side_none pl q m (rsd pl q)); auto; intros; lia.
  - split; [apply (side_self pl o0 m (rsd pl o0))|apply (side_none pl o0 m (rsd pl o0))]; auto; intros v Hv; pose proof (RF v (A v Hv)); lra.
  - split; [apply (side_none pl o1 m (rsd pl o1))|apply (side_self pl o1 m (rsd pl o1))]; auto; intros v Hv; pose proof (RT v (A v Hv)); lra.
  - replace (-1) with (- (1)) by ring. apply (split_sides pl p m (rsd pl p) Hw Hm0 Hm Hs MX o0 o1 (rightv3 FR pl (vb p)) 1); auto.
    + intros v Hv X. pose proof (RF v X). lra.
    + intros v Hv X. pose proof (RT v X). lra.
Qed.

Lemma csd_near coord ax m (p : pol3) v : within_abs m (ps (vb p) v) ->
  Rabs (csd3 FR coord ax (vb p) v - sdist3 (axis_plane3 ax coord) (ps (vb p) v)) <= 5 * u * plane_size (axis_plane3 ax coord) m.
Proof.
  intros (H1 & H2 & H3). rewrite axis_sdist3. change (csd3 FR coord ax (vb p) v) with (rnd (coordR3 ax (ps (vb p) v) - coord)).
  assert (CB : Rabs (coordR3 ax (ps (vb p) v)) <= m) by (unfold coordR3; destruct (ax =? 0)%Z; [|destruct (ax =? 1)%Z]; auto).
  assert (PS : plane_size (axis_plane3 ax coord) m = Rabs coord + m).
  { unfold plane_size, normal_size, axis_plane3. destruct (ax =? 0)%Z; [|destruct (ax =? 1)%Z]; cbn [d3 n3 x3 y3 z3]; rewrite Rabs_Ropp, Rabs_R0, Rabs_R1; ring. }
  rewrite PS. eapply Rle_trans; [apply (rnd_near u rnd HA Hu _ (Rabs coord + m))|].
  - unfold Rminus. eapply Rle_trans; [apply Rabs_triang|]. rewrite Rabs_Ropp. lra.
  - pose proof (Rabs_pos coord). assert (0 <= m) by (pose proof (Rabs_pos (x3 (ps (vb p) v))); lra). assert (0 <= u * (Rabs coord + m)) by (apply Rmult_le_pos; lra). lra.
Qed.

Lemma split3_coord_F MX m (p o1 q0 q1 : pol3) coord ax : 0 <= m -> wf3 p -> (0 < nv p <= MX)%Z -> (0 <= ax < 3)%Z ->
  (forall v, (0 <= v < nv p)%Z -> within_abs m (ps (vb p) v)) ->
  r3d_split_coord FR MX p o1 coord ax = OK (q0, q1) ->
  side_near (axis_plane3 ax coord) m p q0 (-1) /\ side_near (axis_plane3 ax coord) m p q1 1.
Proof.
  intros Hm0 Hw HM Hax Hm E. set (pl := axis_plane3 ax coord). set (s := (fun v => csd3 FR coord ax (vb p) v) : Z -> R).
  assert (Hs : forall v, (0 <= v < nv p)%Z -> Rabs (s v - sdist3 pl (ps (vb p) v)) <= 5 * u * plane_size pl m) by (intros; apply csd_near; auto).
  assert (RT : forall v, cright3 FR coord ax (vb p) v = true -> 0 < s v).
  { intros v X. change (Rltb 0 (s v) = true) in X. now apply Rltb_true in X. }
  assert (RF : forall v, cright3 FR coord ax (vb p) v = false -> s v <= 0).
  { intros v X. change (Rltb 0 (s v) = false) in X. apply Rltb_false in X. lra. }
  destruct (split3_coord_spec FR MX p o1 coord ax Hw (proj2 HM) Hax) as [(H0 & E')|[(H0 & A & E')|[(H0 & A & E')|(x & y & Hx & Hy & Rx & Ry & [(q' & o1' & E' & SR)|(E' & _)])]]];
    change (T FR) with R in *; rewrite E' in E; inversion E; subst.
  - lia.
  - split; [apply (side_self pl q0 m s)|apply (side_none pl q0 m s)]; auto; intros v Hv; pose proof (RF v (A v Hv)); lra.
  - split; [apply (side_none pl q1 m s)|apply (side_self pl q1 m s)]; auto; intros v Hv; pose proof (RT v (A v Hv)); lra.
  - assert (E1 : - (-1) = 1) by ring. rewrite <- E1. apply (split_sides pl p m s Hw Hm0 Hm Hs MX q0 q1 (cright3 FR coord ax (vb p)) (-1)); auto.
    + intros v Hv X. pose proof (RF v X). lra.
    + intros v Hv X. pose proof (RT v X). lra.
Qed.
End Rnd.
