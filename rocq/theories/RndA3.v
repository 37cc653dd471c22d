(** * RndA3: the volumes of the two parts of a 3D split in rounded arithmetic. *)
From Coq Require Import Reals ZArith FunctionalExtensionality List Bool Lia Lra Psatz.
From Verif Require Import Base Lib ModelCommon CommonFacts Model3 Spec2 Spec3 Orb3 Cut3 Clip2 Struct3 Clip3 FaceSpec3 Face3
  HPoly RealNum SumR Spec3R Mom3 Geo3 CutSum3 Cons2 Cons3 Glue3 RndNum SpecR3 SpecL3 RndC3 RndF3.
Import ListNotations.
Open Scope R_scope.

(** ** Small tetrahedra *)
Lemma prod3_le a b c x y z : Rabs a <= x -> Rabs b <= y -> Rabs c <= z -> Rabs (a * b * c) <= x * y * z.
Proof.
  intros. rewrite !Rabs_mult. pose proof (Rabs_pos a). pose proof (Rabs_pos b). pose proof (Rabs_pos c).
  apply Rmult_le_compat; auto; [apply Rmult_le_pos; auto|]. apply Rmult_le_compat; auto.
Qed.
Definition dt (a1 a2 a3 b1 b2 b3 c1 c2 c3 : R) : R := a1 * (b2 * c3 - b3 * c2) - a2 * (b1 * c3 - b3 * c1) + a3 * (b1 * c2 - b2 * c1).
Lemma dt_le a1 a2 a3 b1 b2 b3 c1 c2 c3 x y z : Rabs a1 <= x -> Rabs a2 <= x -> Rabs a3 <= x -> Rabs b1 <= y -> Rabs b2 <= y -> Rabs b3 <= y ->
  Rabs c1 <= z -> Rabs c2 <= z -> Rabs c3 <= z -> Rabs (dt a1 a2 a3 b1 b2 b3 c1 c2 c3) <= 6 * (x * y * z).
Proof.
  intros A1 A2 A3 B1 B2 B3 C1 C2 C3. unfold dt.
  pose proof (prod3_le _ _ _ _ _ _ A1 B2 C3) as P1. pose proof (prod3_le _ _ _ _ _ _ A1 B3 C2) as P2. pose proof (prod3_le _ _ _ _ _ _ A2 B1 C3) as P3.
  pose proof (prod3_le _ _ _ _ _ _ A2 B3 C1) as P4. pose proof (prod3_le _ _ _ _ _ _ A3 B1 C2) as P5. pose proof (prod3_le _ _ _ _ _ _ A3 B2 C1) as P6.
  apply rabs_inv in P1, P2, P3, P4, P5, P6. apply Rabs_le. split; lra.
Qed.
Lemma diff_le a b M : Rabs a <= M -> Rabs b <= M -> Rabs (a - b) <= 2 * M.
Proof. intros H1 H2. apply rabs_inv in H1, H2. apply Rabs_le. lra. Qed.

Lemma svol6_swap12 a b c d : svol6 b a c d = - svol6 a b c d. Proof. unfold svol6. cbv zeta. ring. Qed.
Lemma svol6_swap13 a b c d : svol6 c b a d = - svol6 a b c d. Proof. unfold svol6. cbv zeta. ring. Qed.
Lemma svol6_swap14 a b c d : svol6 d b c a = - svol6 a b c d. Proof. unfold svol6. cbv zeta. ring. Qed.
Lemma svol6_same a : svol6 a a a a = 0. Proof. unfold svol6. cbv zeta. ring. Qed.

Lemma svol6_near1 M h x y b c d : within_abs M b -> within_abs M c -> within_abs M d -> near3 h x y ->
  Rabs (svol6 x b c d - svol6 y b c d) <= 24 * (M * M * h).
Proof.
  intros (B1 & B2 & B3) (C1 & C2 & C3) (D1 & D2 & D3) (E1 & E2 & E3).
  replace (svol6 x b c d - svol6 y b c d) with (dt (x3 y - x3 x) (y3 y - y3 x) (z3 y - z3 x) (x3 c - x3 b) (y3 c - y3 b) (z3 c - z3 b) (x3 d - x3 b) (y3 d - y3 b) (z3 d - z3 b))
    by (unfold svol6, dt; cbv zeta; ring).
  rewrite Rabs_minus_sym in E1, E2, E3.
  replace (24 * (M * M * h)) with (6 * (h * (2 * M) * (2 * M))) by ring. apply dt_le; auto; apply diff_le; auto.
Qed.
Lemma svol6_near M h x1 x2 x3 x4 y1 y2 y3 y4 : within_abs M x1 -> within_abs M x2 -> within_abs M x3 -> within_abs M x4 ->
  within_abs M y1 -> within_abs M y2 -> within_abs M y3 -> within_abs M y4 -> near3 h x1 y1 -> near3 h x2 y2 -> near3 h x3 y3 -> near3 h x4 y4 ->
  Rabs (svol6 x1 x2 x3 x4 - svol6 y1 y2 y3 y4) <= 96 * (M * M * h).
Proof.
  intros X1 X2 X3 X4 Y1 Y2 Y3 Y4 N1 N2 N3 N4.
  pose proof (svol6_near1 M h x1 y1 x2 x3 x4 X2 X3 X4 N1) as P1.
  pose proof (svol6_near1 M h x2 y2 y1 x3 x4 Y1 X3 X4 N2) as P2. rewrite (svol6_swap12 y1 x2), (svol6_swap12 y1 y2) in P2.
  pose proof (svol6_near1 M h x3 y3 y2 y1 x4 Y2 Y1 X4 N3) as P3. rewrite (svol6_swap13 y1 y2 x3), (svol6_swap13 y1 y2 y3) in P3.
  pose proof (svol6_near1 M h x4 y4 y2 y3 y1 Y2 Y3 Y1 N4) as P4. rewrite (svol6_swap14 y1 y2 y3 x4), (svol6_swap14 y1 y2 y3 y4) in P4.
  apply rabs_inv in P1, P2, P3, P4. apply Rabs_le. lra.
Qed.

Lemma svol6_lerp1 t x y b c d e : 0 <= t <= 1 -> Rabs (svol6 x b c d) <= e -> Rabs (svol6 y b c d) <= e -> Rabs (svol6 (lerp3 t x y) b c d) <= e.
Proof.
  intros Ht H1 H2. replace (svol6 (lerp3 t x y) b c d) with ((1 - t) * svol6 x b c d + t * svol6 y b c d) by (unfold svol6, lerp3; cbn; ring).
  now apply combo_abs.
Qed.
Lemma svol6_lerp2 t x y a c d e : 0 <= t <= 1 -> Rabs (svol6 a x c d) <= e -> Rabs (svol6 a y c d) <= e -> Rabs (svol6 a (lerp3 t x y) c d) <= e.
Proof. intros Ht H1 H2. rewrite svol6_swap12, Rabs_Ropp in *. now apply svol6_lerp1. Qed.
Lemma svol6_lerp3 t x y a b d e : 0 <= t <= 1 -> Rabs (svol6 a b x d) <= e -> Rabs (svol6 a b y d) <= e -> Rabs (svol6 a b (lerp3 t x y) d) <= e.
Proof. intros Ht H1 H2. rewrite svol6_swap13, Rabs_Ropp in *. now apply svol6_lerp1. Qed.
Lemma svol6_lerp4 t x y a b c e : 0 <= t <= 1 -> Rabs (svol6 a b c x) <= e -> Rabs (svol6 a b c y) <= e -> Rabs (svol6 a b c (lerp3 t x y)) <= e.
Proof. intros Ht H1 H2. rewrite svol6_swap14, Rabs_Ropp in *. now apply svol6_lerp1. Qed.

(** points near the same plane *)
Lemma svol6_plane M t pl a b c d : within_abs M a -> within_abs M b -> within_abs M c -> within_abs M d ->
  Rabs (sdist3 pl a) <= t -> Rabs (sdist3 pl b) <= t -> Rabs (sdist3 pl c) <= t -> Rabs (sdist3 pl d) <= t ->
  normal_size pl * Rabs (svol6 a b c d) <= 144 * (t * (M * M)).
Proof.
  intros (A1 & A2 & A3) (B1 & B2 & B3) (C1 & C2 & C3) (D1 & D2 & D3) Sa Sb Sc Sd. unfold normal_size.
  set (s1 := sdist3 pl b - sdist3 pl a). set (s2 := sdist3 pl c - sdist3 pl a). set (s3 := sdist3 pl d - sdist3 pl a).
  assert (S1 : Rabs s1 <= 2 * t) by now apply diff_le. assert (S2 : Rabs s2 <= 2 * t) by now apply diff_le. assert (S3 : Rabs s3 <= 2 * t) by now apply diff_le.
  assert (DX : forall g : rvec3 R -> R, (g = x3 \/ g = y3 \/ g = z3) -> forall q, within_abs M q -> Rabs (g q - g a) <= 2 * M).
  { intros g Hg q (Q1 & Q2 & Q3). destruct Hg as [->|[->| ->]]; now apply diff_le. }
  assert (HB : within_abs M b) by (split; auto). assert (HC : within_abs M c) by (split; auto). assert (HD : within_abs M d) by (split; auto).
  assert (P : forall g h, (g = x3 \/ g = y3 \/ g = z3) -> (h = x3 \/ h = y3 \/ h = z3) ->
     Rabs (dt s1 s2 s3 (g b - g a) (g c - g a) (g d - g a) (h b - h a) (h c - h a) (h d - h a)) <= 48 * (t * (M * M))).
  { intros g h Hg Hh. replace (48 * (t * (M * M))) with (6 * (2 * t * (2 * M) * (2 * M))) by ring. apply dt_le; auto. }
  pose proof (P y3 z3 ltac:(auto) ltac:(auto)) as P1. pose proof (P z3 x3 ltac:(auto) ltac:(auto)) as P2. pose proof (P x3 y3 ltac:(auto) ltac:(auto)) as P3.
  assert (E1 : dt s1 s2 s3 (y3 b - y3 a) (y3 c - y3 a) (y3 d - y3 a) (z3 b - z3 a) (z3 c - z3 a) (z3 d - z3 a) = x3 (n3 pl) * svol6 a b c d)
    by (unfold dt, s1, s2, s3, svol6, sdist3; cbv zeta; ring).
  assert (E2 : dt s1 s2 s3 (z3 b - z3 a) (z3 c - z3 a) (z3 d - z3 a) (x3 b - x3 a) (x3 c - x3 a) (x3 d - x3 a) = y3 (n3 pl) * svol6 a b c d)
    by (unfold dt, s1, s2, s3, svol6, sdist3; cbv zeta; ring).
  assert (E3 : dt s1 s2 s3 (x3 b - x3 a) (x3 c - x3 a) (x3 d - x3 a) (y3 b - y3 a) (y3 c - y3 a) (y3 d - y3 a) = z3 (n3 pl) * svol6 a b c d)
    by (unfold dt, s1, s2, s3, svol6, sdist3; cbv zeta; ring).
  rewrite E1, Rabs_mult in P1. rewrite E2, Rabs_mult in P2. rewrite E3, Rabs_mult in P3. lra.
Qed.

(** a point near an edge *)
Lemma T0_line M h t a v w x : within_abs M a -> within_abs M v -> within_abs M w -> near3 h x (lerp3 t v w) ->
  Rabs (T0 a w x + T0 a x v - T0 a w v) <= 2 * (M * M * h).
Proof.
  intros (A1 & A2 & A3) (B1 & B2 & B3) (C1 & C2 & C3) (E1 & E2 & E3). unfold lerp3 in *. cbn [x3 y3 z3] in *.
  assert (X : 6 * (T0 a w x + T0 a x v - T0 a w v) = dt (x3 a) (y3 a) (z3 a) (x3 w - x3 v) (y3 w - y3 v) (z3 w - z3 v)
     (x3 x - ((1 - t) * x3 v + t * x3 w)) (y3 x - ((1 - t) * y3 v + t * y3 w)) (z3 x - ((1 - t) * z3 v + t * z3 w))).
  { rewrite Rmult_minus_distr_l, Rmult_plus_distr_l, !T0_det. unfold dt. ring. }
  assert (Y : Rabs (6 * (T0 a w x + T0 a x v - T0 a w v)) <= 6 * (M * (2 * M) * h)).
  { rewrite X. apply dt_le; auto; apply diff_le; auto. }
  rewrite Rabs_mult, (Rabs_pos_eq 6) in Y by lra. lra.
Qed.

Section Rnd.
Context (u : R) (rnd : R -> R) (HA : accurate u rnd) (Hu : 0 <= u <= 1 / 100).
Notation FR := (FN rnd).
Let Hu10 : 0 <= u <= 1 / 10. Proof. lra. Qed.

(** ** Both parts of a split that cuts *)
Section Both.
Context (pl : plane3 R) (p : pol3) (m e : R) (s : Z -> R) (right : Z -> bool) (sg : R).
Notation f := (nb (vb p)). Notation n := (nv p). Notation pos := (ps (vb p)).
Notation isd0 := (isd (below n)).
Hypothesis Hw : wf3 p.
Hypothesis Hm0 : 0 <= m.
Hypothesis Hm : forall v, (0 <= v < n)%Z -> within_abs m (pos v).
Hypothesis Hs : forall v, (0 <= v < n)%Z -> Rabs (s v - sdist3 pl (pos v)) <= 5 * u * plane_size pl m.
Hypothesis Hg : sg = 1 \/ sg = -1.
Hypothesis R0 : forall v, (0 <= v < n)%Z -> right v = false -> 0 <= sg * s v.
Hypothesis R1 : forall v, (0 <= v < n)%Z -> right v = true -> sg * s v < 0.
Hypothesis He : 0 <= e.
Hypothesis HF : flat_faces e p.

Let K (v : Z) : bool := negb (right v).
Let np : dart -> rvec3 R := newpos3 FR (vb p) s.
Notation cross := (Cut3.cross f n K).
Let M := m + 5 * u * m.
Let e' := e + 3200 * u * m ^ 3.

Lemma both_um : 0 <= 5 * u * m. Proof. apply Rmult_le_pos; lra. Qed.
Lemma both_M : m <= M /\ M * M <= (111 / 100) * (m * m). Proof. unfold M. pose proof both_um. split; [lra|nra]. Qed.
Lemma both_e : 0 <= e' /\ 96 * (M * M * (5 * u * m)) + e <= e' /\ 2 * (M * M * (5 * u * m)) <= e' / 200.
Proof.
  destruct both_M as (_ & X). pose proof both_um. unfold e'. assert (Y : 0 <= m * m) by nra.
  assert (Z : M * M * (5 * u * m) <= (111 / 100) * (m * m) * (5 * u * m)) by (apply Rmult_le_compat_r; auto).
  replace ((111 / 100) * (m * m) * (5 * u * m)) with ((555 / 100) * (u * m ^ 3)) in Z by field.
  assert (U : 0 <= u * m ^ 3) by (apply Rmult_le_pos; [lra|now apply pow_le]). lra.
Qed.

Lemma np_near x : cross x -> exists t, 0 <= t <= 1 /\ (1 - t) * s (fst x) + t * s (dtgt f x) = 0
  /\ (s (fst x) <> 0 \/ s (dtgt f x) <> 0) /\ near3 (5 * u * m) (np x) (lerp3 t (pos (fst x)) (pos (dtgt f x))).
Proof.
  intros (Dx & K1 & K2). destruct Hw as (Hn & L & P). assert (H1 : (0 <= fst x < n)%Z) by apply Dx. assert (H2 : (0 <= dtgt f x < n)%Z) by (apply (l_rng _ _ L); apply Dx).
  unfold K in *. apply negb_true_iff in K1. apply negb_false_iff in K2. pose proof (R0 _ H1 K1). pose proof (R1 _ H2 K2).
  assert (SG : (0 <= s (fst x) /\ s (dtgt f x) < 0) \/ (s (fst x) <= 0 /\ 0 < s (dtgt f x))) by (destruct Hg; subst; lra).
  destruct (weights _ _ SG) as (W1 & W2). exists (s (fst x) / (s (fst x) - s (dtgt f x))). split; [auto|]. split; [auto|]. split; [lra|].
  exact (wav3_near u rnd HA Hu10 _ _ _ _ m SG (Hm _ H1) (Hm _ H2)).
Qed.
Lemma np_within x : cross x -> within_abs M (np x).
Proof.
  intros Hx. destruct (np_near x Hx) as (t & Ht & _ & _ & NR). destruct Hx as (Dx & _). destruct Hw as (Hn & L & P).
  eapply near3_within; [exact NR|]. apply lerp_within; auto; apply Hm; [apply Dx|apply (l_rng _ _ L); apply Dx].
Qed.
Lemma np_plane x : cross x -> Rabs (sdist3 pl (np x)) <= 5 * u * plane_size pl m + normal_size pl * (5 * u * m).
Proof.
  intros Hx. destruct (np_near x Hx) as (t & Ht & HZ & _ & NR). destruct Hx as (Dx & _). destruct Hw as (Hn & L & P).
  pose proof (sdist_near pl _ _ _ NR) as SS. rewrite sdist3_lerp in SS.
  pose proof (Hs _ (proj1 Dx)) as S1. pose proof (Hs (dtgt f x) ltac:(apply (l_rng _ _ L); apply Dx)) as S2.
  pose proof (combo_near t (s (fst x)) (s (dtgt f x)) _ _ _ Ht S1 S2) as S3. rewrite HZ in S3.
  apply rabs_inv in SS, S3. apply Rabs_le. lra.
Qed.
(** the plane is not far from the polyhedron and has a normal *)
Lemma plane_close x : cross x -> 0 < normal_size pl /\ Rabs (d3 pl) <= 2 * (normal_size pl * m).
Proof.
  intros Hx. destruct (np_near x Hx) as (t & Ht & HZ & NZ & NR). destruct Hx as (Dx & _). destruct Hw as (Hn & L & P).
  set (A := pos (fst x)) in *. set (B := pos (dtgt f x)) in *.
  assert (WA : within_abs m A) by (apply Hm; apply Dx). assert (WB : within_abs m B) by (apply Hm, (l_rng _ _ L); apply Dx).
  pose proof (Hs _ (proj1 Dx)) as S1. pose proof (Hs (dtgt f x) ltac:(apply (l_rng _ _ L); apply Dx)) as S2. fold A in S1. fold B in S2.
  pose proof (normal_size_pos pl) as NP.
  assert (G : forall q, within_abs m q -> Rabs (sdist3 pl q - d3 pl) <= normal_size pl * m).
  { intros q (Q1 & Q2 & Q3). pose proof (sdist_near pl q (V3 0 0 0) m) as X. unfold near3 in X. cbn [x3 y3 z3] in X. rewrite !Rminus_0_r in X.
    specialize (X (conj Q1 (conj Q2 Q3))). unfold sdist3 at 2 in X. cbn [x3 y3 z3] in X. replace (d3 pl + _) with (d3 pl) in X by ring. exact X. }
  pose proof (combo_near t (s (fst x)) (s (dtgt f x)) _ _ _ Ht S1 S2) as S3. rewrite HZ in S3.
  pose proof (combo_near t _ _ _ _ _ Ht (G A WA) (G B WB)) as S4. replace ((1 - t) * d3 pl + t * d3 pl) with (d3 pl) in S4 by ring.
  assert (D : Rabs (d3 pl) <= 5 * u * plane_size pl m + normal_size pl * m).
  { apply rabs_inv in S3, S4. apply Rabs_le. lra. }
  unfold plane_size in D. assert (NM : 0 <= normal_size pl * m) by (apply Rmult_le_pos; auto). pose proof (Rabs_pos (d3 pl)).
  assert (D2 : Rabs (d3 pl) <= 2 * (normal_size pl * m)) by nra. split; [|auto].
  destruct (Rle_lt_or_eq_dec _ _ NP) as [X|X]; auto. exfalso.
  unfold plane_size in S1, S2. rewrite <- X, Rmult_0_l in *.
  assert (D0 : Rabs (d3 pl) = 0) by lra. rewrite D0 in *.
  pose proof (G A WA) as G1. pose proof (G B WB) as G2.
  assert (Z0 : forall y, Rabs y <= 0 -> y = 0). { intros y Hy. apply rabs_inv in Hy. lra. }
  assert (d3 pl = 0) by (apply Z0; lra). apply Z0 in G1. apply Z0 in G2.
  assert (s (fst x) = 0 /\ s (dtgt f x) = 0); [|tauto]. split; apply Rminus_diag_uniq.
  - apply Z0. assert (sdist3 pl A = 0) as Q by lra. rewrite Q in S1. rewrite Rminus_0_r in S1. rewrite Rminus_0_r. lra.
  - apply Z0. assert (sdist3 pl B = 0) as Q by lra. rewrite Q in S2. rewrite Rminus_0_r in S2. rewrite Rminus_0_r. lra.
Qed.
Lemma cap4 x1 x2 x3 x4 : cross x1 -> cross x2 -> cross x3 -> cross x4 -> Rabs (svol6 (np x1) (np x2) (np x3) (np x4)) <= e'.
Proof.
  intros H1 H2 H3 H4. destruct (plane_close x1 H1) as (N0 & D0).
  pose proof (svol6_plane M _ pl _ _ _ _ (np_within _ H1) (np_within _ H2) (np_within _ H3) (np_within _ H4) (np_plane _ H1) (np_plane _ H2) (np_plane _ H3) (np_plane _ H4)) as V.
  destruct both_M as (_ & MM). pose proof both_um as UM.
  set (ns := normal_size pl) in *. set (w := Rabs (svol6 (np x1) (np x2) (np x3) (np x4))) in *.
  assert (T1 : 5 * u * plane_size pl m + ns * (5 * u * m) <= 20 * u * m * ns).
  { unfold plane_size. fold ns. assert (5 * u * (Rabs (d3 pl) + ns * m) <= 5 * u * (2 * (ns * m) + ns * m)) by (apply Rmult_le_compat_l; lra). lra. }
  apply Rmult_le_reg_l with ns; auto. eapply Rle_trans; [exact V|].
  apply Rle_trans with (144 * (20 * u * m * ns * ((111 / 100) * (m * m)))).
  - apply Rmult_le_compat_l; [lra|]. apply Rmult_le_compat; auto; [|unfold M; nra]. apply Rplus_le_le_0_compat; [|apply Rmult_le_pos; lra].
    apply Rmult_le_pos; [lra|]. unfold plane_size. fold ns. pose proof (Rabs_pos (d3 pl)). assert (0 <= ns * m) by (apply Rmult_le_pos; lra). lra.
  - unfold e'. assert (0 <= ns * e) by (apply Rmult_le_pos; lra). assert (0 <= ns * (u * m ^ 3)) by (apply Rmult_le_pos; [lra|apply Rmult_le_pos; [lra|now apply pow_le]]).
    replace (144 * (20 * u * m * ns * ((111 / 100) * (m * m)))) with ((31968 / 10) * (ns * (u * m ^ 3))) by field. lra.
Qed.

(** ** Apexes *)
Let crossE (d : dart) : bool := crossb f K d || crossb f K (dopp f d).
Let ptE (d : dart) : rvec3 R := if crossb f K d then np d else np (dopp f d).
Let aE (d : dart) : rvec3 R :=
  match find (fun x => on_face f n d x && crossE x) (darts 3 n) with Some x => ptE x | None => pos (fst (lead f n d)) end.
Let B : rvec3 R := match crosses f n K with x :: _ => np x | nil => V3 0 0 0 end.
Let Q (d : dart) (x : rvec3 R) : Prop := exists t d1 d2, 0 <= t <= 1 /\ same_face f d d1 /\ same_face f d d2 /\ within_abs M x
  /\ near3 (5 * u * m) x (lerp3 t (pos (fst d1)) (pos (fst d2))).
Let Cp (x : rvec3 R) : Prop := x = B \/ exists y, cross y /\ x = np y.

Lemma aE_face d : isd0 d -> aE (fnext f d) = aE d.
Proof.
  intros Hd. unfold aE. destruct Hw as (Hn & L & P).
  rewrite (find_ext (fun x => on_face f n (fnext f d) x && crossE x) (fun x => on_face f n d x && crossE x) (darts 3 n))
    by (intros; rewrite (on_face_next p Hw) by auto; reflexivity).
  rewrite (lead_sf f n Hn L d (fnext f d)); auto. apply sf_step.
Qed.
Lemma Q_vertex d d' : isd0 d -> same_face f d d' -> Q d (pos (fst d')).
Proof.
  intros Hd S. destruct Hw as (Hn & L & P). assert (D' : isd0 d') by (eapply sf_isd; eauto).
  exists 0, d', d'. split; [lra|]. split; [auto|]. split; [auto|]. split; [eapply within_mono; [apply Hm; apply D'|apply both_M]|].
  replace (lerp3 0 (pos (fst d')) (pos (fst d'))) with (pos (fst d')) by (unfold lerp3; destruct (pos (fst d')); cbn; f_equal; ring).
  eapply near3_mono; [apply near3_refl|apply both_um].
Qed.
Lemma Q_cross d x : isd0 d -> cross x -> same_face f d x \/ same_face f d (dopp f x) -> Q d (np x).
Proof.
  intros Hd Hx S. destruct Hw as (Hn & L & P). pose proof (np_within x Hx) as W. destruct (np_near x Hx) as (t & Ht & _ & _ & NR). pose proof (proj1 Hx) as Dx.
  destruct S as [S|S].
  - exists t, x, (fnext f x). split; auto. split; auto. split; [eapply sf_trans; [exact S|apply sf_step]|]. split; [exact W|exact NR].
  - exists t, (fnext f (dopp f x)), (dopp f x). split; auto. split; [eapply sf_trans; [exact S|apply sf_step]|]. split; [exact S|]. split; [exact W|].
    rewrite fst_fnext, (dtgt_opp f _ L x Dx). exact NR.
Qed.
Lemma opp_cross x : isd0 x -> crossE x = true -> cross (if crossb f K x then x else dopp f x).
Proof.
  intros Dx E. destruct Hw as (Hn & L & P). unfold crossE in E. destruct (crossb f K x) eqn:E1.
  - now apply crossb_in.
  - cbn [orb] in E. apply crossb_in; auto. now apply isd_opp.
Qed.
Lemma ptE_eq x : ptE x = np (if crossb f K x then x else dopp f x).
Proof. unfold ptE. now destruct (crossb f K x). Qed.
Lemma Q_apex d : isd0 d -> Q d (aE d).
Proof.
  intros Hd. destruct Hw as (Hn & L & P). unfold aE. destruct (find _ _) as [x|] eqn:E.
  - apply find_some in E as (I & E). apply (isd_in n) in I. apply andb_true_iff in E as (E1 & E2). apply (on_face_spec f n L) in E1; auto.
    rewrite ptE_eq. apply Q_cross; auto; [now apply opp_cross|]. destruct (crossb f K x) eqn:X; auto. right. now rewrite (opp_opp f _ L x I).
  - apply Q_vertex; auto. now apply lead_ok.
Qed.
Lemma apex_cut d x : isd0 d -> same_face f d x -> crossE x = true -> exists y, cross y /\ aE d = np y.
Proof.
  intros Hd S E. destruct Hw as (Hn & L & P). assert (Dx : isd0 x) by (eapply sf_isd; eauto). unfold aE. destruct (find _ _) as [y|] eqn:F.
  - apply find_some in F as (I & F). apply (isd_in n) in I. apply andb_true_iff in F as (F1 & F2). rewrite ptE_eq. eexists. split; [|reflexivity]. now apply opp_cross.
  - exfalso. pose proof (find_none _ _ F x ltac:(now apply (isd_in n))) as X. cbv beta in X.
    assert (on_face f n d x = true) by now apply on_face_spec. rewrite H, E in X. discriminate.
Qed.
Lemma Q4 d x1 x2 x3 x4 : isd0 d -> Q d x1 -> Q d x2 -> Q d x3 -> Q d x4 -> Rabs (svol6 x1 x2 x3 x4) <= e'.
Proof.
  intros Hd (t1 & a1 & b1 & T1 & A1 & B1 & W1 & N1) (t2 & a2 & b2 & T2 & A2 & B2 & W2 & N2) (t3 & a3 & b3 & T3 & A3 & B3 & W3 & N3) (t4 & a4 & b4 & T4 & A4 & B4 & W4 & N4).
  destruct Hw as (Hn & L & P).
  assert (WV : forall d', same_face f d d' -> within_abs M (pos (fst d'))).
  { intros d' S. assert (D' : isd0 d') by (eapply sf_isd; eauto). eapply within_mono; [apply Hm; apply D'|apply both_M]. }
  pose proof (svol6_near M (5 * u * m) x1 x2 x3 x4 _ _ _ _ W1 W2 W3 W4 (lerp_within _ _ _ _ T1 (WV _ A1) (WV _ B1)) (lerp_within _ _ _ _ T2 (WV _ A2) (WV _ B2))
    (lerp_within _ _ _ _ T3 (WV _ A3) (WV _ B3)) (lerp_within _ _ _ _ T4 (WV _ A4) (WV _ B4)) N1 N2 N3 N4) as X.
  assert (Y : Rabs (svol6 (lerp3 t1 (pos (fst a1)) (pos (fst b1))) (lerp3 t2 (pos (fst a2)) (pos (fst b2))) (lerp3 t3 (pos (fst a3)) (pos (fst b3))) (lerp3 t4 (pos (fst a4)) (pos (fst b4)))) <= e).
  { apply svol6_lerp1; [exact T1| |]; (apply svol6_lerp2; [exact T2| |]; (apply svol6_lerp3; [exact T3| |]; (apply svol6_lerp4; [exact T4| |]; (eapply HF; [exact Hd|auto|auto|auto|auto])))). }
  destruct both_e as (_ & EB & _). apply rabs_inv in X, Y. apply Rabs_le. lra.
Qed.
Lemma C4 x1 x2 x3 x4 : Cp x1 -> Cp x2 -> Cp x3 -> Cp x4 -> Rabs (svol6 x1 x2 x3 x4) <= e'.
Proof.
  intros H1 H2 H3 H4. destruct Hw as (Hn & L & P). destruct (crosses f n K) as [|x0 l] eqn:E.
  - assert (NC : forall y, cross y -> False). { intros y Hy. apply in_crosses in Hy; auto. rewrite E in Hy. destruct Hy. }
    assert (G : forall x, Cp x -> x = B). { intros x [X|(y & Hy & _)]; auto. destruct (NC y Hy). }
    rewrite (G x1), (G x2), (G x3), (G x4), svol6_same, Rabs_R0 by auto. apply both_e.
  - assert (C0 : cross x0). { apply in_crosses; auto. rewrite E. now left. }
    assert (G : forall x, Cp x -> exists y, cross y /\ x = np y). { intros x [X|X]; auto. exists x0. split; auto. }
    destruct (G x1 H1) as (y1 & Y1 & ->). destruct (G x2 H2) as (y2 & Y2 & ->). destruct (G x3 H3) as (y3 & Y3 & ->). destruct (G x4 H4) as (y4 & Y4 & ->).
    now apply cap4.
Qed.

Lemma keep_flat0 q0 N : cut_of RN p K np N q0 -> flat_faces e' q0.
Proof.
  intros C0. destruct Hw as (Hn & L & P). destruct both_e as (e0 & _).
  destruct (side_flat_volume p q0 K np _ Hw C0 aE B Q Cp e') as (F0 & _); auto.
  { exact aE_face. } { exact Q4. } { exact C4. } { exact Q_apex. } { exact Q_vertex. } { exact Q_cross. } { now left. } { intros x Hx. right. eauto. }
  { intros x (Dx & K1 & K2). right. apply (apex_cut (dopp f x) (dopp f x)); [now apply isd_opp|apply sf_refl|]. unfold crossE. rewrite (opp_opp f _ L x Dx).
    unfold crossb at 2. rewrite K1, K2. apply orb_true_r. }
Qed.

Lemma cross_flip x : Cut3.cross f n right x -> cross (dopp f x) /\ isd0 x /\ dopp f (dopp f x) = x.
Proof.
  intros (Dx & K1 & K2). destruct Hw as (Hn & L & P). split; [|split; [auto|now apply (opp_opp f _ L)]].
  split; [now apply isd_opp|]. unfold K. rewrite (dtgt_opp f _ L x Dx). cbn [Spec3.dopp fst]. unfold dsrc. now rewrite K1, K2.
Qed.

Lemma both_flat_volume MX q0 q1 : split3_result FR MX p s right q0 q1 -> flat_faces e' q0 /\ flat_faces e' q1
  /\ Rabs (moment3 q0 0 0 0 + moment3 q1 0 0 0 - moment3 p 0 0 0) <= 2 * IZR (nv q0 + nv q1) * e'.
Proof.
  intros (_ & C0 & C1 & NQ). change (T FR) with R in *. pose proof Hw as (Hn & L & P). destruct both_e as (e0 & _ & E2).
  destruct (side_flat_volume p q0 K np _ Hw C0 aE B Q Cp e') as (F0 & V0); auto.
  { exact aE_face. } { exact Q4. } { exact C4. } { exact Q_apex. } { exact Q_vertex. } { exact Q_cross. } { now left. } { intros x Hx. right. eauto. }
  { intros x (Dx & K1 & K2). right. apply (apex_cut (dopp f x) (dopp f x)); [now apply isd_opp|apply sf_refl|]. unfold crossE. rewrite (opp_opp f _ L x Dx).
    unfold crossb at 2. rewrite K1, K2. apply orb_true_r. }
  destruct (side_flat_volume p q1 right (newpos3' FR (vb p) s) _ Hw C1 aE B Q Cp e') as (F1 & V1); auto.
  { exact aE_face. } { exact Q4. } { exact C4. } { exact Q_apex. } { exact Q_vertex. }
  { intros d x Hd Hx S. destruct (cross_flip x Hx) as (X1 & X2 & X3). apply (Q_cross d (dopp f x)); auto. rewrite X3. tauto. }
  { now left. } { intros x Hx. destruct (cross_flip x Hx) as (X1 & X2 & X3). right. exists (dopp f x). auto. }
  { intros x Hx. destruct (cross_flip x Hx) as ((X1 & K1 & K2) & X2 & X3). right. apply (apex_cut (dopp f x) (dopp f x)); [auto|apply sf_refl|]. unfold crossE.
    unfold crossb at 1. now rewrite K1, K2. }
  split; [exact F0|]. split; [exact F1|].
  set (S := lsum (darts 3 n) (fun d => T0 (aE d) (pos (dtgt f d)) (pos (fst d)))).
  assert (AC : Rabs (S - moment3 p 0 0 0) <= INR (length (darts 3 n)) * (e' / 6)).
  { apply (apex_change_e f (below n) n (darts 3 n) L (below_b n) (NoDup_darts 3 n Hn) (fun d => iff_sym (isd_in n d)) e' pos (fun d => pos (fst (lead f n d))) aE).
    - intros d Hd. do 2 f_equal. symmetry. apply (lead_sf f n Hn L); auto. apply sf_step.
    - exact aE_face.
    - intros d Hd. apply (Q4 d); auto.
      + apply Q_vertex; auto. now apply lead_ok.
      + now apply Q_apex.
      + rewrite <- (fst_fnext f). apply Q_vertex; auto. apply sf_step.
      + apply Q_vertex; auto. apply sf_refl. }
  assert (LS : Rabs (lsum (darts 3 n) (part3 f K pos np aE B 0 0 0) + lsum (darts 3 n) (part3 f right pos (newpos3' FR (vb p) s) aE B 0 0 0) - S) <= INR (length (darts 3 n)) * (e' / 200)).
  { unfold S. rewrite <- lsum_add, <- lsum_sub. apply lsum_abs. intros d Hd. apply (isd_in n) in Hd.
    assert (WV : forall v, (0 <= v < n)%Z -> within_abs M (pos v)) by (intros v Hv; eapply within_mono; [apply Hm; auto|apply both_M]).
    assert (W1 : within_abs M (pos (fst d))) by (apply WV; apply Hd). assert (W2 : within_abs M (pos (dtgt f d))) by (apply WV, (l_rng _ _ L); apply Hd).
    destruct (Q_apex d Hd) as (_ & _ & _ & _ & _ & _ & WA & _).
    unfold part3. change (newpos3' FR (vb p) s (dopp f d)) with (np (dopp f (dopp f d))). change (newpos3' FR (vb p) s d) with (np (dopp f d)). rewrite (opp_opp f _ L d Hd).
    unfold K. destruct (right (fst d)) eqn:R1'; destruct (right (dtgt f d)) eqn:R2'; cbn [negb].
    - match goal with |- Rabs ?x <= _ => replace x with 0 by ring end. rewrite Rabs_R0. lra.
    - assert (Hx : cross (dopp f d)). { split; [now apply isd_opp|]. unfold K. rewrite (dtgt_opp f _ L d Hd). cbn [Spec3.dopp fst]. unfold dsrc. now rewrite R1', R2'. }
      destruct (np_near _ Hx) as (t & Ht & _ & _ & NR). rewrite (dtgt_opp f _ L d Hd) in NR. cbn [Spec3.dopp fst] in NR. unfold dsrc in NR.
      assert (NR' : near3 (5 * u * m) (np (dopp f d)) (lerp3 (1 - t) (pos (fst d)) (pos (dtgt f d)))).
      { replace (lerp3 (1 - t) (pos (fst d)) (pos (dtgt f d))) with (lerp3 t (pos (dtgt f d)) (pos (fst d))) by (unfold lerp3; f_equal; ring). exact NR. }
      pose proof (T0_line M _ _ (aE d) _ _ _ WA W1 W2 NR') as X. apply rabs_inv in X. apply Rabs_le. lra.
    - assert (Hx : cross d). { split; [auto|]. unfold K. now rewrite R1', R2'. }
      destruct (np_near _ Hx) as (t & Ht & _ & _ & NR).
      pose proof (T0_line M _ _ (aE d) _ _ _ WA W1 W2 NR) as X. apply rabs_inv in X. apply Rabs_le. lra.
    - match goal with |- Rabs ?x <= _ => replace x with 0 by ring end. rewrite Rabs_R0. lra. }
  assert (LD : INR (length (darts 3 n)) = 3 * IZR n).
  { rewrite darts3_len, mult_INR, (INR_IZR_INZ (Z.to_nat n)), Z2Nat.id by auto. cbn [INR]. ring. }
  rewrite LD in AC, LS.
  assert (NV : IZR n <= IZR (nv q0 + nv q1)).
  { apply IZR_le. change (T FR) with R in *. rewrite NQ. unfold exits. lia. }
  destruct (cut_of_wf RN p _ _ _ q0 Hw C0) as ((Z0 & _) & _). destruct (cut_of_wf RN p _ _ _ q1 Hw C1) as ((Z1 & _) & _). change (T RN) with R in *.
  apply IZR_le in Z0, Z1. apply IZR_le in Hn. rewrite plus_IZR in *.
  apply rabs_inv in V0, V1, AC, LS. apply Rabs_le.
  assert (0 <= IZR (nv q0) * e') by (apply Rmult_le_pos; auto). assert (0 <= IZR (nv q1) * e') by (apply Rmult_le_pos; auto).
  assert (IZR n * e' <= (IZR (nv q0) + IZR (nv q1)) * e') by (apply Rmult_le_compat_r; auto). split; lra.
Qed.
End Both.
(** ** One part: a clip keeps the faces nearly flat *)
Lemma keep_flat pl (p q : pol3) m e s keep N : wf3 p -> 0 <= m -> (forall v, (0 <= v < nv p)%Z -> within_abs m (ps (vb p) v)) ->
  (forall v, (0 <= v < nv p)%Z -> Rabs (s v - sdist3 pl (ps (vb p) v)) <= 5 * u * plane_size pl m) ->
  (forall v, (0 <= v < nv p)%Z -> keep v = true -> 0 <= s v) -> (forall v, (0 <= v < nv p)%Z -> keep v = false -> s v < 0) ->
  0 <= e -> flat_faces e p -> cut_of RN p keep (newpos3 FR (vb p) s) N q -> flat_faces (e + 3200 * u * m ^ 3) q.
Proof.
  intros Hw Hm0 Hm Hs K0 K1 He HF HC. set (right := fun v => negb (keep v)).
  assert (R0 : forall v, (0 <= v < nv p)%Z -> right v = false -> 0 <= 1 * s v).
  { intros v Hv X. apply negb_false_iff in X. specialize (K0 v Hv X). lra. }
  assert (R1 : forall v, (0 <= v < nv p)%Z -> right v = true -> 1 * s v < 0).
  { intros v Hv X. apply negb_true_iff in X. specialize (K1 v Hv X). lra. }
  assert (EK : keep = fun v => negb (right v)) by (apply functional_extensionality; intros v; unfold right; now rewrite negb_involutive).
  rewrite EK in HC. assert (Hg : 1 = 1 \/ 1 = -1) by auto.
  exact (keep_flat0 pl p m e s right 1 Hw Hm0 Hm Hs Hg R0 R1 He HF q N HC).
Qed.

Lemma flat_mono e e2 p : flat_faces e p -> e <= e2 -> flat_faces e2 p.
Proof. intros H L d d1 d2 d3 d4 Hd S1 S2 S3 S4. eapply Rle_trans; [eapply H; eauto|auto]. Qed.
Lemma flat_none e p : nv p = 0%Z -> flat_faces e p.
Proof. intros H d d1 d2 d3 d4 Hd. exfalso. rewrite H in Hd. destruct Hd as ((X & Y) & _). lia. Qed.
Lemma grow m : 0 <= m -> 0 <= 3200 * u * m ^ 3.
Proof. intros H. apply Rmult_le_pos; [lra|now apply pow_le]. Qed.

Definition split_flat (e m : R) (p o0 o1 : pol3) : Prop := let e' := e + 3200 * u * m ^ 3 in
  flat_faces e' o0 /\ flat_faces e' o1 /\ Rabs (moment3 o0 0 0 0 + moment3 o1 0 0 0 - moment3 p 0 0 0) <= 2 * IZR (nv o0 + nv o1) * e'.

Lemma split_flat_l e m (p o : pol3) : 0 <= e -> 0 <= m -> (0 <= nv p)%Z -> flat_faces e p -> nv o = 0%Z -> split_flat e m p p o.
Proof.
  intros He Hm Hn HF Ho. pose proof (grow m Hm). split; [eapply flat_mono; [exact HF|lra]|]. split; [now apply flat_none|].
  rewrite (moment3_empty o), Rplus_0_r, Rminus_eq_0, Rabs_R0 by lia. apply IZR_le in Hn. rewrite Ho, Z.add_0_r. apply Rmult_le_pos; lra.
Qed.
Lemma split_flat_r e m (p o : pol3) : 0 <= e -> 0 <= m -> (0 <= nv p)%Z -> flat_faces e p -> nv o = 0%Z -> split_flat e m p o p.
Proof.
  intros He Hm Hn HF Ho. pose proof (grow m Hm). split; [now apply flat_none|]. split; [eapply flat_mono; [exact HF|lra]|].
  rewrite (moment3_empty o), Rplus_0_l, Rminus_eq_0, Rabs_R0 by lia. apply IZR_le in Hn. rewrite Ho, Z.add_0_l. apply Rmult_le_pos; lra.
Qed.

Lemma split31_flat MX pl m e (p op on q o0 o1 : pol3) : 0 <= m -> 0 <= e -> wf3 p -> (nv p <= MX)%Z ->
  (forall v, (0 <= v < nv p)%Z -> within_abs m (ps (vb p) v)) -> flat_faces e p ->
  r3d_split1 FR MX pl p op on = OK ((q, (o0, o1)), true) -> split_flat e m p o0 o1.
Proof.
  intros Hm0 He Hw HM Hm HF E. assert (Hs : forall v, (0 <= v < nv p)%Z -> Rabs (rsd rnd pl p v - sdist3 pl (ps (vb p) v)) <= 5 * u * plane_size pl m) by (intros; apply (rsd_near u rnd HA Hu10); auto).
  assert (RT : forall v, rightv3 FR pl (vb p) v = true -> rsd rnd pl p v < 0).
  { intros v X. change (Rltb (rsd rnd pl p v) 0 = true) in X. now apply Rltb_true in X. }
  assert (RF : forall v, rightv3 FR pl (vb p) v = false -> 0 <= rsd rnd pl p v).
  { intros v X. change (Rltb (rsd rnd pl p v) 0 = false) in X. apply Rltb_false in X. lra. }
  destruct (split31_spec FR MX pl p op on Hw HM) as [(H0 & E')|[(H0 & A & E')|[(H0 & A & E')|(x & y & Hx & Hy & Rx & Ry & [(q' & o0' & o1' & E' & SR)|(q' & E' & _)])]]];
    change (T FR) with R in *; rewrite E' in E; inversion E; subst.
  - assert (X : split_flat e m q q (zero_poly3 FR)) by (apply split_flat_l; auto; lia). destruct X as (X1 & X2 & X3).
    split; auto. split; auto. rewrite !(moment3_empty (zero_poly3 FR)), (moment3_empty q) in * by (cbn; lia). rewrite H0 in X3. exact X3.
  - apply split_flat_l; auto; lia.
  - apply split_flat_r; auto; lia.
  - apply (both_flat_volume pl p m e (rsd rnd pl p) (rightv3 FR pl (vb p)) 1) with (MX := MX); auto.
    + intros v Hv X. pose proof (RF v X). lra.
    + intros v Hv X. pose proof (RT v X). lra.
Qed.

Lemma split3_coord_flat MX m e (p o1 q0 q1 : pol3) coord ax : 0 <= m -> 0 <= e -> wf3 p -> (0 < nv p <= MX)%Z -> (0 <= ax < 3)%Z ->
  (forall v, (0 <= v < nv p)%Z -> within_abs m (ps (vb p) v)) -> flat_faces e p ->
  r3d_split_coord FR MX p o1 coord ax = OK (q0, q1) -> split_flat e m p q0 q1.
Proof.
  intros Hm0 He Hw HM Hax Hm HF E. set (pl := axis_plane3 ax coord). set (s := (fun v => csd3 FR coord ax (vb p) v) : Z -> R).
  assert (Hs : forall v, (0 <= v < nv p)%Z -> Rabs (s v - sdist3 pl (ps (vb p) v)) <= 5 * u * plane_size pl m) by (intros; apply (csd_near u rnd HA Hu10); auto).
  assert (RT : forall v, cright3 FR coord ax (vb p) v = true -> 0 < s v).
  { intros v X. change (Rltb 0 (s v) = true) in X. now apply Rltb_true in X. }
  assert (RF : forall v, cright3 FR coord ax (vb p) v = false -> s v <= 0).
  { intros v X. change (Rltb 0 (s v) = false) in X. apply Rltb_false in X. lra. }
  destruct (split3_coord_spec FR MX p o1 coord ax Hw (proj2 HM) Hax) as [(H0 & E')|[(H0 & A & E')|[(H0 & A & E')|(x & y & Hx & Hy & Rx & Ry & [(q' & o1' & E' & SR)|(E' & _)])]]];
    change (T FR) with R in *; rewrite E' in E; inversion E; subst.
  - lia.
  - apply split_flat_l; auto; lia.
  - apply split_flat_r; auto; lia.
  - apply (both_flat_volume pl p m e s (cright3 FR coord ax (vb p)) (-1)) with (MX := MX); auto.
    + intros v Hv X. pose proof (RF v X). lra.
    + intros v Hv X. pose proof (RT v X). lra.
Qed.

(** ** Clips *)
Lemma clip3_planes_flat MX M Mn (planes : list (plane3 R)) : 0 <= M -> forall k e (p p' : pol3), wf3 p -> (nv p <= MX)%Z -> 0 <= e ->
  M * drift u (k + length planes) <= Mn -> (forall v, (0 <= v < nv p)%Z -> within_abs (M * drift u k) (ps (vb p) v)) -> flat_faces e p ->
  clip3_planes FR MX planes p = OK (p', 1%Z) -> flat_faces (e + INR (length planes) * (3200 * u * Mn ^ 3)) p'.
Proof.
  intros HM0. induction planes as [|pl rest IH]; intros k e p p' Hw HM He HMn I HF E.
  { cbn in E. inversion E; subst. cbn [length INR]. eapply flat_mono; [exact HF|lra]. }
  assert (DG : forall j, 0 <= M * drift u j) by (intros j; pose proof (drift_ge u Hu10 j); apply Rmult_le_pos; lra).
  assert (DS : forall j, M * drift u (S j) = M * drift u j + 5 * u * (M * drift u j)) by (intros; rewrite drift_S; ring).
  assert (LE : forall j, M * drift u j <= M * drift u (S j)).
  { intros j. rewrite DS. assert (0 <= 5 * u * (M * drift u j)) by (apply Rmult_le_pos; [lra|auto]). lra. }
  assert (LK : M * drift u k <= Mn). { eapply Rle_trans; [|exact HMn]. apply Rmult_le_compat_l; auto. apply Rle_pow; [lra|lia]. }
  assert (MN : 0 <= Mn) by (pose proof (DG k); lra). pose proof (grow Mn MN) as GR.
  cbn [length] in *. replace (k + S (length rest))%nat with (S k + length rest)%nat in * by lia. rewrite S_INR.
  replace (e + (INR (length rest) + 1) * (3200 * u * Mn ^ 3)) with (e + 3200 * u * Mn ^ 3 + INR (length rest) * (3200 * u * Mn ^ 3)) by ring.
  destruct (clip3_step_F u rnd HA Hu10 MX pl rest p Hw HM) as [(A & E')|[(A & E')|[(q & N & C & W & Mq & E')|(q & E')]]];
    change (T FR) with R in *; rewrite E' in E.
  - apply (IH (S k) _ p p'); auto; [lra| |].
    + intros v Hv. eapply within_mono; [apply I; auto|apply LE].
    + eapply flat_mono; [exact HF|lra].
  - inversion E; subst. now apply flat_none.
  - assert (FF : flat_faces (e + 3200 * u * (M * drift u k) ^ 3) q).
    { apply (keep_flat pl p q (M * drift u k) e (rsd rnd pl p) (fun v => Rleb 0 (rsd rnd pl p v)) N Hw (DG k) I); auto.
      - intros v Hv. apply (rsd_near u rnd HA Hu10); auto.
      - intros v Hv X. now apply Rleb_true in X.
      - intros v Hv X. now apply Rleb_false in X. }
    apply (IH (S k) _ q p'); auto; [lra| |].
    + intros v Hv. rewrite DS.
      assert (FC : from_cut u (rsd rnd pl p) p (M * drift u k) (fun v => Rleb 0 (rsd rnd pl p v) = true) q).
      { apply (cut_from u rnd HA Hu10 (rsd rnd pl p) p q _ _ _ N Hw I C). intros x (Dx & K1 & K2). apply Rleb_true in K1. apply Rleb_false in K2.
        exists (fst x), (dtgt (nb (vb p)) x). split; [apply Dx|]. split; [destruct Hw as (_ & L & _); apply (l_rng _ _ L); apply Dx|].
        split; [left; auto|reflexivity]. }
      apply (cutF_within u Hu10 (rsd rnd pl p) p q _ _ (DG k) I FC v Hv).
    + eapply flat_mono; [exact FF|]. assert ((M * drift u k) ^ 3 <= Mn ^ 3) by (apply pow_incr; split; auto).
      assert (3200 * u * (M * drift u k) ^ 3 <= 3200 * u * Mn ^ 3) by (apply Rmult_le_compat_l; lra). lra.
  - inversion E.
Qed.
Lemma r3d_clip_flat MX M e (planes : list (plane3 R)) (p p' : pol3) : 0 <= M -> 0 <= e -> wf3 p -> (nv p <= MX)%Z ->
  (forall v, (0 <= v < nv p)%Z -> within_abs M (ps (vb p) v)) -> flat_faces e p ->
  r3d_clip FR MX p planes = OK (p', 1%Z) ->
  flat_faces (e + INR (length planes) * (3200 * u * (M * (1 + 5 * u) ^ length planes) ^ 3)) p'.
Proof.
  intros HM0 He Hw HM HB HF E. unfold r3d_clip in E. change (T FR) with R in *. destruct (nv p <=? 0)%Z; [inversion E|].
  apply (clip3_planes_flat MX M _ planes HM0 0 e p p'); auto; [unfold drift; cbn [Nat.add]; lra|].
  unfold drift. cbn [pow]. rewrite Rmult_1_r. auto.
Qed.
End Rnd.

Lemma r3d_split_flat u rnd MX pl m e ins outs : accurate u rnd -> 0 <= u <= 1 / 100 -> 0 <= m -> 0 <= e -> r3d_split (FN rnd) MX pl ins = OK (outs, 1%Z) ->
  Forall2 (fun (i o : pol3 * (pol3 * pol3)) => wf3 (fst i) -> (nv (fst i) <= MX)%Z ->
     (forall v, (0 <= v < nv (fst i))%Z -> within_abs m (ps (vb (fst i)) v)) -> flat_faces e (fst i) ->
     split_flat u e m (fst i) (fst (snd o)) (snd (snd o))) ins outs.
Proof.
  intros HA Hu Hm He E. apply r3d_split_list in E. eapply Glue2.F2_impl; [|exact E].
  intros [p [a b]] [q [o0 o1]] X Hw HM HB HF. cbn [fst snd] in *. exact (split31_flat u rnd HA Hu MX pl m e p a b q o0 o1 Hm He Hw HM HB HF X).
Qed.

(** planar faces are flat *)
Lemma planar_flat (p : pol3) : planar_faces p -> flat_faces 0 p.
Proof.
  intros HP d d1 d2 d3 d4 Hd S1 S2 S3 S4. destruct (HP d Hd) as (g & Hg & G).
  pose proof (plane_vol6 g _ _ _ _ Hg (G _ S1) (G _ S2) (G _ S3) (G _ S4)) as V.
  replace (svol6 _ _ _ _) with 0; [rewrite Rabs_R0; lra|]. rewrite <- V. unfold vol6, svol6, det3, psub, pt3. cbv zeta. cbn [px py pz]. ring.
Qed.
