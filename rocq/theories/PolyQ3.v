(** * PolyQ3: [r3d_init_poly] of a description of a simple convex polyhedron. *)
From Coq Require Import Reals ZArith List Bool Lia Lra Psatz.
From Verif Require FlagC3.
From Verif Require Import Base Lib SumR ModelCommon Model3 ModelB RealNum Spec3 Spec3R SpecN SpecNC SpecC3 SpecF3 SpecB SpecL3 SpecQ3 Orb3 PolyN Conv3 InitC3 InitP InitP2.
Import ListNotations.
Open Scope R_scope.

Definition plane_of (a b c : rvec3 R) : plane3 R :=
  let nx := (y3 b - y3 a) * (z3 c - z3 a) - (z3 b - z3 a) * (y3 c - y3 a) in
  let ny := (z3 b - z3 a) * (x3 c - x3 a) - (x3 b - x3 a) * (z3 c - z3 a) in
  let nz := (x3 b - x3 a) * (y3 c - y3 a) - (y3 b - y3 a) * (x3 c - x3 a) in
  PL3 (V3 nx ny nz) (- (nx * x3 a + ny * y3 a + nz * z3 a)).
Lemma plane_of_side a b c q : sdist3 (plane_of a b c) q = svol6 a b c q.
Proof. unfold sdist3, plane_of, svol6. cbn. ring. Qed.
Lemma det3_prod (a b c u v w : Z -> R) : linN 3 0 a v = 0 -> linN 3 0 a w = 0 -> linN 3 0 b u = 0 -> linN 3 0 b w = 0 -> linN 3 0 c u = 0 -> linN 3 0 c v = 0 ->
  det3 a b c * det3 u v w = linN 3 0 a u * linN 3 0 b v * linN 3 0 c w.
Proof.
  rewrite !lin3. intros E1 E2 E3 E4 E5 E6. rewrite !Rplus_0_l in *. unfold det3.
  transitivity ((a 0%Z * u 0%Z + (a 1%Z * u 1%Z + a 2%Z * u 2%Z)) * ((b 0%Z * v 0%Z + (b 1%Z * v 1%Z + b 2%Z * v 2%Z)) * (c 0%Z * w 0%Z + (c 1%Z * w 1%Z + c 2%Z * w 2%Z)) - (b 0%Z * w 0%Z + (b 1%Z * w 1%Z + b 2%Z * w 2%Z)) * (c 0%Z * v 0%Z + (c 1%Z * v 1%Z + c 2%Z * v 2%Z)))
    - (a 0%Z * v 0%Z + (a 1%Z * v 1%Z + a 2%Z * v 2%Z)) * ((b 0%Z * u 0%Z + (b 1%Z * u 1%Z + b 2%Z * u 2%Z)) * (c 0%Z * w 0%Z + (c 1%Z * w 1%Z + c 2%Z * w 2%Z)) - (b 0%Z * w 0%Z + (b 1%Z * w 1%Z + b 2%Z * w 2%Z)) * (c 0%Z * u 0%Z + (c 1%Z * u 1%Z + c 2%Z * u 2%Z)))
    + (a 0%Z * w 0%Z + (a 1%Z * w 1%Z + a 2%Z * w 2%Z)) * ((b 0%Z * u 0%Z + (b 1%Z * u 1%Z + b 2%Z * u 2%Z)) * (c 0%Z * v 0%Z + (c 1%Z * v 1%Z + c 2%Z * v 2%Z)) - (b 0%Z * v 0%Z + (b 1%Z * v 1%Z + b 2%Z * v 2%Z)) * (c 0%Z * u 0%Z + (c 1%Z * u 1%Z + c 2%Z * u 2%Z)))); [ring|].
  rewrite E1, E2, E3, E4, E5, E6. ring.
Qed.
(** an affine function that is zero at three points *)
Lemma side_prop g a b c q w : sdist3 g a = 0 -> sdist3 g b = 0 -> sdist3 g c = 0 -> sdist3 g q * svol6 a b c w = sdist3 g w * svol6 a b c q.
Proof.
  intros Ea Eb Ec.
  transitivity (sdist3 g w * svol6 a b c q + (sdist3 g a * svol6 q b c w + sdist3 g b * svol6 a q c w + sdist3 g c * svol6 a b q w)); [|rewrite Ea, Eb, Ec; ring].
  unfold sdist3, svol6. cbn. ring.
Qed.

Section Q.
Context (nf : Z) (nvf : Z -> Z) (fi : Z -> Z -> Z) (n : Z) (vs : Z -> rvec3 R).
Notation corner := (corner nf nvf).
Notation vat := (vat fi).
Notation csucc := (csucc nvf).
Notation cpred := (cpred nvf).
Notation on_face := (on_face nf nvf fi).
Notation side_c := (side_c nvf fi vs).
Hypothesis Hnf : (0 <= nf)%Z.
Hypothesis CS : closed_surface nf nvf fi n.
Hypothesis FM : faces_meet nf nvf fi.
Hypothesis CV : convex_desc nf nvf fi n vs.

(** three faces have at most one vertex in common *)
Lemma three_faces f g h v w : f <> g -> f <> h -> g <> h -> v <> w -> on_face f v -> on_face g v -> on_face h v -> on_face f w -> on_face g w -> on_face h w -> False.
Proof.
  intros N1 N2 N3 Nv (cf & Hf & Ff & Vf) (cg & Hg & Fg & Vg) (ch & Hh & Fh & Vh) (cf' & Hf' & Ff' & Vf') (cg' & Hg' & Fg' & Vg') (ch' & Hh' & Fh' & Vh').
  destruct FM as (_ & M).
  destruct (M cf cf' cg cg') as (a & b & Ha & Hb & Fa & Fb & E1 & E2 & X); auto; try congruence.
  destruct (M cf cf' ch ch') as (a' & b' & Ha' & Hb' & Fa' & Fb' & E1' & E2' & X'); auto; try congruence.
  destruct X as [(X1 & X2)|(X1 & X2)], X' as [(X1' & X2')|(X1' & X2')].
  - assert (b = b') by (apply (cs_once _ _ _ _ CS); auto; congruence). congruence.
  - assert (b = a') by (apply (cs_once _ _ _ _ CS); auto; congruence). congruence.
  - assert (b = a') by (apply (cs_once _ _ _ _ CS); auto; congruence). congruence.
  - assert (b = b') by (apply (cs_once _ _ _ _ CS); auto; congruence). congruence.
Qed.

Section B.
Context (b : vbuf (rvec3 R)).
Hypothesis HB : forall v, (0 <= v < n)%Z -> exists x y z, cyc nf nvf fi v x y z /\ row b v y x z.
Hypothesis HP : forall v, (0 <= v < n)%Z -> ps b v = vs v.
Notation f := (nb b).
Notation delta := (cdart nvf fi b).
Definition lab (d : dart) : Z := match find (fun c => (fst (delta c) =? fst d)%Z && (snd (delta c) =? snd d)%Z) (corners nf nvf) with Some c => fst c | None => 0%Z end.
Lemma lab_delta c : corner c -> lab (delta c) = fst c.
Proof.
  intros Hc. unfold lab. destruct (find _ _) as [c'|] eqn:E.
  - apply find_some in E as (E1 & E2). apply in_corners in E1. apply andb_true_iff in E2 as (E2 & E3). apply Z.eqb_eq in E2, E3.
    f_equal. apply (cdart_inj nf nvf fi n CS b HB); auto. rewrite (surjective_pairing (delta c')), E2, E3. symmetry. apply surjective_pairing.
  - apply in_corners in Hc. pose proof (find_none _ _ E c Hc) as X. cbn beta in X. rewrite !Z.eqb_refl in X. discriminate.
Qed.
(** each dart comes from a corner *)
Lemma dart_corner v i : (0 <= v < n)%Z -> (0 <= i < 3)%Z -> exists c, corner c /\ delta c = (v, i) /\ lab (v, i) = fst c /\ vat (csucc c) = v /\ vat c = f v i /\ vat (csucc (csucc c)) = f v ((i + 2) mod 3)%Z.
Proof.
  intros Hv Hi. destruct (cdart_surj nf nvf fi n CS b HB (v, i)) as (c & Hc & E); [split; auto|]. exists c. split; auto. split; auto.
  split; [rewrite <- E; now apply lab_delta|]. destruct (cdart_spec nf nvf fi n CS b HB c Hc) as (j & E' & Hj & F1 & F2). rewrite E in E'. injection E' as E1 E2. subst j v. auto.
Qed.
Lemma LA : labels f n nf lab.
Proof.
  split.
  - intros (v, i) (Hv & Hi). destruct (dart_corner v i Hv Hi) as (c & Hc & _ & -> & _). apply Hc.
  - intros (v, i) (Hv & Hi). destruct (dart_corner v i Hv Hi) as (c & Hc & E & L & _). rewrite L, <- E, (cdart_next nf nvf fi n CS b HB c Hc).
    rewrite lab_delta; [reflexivity|]. apply (cpred_corner nf nvf); auto.
  - intros v i j Hv Hi Hj L. destruct (dart_corner v i Hv Hi) as (c & Hc & E & Lc & V & _). destruct (dart_corner v j Hv Hj) as (c' & Hc' & E' & Lc' & V' & _).
    assert (csucc c = csucc c').
    { apply (proj1 FM); [apply (csucc_corner nf nvf); auto|apply (csucc_corner nf nvf); auto| |congruence]. cbn. congruence. }
    assert (c = c'). { rewrite <- (cpred_csucc nf nvf c Hc), <- (cpred_csucc nf nvf c' Hc'). now f_equal. }
    subst c'. rewrite E in E'. now injection E'.
Qed.

Lemma face_of v i : (0 <= v < n)%Z -> (0 <= i < 3)%Z -> on_face (facet lab v i) v.
Proof.
  intros Hv Hi. unfold facet. destruct (dart_corner v ((i + 2) mod 3) Hv ltac:(apply Z.mod_pos_bound; lia)) as (c & Hc & _ & L & V & _).
  exists (csucc c). split; [now apply (csucc_corner nf nvf)|]. split; [now rewrite L|auto].
Qed.
Lemma face_slot v g : (0 <= v < n)%Z -> on_face g v -> exists i, (0 <= i < 3)%Z /\ facet lab v i = g.
Proof.
  intros Hv (c & Hc & F & V). pose proof (cpred_corner nf nvf c Hc) as Hp. destruct (cdart_spec nf nvf fi n CS b HB (cpred c) Hp) as (j & E & Hj & _).
  rewrite (csucc_cpred nf nvf c Hc), V in E. exists ((j + 1) mod 3)%Z. split; [apply Z.mod_pos_bound; lia|]. unfold facet. rewrite mod3_0 by auto. rewrite <- E, lab_delta by auto. exact F.
Qed.
(** the facets at [v] other than [facet v i] hold the neighbour [i] *)
Lemma face_nbr v i j : (0 <= v < n)%Z -> (0 <= i < 3)%Z -> (0 <= j < 3)%Z -> j <> i -> on_face (facet lab v j) (f v i).
Proof.
  intros Hv Hi Hj N. destruct (edge_labels f n nf lab (out_links nf nvf fi n CS b HB) LA v i Hv Hi) as (E1 & E2). cbv zeta in E1, E2.
  assert (Hw : (0 <= f v i < n)%Z) by (apply (l_rng _ _ (out_links nf nvf fi n CS b HB)); auto).
  destruct (slot_cases i j Hi Hj N) as [->| ->]; [rewrite E1|rewrite E2]; apply face_of; auto; apply Z.mod_pos_bound; lia.
Qed.
Lemma facet_ne v i j : (0 <= v < n)%Z -> (0 <= i < 3)%Z -> (0 <= j < 3)%Z -> i <> j -> facet lab v i <> facet lab v j.
Proof. intros Hv Hi Hj N E. apply N. exact (ce_hinj _ _ _ _ _ _ _ _ (cells3 f n nf lab (out_links nf nvf fi n CS b HB) LA) v i j Hv Hi Hj E). Qed.
Lemma not_all v w : (0 <= v < n)%Z -> v <> w -> (forall i, (0 <= i < 3)%Z -> on_face (facet lab v i) w) -> False.
Proof.
  intros Hv N H. apply (three_faces (facet lab v 0) (facet lab v 1) (facet lab v 2) v w); auto; try (apply facet_ne; auto; lia); try (apply face_of; auto; lia); apply H; lia.
Qed.
Lemma face_off v i : (0 <= v < n)%Z -> (0 <= i < 3)%Z -> ~ on_face (facet lab v i) (f v i).
Proof.
  intros Hv Hi O. apply (not_all v (f v i) Hv).
  - apply not_eq_sym. apply (l_self _ _ (out_links nf nvf fi n CS b HB)); auto.
  - intros j Hj. destruct (Z.eq_dec j i) as [->|N]; auto. now apply face_nbr.
Qed.
(** the plane of a face, from its first corner *)
Definition pl_f (g : Z) : plane3 R := plane_of (vs (vat (csucc (g, 0%Z)))) (vs (vat (g, 0%Z))) (vs (vat (cpred (g, 0%Z)))).
Lemma pl_side g x : sdist3 (pl_f g) x = side_c (g, 0%Z) x. Proof. apply plane_of_side. Qed.
Lemma first g : (0 <= g < nf)%Z -> corner (g, 0%Z).
Proof. intros Hg. split; auto. cbn. pose proof (cs_size _ _ _ _ CS g Hg). lia. Qed.
Definition at_b (v k : Z) : R := co3 (ps b v) k.
Lemma pl_on g v : (0 <= g < nf)%Z -> (0 <= v < n)%Z -> on_face g v -> linN 3 (d3 (pl_f g)) (co3 (n3 (pl_f g))) (at_b v) = 0.
Proof. intros Hg Hv O. unfold at_b. rewrite <- sdist3_lin, HP, pl_side by auto. apply (CV (g, 0%Z) v (first g Hg) Hv). exact O. Qed.
Lemma pl_off g v : (0 <= g < nf)%Z -> (0 <= v < n)%Z -> ~ on_face g v -> 0 < linN 3 (d3 (pl_f g)) (co3 (n3 (pl_f g))) (at_b v).
Proof. intros Hg Hv O. unfold at_b. rewrite <- sdist3_lin, HP, pl_side by auto. apply (CV (g, 0%Z) v (first g Hg) Hv). exact O. Qed.
Notation l g := (co3 (n3 (pl_f g))).
Notation E v i := (fun k => at_b (f v i) k - at_b v k).
Lemma lin_edge g v i : linN 3 0 (l g) (E v i) = linN 3 (d3 (pl_f g)) (l g) (at_b (f v i)) - linN 3 (d3 (pl_f g)) (l g) (at_b v).
Proof. rewrite !lin3. ring. Qed.
Lemma facet_rng v i : (0 <= v < n)%Z -> (0 <= i < 3)%Z -> (0 <= facet lab v i < nf)%Z.
Proof. intros Hv Hi. apply (la_rng _ _ _ _ LA). split; auto. cbn. apply Z.mod_pos_bound. lia. Qed.
Lemma edge_zero v i j : (0 <= v < n)%Z -> (0 <= i < 3)%Z -> (0 <= j < 3)%Z -> i <> j -> linN 3 0 (l (facet lab v i)) (E v j) = 0.
Proof.
  intros Hv Hi Hj N. pose proof (facet_rng v i Hv Hi). assert (Hw : (0 <= f v j < n)%Z) by (apply (l_rng _ _ (out_links nf nvf fi n CS b HB)); auto).
  rewrite lin_edge, !pl_on; auto; [ring|apply face_of; auto|apply face_nbr; auto].
Qed.
Lemma edge_up v i : (0 <= v < n)%Z -> (0 <= i < 3)%Z -> 0 < linN 3 0 (l (facet lab v i)) (E v i).
Proof.
  intros Hv Hi. pose proof (facet_rng v i Hv Hi). assert (Hw : (0 <= f v i < n)%Z) by (apply (l_rng _ _ (out_links nf nvf fi n CS b HB)); auto).
  rewrite lin_edge, (pl_on _ v); auto; [|apply face_of; auto]. pose proof (pl_off (facet lab v i) (f v i) H Hw (face_off v i Hv Hi)). lra.
Qed.
Lemma edges_turn v : (0 <= v < n)%Z -> det3 (E v 0%Z) (E v 1%Z) (E v 2%Z) < 0.
Proof.
  intros Hv. destruct (dart_corner v 0 Hv ltac:(lia)) as (c & Hc & _ & L & V & V0 & V2). change ((0 + 2) mod 3)%Z with 2%Z in V2.
  assert (Hw : forall i, (0 <= i < 3)%Z -> (0 <= f v i < n)%Z) by (intros; apply (l_rng _ _ (out_links nf nvf fi n CS b HB)); auto).
  pose proof (face_off v 1 Hv ltac:(lia)) as O. unfold facet in O. change ((1 + 2) mod 3)%Z with 0%Z in O. rewrite L in O.
  pose proof (csucc_corner nf nvf c Hc) as Hs.
  destruct (CV (csucc c) (f v 1) Hs (Hw 1%Z ltac:(lia))) as (_ & P). specialize (P O).
  unfold SpecQ3.side_c in P. rewrite (cpred_csucc nf nvf c Hc), V, V0, V2 in P.
  rewrite <- !HP in P by (auto; apply Hw; lia). unfold at_b, det3, co3. cbn [Z.eqb Pos.eqb]. unfold svol6 in P. cbv zeta in P. lra.
Qed.
Lemma turned_b : turned n (facet lab) (fun g => l g).
Proof.
  intros v Hv. cbv beta. pose proof (edges_turn v Hv) as T.
  pose proof (det3_prod (l (facet lab v 0)) (l (facet lab v 1)) (l (facet lab v 2)) (E v 0%Z) (E v 1%Z) (E v 2%Z)) as P.
  rewrite !edge_zero in P by (auto; lia). specialize (P eq_refl eq_refl eq_refl eq_refl eq_refl eq_refl).
  pose proof (edge_up v 0 Hv ltac:(lia)) as U0. pose proof (edge_up v 1 Hv ltac:(lia)) as U1. pose proof (edge_up v 2 Hv ltac:(lia)) as U2.
  pose proof (Rmult_lt_0_compat _ _ (Rmult_lt_0_compat _ _ U0 U1) U2) as U. rewrite <- P in U.
  apply Rnot_le_lt. intros X. apply (Rlt_irrefl 0). apply Rlt_le_trans with (1 := U). nra.
Qed.
Lemma realized_b : realized 3 n nf (facet lab) at_b (fun g => d3 (pl_f g)) (fun g => l g).
Proof.
  split.
  - intros v i Hv Hi. apply pl_on; auto; [now apply facet_rng|now apply face_of].
  - intros v g Hv Hg N. apply pl_off; auto. intros O. destruct (face_slot v g Hv O) as (i & Hi & F). exact (N i Hi F).
  - intros v y Hv Hy k Hk. pose proof (turned_b v Hv) as T. cbv beta in T.
    refine (det_inj (l (facet lab v 0)) (l (facet lab v 1)) (l (facet lab v 2)) y _ _ _ _ k Hk); [lra|..]; unfold FlagC3.dt;
    [pose proof (Hy 0%Z ltac:(lia)) as X|pose proof (Hy 1%Z ltac:(lia)) as X|pose proof (Hy 2%Z ltac:(lia)) as X]; rewrite lin3 in X; lra.
  - intros v w Hv Hw X. destruct (Z.eq_dec v w) as [|N]; auto. exfalso. apply (not_all v w Hv N). intros i Hi.
    destruct (Classical_Prop.classic (on_face (facet lab v i) w)) as [|O]; auto. exfalso.
    pose proof (pl_off _ w (facet_rng v i Hv Hi) Hw O) as P. pose proof (pl_on _ v (facet_rng v i Hv Hi) Hv (face_of v i Hv Hi)) as Q.
    rewrite (linN_ext 3 _ _ (at_b w) (at_b v)) in P by (intros; symmetry; auto). lra.
Qed.

(** the planes of the corners of a face are the same *)
Lemma off_vertex c : corner c -> exists w, (0 <= w < n)%Z /\ ~ on_face (fst c) w.
Proof.
  intros Hc. assert (Hv : (0 <= vat c < n)%Z) by (apply (cs_rng _ _ _ _ CS); auto).
  destruct (face_slot (vat c) (fst c) Hv) as (i & Hi & F); [exists c; auto|]. exists (f (vat c) i). split; [apply (l_rng _ _ (out_links nf nvf fi n CS b HB)); auto|].
  rewrite <- F. now apply face_off.
Qed.
Lemma corner_prop c : corner c -> exists k, 0 < k /\ forall q, side_c c q = k * side_c (fst c, 0%Z) q.
Proof.
  intros Hc. destruct (off_vertex c Hc) as (w & Hw & O). assert (H0 : corner (fst c, 0%Z)) by (apply first; apply Hc).
  pose proof (proj2 (CV c w Hc Hw) O) as P1. pose proof (proj2 (CV (fst c, 0%Z) w H0 Hw) O) as P2.
  exists (side_c c (vs w) / side_c (fst c, 0%Z) (vs w)). split; [now apply Rdiv_lt_0_compat|]. intros q.
  assert (Z : forall c', corner c' -> fst c' = fst c -> sdist3 (pl_f (fst c)) (vs (vat c')) = 0).
  { intros c' Hc' E. rewrite pl_side. apply (CV (fst c, 0%Z) (vat c') H0); [apply (cs_rng _ _ _ _ CS); auto|]. exists c'. auto. }
  pose proof (side_prop (pl_f (fst c)) (vs (vat (csucc c))) (vs (vat c)) (vs (vat (cpred c))) q (vs w) (Z _ (csucc_corner nf nvf c Hc) eq_refl) (Z c Hc eq_refl) (Z _ (cpred_corner nf nvf c Hc) eq_refl)) as S.
  rewrite !pl_side in S. unfold SpecQ3.side_c in *. apply (Rmult_eq_reg_l (svol6 (vs (vat (csucc (fst c, 0%Z)))) (vs (vat (fst c, 0%Z))) (vs (vat (cpred (fst c, 0%Z)))) (vs w))); [|lra].
  rewrite <- S. field. lra.
Qed.
Lemma pts_first x : desc_pts nf nvf fi vs x <-> forall g, (0 <= g < nf)%Z -> 0 <= side_c (g, 0%Z) x.
Proof.
  split.
  - intros H g Hg. apply H. now apply first.
  - intros H c Hc. destruct (corner_prop c Hc) as (k & Hk & E). rewrite E. apply Rmult_le_pos; [lra|]. apply H. apply Hc.
Qed.
Lemma flat_point x : (0 < n)%Z -> (forall g, (0 <= g < nf)%Z -> side_c (g, 0%Z) x = 0) -> False.
Proof.
  intros Hn H. assert (K : forall v k, (0 <= v < n)%Z -> (0 <= k < 3)%Z -> co3 x k = at_b v k).
  { intros v k Hv Hk. assert (Y : (fun k => co3 x k - at_b v k) k = 0); [|cbv beta in Y; lra].
    apply (re_nd _ _ _ _ _ _ _ realized_b v (fun k => co3 x k - at_b v k) Hv); auto. intros i Hi. pose proof (facet_rng v i Hv Hi) as Hg.
    pose proof (H _ Hg) as Z. rewrite <- pl_side, sdist3_lin in Z. pose proof (pl_on _ v Hg Hv (face_of v i Hv Hi)) as W.
    rewrite lin3 in Z, W |- *. lra. }
  assert (H0 : (0 <= 0 < n)%Z) by lia. pose proof (l_rng _ _ (out_links nf nvf fi n CS b HB) 0%Z 0%Z H0 ltac:(lia)) as Hw.
  apply (l_self _ _ (out_links nf nvf fi n CS b HB) 0%Z 0%Z H0 ltac:(lia)). apply (re_inj _ _ _ _ _ _ _ realized_b); auto.
  intros k Hk. rewrite <- !K; auto.
Qed.
End B.

Theorem init_poly_solid MX (p : pol3) t : share_one nf nvf fi -> (3 <= MX)%Z -> (0 < n <= MX)%Z -> (forall v, (0 <= v < n)%Z -> vdeg nf nvf fi v = 3%Z) ->
  exists p', r3d_init_poly MX nf nvf fi p t vs n = OK (p', 1%Z) /\ nv p' = n /\ (forall v, (0 <= v < n)%Z -> ps (vb p') v = vs v)
  /\ solid3 p' /\ facets3 p' nf /\ forall x, hull3 p' x <-> desc_pts nf nvf fi vs x.
Proof.
  intros SH HM Hn DG. destruct (ip_three nf nvf fi MX p t vs n Hnf CS HM Hn DG) as (b & E & P & HB).
  exists (PY b n). split; auto. split; auto. split; auto.
  assert (W : wf3 (PY b n)) by (split; [cbn; lia|split; [exact (out_links nf nvf fi n CS b HB)|exact (out_simple nf nvf fi n CS b HB SH)]]).
  pose proof (realized_b b HB P) as RE. pose proof (turned_b b HB P) as TU. pose proof (LA b HB) as LB. split; [|split].
  - split; auto. exists nf, (lab b), (fun g => d3 (pl_f g)), (fun g => co3 (n3 (pl_f g))). split; [exact LB|]. split; [exact RE|exact TU].
  - split; auto. exists nf, (lab b). split; [lia|]. split; [exact LB|]. intros e He. exists (at3 (PY b n)), (fun g => d3 (pl_f g)), (fun g => co3 (n3 (pl_f g))).
    split; [exact RE|]. split; [exact TU|]. intros v k _ _. unfold Rminus. rewrite Rplus_opp_r, Rabs_R0. exact He.
  - intros x. rewrite hull3_hullN. cbn [nv]. change (at3 (PY b n)) with (at_b b).
    rewrite (hull_facets 3 n nf nf _ _ _ _ (at_b b) _ _ (cells3 (nb b) n nf (lab b) (out_links nf nvf fi n CS b HB) LB) RE (co3 x)) by lia.
    rewrite (pts_first b HB x). split; intros H g Hg; specialize (H g Hg); [rewrite <- pl_side, sdist3_lin; exact H|rewrite <- pl_side, sdist3_lin in H; exact H].
Qed.
End Q.
