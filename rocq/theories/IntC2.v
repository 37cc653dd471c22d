(** * IntC2: the moments of convex polygons are the integrals of the monomials over their hulls. *)
From Coq Require Import Reals ZArith List Bool Lia Lra Psatz Permutation.
From Verif Require Import Base Lib SumR ModelCommon Model2 Model3 ModelV RealNum Spec2 Spec2R SpecNP SpecNV SpecNJ SpecC2 SpecI HPoly HInt HShift Reduce2 Struct2 Clip2 Cons2 Small2 Misc2 Glue2 VoxFacts IBox Vox2 GlueV2 Shift2 Shift3 FlagR ContN UniqJ VoxJ DisN PolyN JordJ IntJ NearB DivJ.
From Verif Require Import LoopC2 HullC2 ClipC2 AreaC2 MomC2 RastC2.
Import ListNotations.
Open Scope R_scope.

Definition hullf2 (p : pol2) : (Z -> R) -> Prop := fun x => hull2 p (V2 (x 0%Z) (x 1%Z)).
Definition mom2 (p : pol2) (m : nat * nat) : R := moment2 p (fst m) (snd m).
Lemma axis_coord ax (x : Z -> R) : (0 <= ax < 2)%Z -> coordR ax (V2 (x 0%Z) (x 1%Z)) = x ax.
Proof. intros H. destruct (slot2 ax H) as [->| ->]; reflexivity. Qed.

(** cutting along an axis *)
Lemma cut2 : cuttable 2 convex_ccw hullf2 mom2.
Proof.
  intros p ax c Hp Ha. set (pl := axis_plane ax c). pose proof Hp as (Hw & _). set (MX := (3 * nv p)%Z). assert (Hn : (0 <= nv p)%Z) by apply Hw. assert (HM : (nv p <= MX)%Z) by (unfold MX; lia).
  assert (SX : forall x : Z -> R, sdist pl (V2 (x 0%Z) (x 1%Z)) = x ax - c) by (intros x; unfold pl; rewrite axis_sdist, axis_coord; auto).
  assert (SD : forall v, @eq R (sidesd RN pl (vb p) v) (-1 * sdist pl (ps (vb p) v))). { intros v. unfold sidesd. rewrite sdf_sdist. cbn. ring. }
  assert (RT : forall v, rightv RN pl (vb p) v = true -> 0 < sdist pl (ps (vb p) v)).
  { intros v. unfold rightv. rewrite SD. cbn. intros X. apply Rltb_true in X. lra. }
  assert (RF : forall v, rightv RN pl (vb p) v = false -> sdist pl (ps (vb p) v) <= 0).
  { intros v. unfold rightv. rewrite SD. cbn. intros X. apply Rltb_false in X. lra. }
  assert (E0 : forall m, mom2 (PY (vb p) 0%Z) m = 0) by (intros; apply moment2_none; reflexivity).
  assert (N0 : forall x, ~ hullf2 (PY (vb p) 0%Z) x) by (intros x; apply hull2_0; cbn; lia).
  destruct (split1_spec RN MX pl p p p Hw HM) as [(H0 & E')|[(H0 & A & E')|[(H0 & A & E')|(u & v & Hu & Hv & Ru & Rv & [(q' & o0 & o1 & E' & S)|(E' & X)])]]]; rn.
  - exists p, p. assert (N : forall x, ~ hullf2 p x) by (intros x; apply hull2_0; rn; lia). split; auto. split; auto. split; [|split; [|split]].
    1-3: intros x Hx; exfalso; eapply N; eauto.
    intros m. unfold mom2. rewrite moment2_none by auto. ring.
  - exists p, (PY (vb p) 0%Z). split; auto. split; [apply empty_ccw|]. split; [|split; [intros x Hx; exfalso; eapply N0; eauto|split; auto]].
    + intros x Hx. split; auto. assert (Y : 0 <= sdist (flip pl) (V2 (x 0%Z) (x 1%Z))) by (apply Hx; intros v Hv; rewrite sdist_flip; specialize (RF v (A v Hv)); lra). rewrite sdist_flip, SX in Y. lra.
    + intros m. rewrite E0. ring.
  - exists (PY (vb p) 0%Z), p. split; [apply empty_ccw|]. split; auto. split; [intros x Hx; exfalso; eapply N0; eauto|split; [|split; auto]].
    + intros x Hx. split; auto. assert (Y : 0 <= sdist pl (V2 (x 0%Z) (x 1%Z))) by (apply Hx; intros v Hv; specialize (RT v (A v Hv)); lra). rewrite SX in Y. lra.
    + intros m. rewrite E0. ring.
  - destruct (split_hull MX pl p o0 o1 (sidesd RN pl (vb p)) (rightv RN pl (vb p)) (-1) Hw) as (C0 & C1 & S0 & S1 & _);
      [lra|intros; apply SD|auto|auto|eauto|eauto|exact S|exact Hp|].
    destruct (split1_R MX pl p p p q' o0 o1 Hw HM E') as (Mo & _). unfold hullf2 in *.
    exists o0, o1. split; auto. split; auto. split; [|split; [|split]].
    + intros x Hx. apply S0 in Hx as (Y & Z). rewrite SX in Z. split; auto. lra.
    + intros x Hx. apply S1 in Hx as (Y & Z). rewrite SX in Z. split; auto. lra.
    + intros x Hx. rewrite S0, S1, SX. destruct (Rle_dec (x ax) c); [left|right]; split; auto; lra.
    + intros m. unfold mom2. now rewrite Mo.
  - exfalso. assert (Y : (exits 2 (fun v0 => negb (rightv RN pl (vb p) v0)) (nb (vb p)) (nv p) <= nv p)%Z); [|unfold MX in X; rn; lia].
    apply exits_le; [exact Hn|apply Hw].
Qed.

(** a small polygon about its first vertex *)
Lemma lsum_abs_le {A} (l : list A) f g : (forall x, In x l -> Rabs (f x) <= g x) -> Rabs (lsum l f) <= lsum l g.
Proof.
  induction l as [|a l IH]; intros H; cbn. - rewrite Rabs_R0. lra.
  - specialize (IH (fun x Hx => H x (or_intror Hx))). specialize (H a (or_introl eq_refl)). pose proof (Rabs_triang (f a) (lsum l f)). lra.
Qed.
Lemma next_turn (f : Z -> Z) n (g : Z -> rvec2 R) a r v : loop f n (a :: r) -> ccw (map g (a :: r)) -> (0 <= v < n)%Z -> 0 <= turn (g a) (g v) (g (f v)).
Proof.
  intros (_ & I & Nx & La) C Hv. apply I in Hv. apply in_split in Hv as (l1 & l2 & E). destruct l2 as [|u l3].
  - specialize (La a r eq_refl). rewrite E, last_last in La. rewrite La. unfold turn. lra.
  - rewrite (Nx l1 v u l3 E). destruct l1 as [|b l1]; cbn in E; injection E as <- E.
    + unfold turn. lra.
    + rewrite E in C. apply (ccw_in3 _ [] (g a) (map g l1) (g v) [] (g u) (map g l3) C). cbn [map]. now rewrite map_app.
Qed.
Lemma local2 (q : pol2) i j s M : convex_ccw q -> (0 < nv q)%Z -> 0 <= s -> (forall x, hull2 q x -> Rabs (vx x) <= M /\ Rabs (vy x) <= M) ->
  (forall x y, hull2 q x -> hull2 q y -> Rabs (vx x - vx y) <= s /\ Rabs (vy x - vy y) <= s) ->
  exists w, (forall x, hull2 q x -> Rabs (vx x ^ i * vy x ^ j - w) <= spread M s (i + j)) /\ Rabs (moment2 q i j - w * moment2 q 0 0) <= spread M s (i + j) * moment2 q 0 0.
Proof.
  intros (Hw & _ & l & L & C) Hn Hs HM Hd. destruct l as [|a r]. { exfalso. destruct L as (_ & I & _). apply (proj2 (I 0%Z)). rn. lia. }
  assert (Ha : (0 <= a < nv q)%Z) by (apply L; now left). set (c := ps (vb q) a). pose proof (hull2_vertex q a Ha) as Hc. fold c in Hc. destruct (HM c Hc) as (M1 & M2).
  assert (M0 : Rabs 0 <= M) by (rewrite Rabs_R0; pose proof (Rabs_pos (vx c)); lra).
  exists (vx c ^ i * vy c ^ j). split.
  - intros x Hx. destruct (Hd x c Hx Hc) as (D1 & D2).
    pose proof (mono3_near (V3 (vx c) (vy c) 0) (V3 (vx x) (vy x) 0) i j 0 s M Hs M1 M2 M0 D1 D2) as X. cbn [x3 y3 z3 pow] in X. rewrite !Rmult_1_r, Nat.add_0_r in X. apply X.
    rewrite Rminus_0_r, Rabs_R0. exact Hs.
  - assert (B : forall k m, Rabs (moment2_at c q k m) <= s ^ k * s ^ m * moment2_at c q 0 0).
    { intros k m. unfold moment2_at. rewrite <- lsum_scal. apply lsum_abs_le. intros v Hv. apply in_zrange in Hv. unfold edge2.
      set (A := vsub2 RN (ps (vb q) v) c). set (B := vsub2 RN (ps (vb q) (nb (vb q) v 0%Z)) c).
      assert (Hv' : (0 <= nb (vb q) v 0 < nv q)%Z) by (destruct Hw as (_ & HL); now destruct (HL v Hv)).
      destruct (Hd _ c (hull2_vertex q v Hv) Hc) as (A1 & A2). destruct (Hd _ c (hull2_vertex q _ Hv') Hc) as (B1 & B2).
      pose proof (next_turn _ _ (ps (vb q)) a r v L C Hv) as T. fold c in T.
      replace (tri_int (pt2 A) (pt2 B) 0 0) with (cross (pt2 A) (pt2 B) / 2).
      2: { fold (edge2 0 0 A B). rewrite edge2_00. unfold cross, pt2. cbn. ring. }
      apply tri_bound; auto. }
    assert (P0 : 0 <= moment2_at c q 0 0). { specialize (B 0%nat 0%nat). cbn [pow] in B. pose proof (Rabs_pos (moment2_at c q 0 0)). lra. }
    assert (SH : forall i j, bsum3 (V3 (vx c) (vy c) 0) i j 0 (fun k m d => match d with O => moment2_at c q k m | _ => 0 end) = moment2 q i j).
    { intros i' j'. rewrite <- (moment2_shift c q i' j' (proj2 Hw)). unfold bsum3. apply sum_eq. intros k _. apply sum_eq. intros m _. cbn [sum_f_R0 x3 y3 z3 Nat.sub pow]. rewrite C_0. ring. }
    assert (E0 : moment2_at c q 0 0 = moment2 q 0 0). { rewrite <- SH. unfold bsum3. cbn [sum_f_R0 x3 y3 z3 Nat.sub pow]. rewrite !C_0. ring. }
    pose proof (bsum3_near (V3 (vx c) (vy c) 0) i j 0 s M (fun k m d => match d with O => moment2_at c q k m | _ => 0 end) Hs M1 M2 M0 P0) as X.
    rewrite SH in X. cbn [x3 y3 z3 pow] in X. rewrite Rmult_1_r, Nat.add_0_r, E0 in X. apply X. intros k m [|d].
    + specialize (B k m). rewrite E0 in B. cbn [pow]. rewrite Rmult_1_r. exact B.
    + rewrite Rabs_R0. rewrite E0 in P0. apply Rmult_le_pos; auto. apply Rmult_le_pos; [apply Rmult_le_pos|]; now apply pow_le.
Qed.
Theorem convex_integral (p : pol2) i j : convex_ccw p -> integral2 (hull2 p) (fun x => vx x ^ i * vy x ^ j) (moment2 p i j).
Proof.
  intros Hp. unfold integral2. pose proof Hp as (_ & _ & l & L & _). destruct (hull_bound2 (map (ps (vb p)) l)) as (M0 & HM0).
  set (M := Rabs M0). assert (HB : forall x, hull2 p x -> - M <= vx x <= M /\ - M <= vy x <= M).
  { intros x Hx. destruct (HM0 x) as (A & B). { apply (hullL_hull p); auto. intros v. apply L. } pose proof (Rle_abs M0). unfold M. lra. }
  apply (integral_by_cuts 2 ltac:(lia) convex_ccw hullf2 mom2 cut2 p (0%nat, 0%nat) (i, j) _ (2 * M)); auto.
  - exists (fun _ => - M). intros x k Hx Hk. unfold hullf2 in Hx. apply HB in Hx. cbn in Hx. destruct (slot2 k Hk) as [->| ->]; lra.
  - intros q Hq. apply (convex_area q Hq).
  - intros e He. destruct (spread_small M (i + j) e (Rabs_pos M0) He) as (s & Hs & HS). exists s. split; auto. intros q Hq Sub Na.
    assert (SubV : forall x, hull2 q x -> hull2 p x). { intros [u v] Hx. apply (Sub (fun k => if (k =? 0)%Z then u else v)). exact Hx. }
    destruct (Z.leb_spec (nv q) 0) as [N|N].
    + exists 0. split. * intros x Hx. exfalso. exact (hull2_0 q _ N Hx).
      * assert (nv q = 0%Z) by (destruct Hq as ((? & _) & _); rn; lia). unfold mom2. rewrite !moment2_none by auto. rewrite Rmult_0_r, Rminus_0_r, Rabs_R0. lra.
    + destruct (local2 q i j s M Hq N (Rlt_le _ _ Hs)) as (w & W1 & W2).
      * intros x Hx. apply SubV, HB in Hx. split; apply Rabs_le; lra.
      * intros [x0 x1] [y0 y1] Hx Hy. cbn. pose proof (Na (fun k => if (k =? 0)%Z then x0 else x1) (fun k => if (k =? 0)%Z then y0 else y1)) as Y.
        split; [apply (Y 0%Z)|apply (Y 1%Z)]; auto; lia.
      * pose proof (HS s ltac:(lra)) as Sp. assert (A0 : 0 <= moment2 q 0 0) by (exact (content_nonneg 2 _ _ (convex_area q Hq))).
        exists w. split. -- intros x Hx. eapply Rle_trans; [apply (W1 _ Hx)|exact Sp]. -- unfold mom2. cbn [fst snd]. eapply Rle_trans; [exact W2|]. now apply Rmult_le_compat_r.
Qed.

Lemma integral2_ext (K K' : rvec2 R -> Prop) f t : (forall x, K x <-> K' x) -> integral2 K f t -> integral2 K' f t.
Proof. intros H. apply integral_ext; auto. Qed.
Lemma integral2_unique (K : rvec2 R -> Prop) f t s : integral2 K f t -> integral2 K f s -> t = s.
Proof. apply integral_unique. lia. Qed.
Lemma integral2_const (K : rvec2 R -> Prop) c t : content2 K t -> integral2 K (fun _ => c) (c * t).
Proof. exact (integral_const 2 ltac:(lia) (fun x => K (V2 (x 0%Z) (x 1%Z))) c t). Qed.
(** [o] is the part [K] of [p], or is empty and [K] has no area *)
Lemma part_integral (p o : pol2) (K : rvec2 R -> Prop) i j : convex_ccw o -> (forall x, K x -> hull2 p x) -> content2 K (moment2 o 0 0) -> (forall x, hull2 o x <-> K x) \/ nv o = 0%Z ->
  integral2 K (fun x => vx x ^ i * vy x ^ j) (moment2 o i j).
Proof.
  intros Co HK HA [H|H]. - eapply integral2_ext; [exact H|]. now apply convex_integral.
  - rewrite moment2_none in * by auto. destruct (hull_bound2 (map (ps (vb p)) (zrange (nv p)))) as (M & HM).
    apply (integral_null 2 ltac:(lia) _ _ (Rabs M ^ i * Rabs M ^ j)); [exact HA|]. intros x Kx. apply HK in Kx.
    destruct (HM _ (proj2 (hullL_hull p (zrange (nv p)) _ (fun v => in_zrange (nv p) v)) Kx)) as (A & B). rewrite Rabs_mult. pose proof (Rle_abs M).
    apply Rmult_le_compat; try apply Rabs_pos; apply pow_abs_le, Rabs_le; lra.
Qed.

Section Routines.
Context (MX : Z) (i j : nat).
Let f (x : rvec2 R) : R := vx x ^ i * vy x ^ j.
Theorem reduce_integral sh (p : pol2) (mom : Z -> R) po : convex_ccw p -> (nv p <= MX)%Z -> (Z.of_nat i + Z.of_nat j <= po)%Z ->
  exists mom', r2d_reduce RN MX sh p mom po = OK mom' /\ integral2 (hull2 p) f (mom' (idx2 (Z.of_nat i) (Z.of_nat j))).
Proof.
  intros CV HM Hpo. destruct (reduce_both MX sh po p mom ltac:(lia) (proj1 CV) HM) as (m & E & A). exists m. split; auto.
  rewrite A by lia. now apply convex_integral.
Qed.
Lemma clip_integral (p p' : pol2) planes : convex_ccw p -> (nv p <= MX)%Z -> (forall pl, In pl planes -> proper2 pl) -> r2d_clip RN MX p planes = OK p' ->
  integral2 (fun x => hull2 p x /\ holds2 planes x) f (moment2 p' i j).
Proof.
  intros CV HM PP E. destruct (r2d_clip_hull MX p p' planes CV HM E) as (C' & D). apply (part_integral p); auto; [tauto|now apply (clip_area MX)|].
  destruct D as [D|(Z0 & _)]; auto.
Qed.
Theorem clip_reduce_integral sh (p p' : pol2) planes (mom : Z -> R) po : convex_ccw p -> (nv p <= MX)%Z -> (forall pl, In pl planes -> proper2 pl) ->
  r2d_clip RN MX p planes = OK p' -> (Z.of_nat i + Z.of_nat j <= po)%Z ->
  exists mom', r2d_reduce RN MX sh p' mom po = OK mom' /\ integral2 (fun x => hull2 p x /\ holds2 planes x) f (mom' (idx2 (Z.of_nat i) (Z.of_nat j))).
Proof.
  intros CV HM PP E Hpo. destruct (r2d_clip_linked RN MX p p' planes (proj1 CV) HM E) as (W' & M' & _).
  destruct (reduce_both MX sh po p' mom ltac:(lia) W' M') as (m & Er & A). exists m. split; auto. rewrite A by lia. now apply clip_integral.
Qed.
Lemma side_integral (p o : pol2) pl : proper2 pl -> side_of2 p pl o -> integral2 (fun x => hull2 p x /\ 0 <= sdist pl x) f (moment2 o i j).
Proof.
  intros Pp S. pose proof S as (Co & D). apply (part_integral p); auto; [tauto|now apply side_area|]. destruct D as [D|(Z0 & _)]; auto.
Qed.
Theorem split_integrals pl ins outs : proper2 pl -> r2d_split RN MX pl ins = OK outs ->
  Forall2 (fun (p o : pol2 * (pol2 * pol2)) => convex_ccw (fst p) -> (nv (fst p) <= MX)%Z ->
     integral2 (fun x => hull2 (fst p) x /\ sdist pl x <= 0) f (moment2 (fst (snd o)) i j)
     /\ integral2 (fun x => hull2 (fst p) x /\ 0 <= sdist pl x) f (moment2 (snd (snd o)) i j)) ins outs.
Proof.
  intros Pp E. eapply F2_impl; [|exact (split_hulls MX pl ins outs E)]. intros p o H CV HM. destruct (H CV HM) as (S0 & S1). split.
  - eapply integral2_ext; [|apply (side_integral (fst p) (fst (snd o)) (flip pl)); auto; now apply flip_proper2]. intros x. cbv beta. rewrite sdist_flip. split; intros (A & B); split; auto; lra.
  - now apply side_integral.
Qed.
Theorem rasterize_integral sh po stk0 mom0 (p : pol2) B (gr gr' : Z -> R) d : convex_ccw p -> (nv p <= MX)%Z -> cells_ok (num_moments2 po) B ->
  0 <= vx d -> 0 <= vy d -> within d B p -> r2d_rasterize RN MX sh po stk0 mom0 p B gr d = OK gr' -> (Z.of_nat i + Z.of_nat j <= po)%Z ->
  forall a b, (fst B 0 <= a < snd B 0)%Z -> (fst B 1 <= b < snd B 1)%Z ->
  let e := (num_moments2 po * ((a - fst B 0) * (snd B 1 - fst B 1) + (b - fst B 1)) + idx2 (Z.of_nat i) (Z.of_nat j))%Z in
  integral2 (fun x => hull2 p x /\ in_cell2 d a b x) f (gr' e - gr e).
Proof.
  intros CV HM HB Hdx Hdy Wi E Hpo a b Ia Ib e. destruct (rasterize_pieces MX sh po stk0 mom0 p B gr gr' d ltac:(lia) CV HM HB Hdx Hdy Wi E a b Ia Ib) as (o & Co & D & G).
  specialize (G i j ltac:(lia)). cbv zeta in G. fold e in G. replace (gr' e - gr e) with (moment2 o i j) by lra. apply (part_integral p); auto; [tauto| |destruct D as [D|(Z0 & _)]; auto].
  destruct D as [D|(Z0 & g & Pg & D)].
  - eapply content2_ext; [exact D|]. now apply convex_area.
  - rewrite moment2_none by auto. apply (plane_area p g); auto. intros x (X & Y). auto.
Qed.
Theorem clamp_integral (p p' : pol2) B cb B' (d : rvec2 R) : (forall i, 0 <= i < 2 -> - int_max <= fst cb i <= int_max)%Z ->
  convex_ccw p -> (nv p <= MX)%Z -> 0 <= vx d -> 0 <= vy d -> within d B p -> r2d_clamp_ibox RN MX p B cb d = OK (p', B') ->
  integral2 (fun x => hull2 p x /\ in_cells2 d cb x) f (moment2 p' i j).
Proof.
  intros Hcb CV HM Hdx Hdy Wi E. destruct (clamp_area MX p p' B cb B' d Hcb CV HM Hdx Hdy Wi E) as (C' & A & D). apply (part_integral p); auto. tauto.
Qed.
End Routines.
