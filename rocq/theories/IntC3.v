(** * IntC3: the moments of convex polyhedra are the integrals of the monomials over their hulls. *)
From Coq Require Import Reals ZArith List Bool Lia Lra Psatz.
From Verif Require Import Base Lib SumR ModelCommon CommonFacts Model3 ModelV ModelV3 ModelN RealNum SpecN SpecNC SpecNP SpecNR SpecNV SpecNJ SpecI FlagR ContN UniqJ VoxJ DisN PolyN JordJ IntJ HPoly HShift HInt
  Spec3 Orb3 Cut3 Struct3 FaceSpec3 Face3 Clip3 Spec3R Mom3 Geo3 Cons3 Shift3 Reduce3 Glue2 Glue3 VoxFacts IBox Vox3 GlueV3 SpecC3 Conv3 HullC3 FlagC3 VolC3 LimC3 SqzC3 VoxC3 GlueC3 NearB DivJ.
Import ListNotations.
Open Scope R_scope.
Notation det3 := SpecC3.det3.

(** ** The tetrahedra over the faces, from a vertex *)
Lemma comp_id (l a b c w : vec) : dt l b = 0 -> dt l c = 0 -> det3 a b c * dt l w = dt l a * det3 w b c.
Proof.
  intros Hb Hc. transitivity (dt l a * det3 w b c + dt l b * det3 a w c + dt l c * det3 a b w); [|rewrite Hb, Hc; ring].
  unfold SpecC3.det3, dt. ring.
Qed.
Lemma comp_sign (l a b c w : vec) : 0 < det3 a b c -> dt l a < 0 -> dt l b = 0 -> dt l c = 0 -> 0 <= dt l w -> det3 w b c <= 0.
Proof. intros HD Ha Hb Hc Hw. pose proof (comp_id l a b c w Hb Hc) as X. assert (0 <= det3 a b c * dt l w) by (apply Rmult_le_pos; lra). nra. Qed.
Lemma comp_zero (l a b c w : vec) : 0 < det3 a b c -> dt l a < 0 -> dt l b = 0 -> dt l c = 0 -> dt l w = 0 -> det3 w b c = 0.
Proof. intros HD Ha Hb Hc Hw. pose proof (comp_id l a b c w Hb Hc) as X. rewrite Hw, Rmult_0_r in X. nra. Qed.
Lemma fan_sign (l1 l2 e0 e1 e2 w y : vec) : 0 < det3 e0 e1 e2 -> dt l1 e1 < 0 -> dt l1 e0 = 0 -> dt l1 e2 = 0 -> dt l2 e2 < 0 -> dt l2 e0 = 0 -> dt l2 e1 = 0 ->
  dt l1 w = 0 -> 0 <= dt l2 w -> 0 <= dt l1 y -> 0 <= det3 w e0 y.
Proof.
  intros HD A1 A0 A2 B2 B0 B1 W1 W2 Y1.
  assert (R1 : det3 e1 e2 e0 = det3 e0 e1 e2) by (unfold SpecC3.det3; ring). assert (R2 : det3 e2 e0 e1 = det3 e0 e1 e2) by (unfold SpecC3.det3; ring).
  pose proof (comp_zero l1 e1 e2 e0 w ltac:(lra) A1 A2 A0 W1) as Z. pose proof (comp_sign l1 e1 e2 e0 y ltac:(lra) A1 A2 A0 Y1) as Y. pose proof (comp_sign l2 e2 e0 e1 w ltac:(lra) B2 B0 B1 W2) as W.
  assert (ID : det3 e0 e1 e2 * det3 w e0 y = det3 w e0 e1 * det3 y e2 e0 - det3 w e2 e0 * det3 y e0 e1) by (unfold SpecC3.det3; ring).
  rewrite Z in ID. assert (0 <= det3 w e0 e1 * det3 y e2 e0) by nra. nra.
Qed.
Lemma solid_fan (p : pol3) d e c : solid3 p -> isd (below (nv p)) d -> same_face (nb (vb p)) d e -> (0 <= c < nv p)%Z ->
  0 <= vol6 (ps (vb p) c) (ps (vb p) (fst e)) (ps (vb p) (dtgt (nb (vb p)) d)) (ps (vb p) (fst d)).
Proof.
  intros (W & nh & lab & l0 & l & LA & Q & TU) Hd SF Hc. pose proof W as (Hn & L & _). assert (He : isd (below (nv p)) e) by (eapply same_isd; eauto).
  pose proof (lab_sf _ (nv p) nh lab L LA d e Hd SF) as LE. destruct d as [v i], e as [u j]. destruct Hd as (Hv & Hi), He as (Hu & Hj). cbn [fst snd] in *. unfold below in Hv, Hu.
  rewrite (lab_dart (nv p) lab u j), (lab_dart (nv p) lab v i) in LE by auto.
  set (i1 := ((i + 1) mod 3)%Z) in *. set (i2 := ((i + 2) mod 3)%Z).
  assert (H1 : (0 <= i1 < 3)%Z) by (apply Z.mod_pos_bound; lia). assert (H2 : (0 <= i2 < 3)%Z) by (apply Z.mod_pos_bound; lia).
  assert (I3 : i = 0%Z \/ i = 1%Z \/ i = 2%Z) by lia.
  assert (NE : i1 <> i /\ i2 <> i /\ i1 <> i2) by (unfold i1, i2; destruct I3 as [->|[->| ->]]; cbn; lia). destruct NE as (N1 & N2 & N3).
  set (E := fun i => edgeN RN (at3 p) (nb (vb p)) v i : vec).
  assert (DE : 0 < det3 (E i) (E i1) (E i2)).
  { pose proof (E_det p nh lab l0 l W LA Q TU v Hv) as X. unfold i1, i2, E in *. destruct I3 as [->|[->| ->]]; cbn -[SpecC3.det3] in *; auto; (eapply Rlt_le_trans; [exact X|]; right; unfold SpecC3.det3; change (T RN) with R in *; ring). }
  assert (IN : forall g x, (0 <= g < nh)%Z -> (0 <= x < nv p)%Z -> 0 <= l0 g + dt (l g) (at3 p x)).
  { intros g x Hg Hx. destruct (Classical_Prop.classic (exists k, (0 <= k < 3)%Z /\ facet lab x k = g)) as [(k & Hk & <-)|N].
    - rewrite (on_face p nh lab l0 l Q x k Hx Hk). lra.
    - pose proof (re_off _ _ _ _ _ _ _ Q x g Hx Hg) as Y. rewrite lin3 in Y. unfold dt. specialize (Y (fun k Hk E0 => N (ex_intro _ k (conj Hk E0)))). change (T RN) with R in *. lra. }
  assert (FR : forall k, (0 <= k < 3)%Z -> (0 <= facet lab v k < nh)%Z).
  { intros k Hk. unfold facet. apply (la_rng _ _ _ _ LA). split; [exact Hv|]. cbn. apply Z.mod_pos_bound; lia. }
  assert (SUB : forall g (x y : vec), dt g (fun k => x k - y k) = dt g x - dt g y) by (intros; unfold dt; ring).
  pose proof (fan_sign (l (facet lab v i1)) (l (facet lab v i2)) (E i) (E i1) (E i2) (fun k => at3 p u k - at3 p v k) (fun k => at3 p c k - at3 p v k) DE) as F. rewrite !SUB in F.
  pose proof (on_face p nh lab l0 l Q v i1 Hv H1) as O1. pose proof (on_face p nh lab l0 l Q v i2 Hv H2) as O2.
  assert (OU : l0 (facet lab v i1) + dt (l (facet lab v i1)) (at3 p u) = 0). { rewrite <- LE. apply (on_face p nh lab l0 l Q); auto. apply Z.mod_pos_bound; lia. }
  pose proof (IN _ u (FR i2 H2) Hu) as IU. pose proof (IN _ c (FR i1 H1) Hc) as IC.
  assert (G : 0 <= det3 (fun k => at3 p u k - at3 p v k) (E i) (fun k => at3 p c k - at3 p v k)).
  { apply F; try lra.
    - apply (E_neg p nh lab l0 l W LA Q v i1); auto.
    - apply (E_zero p nh lab l0 l W LA Q v i i1); auto.
    - apply (E_zero p nh lab l0 l W LA Q v i2 i1); auto.
    - apply (E_neg p nh lab l0 l W LA Q v i2); auto.
    - apply (E_zero p nh lab l0 l W LA Q v i i2); auto.
    - apply (E_zero p nh lab l0 l W LA Q v i1 i2); auto. }
  rewrite vol6_det. eapply Rle_trans; [exact G|]. right. unfold SpecC3.det3, dif, E, edgeN, dtgt. cbn [fst snd nsub RN]. fold (at3 p). unfold at3. change (T RN) with R in *. ring.
Qed.
Lemma cont_nonneg n p F : cont n p F -> (forall d, 0 < d -> exists q, close n p d q /\ 0 <= F q) -> 0 <= F p.
Proof.
  intros HF H. destruct (Rle_dec 0 (F p)) as [|N]; auto. exfalso. destruct (HF (- F p) ltac:(lra)) as (d & Hd & A). destruct (H d Hd) as (q & Cq & Fq). specialize (A q Cq). apply Rabs_def2 in A. lra.
Qed.
Theorem convex_fan (p : pol3) d e c : convex3 p -> isd (below (nv p)) d -> same_face (nb (vb p)) d e -> (0 <= c < nv p)%Z ->
  0 <= vol6 (ps (vb p) c) (ps (vb p) (fst e)) (ps (vb p) (dtgt (nb (vb p)) d)) (ps (vb p) (fst d)).
Proof.
  intros CV Hd SF Hc. pose proof CV as (W & _). pose proof W as (Hn & L & _).
  assert (HE : (0 <= fst e < nv p)%Z) by apply (same_isd p d e W Hd SF). assert (HT : (0 <= dtgt (nb (vb p)) d < nv p)%Z) by (apply (l_rng _ _ L); apply Hd). assert (HF : (0 <= fst d < nv p)%Z) by apply Hd.
  rewrite vol6_det. pose proof (cont_vol6 (nv p) (at3 p) c (fst e) (dtgt (nb (vb p)) d) (fst d) Hc HE HT HF) as C.
  apply (cont_nonneg _ _ _ C). intros t Ht. destruct (convex3_approx p CV t Ht) as (q & Sq & Cq). exists q. split; auto.
  pose proof (solid_fan _ d e c Sq Hd SF Hc) as V. rewrite vol6_det in V. exact V.
Qed.

(** ** Small polyhedra *)
Definition hullf3 (p : pol3) : (Z -> R) -> Prop := fun x => hull3 p (V3 (x 0%Z) (x 1%Z) (x 2%Z)).
Definition mom3 (p : pol3) (m : nat * nat * nat) : R := moment3 p (fst (fst m)) (snd (fst m)) (snd m).
Lemma axis_coord3 ax (x : Z -> R) : (0 <= ax < 3)%Z -> coordR3 ax (V3 (x 0%Z) (x 1%Z) (x 2%Z)) = x ax.
Proof. intros H. destruct (slot3 ax H) as [->|[->| ->]]; reflexivity. Qed.
Lemma cut3 : cuttable 3 convex3 hullf3 mom3.
Proof.
  intros p ax c Hp Ha. set (pl := axis_plane3 ax c). pose proof Hp as (Hw & _). pose proof Hw as (Hn & L & _). set (MX := (4 * nv p)%Z). assert (HM : (nv p <= MX)%Z) by (unfold MX; lia).
  assert (SX : forall x : Z -> R, sdist3 pl (V3 (x 0%Z) (x 1%Z) (x 2%Z)) = x ax - c) by (intros x; unfold pl; rewrite axis_sdist3, axis_coord3; auto).
  set (em := PY (vb p) 0%Z : pol3).
  assert (E0 : forall m, mom3 em m = 0) by (intros; apply moment3_none; reflexivity).
  assert (N0 : forall x, ~ hullf3 em x) by (intros x; apply hull3_0; cbn; lia). assert (Ge : convex3 em) by (now apply convex3_0).
  assert (LO : (forall x, hull3 p x -> sdist3 pl x <= 0) -> exists o0 o1, convex3 o0 /\ convex3 o1 /\ (forall x, hullf3 o0 x -> hullf3 p x /\ x ax <= c) /\ (forall x, hullf3 o1 x -> hullf3 p x /\ c <= x ax)
     /\ (forall x, hullf3 p x -> hullf3 o0 x \/ hullf3 o1 x) /\ forall m, mom3 p m = mom3 o0 m + mom3 o1 m).
  { intros H. exists p, em. split; auto. split; auto. split; [intros x Hx; split; auto; specialize (H _ Hx); rewrite SX in H; lra|]. split; [intros x Hx; exfalso; eapply N0; eauto|]. split; auto. intros m. rewrite E0. ring. }
  assert (HI : (forall x, hull3 p x -> 0 <= sdist3 pl x) -> exists o0 o1, convex3 o0 /\ convex3 o1 /\ (forall x, hullf3 o0 x -> hullf3 p x /\ x ax <= c) /\ (forall x, hullf3 o1 x -> hullf3 p x /\ c <= x ax)
     /\ (forall x, hullf3 p x -> hullf3 o0 x \/ hullf3 o1 x) /\ forall m, mom3 p m = mom3 o0 m + mom3 o1 m).
  { intros H. exists em, p. split; auto. split; auto. split; [intros x Hx; exfalso; eapply N0; eauto|]. split; [intros x Hx; split; auto; specialize (H _ Hx); rewrite SX in H; lra|]. split; auto. intros m. rewrite E0. ring. }
  assert (OUT : exists q o0 o1, r3d_split1 RN MX pl p p p = OK ((q, (o0, o1)), true)).
  { destruct (split31_spec RN MX pl p p p Hw HM) as [(H0 & E')|[(H0 & A & E')|[(H0 & A & E')|(u & v & Hu & Hv & Ru & Rv & [(q' & o0' & o1' & E' & S)|(q' & E' & X)])]]]; eauto.
    exfalso. pose proof (exits3_le (fun v => negb (rightv3 RN pl (vb p) v)) (nb (vb p)) (nv p) Hn L). rn. unfold MX in X. lia. }
  destruct OUT as (q & o0 & o1 & E). destruct (split1_hull MX pl p p p q o0 o1 Hp HM E) as ((C0 & S0) & (C1 & S1)).
  destruct (split31_R MX pl p p p q o0 o1 Hw HM E) as (Mo & _). destruct (Mo (convex_planar p Hp)) as (_ & _ & Mo').
  destruct S0 as [S0|(_ & S0)]; [|apply LO; exact S0]. destruct S1 as [S1|(_ & S1)]; [|apply HI; intros x Hx; specialize (S1 x Hx); rewrite sdist3_flip in S1; lra].
  unfold hullf3. exists o1, o0. split; auto. split; auto. split; [|split; [|split]].
  - intros x Hx. apply S1 in Hx as (Y & Z). rewrite sdist3_flip, SX in Z. split; auto. lra.
  - intros x Hx. apply S0 in Hx as (Y & Z). rewrite SX in Z. split; auto. lra.
  - intros x Hx. rewrite S0, S1, sdist3_flip, SX. destruct (Rle_dec (x ax) c); [left|right]; split; auto; lra.
  - intros m. unfold mom3. rewrite <- Mo'. ring.
Qed.
Lemma lsum_abs_le {A} (l : list A) f g : (forall x, In x l -> Rabs (f x) <= g x) -> Rabs (lsum l f) <= lsum l g.
Proof.
  induction l as [|a l IH]; intros H; cbn. - rewrite Rabs_R0. lra.
  - specialize (IH (fun x Hx => H x (or_intror Hx))). specialize (H a (or_introl eq_refl)). pose proof (Rabs_triang (f a) (lsum l f)). lra.
Qed.
Lemma local3 (q : pol3) i j k s M : convex3 q -> (0 < nv q)%Z -> 0 <= s -> (forall x, hull3 q x -> Rabs (x3 x) <= M /\ Rabs (y3 x) <= M /\ Rabs (z3 x) <= M) ->
  (forall x y, hull3 q x -> hull3 q y -> Rabs (x3 x - x3 y) <= s /\ Rabs (y3 x - y3 y) <= s /\ Rabs (z3 x - z3 y) <= s) ->
  exists w, (forall x, hull3 q x -> Rabs (x3 x ^ i * y3 x ^ j * z3 x ^ k - w) <= spread M s (i + j + k)) /\ Rabs (moment3 q i j k - w * moment3 q 0 0 0) <= spread M s (i + j + k) * moment3 q 0 0 0.
Proof.
  intros CV Hn Hs HM Hd. pose proof CV as (Hw & _). pose proof Hw as (Hn' & L & _).
  set (c := ps (vb q) 0%Z). assert (Hc : hull3 q c) by (apply hull3_vertex; lia). destruct (HM c Hc) as (M1 & M2 & M3).
  exists (x3 c ^ i * y3 c ^ j * z3 c ^ k). split.
  - intros x Hx. destruct (Hd x c Hx Hc) as (D1 & D2 & D3). now apply mono3_near.
  - assert (B : forall a b d, Rabs (moment3_at c q a b d) <= s ^ a * s ^ b * s ^ d * moment3_at c q 0 0 0).
    { intros a b d. unfold moment3_at, moment3_of. rewrite <- lsum_scal. apply lsum_abs_le. intros dd Hdd. apply (isd_in (nv q)) in Hdd. cbv zeta.
      destruct (lead_ok _ _ Hn' L dd Hdd) as (SF & _). pose proof (convex_fan q dd _ 0%Z CV Hdd SF ltac:(lia)) as V. fold c in V.
      assert (I1 : (0 <= fst (lead (nb (vb q)) (nv q) dd) < nv q)%Z) by apply (same_isd q dd _ Hw Hdd SF).
      assert (I2 : (0 <= dtgt (nb (vb q)) dd < nv q)%Z) by (apply (l_rng _ _ L); apply Hdd). assert (I3 : (0 <= fst dd < nv q)%Z) by apply Hdd.
      set (u1 := ps (vb q) (fst (lead (nb (vb q)) (nv q) dd))) in *. set (u2 := ps (vb q) (dtgt (nb (vb q)) dd)) in *. set (u3 := ps (vb q) (fst dd)) in *.
      assert (T0 : tet3 0 0 0 (vsb c u1) (vsb c u2) (vsb c u3) = HPoly.det3 (pt3 (vsb c u1)) (pt3 (vsb c u2)) (pt3 (vsb c u3)) / 6).
      { rewrite tet3_0. unfold SpecC3.det3, HPoly.det3, co3, pt3. cbn. field. }
      rewrite T0. unfold tet3. apply tet_bound; [exact V|].
      intros x [<-|[<-|[<-|[]]]]; cbn; apply (Hd _ c); auto; now apply hull3_vertex. }
    assert (P0 : 0 <= moment3_at c q 0 0 0). { specialize (B 0%nat 0%nat 0%nat). cbn [pow] in B. pose proof (Rabs_pos (moment3_at c q 0 0 0)). lra. }
    assert (E0 : moment3_at c q 0 0 0 = moment3 q 0 0 0). { rewrite <- (moment3_shift c q 0 0 0 Hn' L). unfold bsum3. cbn [sum_f_R0 Nat.sub pow]. rewrite !C_0. ring. }
    pose proof (bsum3_near c i j k s M (moment3_at c q) Hs M1 M2 M3 P0 B) as X. rewrite (moment3_shift c q i j k Hn' L), E0 in X. exact X.
Qed.
Theorem convex_integral (p : pol3) i j k : convex3 p -> integral3 (hull3 p) (fun x => x3 x ^ i * y3 x ^ j * z3 x ^ k) (moment3 p i j k).
Proof.
  intros Hp. unfold integral3. pose proof Hp as ((Hn & _) & _). destruct (hull_bound p Hn) as (M & HM & HB0).
  assert (HB : forall x, hull3 p x -> - M <= x3 x <= M /\ - M <= y3 x <= M /\ - M <= z3 x <= M).
  { intros x Hx. pose proof (HB0 x Hx) as Y. split; [exact (Y 0%Z ltac:(lia))|]. split; [exact (Y 1%Z ltac:(lia))|exact (Y 2%Z ltac:(lia))]. }
  apply (integral_by_cuts 3 ltac:(lia) convex3 hullf3 mom3 cut3 p (0%nat, 0%nat, 0%nat) (i, j, k) _ (2 * M)); auto.
  - exists (fun _ => - M). intros x m Hx Hk. unfold hullf3 in Hx. apply HB in Hx. cbn in Hx. destruct (slot3 m Hk) as [->|[->| ->]]; lra.
  - intros q Hq. apply (convex_content q Hq).
  - intros e He. destruct (spread_small M (i + j + k) e (Rlt_le _ _ HM) He) as (s & Hs & HS). exists s. split; auto. intros q Hq Sub Na.
    assert (SubV : forall x, hull3 q x -> hull3 p x). { intros [u v w] Hx. apply (Sub (co3 (V3 u v w))). exact Hx. }
    destruct (Z.leb_spec (nv q) 0) as [N|N].
    + exists 0. split. * intros x Hx. exfalso. exact (hull3_0 q _ N Hx).
      * assert (nv q = 0%Z) by (destruct Hq as ((? & _) & _); rn; lia). unfold mom3. rewrite !moment3_none by auto. rewrite Rmult_0_r, Rminus_0_r, Rabs_R0. lra.
    + destruct (local3 q i j k s M Hq N (Rlt_le _ _ Hs)) as (w & W1 & W2).
      * intros x Hx. apply SubV, HB in Hx. repeat split; apply Rabs_le; lra.
      * intros [x0 x1 x2] [y0 y1 y2] Hx Hy. cbn. pose proof (Na (co3 (V3 x0 x1 x2)) (co3 (V3 y0 y1 y2))) as Y.
        split; [apply (Y 0%Z)|split; [apply (Y 1%Z)|apply (Y 2%Z)]]; auto; lia.
      * pose proof (HS s ltac:(lra)) as Sp. assert (A0 : 0 <= moment3 q 0 0 0) by (exact (content_nonneg 3 _ _ (convex_content q Hq))).
        exists w. split. -- intros x Hx. eapply Rle_trans; [apply (W1 _ Hx)|exact Sp]. -- unfold mom3. cbn [fst snd]. eapply Rle_trans; [exact W2|]. now apply Rmult_le_compat_r.
Qed.

(** ** Parts *)
Lemma integral3_ext (K K' : rvec3 R -> Prop) f t : (forall x, K x <-> K' x) -> integral3 K f t -> integral3 K' f t.
Proof. intros H. apply integral_ext; auto. Qed.
Lemma integral3_unique (K : rvec3 R -> Prop) f t s : integral3 K f t -> integral3 K f s -> t = s.
Proof. apply integral_unique. lia. Qed.
Lemma integral3_const (K : rvec3 R -> Prop) c t : content3 K t -> integral3 K (fun _ => c) (c * t).
Proof. exact (integral_const 3 ltac:(lia) (fun x => K (V3 (x 0%Z) (x 1%Z) (x 2%Z))) c t). Qed.
(** [o] is the part [K] of [p], or is empty and [K] has no volume *)
Lemma part_integral (p o : pol3) (K : rvec3 R -> Prop) i j k : (0 <= nv p)%Z -> convex3 o -> (forall x, K x -> hull3 p x) -> content3 K (moment3 o 0 0 0) -> (forall x, hull3 o x <-> K x) \/ nv o = 0%Z ->
  integral3 K (fun x => x3 x ^ i * y3 x ^ j * z3 x ^ k) (moment3 o i j k).
Proof.
  intros Hn Co HK HA [H|H]. - eapply integral3_ext; [exact H|]. now apply convex_integral.
  - rewrite moment3_none in * by auto. destruct (hull_bound p Hn) as (M & HM & HB).
    apply (integral_null 3 ltac:(lia) _ _ (M ^ i * M ^ j * M ^ k)); [exact HA|]. intros x Kx. apply HK in Kx. pose proof (HB _ Kx) as Y.
    pose proof (Y 0%Z ltac:(lia)) as A. pose proof (Y 1%Z ltac:(lia)) as B. pose proof (Y 2%Z ltac:(lia)) as C. cbn in A, B, C. rewrite !Rabs_mult.
    apply Rmult_le_compat; try apply Rabs_pos; [apply Rmult_le_pos; apply Rabs_pos| |apply pow_abs_le, Rabs_le; cbn; lra].
    apply Rmult_le_compat; try apply Rabs_pos; apply pow_abs_le, Rabs_le; cbn; lra.
Qed.
Theorem voxelize_pieces MX sh po stk0 mom0 (p : pol3) B (gr gr' : Z -> R) d : (0 <= po)%Z -> convex3 p -> (nv p <= MX)%Z -> cells3_ok (num_moments3 po) B ->
  0 <= x3 d -> 0 <= y3 d -> 0 <= z3 d -> within d B p ->
  r3d_voxelize RN MX sh po stk0 mom0 p B gr d = OK gr' ->
  forall a b c, (fst B 0 <= a < snd B 0)%Z -> (fst B 1 <= b < snd B 1)%Z -> (fst B 2 <= c < snd B 2)%Z ->
  exists o : pol3, convex3 o
  /\ ((forall x, hull3 o x <-> hull3 p x /\ in_cell3 d a b c x) \/ (nv o = 0%Z /\ exists g, Spec3R.proper g /\ forall x, hull3 p x -> in_cell3 d a b c x -> sdist3 g x = 0))
  /\ forall i j k, (i + j + k <= Z.to_nat po)%nat ->
     let e := (num_moments3 po * (((a - fst B 0) * (snd B 1 - fst B 1) + (b - fst B 1)) * (snd B 2 - fst B 2) + (c - fst B 2)) + idx3 (Z.of_nat i) (Z.of_nat j) (Z.of_nat k))%Z in
     gr' e = gr e + moment3 o i j k.
Proof.
  intros Hpo CV HM HB Hdx Hdy Hdz Wi E a b c Ia Ib Ic. pose proof CV as (Hw & _). pose proof Hw as (Hn & _).
  assert (Hd : forall i, (0 <= i < 3)%Z -> 0 <= spacing d i) by (intros i Hi; destruct (slot3 i Hi) as [->|[->| ->]]; auto).
  destruct (Z.leb_spec (nv p) 0) as [L|L].
  { rewrite (voxelize_empty_c RN _ _ _ _ _ _ _ _ _ _ L HB) in E. injection E as <-. exists p. split; auto. split.
    - left. intros x. split; [intros X|intros (X & _)]; exfalso; exact (hull3_0 p x L X).
    - intros i j k _. cbv zeta. rewrite moment3_none by (rn; lia). ring. }
  destruct (voxelize_R MX sh po stk0 mom0 p B gr d Hpo Hw ltac:(rn; lia) HB) as [(gr1 & l & E1 & Rr)|(E1 & _)]; rn; [|congruence].
  rewrite E in E1. injection E1 as <-. destruct (result_cells RN MX sh po p B d gr gr' l HB Rr) as (ND & Rg). rn.
  destruct Rr as (Rt & _ & G1 & G2). destruct (rast_R MX d p B l Rt Hw HM) as (_ & Bx & _). rn.
  assert (Pr : VoxFacts.proper 3 B). { intros i Hi. pose proof (proj1 HB i Hi). lia. }
  assert (Ix : forall i j k, (i + j + k <= Z.to_nat po)%nat -> (0 <= idx3 (Z.of_nat i) (Z.of_nat j) (Z.of_nat k) < num_moments3 po)%Z).
  { intros i j k Hij. destruct (moment_slots3 po Hpo) as (M1 & _). apply M1; lia. }
  pose proof (rast_parts MX d p B l Hd Rt Pr CV HM Wi (cidx a b c)) as PT.
  assert (PT' : cell_part d p l (cidx a b c)) by (apply PT; intros i Hi; destruct (slot3 i Hi) as [->|[->| ->]]; auto). clear PT.
  destruct PT' as [(x & Hx & Ex & Cx & Hh)|(NX & D)].
  - exists (snd x). split; auto. split; [left; intros y; rewrite Hh, in_box3_cell; tauto|]. intros i j k Hij. cbv zeta.
    destruct (G1 x Hx) as (m0 & mom & Er & F). rn. destruct (Bx x Hx) as (Wx & Mx & _). destruct (reduce_both MX sh po (snd x) m0 Hpo Wx Mx) as (m' & E' & V). rn. rewrite Er in E'. injection E' as <-.
    specialize (F _ (Ix i j k Hij)). cbn [nadd RN] in F. rewrite (V i j k Hij) in F. unfold cell3 in F. rewrite (Ex 0%Z ltac:(lia)), (Ex 1%Z ltac:(lia)), (Ex 2%Z ltac:(lia)) in F. exact F.
  - exists (PY (vb p) 0%Z). split; [now apply convex3_0|]. split.
    + destruct D as [D|(g & Pg & D)].
      * left. intros y. split; [intros X; exfalso; revert X; apply hull3_0; cbn; lia|]. intros (Hy & Hb). exfalso. apply (D y Hy). now apply in_box3_cell.
      * right. split; auto. exists g. split; auto. intros y Hy Hb. apply D; auto. now apply in_box3_cell.
    + intros i j k Hij. cbv zeta. rewrite moment3_none by reflexivity. rewrite Rplus_0_r. pose proof (Ix i j k Hij) as Iij. apply G2. intros x Hx Hr. apply (NX x Hx).
      destruct (Rg x Hx 0%Z ltac:(lia)) as (R0 & _). destruct (Rg x Hx 1%Z ltac:(lia)) as (R1 & _). destruct (Rg x Hx 2%Z ltac:(lia)) as (R2 & _).
      unfold cell3 in Hr. rn. set (w := (snd B 2 - fst B 2)%Z) in *. set (h := (snd B 1 - fst B 1)%Z) in *.
      set (c1 := (((a - fst B 0) * h + (b - fst B 1)) * w + (c - fst B 2))%Z) in *.
      set (c2 := (((fst (fst x) 0%Z - fst B 0) * h + (fst (fst x) 1%Z - fst B 1)) * w + (fst (fst x) 2%Z - fst B 2))%Z) in *.
      assert (EQ : c1 = c2) by nia. unfold c1, c2 in EQ.
      apply cell_step_inj in EQ as (EQ & E2); [|unfold w; lia..]. apply cell_step_inj in EQ as (EQ & E3); [|unfold h; lia..].
      intros i' Hi'. destruct (slot3 i' Hi') as [->|[->| ->]]; unfold cidx; cbn [Z.eqb Pos.eqb]; lia.
Qed.

(** ** The routines *)
Section Routines.
Context (MX : Z) (i j k : nat).
Let f (x : rvec3 R) : R := x3 x ^ i * y3 x ^ j * z3 x ^ k.
Theorem reduce_integral sh (p : pol3) (mom : Z -> R) po : convex3 p -> (nv p <= MX)%Z -> (Z.of_nat i + Z.of_nat j + Z.of_nat k <= po)%Z ->
  exists mom', r3d_reduce RN MX sh p mom po = OK mom' /\ integral3 (hull3 p) f (mom' (idx3 (Z.of_nat i) (Z.of_nat j) (Z.of_nat k))).
Proof.
  intros CV HM Hpo. destruct (reduce_both MX sh po p mom ltac:(lia) (proj1 CV) HM) as (m & E & A). exists m. split; auto.
  rewrite A by lia. now apply convex_integral.
Qed.
Lemma clip_integral (p p' : pol3) planes : convex3 p -> (nv p <= MX)%Z -> (forall pl, In pl planes -> Spec3R.proper pl) -> r3d_clip RN MX p planes = OK (p', 1%Z) ->
  integral3 (fun x => hull3 p x /\ holds3 planes x) f (moment3 p' i j k).
Proof.
  intros CV HM PP E. destruct (r3d_clip_hull MX p p' planes CV HM E) as (C' & D). pose proof CV as ((Hn & _) & _). apply (part_integral p); auto; [tauto|now apply (clip_content MX)|].
  destruct D as [D|(Z0 & _)]; auto.
Qed.
Theorem clip_reduce_integral sh (p p' : pol3) planes (mom : Z -> R) po : convex3 p -> (nv p <= MX)%Z -> (forall pl, In pl planes -> Spec3R.proper pl) ->
  r3d_clip RN MX p planes = OK (p', 1%Z) -> (Z.of_nat i + Z.of_nat j + Z.of_nat k <= po)%Z ->
  exists mom', r3d_reduce RN MX sh p' mom po = OK mom' /\ integral3 (fun x => hull3 p x /\ holds3 planes x) f (mom' (idx3 (Z.of_nat i) (Z.of_nat j) (Z.of_nat k))).
Proof.
  intros CV HM PP E Hpo. destruct (r3d_clip_linked RN MX p p' planes (proj1 CV) HM E) as (W' & M').
  destruct (reduce_both MX sh po p' mom ltac:(lia) W' M') as (m & Er & A). exists m. split; auto. rewrite A by lia. now apply clip_integral.
Qed.
Lemma side_integral (p o : pol3) pl : (0 <= nv p)%Z -> Spec3R.proper pl -> side_of p pl o -> integral3 (fun x => hull3 p x /\ 0 <= sdist3 pl x) f (moment3 o i j k).
Proof.
  intros Hn Pp S. pose proof S as (Co & D). apply (part_integral p); auto; [tauto|now apply side_content|]. destruct D as [D|(Z0 & _)]; auto.
Qed.
Theorem split_integrals pl ins outs : Spec3R.proper pl -> r3d_split RN MX pl ins = OK (outs, 1%Z) ->
  Forall2 (fun (p o : pol3 * (pol3 * pol3)) => convex3 (fst p) -> (nv (fst p) <= MX)%Z ->
     integral3 (fun x => hull3 (fst p) x /\ 0 <= sdist3 pl x) f (moment3 (fst (snd o)) i j k)
     /\ integral3 (fun x => hull3 (fst p) x /\ sdist3 pl x <= 0) f (moment3 (snd (snd o)) i j k)) ins outs.
Proof.
  intros Pp E. eapply F2_impl; [|exact (split_hulls MX pl ins outs E)]. intros p o H CV HM. destruct (H CV HM) as (S0 & S1). pose proof CV as ((Hn & _) & _). split.
  - now apply side_integral.
  - eapply integral3_ext; [|apply (side_integral (fst p) (snd (snd o)) (flip3 pl)); auto; now apply flip_proper]. intros x. cbv beta. rewrite sdist3_flip. split; intros (A & B); split; auto; lra.
Qed.
Theorem voxelize_integral sh po stk0 mom0 (p : pol3) B (gr gr' : Z -> R) d : convex3 p -> (nv p <= MX)%Z -> cells3_ok (num_moments3 po) B ->
  0 <= x3 d -> 0 <= y3 d -> 0 <= z3 d -> within d B p -> r3d_voxelize RN MX sh po stk0 mom0 p B gr d = OK gr' -> (Z.of_nat i + Z.of_nat j + Z.of_nat k <= po)%Z ->
  forall a b c, (fst B 0 <= a < snd B 0)%Z -> (fst B 1 <= b < snd B 1)%Z -> (fst B 2 <= c < snd B 2)%Z ->
  let e := (num_moments3 po * (((a - fst B 0) * (snd B 1 - fst B 1) + (b - fst B 1)) * (snd B 2 - fst B 2) + (c - fst B 2)) + idx3 (Z.of_nat i) (Z.of_nat j) (Z.of_nat k))%Z in
  integral3 (fun x => hull3 p x /\ in_cell3 d a b c x) f (gr' e - gr e).
Proof.
  intros CV HM HB Hdx Hdy Hdz Wi E Hpo a b c Ia Ib Ic e. destruct (voxelize_pieces MX sh po stk0 mom0 p B gr gr' d ltac:(lia) CV HM HB Hdx Hdy Hdz Wi E a b c Ia Ib Ic) as (o & Co & D & G).
  pose proof CV as ((Hn & _) & _).
  specialize (G i j k ltac:(lia)). cbv zeta in G. fold e in G. replace (gr' e - gr e) with (moment3 o i j k) by lra. apply (part_integral p); auto; [tauto| |destruct D as [D|(Z0 & _)]; auto].
  destruct D as [D|(Z0 & g & Pg & D)].
  - eapply content3_ext; [exact D|]. now apply convex_content.
  - rewrite moment3_none by auto. apply (plane_content p g); auto. intros x (X & Y). auto.
Qed.
Theorem clamp_integral (p p' : pol3) B cb B' (d : rvec3 R) : (forall i, 0 <= i < 3 -> - int_max <= fst cb i <= int_max)%Z ->
  convex3 p -> (nv p <= MX)%Z -> 0 <= x3 d -> 0 <= y3 d -> 0 <= z3 d -> within d B p ->
  ((0 < nv p)%Z -> exists q, r3d_clip RN MX p (clamp_faces d cb B) = OK (q, 1%Z)) ->
  r3d_clamp_ibox RN MX p B cb d = OK (p', B') ->
  integral3 (fun x => hull3 p x /\ in_cells3 d cb x) f (moment3 p' i j k).
Proof.
  intros Hcb CV HM Hdx Hdy Hdz Wi Hok E. destruct (clamp_content MX p p' B cb B' d Hcb CV HM Hdx Hdy Hdz Wi Hok E) as (C' & A & D). pose proof CV as ((Hn & _) & _). apply (part_integral p); auto. tauto.
Qed.
End Routines.
