(** * RastC2: the areas that [r2d_clip], [r2d_split], [r2d_rasterize] and [r2d_clamp_ibox]
    lead to, for convex polygons. *)
From Coq Require Import Reals ZArith List Bool Lia Lra.
From Verif Require Import Base Lib SumR ModelCommon CommonFacts Model2 ModelV RealNum SpecNV SpecNJ UniqJ VoxJ JordJ Spec2 Spec2R Struct2 Clip2 Mom2 Cons2 Misc2 Reduce2 Glue2
  Small2 VoxFacts Convex2 IBox Vox2 GlueV2 SpecC2 LoopC2 HullC2 ClipC2 InitC2 AreaC2 MomC2.
Import ListNotations.
Open Scope R_scope.

Lemma hull2_vertex (p : pol2) v : (0 <= v < nv p)%Z -> hull2 p (ps (vb p) v).
Proof. intros Hv g H. auto. Qed.
Lemma plane_area (p : pol2) pl (K : rvec2 R -> Prop) : proper2 pl -> (forall x, K x -> hull2 p x /\ sdist pl x = 0) -> content2 K 0.
Proof.
  intros Pp H. destruct (hull_bound2 (map (ps (vb p)) (zrange (nv p)))) as (M & HM). apply (flat2 K pl M); auto. intros x Hx. destruct (H x Hx) as (A & B). split; auto.
  apply HM. apply hullL_hull; auto. intros v. apply in_zrange.
Qed.
Theorem reduce_area MX sh (p : pol2) (mom : Z -> R) po : (0 <= po)%Z -> convex_ccw p -> (nv p <= MX)%Z ->
  exists mom', r2d_reduce RN MX sh p mom po = OK mom' /\ content2 (hull2 p) (mom' 0%Z).
Proof.
  intros Hpo CV HM. destruct (reduce_both MX sh po p mom Hpo (proj1 CV) HM) as (m & E & A). exists m. split; auto.
  change 0%Z with (idx2 (Z.of_nat 0) (Z.of_nat 0)). rewrite A by lia. now apply convex_area.
Qed.
Lemma clip_area MX (p p' : pol2) planes : convex_ccw p -> (nv p <= MX)%Z -> (forall pl, In pl planes -> proper2 pl) -> r2d_clip RN MX p planes = OK p' ->
  content2 (fun x => hull2 p x /\ holds2 planes x) (moment2 p' 0 0).
Proof.
  intros CV HM PP E. destruct (r2d_clip_hull MX p p' planes CV HM E) as (C' & [H|(Z0 & g & Ig & H)]).
  - eapply content2_ext; [exact H|]. now apply convex_area.
  - rewrite moment2_none by auto. apply (plane_area p g); auto. intros x (Hx & Sx). auto.
Qed.
Theorem clip_reduce_area MX sh (p p' : pol2) planes (mom : Z -> R) po : (0 <= po)%Z -> convex_ccw p -> (nv p <= MX)%Z -> (forall pl, In pl planes -> proper2 pl) ->
  r2d_clip RN MX p planes = OK p' ->
  exists mom', r2d_reduce RN MX sh p' mom po = OK mom' /\ content2 (fun x => hull2 p x /\ holds2 planes x) (mom' 0%Z).
Proof.
  intros Hpo CV HM PP E. destruct (r2d_clip_linked RN MX p p' planes (proj1 CV) HM E) as (W' & M' & _).
  destruct (reduce_both MX sh po p' mom Hpo W' M') as (m & Er & A). exists m. split; auto. change 0%Z with (idx2 (Z.of_nat 0) (Z.of_nat 0)). rewrite A by lia.
  now apply (clip_area MX).
Qed.
Lemma side_area (p o : pol2) pl : proper2 pl -> side_of2 p pl o -> content2 (fun x => hull2 p x /\ 0 <= sdist pl x) (moment2 o 0 0).
Proof.
  intros Pp (Co & [H|(Z0 & H)]).
  - eapply content2_ext; [exact H|]. now apply convex_area.
  - rewrite moment2_none by auto. apply (plane_area p pl); auto. intros x (Hx & Sx). split; auto. specialize (H x Hx). lra.
Qed.
(** the first output lies on the outer side *)
Theorem split_hulls MX pl ins outs : r2d_split RN MX pl ins = OK outs ->
  Forall2 (fun (i o : pol2 * (pol2 * pol2)) => convex_ccw (fst i) -> (nv (fst i) <= MX)%Z -> side_of2 (fst i) (flip pl) (fst (snd o)) /\ side_of2 (fst i) pl (snd (snd o))) ins outs.
Proof.
  intros E. apply r2d_split_list in E. eapply F2_impl; [|exact E]. intros [p [a b]] [q [o0 o1]] X CV HM. cbn [fst snd] in *. exact (split1_hull MX pl p a b q o0 o1 CV HM X).
Qed.
Lemma flip_proper2 pl : proper2 pl -> proper2 (flip pl).
Proof. unfold proper2, flip. cbn. lra. Qed.
Theorem split_areas MX pl ins outs : proper2 pl -> r2d_split RN MX pl ins = OK outs ->
  Forall2 (fun (i o : pol2 * (pol2 * pol2)) => convex_ccw (fst i) -> (nv (fst i) <= MX)%Z ->
     content2 (fun x => hull2 (fst i) x /\ sdist pl x <= 0) (moment2 (fst (snd o)) 0 0)
     /\ content2 (fun x => hull2 (fst i) x /\ 0 <= sdist pl x) (moment2 (snd (snd o)) 0 0)) ins outs.
Proof.
  intros Pp E. eapply F2_impl; [|exact (split_hulls MX pl ins outs E)]. intros i o H CV HM. destruct (H CV HM) as (S0 & S1). split.
  - eapply content2_ext; [|apply (side_area (fst i) (fst (snd o)) (flip pl)); auto; now apply flip_proper2]. intros x. cbv beta. rewrite sdist_flip. split; intros (A & B); split; auto; lra.
  - now apply side_area.
Qed.

(** ** [r2d_rasterize] *)
Definition in_box2 (d : rvec2 R) (c : Z -> Z) (x : rvec2 R) : Prop :=
  forall i, (0 <= i < 2)%Z -> spacing d i * IZR (c i) <= coordR i x <= spacing d i * IZR (c i + 1).
Lemma axis_proper2 i c : proper2 (axis_plane i c).
Proof. unfold proper2, axis_plane. destruct (i =? 0)%Z; cbn; lra. Qed.
Lemma hull_within d b (p : pol2) x i : within d b p -> hull2 p x -> (0 <= i < 2)%Z -> spacing d i * IZR (fst b i) <= coordR i x <= spacing d i * IZR (snd b i).
Proof.
  intros Wi Hx Hi. split.
  - assert (Y : 0 <= sdist (axis_plane i (spacing d i * IZR (fst b i))) x) by (apply Hx; intros v Hv; rewrite axis_sdist; pose proof (Wi v i Hv Hi); lra). rewrite axis_sdist in Y. lra.
  - assert (Y : 0 <= sdist (flip (axis_plane i (spacing d i * IZR (snd b i)))) x) by (apply Hx; intros v Hv; rewrite sdist_flip, axis_sdist; pose proof (Wi v i Hv Hi); lra). rewrite sdist_flip, axis_sdist in Y. lra.
Qed.
Definition cell_part (d : rvec2 R) (p : pol2) (l : list (box * pol2)) (c : Z -> Z) : Prop :=
  (exists x, In x l /\ (forall i, (0 <= i < 2)%Z -> fst (fst x) i = c i) /\ convex_ccw (snd x) /\ forall y, hull2 (snd x) y <-> hull2 p y /\ in_box2 d c y)
  \/ ((forall x, In x l -> ~ forall i, (0 <= i < 2)%Z -> fst (fst x) i = c i)
      /\ ((forall y, hull2 p y -> ~ in_box2 d c y) \/ exists g, proper2 g /\ forall y, hull2 p y -> in_box2 d c y -> sdist g y = 0)).
Lemma within_sub d b (p q : pol2) : within d b p -> (forall x, hull2 q x -> hull2 p x) -> within d b q.
Proof. intros Wi H v i Hv Hi. apply (hull_within d b p); auto. apply H. now apply hull2_vertex. Qed.
Lemma side_hull (p o : pol2) pl : side_of2 p pl o -> forall x, hull2 o x -> hull2 p x /\ 0 <= sdist pl x.
Proof. intros (_ & [H|(Z0 & _)]) x Hx; [now apply H|]. exfalso. apply (hull2_0 o x); auto. rn. lia. Qed.
Lemma rast_parts MX d (p : pol2) b l : (forall i, (0 <= i < 2)%Z -> 0 <= spacing d i) ->
  rast RN 2 nv (r2d_split_coord RN MX) (fun i => if (i =? 0)%Z then vx d else vy d) p b l -> VoxFacts.proper 2 b -> convex_ccw p -> (nv p <= MX)%Z -> within d b p ->
  forall c, (forall i, (0 <= i < 2)%Z -> (fst b i <= c i < snd b i)%Z) -> cell_part d p l c.
Proof.
  intros Hd. induction 1 as [p b H0|p b H0 H1|p b o a m q0 q1 l0 l1 H0 Ha Hm Hs R0 IH0 R1 IH1]; intros Pb CV HM Wi c Hc.
  - right. split; [intros x []|]. left. intros y Hy. exfalso. apply (hull2_0 p y H0 Hy).
  - left. exists (b, p). split; [now left|]. cbn [fst snd]. assert (Ec : forall i, (0 <= i < 2)%Z -> fst b i = c i) by (intros i Hi; pose proof (Hc i Hi); pose proof (H1 i Hi); lia).
    split; auto. split; auto. intros y. split; [|tauto]. intros Hy. split; auto. intros i Hi. pose proof (hull_within d b p y i Wi Hy Hi) as X. rewrite (H1 i Hi), (Ec i Hi) in X. exact X.
  - destruct (split_boxes 2 b a m Pb Ha Hm) as (P0 & P1 & _). rn.
    destruct (split_coord_hull MX p o q0 q1 _ a CV ltac:(split; [exact H0|exact HM]) Ha Hs) as (S0 & S1).
    destruct (split_coord_R MX p o q0 q1 _ a (proj1 CV) HM Ha (or_intror H0) Hs) as (_ & _ & M0 & M1 & _).
    cbn [nmul nofZ RN] in S0, S1. change (if (a =? 0)%Z then vx d else vy d) with (spacing d a) in S0, S1.
    pose proof (rast_leaves RN 2 nv _ _ _ _ _ R0 P0) as L0. pose proof (rast_leaves RN 2 nv _ _ _ _ _ R1 P1) as L1. rewrite Forall_forall in L0, L1.
    assert (N0 : (m <= c a)%Z -> forall x, In x l0 -> ~ forall i, (0 <= i < 2)%Z -> fst (fst x) i = c i).
    { intros Hma x Hx E. destruct (L0 x Hx) as (Sb & _ & U). pose proof (Sb a Ha) as Y. pose proof (U a Ha). rewrite (E a Ha) in *. cbn [fst snd] in Y. rewrite upd_eq in Y. lia. }
    assert (N1 : (c a < m)%Z -> forall x, In x l1 -> ~ forall i, (0 <= i < 2)%Z -> fst (fst x) i = c i).
    { intros Hma x Hx E. destruct (L1 x Hx) as (Sb & _ & U). pose proof (Sb a Ha) as Y. pose proof (U a Ha). rewrite (E a Ha) in *. cbn [fst snd] in Y. rewrite upd_eq in Y. lia. }
    assert (W0 : within d (fst b, upd (snd b) a m) q0).
    { intros v i Hv Hi. pose proof (within_sub d b p q0 Wi (fun x Hx => proj1 (side_hull _ _ _ S0 x Hx)) v i Hv Hi) as Y. cbn [fst snd]. destruct (Z.eq_dec i a) as [->|Ne]; [rewrite upd_eq|rewrite upd_neq by auto; exact Y].
      pose proof (proj2 (side_hull _ _ _ S0 _ (hull2_vertex q0 v Hv))) as Q. rewrite sdist_flip, axis_sdist in Q. lra. }
    assert (W1 : within d (upd (fst b) a m, snd b) q1).
    { intros v i Hv Hi. pose proof (within_sub d b p q1 Wi (fun x Hx => proj1 (side_hull _ _ _ S1 x Hx)) v i Hv Hi) as Y. cbn [fst snd]. destruct (Z.eq_dec i a) as [->|Ne]; [rewrite upd_eq|rewrite upd_neq by auto; exact Y].
      pose proof (proj2 (side_hull _ _ _ S1 _ (hull2_vertex q1 v Hv))) as Q. rewrite axis_sdist in Q. lra. }
    destruct (Z_lt_le_dec (c a) m) as [Lt|Le].
    + assert (HL : forall y, in_box2 d c y -> coordR a y <= spacing d a * IZR m).
      { intros y Hy. destruct (Hy a Ha) as (_ & Y). eapply Rle_trans; [exact Y|]. apply Rmult_le_compat_l; [now apply Hd|]. apply IZR_le. lia. }
      assert (IH : cell_part d q0 l0 c).
      { apply IH0; auto. - apply S0. - intros i Hi. pose proof (Hc i Hi). cbn [fst snd]. destruct (Z.eq_dec i a) as [->|]; [rewrite upd_eq|rewrite upd_neq by auto]; lia. }
      destruct S0 as (C0 & [E0|(Z0 & E0)]).
      * assert (EQ : forall y, in_box2 d c y -> (hull2 q0 y <-> hull2 p y)).
        { intros y Hy. rewrite E0, sdist_flip, axis_sdist. specialize (HL y Hy). split; [tauto|]. intros; split; auto. lra. }
        destruct IH as [(x & Hx & Ex & Cx & Hh)|(NX & D)].
        -- left. exists x. split; [apply in_or_app; now right|]. split; auto. split; auto. intros y. rewrite Hh. split; intros (A & B); split; auto; now apply EQ.
        -- right. split. { intros x Hx. apply in_app_or in Hx as [Hx|Hx]; auto. }
           destruct D as [D|(g & Pg & D)]; [left|right; exists g; split; auto]; intros y Hy Hb; apply (D y); auto; now apply EQ.
      * right. split.
        { intros x Hx. apply in_app_or in Hx as [Hx|Hx]; auto. exfalso. inversion R0; subst; [destruct Hx|rn; lia|rn; lia]. }
        right. exists (axis_plane a (spacing d a * IZR m)). split; [apply axis_proper2|]. intros y Hy Hb. specialize (E0 y Hy). specialize (HL y Hb). rewrite sdist_flip, axis_sdist in E0. rewrite axis_sdist. lra.
    + assert (HL : forall y, in_box2 d c y -> spacing d a * IZR m <= coordR a y).
      { intros y Hy. destruct (Hy a Ha) as (Y & _). eapply Rle_trans; [|exact Y]. apply Rmult_le_compat_l; [now apply Hd|]. apply IZR_le. lia. }
      assert (IH : cell_part d q1 l1 c).
      { apply IH1; auto. - apply S1. - intros i Hi. pose proof (Hc i Hi). cbn [fst snd]. destruct (Z.eq_dec i a) as [->|]; [rewrite upd_eq|rewrite upd_neq by auto]; lia. }
      destruct S1 as (C1 & [E1|(Z1 & E1)]).
      * assert (EQ : forall y, in_box2 d c y -> (hull2 q1 y <-> hull2 p y)).
        { intros y Hy. rewrite E1, axis_sdist. specialize (HL y Hy). split; [tauto|]. intros; split; auto. lra. }
        destruct IH as [(x & Hx & Ex & Cx & Hh)|(NX & D)].
        -- left. exists x. split; [apply in_or_app; now left|]. split; auto. split; auto. intros y. rewrite Hh. split; intros (A & B); split; auto; now apply EQ.
        -- right. split. { intros x Hx. apply in_app_or in Hx as [Hx|Hx]; auto. }
           destruct D as [D|(g & Pg & D)]; [left|right; exists g; split; auto]; intros y Hy Hb; apply (D y); auto; now apply EQ.
      * right. split.
        { intros x Hx. apply in_app_or in Hx as [Hx|Hx]; auto. exfalso. inversion R1; subst; [destruct Hx|rn; lia|rn; lia]. }
        right. exists (axis_plane a (spacing d a * IZR m)). split; [apply axis_proper2|]. intros y Hy Hb. specialize (E1 y Hy). specialize (HL y Hb). rewrite axis_sdist in E1. rewrite axis_sdist. lra.
Qed.
Definition cidx (a b : Z) : Z -> Z := fun i => if (i =? 0)%Z then a else b.
Lemma in_box2_cell d a b x : in_box2 d (cidx a b) x <-> in_cell2 d a b x.
Proof.
  unfold in_box2, in_cell2. split.
  - intros H. split; [exact (H 0%Z ltac:(lia))|exact (H 1%Z ltac:(lia))].
  - intros (A & B) i Hi. destruct (slot2 i Hi) as [->| ->]; assumption.
Qed.
(** the pieces: one for each cell, or the cell meets the polygon at most in a line *)
Theorem rasterize_pieces MX sh po stk0 mom0 (p : pol2) B (gr gr' : Z -> R) d : (0 <= po)%Z -> convex_ccw p -> (nv p <= MX)%Z -> cells_ok (num_moments2 po) B ->
  0 <= vx d -> 0 <= vy d -> within d B p ->
  r2d_rasterize RN MX sh po stk0 mom0 p B gr d = OK gr' ->
  forall a b, (fst B 0 <= a < snd B 0)%Z -> (fst B 1 <= b < snd B 1)%Z ->
  exists o : pol2, convex_ccw o
  /\ ((forall x, hull2 o x <-> hull2 p x /\ in_cell2 d a b x) \/ (nv o = 0%Z /\ exists g, proper2 g /\ forall x, hull2 p x -> in_cell2 d a b x -> sdist g x = 0))
  /\ forall i j, (i + j <= Z.to_nat po)%nat -> let e := (num_moments2 po * ((a - fst B 0) * (snd B 1 - fst B 1) + (b - fst B 1)) + idx2 (Z.of_nat i) (Z.of_nat j))%Z in
     gr' e = gr e + moment2 o i j.
Proof.
  intros Hpo CV HM HB Hdx Hdy Wi E a b Ia Ib. pose proof CV as (Hw & _). pose proof Hw as (Hn & _).
  assert (Hd : forall i, (0 <= i < 2)%Z -> 0 <= spacing d i) by (intros i Hi; destruct (slot2 i Hi) as [->| ->]; auto).
  destruct (Z.leb_spec (nv p) 0) as [L|L].
  { rewrite (rasterize_empty_c RN _ _ _ _ _ _ _ _ _ _ L HB) in E. injection E as <-. exists p. split; auto. split.
    - left. intros x. split; [intros X|intros (X & _)]; exfalso; exact (hull2_0 p x L X).
    - intros i j _. cbv zeta. rewrite moment2_none by (rn; lia). ring. }
  destruct (rasterize_R MX sh po stk0 mom0 p B gr d Hpo Hw ltac:(rn; lia) HB) as [(gr1 & l & E1 & Rr)|(E1 & _)]; rn; [|congruence].
  rewrite E in E1. injection E1 as <-. destruct (result_cells RN MX sh po p B d gr gr' l HB Rr) as (ND & Rg). rn.
  destruct Rr as (Rt & _ & G1 & G2). destruct (rast_R MX d p B l Rt Hw HM) as (_ & Bx & _). rn.
  assert (Pr : VoxFacts.proper 2 B). { intros i Hi. pose proof (proj1 HB i Hi). lia. }
  assert (Ix : forall i j, (i + j <= Z.to_nat po)%nat -> (0 <= idx2 (Z.of_nat i) (Z.of_nat j) < num_moments2 po)%Z).
  { intros i j Hij. destruct (moment_slots po Hpo) as (M1 & _). apply M1; lia. }
  pose proof (rast_parts MX d p B l Hd Rt Pr CV HM Wi (cidx a b)) as PT.
  assert (PT' : cell_part d p l (cidx a b)) by (apply PT; intros i Hi; destruct (slot2 i Hi) as [->| ->]; auto). clear PT.
  destruct PT' as [(x & Hx & Ex & Cx & Hh)|(NX & D)].
  - exists (snd x). split; auto. split; [left; intros y; rewrite Hh, in_box2_cell; tauto|]. intros i j Hij. cbv zeta.
    destruct (G1 x Hx) as (m0 & mom & Er & F). rn. destruct (Bx x Hx) as (Wx & Mx & _). destruct (reduce_both MX sh po (snd x) m0 Hpo Wx Mx) as (m' & E' & V). rn. rewrite Er in E'. injection E' as <-.
    specialize (F _ (Ix i j Hij)). cbn [nadd RN] in F. rewrite (V i j Hij) in F. unfold cell2 in F. rewrite (Ex 0%Z ltac:(lia)), (Ex 1%Z ltac:(lia)) in F. exact F.
  - exists (PY (vb p) 0%Z). split; [apply empty_ccw|]. split.
    + destruct D as [D|(g & Pg & D)].
      * left. intros y. split; [intros X; exfalso; revert X; apply hull2_0; cbn; lia|]. intros (Hy & Hb). exfalso. apply (D y Hy). now apply in_box2_cell.
      * right. split; auto. exists g. split; auto. intros y Hy Hb. apply D; auto. now apply in_box2_cell.
    + intros i j Hij. cbv zeta. rewrite moment2_none by reflexivity. rewrite Rplus_0_r. pose proof (Ix i j Hij) as Iij. apply G2. intros x Hx Hr. apply (NX x Hx).
      destruct (Rg x Hx) as (R0 & R1 & _). unfold cell2 in Hr. rn. set (w := (snd B 1 - fst B 1)%Z) in *.
      set (c1 := ((a - fst B 0) * w + (b - fst B 1))%Z) in *. set (c2 := ((fst (fst x) 0%Z - fst B 0) * w + (fst (fst x) 1%Z - fst B 1))%Z) in *.
      assert (EQ : c1 = c2) by nia. unfold c1, c2 in EQ.
      destruct (Z.div_mod_unique w (a - fst B 0)%Z (fst (fst x) 0 - fst B 0)%Z (b - fst B 1)%Z (fst (fst x) 1 - fst B 1)%Z); try (unfold w; lia).
      intros i' Hi'. destruct (slot2 i' Hi') as [->| ->]; unfold cidx; cbn [Z.eqb Pos.eqb]; lia.
Qed.
Theorem rasterize_area MX sh po stk0 mom0 (p : pol2) B (gr gr' : Z -> R) d : (0 <= po)%Z -> convex_ccw p -> (nv p <= MX)%Z -> cells_ok (num_moments2 po) B ->
  0 <= vx d -> 0 <= vy d -> within d B p ->
  r2d_rasterize RN MX sh po stk0 mom0 p B gr d = OK gr' ->
  forall a b, (fst B 0 <= a < snd B 0)%Z -> (fst B 1 <= b < snd B 1)%Z ->
  let e := (num_moments2 po * ((a - fst B 0) * (snd B 1 - fst B 1) + (b - fst B 1)))%Z in
  content2 (fun x => hull2 p x /\ in_cell2 d a b x) (gr' e - gr e).
Proof.
  intros Hpo CV HM HB Hdx Hdy Wi E a b Ia Ib e. destruct (rasterize_pieces MX sh po stk0 mom0 p B gr gr' d Hpo CV HM HB Hdx Hdy Wi E a b Ia Ib) as (o & Co & D & G).
  specialize (G 0%nat 0%nat ltac:(lia)). change (idx2 (Z.of_nat 0) (Z.of_nat 0)) with 0%Z in G. cbv zeta in G. rewrite Z.add_0_r in G. fold e in G.
  replace (gr' e - gr e) with (moment2 o 0 0) by lra. destruct D as [D|(Z0 & g & Pg & D)].
  - eapply content2_ext; [exact D|]. now apply convex_area.
  - rewrite moment2_none by auto. apply (plane_area p g); auto. intros x (X & Y). auto.
Qed.

(** ** [r2d_clamp_ibox] *)
Lemma in_cells2_i d B x : in_cells2 d B x <-> forall i, (0 <= i < 2)%Z -> spacing d i * IZR (fst B i) <= coordR i x <= spacing d i * IZR (snd B i).
Proof.
  unfold in_cells2. split.
  - intros (A & G) i Hi. destruct (slot2 i Hi) as [->| ->]; assumption.
  - intros H. split; [exact (H 0%Z ltac:(lia))|exact (H 1%Z ltac:(lia))].
Qed.
Lemma mkpl_proper2 i s c : s <> 0 -> (0 <= i < 2)%Z -> proper2 (mkpl2 RN i s c).
Proof. intros Hs Hi. unfold proper2. destruct (slot2 i Hi) as [->| ->]; cbn; lra. Qed.
Theorem clamp_area MX (p p' : pol2) B cb B' (d : rvec2 R) : (forall i, 0 <= i < 2 -> - int_max <= fst cb i <= int_max)%Z ->
  convex_ccw p -> (nv p <= MX)%Z -> 0 <= vx d -> 0 <= vy d -> within d B p ->
  r2d_clamp_ibox RN MX p B cb d = OK (p', B') ->
  convex_ccw p' /\ content2 (fun x => hull2 p x /\ in_cells2 d cb x) (moment2 p' 0 0)
  /\ ((forall x, hull2 p' x <-> hull2 p x /\ in_cells2 d cb x) \/ nv p' = 0%Z).
Proof.
  intros Hcb CV HM Hdx Hdy Wi E. pose proof CV as ((Hn & _) & _). destruct (clamp_cases RN MX p B cb d Hcb) as (A1 & A2).
  assert (Hd : forall i, (0 <= i < 2)%Z -> 0 <= spacing d i) by (intros i Hi; destruct (slot2 i Hi) as [->| ->]; auto).
  destruct (overlap_dec B cb) as [(O & _)|(O & _)].
  - destruct (A1 O) as (B1 & _ & E1). rn. rewrite E in E1. set (fs := faces_of _ _ _ _ _ _) in E1.
    destruct (r2d_clip RN MX p fs) as [q|er] eqn:Ec; cbn [bind] in E1; [|discriminate]. injection E1 as <- <-.
    assert (HF : forall x, hull2 p x -> (holds2 fs x <-> in_cells2 d cb x)).
    { intros x Hx. rewrite in_cells2_i. unfold holds2. split.
      - intros H i Hi. destruct (face_sdist d cb i x Hi) as (F1 & F2). pose proof (hull_within d B p x i Wi Hx Hi) as (W1 & W2). split.
        + destruct (Z_lt_le_dec (fst B i) (fst cb i)) as [L|L].
          * specialize (H _ (proj2 (in_faces d cb B _) (ex_intro _ i (conj Hi (or_introl (conj L eq_refl)))))). rewrite F1 in H. lra.
          * eapply Rle_trans; [|exact W1]. apply Rmult_le_compat_l; auto. now apply IZR_le.
        + destruct (Z_lt_le_dec (snd cb i) (snd B i)) as [L|L].
          * specialize (H _ (proj2 (in_faces d cb B _) (ex_intro _ i (conj Hi (or_intror (conj L eq_refl)))))). rewrite F2 in H. lra.
          * eapply Rle_trans; [exact W2|]. apply Rmult_le_compat_l; auto. now apply IZR_le.
      - intros H pl Hpl. apply in_faces in Hpl as (i & Hi & [(_ & ->)|(_ & ->)]); destruct (face_sdist d cb i x Hi) as (F1 & F2); specialize (H i Hi); rewrite ?F1, ?F2; lra. }
    assert (PF : forall pl, In pl fs -> proper2 pl).
    { intros pl Hpl. apply in_faces in Hpl as (i & Hi & [(_ & ->)|(_ & ->)]); apply mkpl_proper2; auto; lra. }
    destruct (r2d_clip_hull MX p p' _ CV HM Ec) as (C' & D). split; auto. split.
    + eapply content2_ext; [|apply (clip_area MX p p' _ CV HM PF Ec)]. intros x. cbv beta. split; intros (X1 & X2); split; auto; now apply HF.
    + destruct D as [D|(Z0 & _)]; auto. left. intros x. rewrite D. split; intros (X1 & X2); split; auto; now apply HF.
  - rewrite (A2 O) in E. injection E as <- <-. cbn [nv]. split; [apply empty_ccw|]. split; [|now right]. rewrite moment2_none by reflexivity.
    assert (X : exists i, (0 <= i < 2)%Z /\ (snd B i <= fst cb i \/ snd cb i <= fst B i)%Z).
    { unfold boxes_overlap in O. destruct (Z_le_gt_dec (snd B 0%Z) (fst cb 0%Z)); [exists 0%Z; lia|]. destruct (Z_le_gt_dec (snd cb 0%Z) (fst B 0%Z)); [exists 0%Z; lia|].
      destruct (Z_le_gt_dec (snd B 1%Z) (fst cb 1%Z)); [exists 1%Z; lia|]. destruct (Z_le_gt_dec (snd cb 1%Z) (fst B 1%Z)); [exists 1%Z; lia|].
      exfalso. apply O. intros i Hi. destruct (slot2 i Hi) as [->| ->]; lia. }
    destruct X as (i & Hi & X).
    apply (plane_area p (axis_plane i (spacing d i * IZR (if (snd B i <=? fst cb i)%Z then fst cb i else snd cb i)))); [apply axis_proper2|].
    intros x (Hx & Hc). split; auto. rewrite axis_sdist. pose proof (hull_within d B p x i Wi Hx Hi) as (W1 & W2). pose proof (proj1 (in_cells2_i d cb x) Hc i Hi) as (C1 & C2).
    specialize (Hd i Hi). destruct (Z.leb_spec (snd B i) (fst cb i)) as [L|L].
    + assert (spacing d i * IZR (snd B i) <= spacing d i * IZR (fst cb i)) by (apply Rmult_le_compat_l; auto; now apply IZR_le). lra.
    + assert (L' : (snd cb i <= fst B i)%Z) by lia. assert (spacing d i * IZR (snd cb i) <= spacing d i * IZR (fst B i)) by (apply Rmult_le_compat_l; auto; now apply IZR_le). lra.
Qed.
