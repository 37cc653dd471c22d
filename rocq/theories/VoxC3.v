(** * VoxC3: the volumes that [r3d_clip], [r3d_split] and [r3d_voxelize] lead to, for convex
    polyhedra. *)
From Coq Require Import Reals ZArith List Bool Lia Lra.
From Verif Require Import Base Lib SumR ModelCommon CommonFacts Model3 ModelV ModelV3 RealNum SpecN SpecNJ UniqJ VoxJ VoxFacts
  Spec3 Orb3 Cut3 Struct3 Clip3 Spec3R Mom3 Geo3 Cons3 Reduce3 Glue3 VoxFacts IBox Vox3 GlueV3 Spec3R SpecC3 Conv3 HullC3 LimC3 SqzC3.
Import ListNotations.
Open Scope R_scope.

Lemma content3_ext (K K' : rvec3 R -> Prop) t : (forall x, K x <-> K' x) -> content3 K t -> content3 K' t.
Proof. intros E. apply content_ext. intros. apply E. Qed.
Lemma content3_unique (K : rvec3 R -> Prop) t s : content3 K t -> content3 K s -> t = s.
Proof. apply content_unique. lia. Qed.
Lemma content3_none (K : rvec3 R -> Prop) : (forall x, ~ K x) -> content3 K 0.
Proof.
  intros H e He. split; exists []; (split; [|cbn; lra]).
  - split; [intros ? []|constructor]. - split; [intros ? []|]. intros x Hx. destruct (H _ Hx).
Qed.
Lemma moment3_none (p : pol3) i j k : nv p = 0%Z -> moment3 p i j k = 0.
Proof. intros E. unfold moment3. rn. rewrite E. reflexivity. Qed.

Theorem reduce_content MX sh (p : pol3) (mom : Z -> R) po : (0 <= po)%Z -> convex3 p -> (nv p <= MX)%Z ->
  exists mom', r3d_reduce RN MX sh p mom po = OK mom' /\ content3 (hull3 p) (mom' 0%Z).
Proof.
  intros Hpo CV HM. destruct (reduce_both MX sh po p mom Hpo (proj1 CV) HM) as (m & E & A). exists m. split; auto.
  change 0%Z with (idx3 (Z.of_nat 0) (Z.of_nat 0) (Z.of_nat 0)). rewrite A by lia. now apply convex_content.
Qed.
Theorem clip_content MX (p p' : pol3) planes : convex3 p -> (nv p <= MX)%Z -> (forall pl, In pl planes -> proper pl) -> r3d_clip RN MX p planes = OK (p', 1%Z) ->
  content3 (fun x => hull3 p x /\ holds3 planes x) (moment3 p' 0 0 0).
Proof.
  intros CV HM PP E. destruct (r3d_clip_hull MX p p' planes CV HM E) as (C' & [H|(Z0 & g & Ig & H)]).
  - eapply content3_ext; [exact H|]. now apply convex_content.
  - rewrite moment3_none by auto. pose proof CV as ((Hn & _) & _). apply (plane_content p g); auto. intros x (Hx & Sx). auto.
Qed.
Lemma side_content (p o : pol3) pl : proper pl -> (0 <= nv p)%Z -> side_of p pl o -> content3 (fun x => hull3 p x /\ 0 <= sdist3 pl x) (moment3 o 0 0 0).
Proof.
  intros Pp Hn (Co & [H|(Z0 & H)]).
  - eapply content3_ext; [exact H|]. now apply convex_content.
  - rewrite moment3_none by auto. apply (plane_content p pl); auto. intros x (Hx & Sx). split; auto. specialize (H x Hx). lra.
Qed.

(** ** [r3d_voxelize] *)
Definition in_box3 (d : rvec3 R) (c : Z -> Z) (x : rvec3 R) : Prop :=
  forall i, (0 <= i < 3)%Z -> spacing d i * IZR (c i) <= coordR3 i x <= spacing d i * IZR (c i + 1).
Lemma axis_proper i c : proper (axis_plane3 i c).
Proof. unfold proper, axis_plane3. destruct (i =? 0)%Z; [|destruct (i =? 1)%Z]; cbn; lra. Qed.
Lemma hull_within d b (p : pol3) x i : within d b p -> hull3 p x -> (0 <= i < 3)%Z -> spacing d i * IZR (fst b i) <= coordR3 i x <= spacing d i * IZR (snd b i).
Proof.
  intros Wi Hx Hi. split.
  - assert (Y : 0 <= sdist3 (axis_plane3 i (spacing d i * IZR (fst b i))) x) by (apply Hx; intros v Hv; rewrite axis_sdist3; pose proof (Wi v i Hv Hi); lra). rewrite axis_sdist3 in Y. lra.
  - assert (Y : 0 <= sdist3 (flip3 (axis_plane3 i (spacing d i * IZR (snd b i)))) x) by (apply Hx; intros v Hv; rewrite sdist3_flip, axis_sdist3; pose proof (Wi v i Hv Hi); lra). rewrite sdist3_flip, axis_sdist3 in Y. lra.
Qed.
Definition cell_part (d : rvec3 R) (p : pol3) (l : list (box * pol3)) (c : Z -> Z) : Prop :=
  (exists x, In x l /\ (forall i, (0 <= i < 3)%Z -> fst (fst x) i = c i) /\ convex3 (snd x) /\ forall y, hull3 (snd x) y <-> hull3 p y /\ in_box3 d c y)
  \/ ((forall x, In x l -> ~ forall i, (0 <= i < 3)%Z -> fst (fst x) i = c i)
      /\ ((forall y, hull3 p y -> ~ in_box3 d c y) \/ exists g, proper g /\ forall y, hull3 p y -> in_box3 d c y -> sdist3 g y = 0)).
Lemma within_sub d b (p q : pol3) : within d b p -> (forall x, hull3 q x -> hull3 p x) -> within d b q.
Proof. intros Wi H v i Hv Hi. apply (hull_within d b p); auto. apply H. now apply hull3_vertex. Qed.
Lemma side_hull (p o : pol3) pl : side_of p pl o -> forall x, hull3 o x -> hull3 p x /\ 0 <= sdist3 pl x.
Proof. intros (_ & [H|(Z0 & _)]) x Hx; [now apply H|]. exfalso. apply (hull3_0 o x); auto. lia. Qed.
Lemma rast_parts MX d (p : pol3) b l : (forall i, (0 <= i < 3)%Z -> 0 <= spacing d i) ->
  rast RN 3 nv (r3d_split_coord RN MX) (dget3 RN d) p b l -> VoxFacts.proper 3 b -> convex3 p -> (nv p <= MX)%Z -> within d b p ->
  forall c, (forall i, (0 <= i < 3)%Z -> (fst b i <= c i < snd b i)%Z) -> cell_part d p l c.
Proof.
  intros Hd. induction 1 as [p b H0|p b H0 H1|p b o a m q0 q1 l0 l1 H0 Ha Hm Hs R0 IH0 R1 IH1]; intros Pb CV HM Wi c Hc.
  - right. split; [intros x []|]. left. intros y Hy. exfalso. apply (hull3_0 p y H0 Hy).
  - left. exists (b, p). split; [now left|]. cbn [fst snd]. assert (Ec : forall i, (0 <= i < 3)%Z -> fst b i = c i) by (intros i Hi; pose proof (Hc i Hi); pose proof (H1 i Hi); lia).
    split; auto. split; auto. intros y. split; [|tauto]. intros Hy. split; auto. intros i Hi. pose proof (hull_within d b p y i Wi Hy Hi) as X. rewrite (H1 i Hi), (Ec i Hi) in X. exact X.
  - destruct (split_boxes 3 b a m Pb Ha Hm) as (P0 & P1 & _).
    destruct (split_coord_hull MX p o q0 q1 _ a CV HM Ha (or_intror H0) Hs) as (S0 & S1).
    destruct (split3_coord_R MX p o q0 q1 _ a (proj1 CV) HM Ha (or_intror H0) Hs) as (_ & _ & M0 & M1 & _).
    cbn [nmul nofZ RN] in S0, S1. change (dget3 RN d a) with (spacing d a) in S0, S1.
    pose proof (rast_leaves RN 3 nv _ _ _ _ _ R0 P0) as L0. pose proof (rast_leaves RN 3 nv _ _ _ _ _ R1 P1) as L1. rewrite Forall_forall in L0, L1.
    assert (N0 : (m <= c a)%Z -> forall x, In x l0 -> ~ forall i, (0 <= i < 3)%Z -> fst (fst x) i = c i).
    { intros Hma x Hx E. destruct (L0 x Hx) as (Sb & _ & U). pose proof (Sb a Ha) as Y. pose proof (U a Ha). rewrite (E a Ha) in *. cbn [fst snd] in Y. rewrite upd_eq in Y. lia. }
    assert (N1 : (c a < m)%Z -> forall x, In x l1 -> ~ forall i, (0 <= i < 3)%Z -> fst (fst x) i = c i).
    { intros Hma x Hx E. destruct (L1 x Hx) as (Sb & _ & U). pose proof (Sb a Ha) as Y. pose proof (U a Ha). rewrite (E a Ha) in *. cbn [fst snd] in Y. rewrite upd_eq in Y. lia. }
    assert (W0 : within d (fst b, upd (snd b) a m) q0).
    { intros v i Hv Hi. pose proof (within_sub d b p q0 Wi (fun x Hx => proj1 (side_hull _ _ _ S0 x Hx)) v i Hv Hi) as Y. cbn [fst snd]. destruct (Z.eq_dec i a) as [->|Ne]; [rewrite upd_eq|rewrite upd_neq by auto; exact Y].
      pose proof (proj2 (side_hull _ _ _ S0 _ (hull3_vertex q0 v Hv))) as Q. rewrite sdist3_flip, axis_sdist3 in Q. lra. }
    assert (W1 : within d (upd (fst b) a m, snd b) q1).
    { intros v i Hv Hi. pose proof (within_sub d b p q1 Wi (fun x Hx => proj1 (side_hull _ _ _ S1 x Hx)) v i Hv Hi) as Y. cbn [fst snd]. destruct (Z.eq_dec i a) as [->|Ne]; [rewrite upd_eq|rewrite upd_neq by auto; exact Y].
      pose proof (proj2 (side_hull _ _ _ S1 _ (hull3_vertex q1 v Hv))) as Q. rewrite axis_sdist3 in Q. lra. }
    destruct (Z_lt_le_dec (c a) m) as [Lt|Le].
    + assert (HL : forall y, in_box3 d c y -> coordR3 a y <= spacing d a * IZR m).
      { intros y Hy. destruct (Hy a Ha) as (_ & Y). eapply Rle_trans; [exact Y|]. apply Rmult_le_compat_l; [now apply Hd|]. apply IZR_le. lia. }
      assert (IH : cell_part d q0 l0 c).
      { apply IH0; auto. - apply S0. - intros i Hi. pose proof (Hc i Hi). cbn [fst snd]. destruct (Z.eq_dec i a) as [->|]; [rewrite upd_eq|rewrite upd_neq by auto]; lia. }
      destruct S0 as (C0 & [E0|(Z0 & E0)]).
      * assert (EQ : forall y, in_box3 d c y -> (hull3 q0 y <-> hull3 p y)).
        { intros y Hy. rewrite E0, sdist3_flip, axis_sdist3. specialize (HL y Hy). split; [tauto|]. intros; split; auto. lra. }
        destruct IH as [(x & Hx & Ex & Cx & Hh)|(NX & D)].
        -- left. exists x. split; [apply in_or_app; now right|]. split; auto. split; auto. intros y. rewrite Hh. split; intros (A & B); split; auto; now apply EQ.
        -- right. split. { intros x Hx. apply in_app_or in Hx as [Hx|Hx]; auto. }
           destruct D as [D|(g & Pg & D)]; [left|right; exists g; split; auto]; intros y Hy Hb; apply (D y); auto; now apply EQ.
      * right. split.
        { intros x Hx. apply in_app_or in Hx as [Hx|Hx]; auto. exfalso. inversion R0; subst; [destruct Hx|rn; lia|rn; lia]. }
        right. exists (axis_plane3 a (spacing d a * IZR m)). split; [apply axis_proper|]. intros y Hy Hb. specialize (E0 y Hy). specialize (HL y Hb). rewrite sdist3_flip, axis_sdist3 in E0. rewrite axis_sdist3. lra.
    + assert (HL : forall y, in_box3 d c y -> spacing d a * IZR m <= coordR3 a y).
      { intros y Hy. destruct (Hy a Ha) as (Y & _). eapply Rle_trans; [|exact Y]. apply Rmult_le_compat_l; [now apply Hd|]. apply IZR_le. lia. }
      assert (IH : cell_part d q1 l1 c).
      { apply IH1; auto. - apply S1. - intros i Hi. pose proof (Hc i Hi). cbn [fst snd]. destruct (Z.eq_dec i a) as [->|]; [rewrite upd_eq|rewrite upd_neq by auto]; lia. }
      destruct S1 as (C1 & [E1|(Z1 & E1)]).
      * assert (EQ : forall y, in_box3 d c y -> (hull3 q1 y <-> hull3 p y)).
        { intros y Hy. rewrite E1, axis_sdist3. specialize (HL y Hy). split; [tauto|]. intros; split; auto. lra. }
        destruct IH as [(x & Hx & Ex & Cx & Hh)|(NX & D)].
        -- left. exists x. split; [apply in_or_app; now left|]. split; auto. split; auto. intros y. rewrite Hh. split; intros (A & B); split; auto; now apply EQ.
        -- right. split. { intros x Hx. apply in_app_or in Hx as [Hx|Hx]; auto. }
           destruct D as [D|(g & Pg & D)]; [left|right; exists g; split; auto]; intros y Hy Hb; apply (D y); auto; now apply EQ.
      * right. split.
        { intros x Hx. apply in_app_or in Hx as [Hx|Hx]; auto. exfalso. inversion R1; subst; [destruct Hx|rn; lia|rn; lia]. }
        right. exists (axis_plane3 a (spacing d a * IZR m)). split; [apply axis_proper|]. intros y Hy Hb. specialize (E1 y Hy). specialize (HL y Hb). rewrite axis_sdist3 in E1. rewrite axis_sdist3. lra.
Qed.
Definition cidx (a b c : Z) : Z -> Z := fun i => if (i =? 0)%Z then a else if (i =? 1)%Z then b else c.
Lemma in_box3_cell d a b c x : in_box3 d (cidx a b c) x <-> in_cell3 d a b c x.
Proof.
  unfold in_box3, in_cell3. split.
  - intros H. split; [exact (H 0%Z ltac:(lia))|]. split; [exact (H 1%Z ltac:(lia))|exact (H 2%Z ltac:(lia))].
  - intros (A & B & C) i Hi. destruct (slot3 i Hi) as [->|[->| ->]]; assumption.
Qed.
Theorem voxelize_content MX sh po stk0 mom0 (p : pol3) B (gr gr' : Z -> R) d : (0 <= po)%Z -> convex3 p -> (nv p <= MX)%Z -> cells3_ok (num_moments3 po) B ->
  0 <= x3 d -> 0 <= y3 d -> 0 <= z3 d -> within d B p ->
  r3d_voxelize RN MX sh po stk0 mom0 p B gr d = OK gr' ->
  forall a b c, (fst B 0 <= a < snd B 0)%Z -> (fst B 1 <= b < snd B 1)%Z -> (fst B 2 <= c < snd B 2)%Z ->
  let e := (num_moments3 po * (((a - fst B 0) * (snd B 1 - fst B 1) + (b - fst B 1)) * (snd B 2 - fst B 2) + (c - fst B 2)))%Z in
  content3 (fun x => hull3 p x /\ in_cell3 d a b c x) (gr' e - gr e).
Proof.
  intros Hpo CV HM HB Hdx Hdy Hdz Wi E a b c Ia Ib Ic e. pose proof CV as (Hw & _). pose proof Hw as (Hn & _).
  assert (Hd : forall i, (0 <= i < 3)%Z -> 0 <= spacing d i) by (intros i Hi; destruct (slot3 i Hi) as [->|[->| ->]]; auto).
  destruct (Z.leb_spec (nv p) 0) as [L|L].
  { rewrite (voxelize_empty_c RN _ _ _ _ _ _ _ _ _ _ L HB) in E. injection E as <-. rewrite Rminus_diag_eq by auto. apply content3_none. intros x (Hx & _). apply (hull3_0 p x L Hx). }
  destruct (voxelize_R MX sh po stk0 mom0 p B gr d Hpo Hw ltac:(rn; lia) HB) as [(gr1 & l & E1 & Rr)|(E1 & _)]; rn; [|congruence].
  rewrite E in E1. injection E1 as <-. destruct (result_cells RN MX sh po p B d gr gr' l HB Rr) as (ND & Rg). rn.
  destruct Rr as (Rt & _ & G1 & G2). destruct (rast_R MX d p B l Rt Hw HM) as (_ & Bx & _). rn.
  assert (Pr : VoxFacts.proper 3 B). { intros i Hi. pose proof (proj1 HB i Hi). lia. }
  assert (M1 : (1 <= num_moments3 po)%Z) by (now apply num_moments3_pos).
  pose proof (rast_parts MX d p B l Hd Rt Pr CV HM Wi (cidx a b c)) as PT.
  assert (PT' : cell_part d p l (cidx a b c)) by (apply PT; intros i Hi; destruct (slot3 i Hi) as [->|[->| ->]]; auto). clear PT.
  destruct PT' as [(x & Hx & Ex & Cx & Hh)|(NX & D)].
  - assert (F0 : gr' e = gr e + moment3 (snd x) 0 0 0).
    { destruct (G1 x Hx) as (m0 & mom & Er & F). rn. destruct (Bx x Hx) as (Wx & Mx & _). destruct (reduce_both MX sh po (snd x) m0 Hpo Wx Mx) as (m' & E' & V). rn. rewrite Er in E'. injection E' as <-.
      pose proof (V 0 0 0 ltac:(lia))%nat as V0. change (idx3 (Z.of_nat 0) (Z.of_nat 0) (Z.of_nat 0)) with 0%Z in V0.
      specialize (F 0%Z ltac:(lia)). cbn [nadd RN] in F. rewrite Z.add_0_r in F. rewrite V0 in F. unfold cell3 in F. rewrite (Ex 0%Z ltac:(lia)), (Ex 1%Z ltac:(lia)), (Ex 2%Z ltac:(lia)) in F. exact F. }
    replace (gr' e - gr e) with (moment3 (snd x) 0 0 0) by (rewrite F0; ring). eapply content3_ext; [|apply convex_content; exact Cx].
    intros y. rewrite Hh, in_box3_cell. tauto.
  - assert (F0 : gr' e = gr e).
    { apply G2. intros x Hx Hr. apply (NX x Hx). destruct (Rg x Hx 0%Z ltac:(lia)) as (R0 & _). destruct (Rg x Hx 1%Z ltac:(lia)) as (R1 & _). destruct (Rg x Hx 2%Z ltac:(lia)) as (R2 & _).
      unfold e, cell3 in Hr. rn. set (w := (snd B 2 - fst B 2)%Z) in *. set (h := (snd B 1 - fst B 1)%Z) in *.
      set (c1 := (((a - fst B 0) * h + (b - fst B 1)) * w + (c - fst B 2))%Z) in *.
      set (c2 := (((fst (fst x) 0%Z - fst B 0) * h + (fst (fst x) 1%Z - fst B 1)) * w + (fst (fst x) 2%Z - fst B 2))%Z) in *.
      assert (EQ : c1 = c2) by nia. unfold c1, c2 in EQ.
      apply cell_step_inj in EQ as (EQ & E2); [|unfold w; lia..]. apply cell_step_inj in EQ as (EQ & E3); [|unfold h; lia..].
      intros i Hi. destruct (slot3 i Hi) as [->|[->| ->]]; unfold cidx; cbn [Z.eqb Pos.eqb]; lia. }
    rewrite F0, Rminus_diag_eq by auto. destruct D as [D|(g & Pg & D)].
    + apply content3_none. intros y (Hy & Hb). apply (D y Hy). now apply in_box3_cell.
    + apply (plane_content p g); auto. intros y (Hy & Hb). split; auto. apply D; auto. now apply in_box3_cell.
Qed.
