(** * MeetC3: a cell clipped by the faces of another, and a polyhedron clipped by each of
    the cells that tile it. *)
From Coq Require Import Reals ZArith List Bool Lia Lra Psatz.
From Verif Require Import Base Lib SumR ModelCommon CommonFacts Model3 ModelV ModelV3 HPoly HInt RealNum SpecN SpecNC SpecNJ SpecI SpecF3 SpecL3
  Spec2 Spec3 Mom3 Orb3 Geo3 Faces3 Cut3 Struct3 Clip3 Spec3R Cons3 Reduce3 Glue3 Shape3 Fail3 Vox3 GlueV3 SpecC3 Conv3 HullC3 SqzC3 VoxJ UniqJ JordJ IntJ NearB VoxC3 InitC3 GlueC3 IntC3 RoomC3 Small3 RoomF3 PipeF3 MeetJ SpecM3.
Import ListNotations.
Open Scope R_scope.

(** ** The cells *)
Lemma svol6_vol6 a b c d : svol6 a b c d = vol6 a b c d.
Proof. unfold svol6, vol6, HPoly.det3, psub, pt3. cbn. ring. Qed.
Lemma svol6_orient a b c d : 0 < svol6 a b c d -> 0 < (r3d_orient RN a b c d : R).
Proof. intros H. rewrite orient3_vol. rewrite svol6_vol6 in H. lra. Qed.
Lemma init_tet_hull MX (p p' : pol3) (a b c d : rvec3 R) : (4 <= MX)%Z -> 0 < svol6 a b c d -> r3d_init_tet RN MX p a b c d = OK p' -> forall x, hull3 p' x <-> in_tet a b c d x.
Proof.
  intros HM HV E x. destruct (init_tet_spec RN MX p a b c d HM) as (q & E' & Hn & A & P). rn. rewrite E in E'. injection E' as <-.
  change (zrange 4) with [0; 1; 2; 3]%Z in P. cbn [map] in P. injection P as P0 P1 P2 P3. rewrite svol6_vol6 in HV. split.
  - intros H. apply tet_faces_inside; auto. intros f Hf. apply H. intros v Hv. rewrite Hn in Hv.
    assert (G : in_tet a b c d (ps (vb p') v)); [|exact (proj2 (tet_faces_inside a b c d _ HV) G f Hf)].
    destruct (four v Hv) as [->|[->|[->| ->]]]; rewrite ?P0, ?P1, ?P2, ?P3;
      [exists 1, 0, 0, 0; destruct a|exists 0, 1, 0, 0; destruct b|exists 0, 0, 1, 0; destruct c|exists 0, 0, 0, 1; destruct d]; cbn; repeat split; try lra; f_equal; ring.
  - intros (w0 & w1 & w2 & w3 & H0 & H1 & H2 & H3 & HS & ->) [[u v w] e] H. rewrite Hn in H.
    pose proof (H 0%Z ltac:(lia)) as C0. pose proof (H 1%Z ltac:(lia)) as C1. pose proof (H 2%Z ltac:(lia)) as C2. pose proof (H 3%Z ltac:(lia)) as C3.
    rewrite P0 in C0. rewrite P1 in C1. rewrite P2 in C2. rewrite P3 in C3. unfold sdist3 in *. cbn [n3 d3 x3 y3 z3] in *.
    replace w3 with (1 - w0 - w1 - w2) in * by lra. nra.
Qed.
Lemma tet_faces_proper a b c d f : 0 < svol6 a b c d -> In f (r3d_tet_faces_from_verts RN a b c d) -> Spec3R.proper f.
Proof.
  intros HV. rewrite svol6_vol6 in HV. destruct (tet_faces_R a b c d) as (f0 & f1 & f2 & f3 & k0 & k1 & k2 & k3 & E & K0 & K1 & K2 & K3 & S). rewrite E.
  assert (G : forall g q r, sdist3 g q <> sdist3 g r -> Spec3R.proper g).
  { intros [[u v w] e] q r Hd. unfold Spec3R.proper, sdist3 in *. cbn in *. destruct (Req_dec u 0) as [->|]; auto. destruct (Req_dec v 0) as [->|]; auto. destruct (Req_dec w 0) as [->|]; auto. exfalso. apply Hd. ring. }
  assert (Z : forall g q r k t, 0 < k -> sdist3 g q = k * vol6 a b c d -> sdist3 g r = k * t -> t = 0 -> Spec3R.proper g).
  { intros g q r k t Hk E1 E2 ->. apply (G g q r). rewrite E1, E2. nra. }
  intros [<-|[<-|[<-|[<-|[]]]]].
  - apply (Z f0 a b k0 (vol6 b b c d)); auto; [apply S|apply S|unfold vol6, HPoly.det3, psub, pt3; cbn; ring].
  - apply (Z f1 b a k1 (vol6 a a c d)); auto; [apply S|apply S|unfold vol6, HPoly.det3, psub, pt3; cbn; ring].
  - apply (Z f2 c a k2 (vol6 a b a d)); auto; [apply S|apply S|unfold vol6, HPoly.det3, psub, pt3; cbn; ring].
  - apply (Z f3 d a k3 (vol6 a b c a)); auto; [apply S|apply S|unfold vol6, HPoly.det3, psub, pt3; cbn; ring].
Qed.
Lemma cell_planes_proper s : cell_ok s -> forall f, In f (cell_planes s) -> Spec3R.proper f.
Proof.
  destruct s as [a b c d|lo hi]; cbn [cell_ok cell_planes]; intros H f Hf; [exact (tet_faces_proper a b c d f H Hf)|].
  unfold r3d_box_faces_from_verts in Hf. cbn [In] in Hf. unfold Spec3R.proper. destruct Hf as [<-|[<-|[<-|[<-|[<-|[<-|[]]]]]]]; cbn; lra.
Qed.
Lemma cell_planes_holds s : cell_ok s -> forall x, holds3 (cell_planes s) x <-> cell_pts s x.
Proof.
  destruct s as [a b c d|lo hi]; cbn [cell_ok cell_planes]; intros H x.
  - rewrite svol6_vol6 in H. exact (tet_faces_inside a b c d x H).
  - exact (box_faces_inside lo hi x).
Qed.
Lemma cell_planes_len s : (length (cell_planes s) <= 6)%nat.
Proof. destruct s; cbn; lia. Qed.
Lemma cell_init_ok MX p0 s : (8 <= MX)%Z -> cell_ok s -> exists p, cell_init MX p0 s = OK p /\ facets3 p 6 /\ (0 < nv p <= MX)%Z /\ forall x, hull3 p x <-> cell_pts s x.
Proof.
  intros HM. destruct s as [a b c d|lo hi]; cbn [cell_ok cell_init].
  - intros H. destruct (init_tet_spec RN MX p0 a b c d ltac:(lia)) as (p & E & _). exists p. split; [exact E|].
    destruct (init_tet_facets MX p0 p a b c d ltac:(lia) (svol6_orient a b c d H) E) as (F & Hn). split; [eapply facets_mono; [|exact F]; lia|]. split; [rn; lia|].
    exact (init_tet_hull MX p0 p a b c d ltac:(lia) H E).
  - intros (HX & HY & HZ). destruct (r3d_init_box_shape MX p0 lo hi HM) as (p & E & _). exists p. split; [exact E|].
    destruct (init_box_facets MX p0 p lo hi HM HX HY HZ E) as (F & Hn). split; auto. split; [rn; lia|]. exact (init_box_hull MX p0 p lo hi HM E HX HY HZ).
Qed.

(** ** One clip *)
Lemma facets_convex (p : pol3) m : facets3 p m -> convex3 p.
Proof. intros F. apply convex_iff_facets. eauto. Qed.
Lemma clip_moments MX sh po (mom : Z -> R) (p : pol3) planes m : (0 <= po)%Z -> facets3 p m -> (0 < nv p <= MX)%Z -> (3 * (m + Z.of_nat (length planes)) <= MX + 7)%Z ->
  (forall pl, In pl planes -> Spec3R.proper pl) ->
  exists p' mom', r3d_clip RN MX p planes = OK (p', 1%Z) /\ r3d_reduce RN MX sh p' mom po = OK mom'
  /\ forall i j k, (i + j + k <= Z.to_nat po)%nat -> integral3 (fun x => hull3 p x /\ holds3 planes x) (fun x => x3 x ^ i * y3 x ^ j * z3 x ^ k) (mom' (idx3 (Z.of_nat i) (Z.of_nat j) (Z.of_nat k))).
Proof.
  intros Hpo F HM HR PP. destruct (clip_facets MX p planes m F HM HR) as (p' & E & F'). pose proof (facets_convex p m F) as CV.
  destruct (r3d_clip_linked RN MX p p' planes (proj1 CV) ltac:(rn; lia) E) as (W' & M').
  destruct (reduce_both MX sh po p' mom Hpo W' M') as (mom' & Er & A). exists p', mom'. split; [exact E|]. split; [exact Er|].
  intros i j k Hi. rewrite A by lia. exact (clip_integral MX i j k p p' planes CV ltac:(rn; lia) PP E).
Qed.
Theorem cell_meet sh po (mom : Z -> R) (p0 : pol3) s t : (0 <= po)%Z -> cell_ok s -> cell_ok t ->
  exists p p' mom', cell_init 512 p0 s = OK p /\ r3d_clip RN 512 p (cell_planes t) = OK (p', 1%Z) /\ r3d_reduce RN 512 sh p' mom po = OK mom'
  /\ forall i j k, (i + j + k <= Z.to_nat po)%nat -> integral3 (fun x => cell_pts s x /\ cell_pts t x) (fun x => x3 x ^ i * y3 x ^ j * z3 x ^ k) (mom' (idx3 (Z.of_nat i) (Z.of_nat j) (Z.of_nat k))).
Proof.
  intros Hpo Hs Ht. destruct (cell_init_ok 512 p0 s ltac:(lia) Hs) as (p & E & F & HM & HH).
  destruct (clip_moments 512 sh po mom p (cell_planes t) 6 Hpo F HM) as (p' & mom' & Ec & Er & G); [pose proof (cell_planes_len t); lia|exact (cell_planes_proper t Ht)|].
  exists p, p', mom'. split; [exact E|]. split; [exact Ec|]. split; [exact Er|]. intros i j k Hi. eapply integral3_ext; [|exact (G i j k Hi)].
  intros x. cbv beta. rewrite HH, (cell_planes_holds t Ht). tauto.
Qed.
Theorem cell_meet_sym sh po (mom1 mom2 : Z -> R) (p0 q0 : pol3) s t : (0 <= po)%Z -> cell_ok s -> cell_ok t ->
  exists p p' m q q' n, cell_init 512 p0 s = OK p /\ r3d_clip RN 512 p (cell_planes t) = OK (p', 1%Z) /\ r3d_reduce RN 512 sh p' mom1 po = OK m
  /\ cell_init 512 q0 t = OK q /\ r3d_clip RN 512 q (cell_planes s) = OK (q', 1%Z) /\ r3d_reduce RN 512 sh q' mom2 po = OK n
  /\ forall i j k, (i + j + k <= Z.to_nat po)%nat -> m (idx3 (Z.of_nat i) (Z.of_nat j) (Z.of_nat k)) = n (idx3 (Z.of_nat i) (Z.of_nat j) (Z.of_nat k)).
Proof.
  intros Hpo Hs Ht. destruct (cell_meet sh po mom1 p0 s t Hpo Hs Ht) as (p & p' & m & E1 & E2 & E3 & G). destruct (cell_meet sh po mom2 q0 t s Hpo Ht Hs) as (q & q' & n & F1 & F2 & F3 & H).
  exists p, p', m, q, q', n. repeat split; auto. intros i j k Hi. apply (integral3_unique _ _ _ _ (G i j k Hi)).
  eapply integral3_ext; [|exact (H i j k Hi)]. intros x. cbv beta. tauto.
Qed.

(** ** Cells that tile *)
Lemma mono_bound (p : pol3) i j k : (0 <= nv p)%Z -> exists M, forall x, hull3 p x -> Rabs (x3 x ^ i * y3 x ^ j * z3 x ^ k) <= M.
Proof.
  intros Hn. destruct (hull_bound p Hn) as (M & HM & HB). exists (M ^ i * M ^ j * M ^ k). intros x Kx. pose proof (HB _ Kx) as Y.
  pose proof (Y 0%Z ltac:(lia)) as A. pose proof (Y 1%Z ltac:(lia)) as B. pose proof (Y 2%Z ltac:(lia)) as C. cbn in A, B, C. rewrite !Rabs_mult.
  apply Rmult_le_compat; try apply Rabs_pos; [apply Rmult_le_pos; apply Rabs_pos| |apply pow_abs_le, Rabs_le; cbn; lra].
  apply Rmult_le_compat; try apply Rabs_pos; apply pow_abs_le, Rabs_le; cbn; lra.
Qed.
Lemma FOP_impl {A} (P Q : A -> A -> Prop) l : (forall a b, P a b -> Q a b) -> ForallOrdPairs P l -> ForallOrdPairs Q l.
Proof. intros H. induction 1 as [|a l F _ IH]; constructor; auto. eapply Forall_impl; [|exact F]. auto. Qed.
(** [K c] for the part of the cell [c] *)
Lemma tiled_sum {A} (p : pol3) (cells : list A) (K : A -> rvec3 R -> Prop) (t : A -> R) i j k : convex3 p ->
  (forall x, hull3 p x -> exists c, In c cells /\ K c x) -> ForallOrdPairs (fun c c' => content3 (fun x => hull3 p x /\ K c x /\ K c' x) 0) cells ->
  (forall c, In c cells -> integral3 (fun x => hull3 p x /\ K c x) (fun x => x3 x ^ i * y3 x ^ j * z3 x ^ k) (t c)) -> lsum cells t = moment3 p i j k.
Proof.
  intros CV HC HP HI. pose proof CV as ((Hn & _) & _). destruct (mono_bound p i j k Hn) as (M & HM).
  apply (integral3_unique (hull3 p) (fun x => x3 x ^ i * y3 x ^ j * z3 x ^ k)); [|now apply convex_integral].
  apply (integral_parts 3 ltac:(lia) cells (fun c x => hull3 p (V3 (x 0%Z) (x 1%Z) (x 2%Z)) /\ K c (V3 (x 0%Z) (x 1%Z) (x 2%Z))) t _ _ M).
  - intros x. cbv beta. split; [intros Hx; destruct (HC _ Hx) as (c & C1 & C2); exists c; auto|]. intros (c & _ & Hx & _). exact Hx.
  - eapply FOP_impl; [|exact HP]. intros c c' H. eapply content_ext; [|exact H]. intros x. cbv beta. tauto.
  - exact HI.
  - intros x Hx. exact (HM _ Hx).
Qed.

Theorem clips_conserve MX sh po (p : pol3) m (cells : list (list (plane3 R))) : (0 <= po)%Z -> facets3 p m -> (0 < nv p <= MX)%Z ->
  (forall c, In c cells -> (3 * (m + Z.of_nat (length c)) <= MX + 7)%Z /\ forall pl, In pl c -> Spec3R.proper pl) ->
  (forall x, hull3 p x -> exists c, In c cells /\ holds3 c x) -> ForallOrdPairs (fun c c' => content3 (fun x => hull3 p x /\ holds3 c x /\ holds3 c' x) 0) cells ->
  forall mom : Z -> R, exists total parts, r3d_reduce RN MX sh p mom po = OK total
  /\ Forall2 (fun c part => exists p', r3d_clip RN MX p c = OK (p', 1%Z) /\ r3d_reduce RN MX sh p' mom po = OK part) cells parts
  /\ forall i j k, (i + j + k <= Z.to_nat po)%nat -> let e := idx3 (Z.of_nat i) (Z.of_nat j) (Z.of_nat k) in lsum parts (fun part => part e) = total e.
Proof.
  intros Hpo F HM HC Cov Ov mom. pose proof (facets_convex p m F) as CV. destruct (reduce_both MX sh po p mom Hpo (proj1 CV) ltac:(rn; lia)) as (total & Et & At).
  assert (G : exists cs : list (list (plane3 R) * (Z -> R)), map fst cs = cells
    /\ forall q, In q cs -> (exists p', r3d_clip RN MX p (fst q) = OK (p', 1%Z) /\ r3d_reduce RN MX sh p' mom po = OK (snd q))
       /\ forall i j k, (i + j + k <= Z.to_nat po)%nat -> integral3 (fun x => hull3 p x /\ holds3 (fst q) x) (fun x => x3 x ^ i * y3 x ^ j * z3 x ^ k) (snd q (idx3 (Z.of_nat i) (Z.of_nat j) (Z.of_nat k)))).
  { clear Cov Ov. induction cells as [|c cells IH]; [exists []; split; [reflexivity|intros ? []]|].
    destruct IH as (cs & E & H); [intros; apply HC; now right|]. destruct (HC c (or_introl eq_refl)) as (R & PP).
    destruct (clip_moments MX sh po mom p c m Hpo F HM R PP) as (p' & mom' & Ec & Er & I). exists ((c, mom') :: cs). split; [cbn; now rewrite E|].
    intros q [<-|Hq]; [|auto]. cbn [fst snd]. split; [exists p'; auto|exact I]. }
  destruct G as (cs & E & H). exists total, (map snd cs). split; [exact Et|]. split.
  - clear Cov Ov HC. subst cells. induction cs as [|q cs IH]; cbn [map]; constructor; [apply H; now left|apply IH; intros; apply H; now right].
  - intros i j k Hi e. unfold e. rewrite At by lia. rewrite lsum_map.
    apply (tiled_sum p cs (fun q => holds3 (fst q))); auto.
    + intros x Hx. destruct (Cov x Hx) as (c & C1 & C2). rewrite <- E in C1. apply in_map_iff in C1 as (q & <- & Hq). exists q. auto.
    + clear - Ov E. subst cells. induction cs as [|q cs IH]; [constructor|]. cbn [map] in Ov. inversion Ov as [|? ? F1 F2]; subst. constructor; auto.
      rewrite Forall_map in F1. exact F1.
    + intros q Hq. now apply H.
Qed.
(** a mesh of tetrahedra and boxes *)
Theorem mesh_conserves sh po (p : pol3) m (mesh : list body3) : (0 <= po)%Z -> facets3 p m -> (0 < nv p <= 512)%Z -> (m <= 167)%Z ->
  (forall s, In s mesh -> cell_ok s) -> (forall x, hull3 p x -> exists s, In s mesh /\ cell_pts s x) ->
  ForallOrdPairs (fun s t => content3 (fun x => cell_pts s x /\ cell_pts t x) 0) mesh ->
  forall mom : Z -> R, exists total parts, r3d_reduce RN 512 sh p mom po = OK total
  /\ Forall2 (fun s part => exists p', r3d_clip RN 512 p (cell_planes s) = OK (p', 1%Z) /\ r3d_reduce RN 512 sh p' mom po = OK part) mesh parts
  /\ forall i j k, (i + j + k <= Z.to_nat po)%nat -> let e := idx3 (Z.of_nat i) (Z.of_nat j) (Z.of_nat k) in lsum parts (fun part => part e) = total e.
Proof.
  intros Hpo F HM Hm OKs Cov Ov mom.
  destruct (clips_conserve 512 sh po p m (map cell_planes mesh) Hpo F HM) with (mom := mom) as (total & parts & E & H & G).
  - intros c Hc. apply in_map_iff in Hc as (s & <- & Hs). split; [pose proof (cell_planes_len s); lia|exact (cell_planes_proper s (OKs s Hs))].
  - intros x Hx. destruct (Cov x Hx) as (s & S1 & S2). exists (cell_planes s). split; [now apply in_map|now apply cell_planes_holds; auto].
  - clear - Ov OKs. induction mesh as [|s mesh IH]; cbn [map]; [constructor|]. inversion Ov as [|? ? F1 F2]; subst. constructor; [|apply IH; auto; intros; apply OKs; now right].
    apply Forall_map, Forall_forall. intros t Ht. rewrite Forall_forall in F1. eapply content_zero_sub; [|exact (F1 t Ht)]. intros x (_ & A & B).
    apply cell_planes_holds in A; [|apply OKs; now left]. apply cell_planes_holds in B; [|apply OKs; now right]. auto.
  - exists total, parts. split; [exact E|]. split; [|exact G]. clear - H. revert parts H. induction mesh as [|s mesh IH]; intros parts H; inversion H; subst; constructor; auto.
Qed.
(** cells on the two sides of a plane meet in no volume *)
Theorem sides_null s t g : cell_ok s -> Spec3R.proper g -> (forall x, cell_pts s x -> 0 <= sdist3 g x) -> (forall x, cell_pts t x -> sdist3 g x <= 0) ->
  content3 (fun x => cell_pts s x /\ cell_pts t x) 0.
Proof.
  intros Hs Pg A B. destruct (cell_init_ok 512 (zero_poly3 RN) s ltac:(lia) Hs) as (p & _ & _ & Hn & HH). apply (plane_content p g); [rn; lia|auto|].
  intros x (Sx & Tx). split; [now apply HH|]. specialize (A x Sx). specialize (B x Tx). lra.
Qed.
(** a tetrahedron cut in two, and the cube around them *)
Definition half1 := Tet (V3 0 0 0) (V3 1 0 0) (V3 (1/2) (1/2) 0) (V3 0 0 1).
Definition half2 := Tet (V3 0 0 0) (V3 (1/2) (1/2) 0) (V3 0 1 0) (V3 0 0 1).
Definition whole := Tet (V3 0 0 0) (V3 1 0 0) (V3 0 1 0) (V3 0 0 1).
Lemma halves_mesh : cell_ok whole /\ (forall s, In s [half1; half2] -> cell_ok s) /\ (forall x, cell_pts whole x -> exists s, In s [half1; half2] /\ cell_pts s x)
  /\ ForallOrdPairs (fun s t => content3 (fun x => cell_pts s x /\ cell_pts t x) 0) [half1; half2] /\ cell_ok (Box (V3 0 0 0) (V3 1 1 1)).
Proof.
  assert (O1 : cell_ok half1) by (unfold cell_ok, half1, svol6; cbn; lra). assert (O2 : cell_ok half2) by (unfold cell_ok, half2, svol6; cbn; lra).
  split; [unfold cell_ok, whole, svol6; cbn; lra|]. split; [intros s [<-|[<-|[]]]; auto|]. split; [|split; [|cbn; lra]].
  - intros x (w0 & w1 & w2 & w3 & H0 & H1 & H2 & H3 & HS & ->). cbn [x3 y3 z3]. destruct (Rle_lt_dec w2 w1) as [L|L].
    + exists half1. split; [now left|]. exists w0, (w1 - w2), (2 * w2), w3. cbn. repeat split; try lra. f_equal; field.
    + exists half2. split; [right; now left|]. exists w0, (2 * w1), (w2 - w1), w3. cbn. repeat split; try lra. f_equal; field.
  - constructor; [constructor; [|constructor]|constructor; constructor]. apply (sides_null half1 half2 (PL3 (V3 1 (-1) 0) 0)); auto; [unfold Spec3R.proper; cbn; lra| |].
    + intros x (w0 & w1 & w2 & w3 & H0 & H1 & H2 & H3 & HS & ->). unfold sdist3. cbn. lra.
    + intros x (w0 & w1 & w2 & w3 & H0 & H1 & H2 & H3 & HS & ->). unfold sdist3. cbn. lra.
Qed.
