(** * PipeF3: [r3d_init_box], [r3d_clip], [r3d_clamp_ibox] and [r3d_voxelize] one after the
    other, with no hypothesis that any of the calls succeeds. *)
From Coq Require Import Reals ZArith List Bool Lia Lra Psatz.
From Verif Require Import Base Lib SumR ModelCommon CommonFacts Model3 ModelV ModelV3 RealNum SpecN SpecNC SpecNJ SpecI SpecF3
  Spec2 Spec3 Mom3 Orb3 Geo3 Cut3 Struct3 Clip3 Spec3R Cons3 Reduce3 Glue3 Fail3 VoxFacts Vox3 GlueV3 SpecC3 Conv3 HullC3 FlagC3 VolC3 LimC3 SqzC3 JordJ VoxC3 InitC3 GlueC3 IntC3 RoomC3 Graph3 Small3 RoomF3.
Import ListNotations.
Open Scope R_scope.

Lemma vertex_hull (p : pol3) v : (0 <= v < nv p)%Z -> hull3 p (ps (vb p) v).
Proof. intros Hv pl H. auto. Qed.
(** the clipped polyhedron stays in the region of the grid *)
Lemma within_sub (p p' : pol3) d B : within d B p -> (forall x, hull3 p' x -> hull3 p x) -> within d B p'.
Proof. intros Wi H v i Hv Hi. apply (hull_within d B p); auto. apply H. now apply vertex_hull. Qed.
Theorem clip_voxelize MX sh po stk0 mom0 (p : pol3) planes B (gr : Z -> R) d m :
  (0 <= po)%Z -> facets3 p m -> (0 < nv p)%Z -> (forall pl, In pl planes -> Spec3R.proper pl) -> cells3_ok (num_moments3 po) B ->
  0 <= x3 d -> 0 <= y3 d -> 0 <= z3 d -> within d B p -> (4 * (m + Z.of_nat (length planes) + depth 3 B) <= MX + 8)%Z ->
  exists p' gr', r3d_clip RN MX p planes = OK (p', 1%Z) /\ r3d_voxelize RN MX sh po stk0 mom0 p' B gr d = OK gr'
  /\ forall i j k, (Z.of_nat i + Z.of_nat j + Z.of_nat k <= po)%Z ->
     forall a b c, (fst B 0 <= a < snd B 0)%Z -> (fst B 1 <= b < snd B 1)%Z -> (fst B 2 <= c < snd B 2)%Z ->
     let e := (num_moments3 po * (((a - fst B 0) * (snd B 1 - fst B 1) + (b - fst B 1)) * (snd B 2 - fst B 2) + (c - fst B 2)) + idx3 (Z.of_nat i) (Z.of_nat j) (Z.of_nat k))%Z in
     integral3 (fun x => hull3 p x /\ holds3 planes x /\ in_cell3 d a b c x) (fun x => x3 x ^ i * y3 x ^ j * z3 x ^ k) (gr' e - gr e).
Proof.
  intros Hpo F Hp PP HB Hdx Hdy Hdz Wi HR. pose proof (depth_nonneg 3 B) as D0. pose proof (facets_vertices p m F Hp) as V. pose proof (facets_convex p m F) as CV.
  assert (HM : (nv p <= MX)%Z) by (rn; lia).
  destruct (clip_facets MX p planes m F ltac:(rn; lia) ltac:(rn; lia)) as (p' & E & F'). pose proof (facets_convex p' _ F') as CV'.
  assert (HM' : (nv p' <= MX)%Z). { destruct (Z.leb_spec (nv p') 0) as [L|L]; [rn; lia|]. pose proof (facets_vertices p' _ F' L). rn; lia. }
  destruct (voxelize_facets MX sh po stk0 mom0 p' B gr d _ Hpo F' HM' HB ltac:(rn; lia)) as (gr' & E').
  exists p', gr'. split; [exact E|]. split; [exact E'|]. intros i j k Hi a b c Ia Ib Ic e.
  destruct (r3d_clip_hull MX p p' planes CV HM E) as (_ & [H|(Z0 & pl & Ipl & H)]).
  - eapply integral3_ext; [|apply (voxelize_integral MX i j k sh po stk0 mom0 p' B gr gr' d CV' HM' HB Hdx Hdy Hdz); eauto].
    + intros x. cbv beta. rewrite H. tauto.
    + apply (within_sub p); auto. intros x Hx. apply H in Hx. tauto.
  - assert (EG : gr' = gr). { pose proof (voxelize_empty_c RN MX sh po stk0 mom0 p' B gr d (num_moments3 po) ltac:(rn; lia) HB) as X. rn. rewrite X in E'. now injection E' as ->. }
    rewrite EG. replace (gr e - gr e) with (moment3 p' i j k) by (rewrite moment3_none by auto; ring).
    apply (part_integral p p'); [rn; lia|auto|tauto| |auto].
    rewrite moment3_none by auto. apply (plane_content p pl); [rn; lia|auto|]. intros x (X1 & X2 & _). auto.
Qed.

(** [r3d_clamp_ibox], then [r3d_voxelize] *)
Lemma meet_cells nm B cb B' : (1 <= nm)%Z -> cells3_ok nm cb -> (forall i, 0 <= i < 3 -> int_min <= fst B i < snd B i /\ snd B i <= int_max)%Z ->
  boxes_overlap B cb -> box_meet B cb B' -> cells3_ok nm B'.
Proof.
  intros Hn (C1 & C2) HB O M.
  assert (X : forall i, (0 <= i < 3)%Z -> (0 < snd B' i - fst B' i <= snd cb i - fst cb i)%Z).
  { intros i Hi. destruct (M i Hi) as (-> & ->). pose proof (O i Hi). pose proof (C1 i Hi). pose proof (HB i Hi). lia. }
  split.
  - intros i Hi. specialize (X i Hi). destruct (M i Hi) as (E1 & E2). pose proof (C1 i Hi). pose proof (HB i Hi). lia.
  - pose proof (X 0%Z ltac:(lia)). pose proof (X 1%Z ltac:(lia)). pose proof (X 2%Z ltac:(lia)).
    eapply Z.le_trans; [|exact C2]. apply Z.mul_le_mono_nonneg_l; [lia|]. apply Z.mul_le_mono_nonneg; try lia; [apply Z.mul_nonneg_nonneg; lia|]. apply Z.mul_le_mono_nonneg; lia.
Qed.
Theorem clamp_voxelize MX sh po stk0 mom0 (p : pol3) B cb (gr : Z -> R) d m :
  (0 <= po)%Z -> facets3 p m -> (0 < nv p)%Z -> (4 * (m + 39) <= MX + 8)%Z ->
  0 <= x3 d -> 0 <= y3 d -> 0 <= z3 d -> within d B p -> (forall i, 0 <= i < 3 -> int_min <= fst B i < snd B i /\ snd B i <= int_max)%Z ->
  cells3_ok (num_moments3 po) cb -> (forall i, 0 <= i < 3 -> - int_max <= fst cb i)%Z -> boxes_overlap B cb ->
  exists p' B' gr', r3d_clamp_ibox RN MX p B cb d = OK (p', B') /\ box_meet B cb B' /\ r3d_voxelize RN MX sh po stk0 mom0 p' B' gr d = OK gr'
  /\ forall i j k, (Z.of_nat i + Z.of_nat j + Z.of_nat k <= po)%Z ->
     forall a b c, (fst B' 0 <= a < snd B' 0)%Z -> (fst B' 1 <= b < snd B' 1)%Z -> (fst B' 2 <= c < snd B' 2)%Z ->
     let e := (num_moments3 po * (((a - fst B' 0) * (snd B' 1 - fst B' 1) + (b - fst B' 1)) * (snd B' 2 - fst B' 2) + (c - fst B' 2)) + idx3 (Z.of_nat i) (Z.of_nat j) (Z.of_nat k))%Z in
     integral3 (fun x => hull3 p x /\ in_cell3 d a b c x) (fun x => x3 x ^ i * y3 x ^ j * z3 x ^ k) (gr' e - gr e).
Proof.
  intros Hpo F Hp HR Hdx Hdy Hdz Wi HB Hc Hcb O. pose proof (facets_vertices p m F Hp) as V. pose proof (facets_convex p m F) as CV.
  assert (HM : (nv p <= MX)%Z) by (rn; lia).
  assert (Hcb' : (forall i, 0 <= i < 3 -> - int_max <= fst cb i <= int_max)%Z) by (intros i Hi; pose proof (proj1 Hc i Hi); pose proof (Hcb i Hi); lia).
  destruct (clamp_cases RN MX p B cb d Hcb') as (A1 & _). destruct (A1 O) as (B' & M & E1). rn. rewrite clamp_faces_eq in E1.
  destruct (clamp_facets MX p B cb d m F HM ltac:(rn; lia) Hp) as (p' & Ec & F'). unfold clip3_dropped in E1. rn. rewrite Ec in E1. cbn [bind] in E1.
  pose proof (num_moments3_pos po Hpo) as NM. pose proof (meet_cells _ B cb B' NM Hc HB O M) as HB'. pose proof (depth_cells _ B' NM HB') as DP.
  pose proof (facets_convex p' _ F') as CV'.
  destruct (clamp_R MX p p' B cb B' d Hcb' (proj1 CV) HM Hdx Hdy Hdz (fun _ => ex_intro _ p' Ec) E1) as (_ & HM' & _ & _ & X). destruct (X Wi) as (_ & Wi'). clear X.
  destruct (voxelize_facets MX sh po stk0 mom0 p' B' gr d _ Hpo F' HM' HB' ltac:(rn; lia)) as (gr' & E').
  exists p', B', gr'. split; [exact E1|]. split; [exact M|]. split; [exact E'|]. intros i j k Hi a b c Ia Ib Ic e.
  assert (CE : forall x, in_cell3 d a b c x -> in_cells3 d cb x).
  { assert (Mn : forall s u v, 0 <= s -> (u <= v)%Z -> s * IZR u <= s * IZR v) by (intros s u v Hs Huv; apply Rmult_le_compat_l; auto; now apply IZR_le).
    destruct (M 0%Z ltac:(lia)) as (M0 & M0'). destruct (M 1%Z ltac:(lia)) as (M1 & M1'). destruct (M 2%Z ltac:(lia)) as (M2 & M2').
    intros x ((X1 & X2) & (Y1 & Y2) & (Z1 & Z2)). unfold in_cells3.
    pose proof (Mn _ (fst cb 0) a Hdx ltac:(lia))%Z. pose proof (Mn _ (a + 1) (snd cb 0) Hdx ltac:(lia))%Z.
    pose proof (Mn _ (fst cb 1) b Hdy ltac:(lia))%Z. pose proof (Mn _ (b + 1) (snd cb 1) Hdy ltac:(lia))%Z.
    pose proof (Mn _ (fst cb 2) c Hdz ltac:(lia))%Z. pose proof (Mn _ (c + 1) (snd cb 2) Hdz ltac:(lia))%Z. lra. }
  destruct (clamp_content MX p p' B cb B' d Hcb' CV HM Hdx Hdy Hdz Wi (fun _ => ex_intro _ p' Ec) E1) as (_ & VC & [H|Z0]).
  - eapply integral3_ext; [|apply (voxelize_integral MX i j k sh po stk0 mom0 p' B' gr gr' d CV' HM' HB' Hdx Hdy Hdz Wi' E' Hi a b c Ia Ib Ic)].
    intros x. cbv beta. rewrite H. split; [tauto|]. intros (X1 & X2). auto.
  - assert (EG : gr' = gr). { pose proof (voxelize_empty_c RN MX sh po stk0 mom0 p' B' gr d (num_moments3 po) ltac:(rn; lia) HB') as X. rn. rewrite X in E'. now injection E' as ->. }
    rewrite EG. replace (gr e - gr e) with (moment3 p' i j k) by (rewrite moment3_none by auto; ring).
    apply (part_integral p p'); [rn; lia|auto|tauto| |auto].
    rewrite moment3_none in * by auto. unfold content3 in *. eapply content_zero_sub; [|exact VC]. intros x (X1 & X2). auto.
Qed.

(** ** Boxes *)
Theorem init_box_hull MX (p p' : pol3) lo hi : (8 <= MX)%Z -> r3d_init_box RN MX p lo hi = OK p' -> x3 lo <= x3 hi -> y3 lo <= y3 hi -> z3 lo <= z3 hi ->
  forall x, hull3 p' x <-> box_pts lo hi x.
Proof.
  intros HM E HX HY HZ x. destruct (init_box_spec3 RN MX p lo hi HM) as (q & E' & Hn & A & P). rn. rewrite E in E'. injection E' as <-.
  change (zrange 8) with [0; 1; 2; 3; 4; 5; 6; 7]%Z in P. cbn [map] in P. injection P as P0 P1 P2 P3 P4 P5 P6 P7.
  assert (V : forall v, (0 <= v < nv p')%Z -> box_pts lo hi (ps (vb p') v)).
  { intros v Hv. rewrite Hn in Hv. unfold box_pts. destruct (eight v Hv) as [->|[->|[->|[->|[->|[->|[->| ->]]]]]]]; rewrite ?P0, ?P1, ?P2, ?P3, ?P4, ?P5, ?P6, ?P7; cbn; lra. }
  split.
  - intros H.
    pose proof (H (PL3 (V3 1 0 0) (- x3 lo))) as X1. pose proof (H (PL3 (V3 (-1) 0 0) (x3 hi))) as X2.
    pose proof (H (PL3 (V3 0 1 0) (- y3 lo))) as Y1. pose proof (H (PL3 (V3 0 (-1) 0) (y3 hi))) as Y2.
    pose proof (H (PL3 (V3 0 0 1) (- z3 lo))) as Z1. pose proof (H (PL3 (V3 0 0 (-1)) (z3 hi))) as Z2. clear H.
    unfold sdist3 in *. cbn [n3 d3 x3 y3 z3] in *. unfold box_pts in *.
    specialize (X1 ltac:(intros v Hv; destruct (V v Hv) as (a & b & c); lra)).
    specialize (X2 ltac:(intros v Hv; destruct (V v Hv) as (a & b & c); lra)).
    specialize (Y1 ltac:(intros v Hv; destruct (V v Hv) as (a & b & c); lra)).
    specialize (Y2 ltac:(intros v Hv; destruct (V v Hv) as (a & b & c); lra)).
    specialize (Z1 ltac:(intros v Hv; destruct (V v Hv) as (a & b & c); lra)).
    specialize (Z2 ltac:(intros v Hv; destruct (V v Hv) as (a & b & c); lra)).
    lra.
  - intros ((X1 & X2) & (Y1 & Y2) & Z1 & Z2) [[a b c] d0] H.
    assert (C : forall v, (0 <= v < 8)%Z -> 0 <= sdist3 (PL3 (V3 a b c) d0) (ps (vb p') v)) by (intros v Hv; apply H; rn; lia). clear H.
    pose proof (C 0%Z ltac:(lia)) as C0. pose proof (C 1%Z ltac:(lia)) as C1. pose proof (C 2%Z ltac:(lia)) as C2. pose proof (C 3%Z ltac:(lia)) as C3.
    pose proof (C 4%Z ltac:(lia)) as C4. pose proof (C 5%Z ltac:(lia)) as C5. pose proof (C 6%Z ltac:(lia)) as C6. pose proof (C 7%Z ltac:(lia)) as C7. clear C.
    rewrite ?P0, ?P1, ?P2, ?P3, ?P4, ?P5, ?P6, ?P7 in *. unfold sdist3 in *. cbn [n3 d3 x3 y3 z3] in *.
    assert (L : forall s l u t, l <= t <= u -> 0 <= s /\ s * l <= s * t \/ s <= 0 /\ s * u <= s * t).
    { intros s l u t Ht. destruct (Rle_lt_dec 0 s); [left|right]; split; nra. }
    destruct (L a _ _ _ (conj X1 X2)) as [(_ & LA)|(_ & LA)]; destruct (L b _ _ _ (conj Y1 Y2)) as [(_ & LB)|(_ & LB)];
      destruct (L c _ _ _ (conj Z1 Z2)) as [(_ & LC)|(_ & LC)]; lra.
Qed.
(** [r3d_init_box], [r3d_clip] with at most 91 planes, [r3d_voxelize] on any grid that holds the box *)
Theorem box_clip_voxelize sh po stk0 mom0 (p0 : pol3) lo hi planes B (gr : Z -> R) d :
  (0 <= po)%Z -> x3 lo <= x3 hi -> y3 lo <= y3 hi -> z3 lo <= z3 hi ->
  (forall pl, In pl planes -> Spec3R.proper pl) -> (length planes <= 91)%nat -> cells3_ok (num_moments3 po) B ->
  0 <= x3 d -> 0 <= y3 d -> 0 <= z3 d -> (forall x, box_pts lo hi x -> in_cells3 d B x) ->
  exists p p' gr', r3d_init_box RN 512 p0 lo hi = OK p /\ r3d_clip RN 512 p planes = OK (p', 1%Z) /\ r3d_voxelize RN 512 sh po stk0 mom0 p' B gr d = OK gr'
  /\ forall i j k, (Z.of_nat i + Z.of_nat j + Z.of_nat k <= po)%Z ->
     forall a b c, (fst B 0 <= a < snd B 0)%Z -> (fst B 1 <= b < snd B 1)%Z -> (fst B 2 <= c < snd B 2)%Z ->
     let e := (num_moments3 po * (((a - fst B 0) * (snd B 1 - fst B 1) + (b - fst B 1)) * (snd B 2 - fst B 2) + (c - fst B 2)) + idx3 (Z.of_nat i) (Z.of_nat j) (Z.of_nat k))%Z in
     integral3 (fun x => box_pts lo hi x /\ holds3 planes x /\ in_cell3 d a b c x) (fun x => x3 x ^ i * y3 x ^ j * z3 x ^ k) (gr' e - gr e).
Proof.
  intros Hpo HX HY HZ PP Hl HB Hdx Hdy Hdz Wi. destruct (r3d_init_box_shape 512 p0 lo hi ltac:(lia)) as (p & E & _).
  destruct (init_box_facets 512 p0 p lo hi ltac:(lia) HX HY HZ E) as (F & Hn). pose proof (init_box_hull 512 p0 p lo hi ltac:(lia) E HX HY HZ) as HH.
  destruct (clip_voxelize 512 sh po stk0 mom0 p planes B gr d 6 Hpo F ltac:(rn; lia) PP HB Hdx Hdy Hdz) as (p' & gr' & Ec & Ev & G).
  - intros v i Hv Hi. pose proof (Wi _ (proj1 (HH _) (vertex_hull p v Hv))) as (A & B0 & C). destruct (slot3 i Hi) as [->|[->| ->]]; auto.
  - pose proof (depth_cells _ B (num_moments3_pos po Hpo) HB). rn. lia.
  - exists p, p', gr'. split; [exact E|]. split; [exact Ec|]. split; [exact Ev|]. intros i j k Hi a b c Ia Ib Ic e.
    eapply integral3_ext; [|exact (G i j k Hi a b c Ia Ib Ic)]. intros x. cbv beta. rewrite HH. tauto.
Qed.

(** ** Concrete cases *)
Lemma cube_pipe : let d := V3 (1/2) (1/2) (2/3) in let planes := [PL3 (V3 1 (-1) 0) 0; PL3 (V3 (-1) (-1) (-1)) (3 / 2)] in
  (forall pl, In pl planes -> Spec3R.proper pl) /\ (length planes <= 91)%nat /\ cells3_ok (num_moments3 2) grid3
  /\ forall x, box_pts (V3 0 0 0) (V3 1 1 1) x -> in_cells3 d grid3 x.
Proof.
  cbv zeta. split; [|split; [|split]].
  - intros pl [<-|[<-|[]]]; unfold Spec3R.proper; cbn; lra.
  - cbn. lia.
  - split; [intros i _; cbn; unfold int_min, int_max; lia|vm_compute; discriminate].
  - intros [x y z]. unfold box_pts, in_cells3. cbn. lra.
Qed.
Lemma cube_clamp_room p0 : exists p, r3d_init_box RN 512 p0 (V3 0 0 0) (V3 1 1 1) = OK p /\ facets3 p 6 /\ (0 < nv p)%Z /\ (4 * (6 + 39) <= 512 + 8)%Z
  /\ within (V3 (1/2) (1/2) (2/3)) grid3 p /\ (forall i, 0 <= i < 3 -> int_min <= fst grid3 i < snd grid3 i /\ snd grid3 i <= int_max)%Z
  /\ cells3_ok (num_moments3 2) clamp3 /\ (forall i, 0 <= i < 3 -> - int_max <= fst clamp3 i)%Z /\ boxes_overlap grid3 clamp3.
Proof.
  destruct (r3d_init_box_shape 512 p0 (V3 0 0 0) (V3 1 1 1) ltac:(lia)) as (p & E & _).
  destruct (init_box_facets 512 p0 p (V3 0 0 0) (V3 1 1 1) ltac:(lia)) as (F & Hn); cbn [x3 y3 z3]; try lra; auto.
  pose proof (init_box_hull 512 p0 p (V3 0 0 0) (V3 1 1 1) ltac:(lia) E) as HH. cbn [x3 y3 z3] in HH.
  exists p. split; [exact E|]. split; [exact F|]. split; [rn; lia|]. split; [lia|]. split; [|split; [|split; [|split]]].
  - intros v i Hv Hi. destruct cube_pipe as (_ & _ & _ & X). pose proof (X _ (proj1 (HH ltac:(lra) ltac:(lra) ltac:(lra) _) (vertex_hull p v Hv))) as (A & B0 & C). destruct (slot3 i Hi) as [->|[->| ->]]; auto.
  - intros i Hi. cbn. unfold int_min, int_max. lia.
  - split; [intros i _; cbn; unfold int_min, int_max; lia|vm_compute; discriminate].
  - intros i Hi. cbn. unfold int_max. lia.
  - intros i Hi. cbn. lia.
Qed.
