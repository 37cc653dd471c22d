(** * GlueC3: final lemmas on convex polyhedra. *)
From Coq Require Import Reals ZArith List Bool Lia Lra.
From Verif Require Import Base Lib SumR ModelCommon CommonFacts Model3 ModelV ModelV3 RealNum SpecN SpecNJ
  Spec3 Orb3 Cut3 Struct3 Clip3 Spec3R Mom3 Geo3 Cons3 Reduce3 Glue2 Glue3 VoxFacts IBox Vox3 GlueV3 Spec3R SpecC3 Conv3 HullC3 LimC3 SqzC3 VoxC3 InitC3.
Import ListNotations.
Open Scope R_scope.

Theorem split_hulls MX pl ins outs : r3d_split RN MX pl ins = OK (outs, 1%Z) ->
  Forall2 (fun (i o : pol3 * (pol3 * pol3)) => convex3 (fst i) -> (nv (fst i) <= MX)%Z -> side_of (fst i) pl (fst (snd o)) /\ side_of (fst i) (flip3 pl) (snd (snd o))) ins outs.
Proof.
  intros E. apply r3d_split_list in E. eapply F2_impl; [|exact E]. intros [p [a b]] [q [o0 o1]] X CV HM. cbn [fst snd] in *. exact (split1_hull MX pl p a b q o0 o1 CV HM X).
Qed.
Lemma flip_proper pl : proper pl -> proper (flip3 pl).
Proof. unfold proper, flip3. cbn. lra. Qed.
Theorem split_volumes MX pl ins outs : proper pl -> r3d_split RN MX pl ins = OK (outs, 1%Z) ->
  Forall2 (fun (i o : pol3 * (pol3 * pol3)) => convex3 (fst i) -> (nv (fst i) <= MX)%Z ->
     content3 (fun x => hull3 (fst i) x /\ 0 <= sdist3 pl x) (moment3 (fst (snd o)) 0 0 0)
     /\ content3 (fun x => hull3 (fst i) x /\ sdist3 pl x <= 0) (moment3 (snd (snd o)) 0 0 0)) ins outs.
Proof.
  intros Pp E. eapply F2_impl; [|exact (split_hulls MX pl ins outs E)]. intros i o H CV HM. destruct (H CV HM) as (S0 & S1). pose proof CV as ((Hn & _) & _). split.
  - now apply side_content.
  - eapply content3_ext; [|apply (side_content (fst i) (snd (snd o)) (flip3 pl)); auto; now apply flip_proper]. intros x. cbv beta. rewrite sdist3_flip. split; intros (A & B); split; auto; lra.
Qed.
Theorem clip_reduce_volume MX sh (p p' : pol3) planes (mom : Z -> R) po : (0 <= po)%Z -> convex3 p -> (nv p <= MX)%Z -> (forall pl, In pl planes -> proper pl) ->
  r3d_clip RN MX p planes = OK (p', 1%Z) ->
  exists mom', r3d_reduce RN MX sh p' mom po = OK mom' /\ content3 (fun x => hull3 p x /\ holds3 planes x) (mom' 0%Z).
Proof.
  intros Hpo CV HM PP E. destruct (r3d_clip_linked RN MX p p' planes (proj1 CV) HM E) as (W' & M').
  destruct (reduce_both MX sh po p' mom Hpo W' M') as (m & Er & A). exists m. split; auto. change 0%Z with (idx3 (Z.of_nat 0) (Z.of_nat 0) (Z.of_nat 0)). rewrite A by lia.
  now apply (clip_content MX).
Qed.
Lemma mkpl_proper i s c : s <> 0 -> (0 <= i < 3)%Z -> proper (mkpl3 RN i s c).
Proof. intros Hs Hi. unfold proper. destruct (slot3 i Hi) as [->|[->| ->]]; cbn; lra. Qed.
Lemma in_cells3_i d B x : in_cells3 d B x <-> forall i, (0 <= i < 3)%Z -> spacing d i * IZR (fst B i) <= coordR3 i x <= spacing d i * IZR (snd B i).
Proof.
  unfold in_cells3. split.
  - intros (A & G & C) i Hi. destruct (slot3 i Hi) as [->|[->| ->]]; assumption.
  - intros H. split; [exact (H 0%Z ltac:(lia))|]. split; [exact (H 1%Z ltac:(lia))|exact (H 2%Z ltac:(lia))].
Qed.
(** ** [r3d_clamp_ibox] *)
Theorem clamp_content MX (p p' : pol3) B cb B' (d : rvec3 R) : (forall i, 0 <= i < 3 -> - int_max <= fst cb i <= int_max)%Z ->
  convex3 p -> (nv p <= MX)%Z -> 0 <= x3 d -> 0 <= y3 d -> 0 <= z3 d -> within d B p ->
  ((0 < nv p)%Z -> exists q, r3d_clip RN MX p (clamp_faces d cb B) = OK (q, 1%Z)) ->
  r3d_clamp_ibox RN MX p B cb d = OK (p', B') ->
  convex3 p' /\ content3 (fun x => hull3 p x /\ in_cells3 d cb x) (moment3 p' 0 0 0)
  /\ ((forall x, hull3 p' x <-> hull3 p x /\ in_cells3 d cb x) \/ nv p' = 0%Z).
Proof.
  intros Hcb CV HM Hdx Hdy Hdz Wi Hok E. pose proof CV as ((Hn & _) & _). destruct (clamp_cases RN MX p B cb d Hcb) as (A1 & A2).
  assert (Hd : forall i, (0 <= i < 3)%Z -> 0 <= spacing d i) by (intros i Hi; destruct (slot3 i Hi) as [->|[->| ->]]; auto).
  destruct (overlap_dec B cb) as [(O & _)|(O & _)].
  - destruct (A1 O) as (B1 & _ & E1). rn. rewrite clamp_faces_eq in E1. rewrite E in E1.
    assert (HF : forall x, hull3 p x -> (holds3 (clamp_faces d cb B) x <-> in_cells3 d cb x)).
    { intros x Hx. rewrite in_cells3_i. unfold holds3. rewrite <- clamp_faces_eq. split.
      - intros H i Hi. destruct (face_sdist3 d cb i x Hi) as (F1 & F2). pose proof (hull_within d B p x i Wi Hx Hi) as (W1 & W2). split.
        + destruct (Z_lt_le_dec (fst B i) (fst cb i)) as [L|L].
          * specialize (H _ (proj2 (in_faces3 d cb B _) (ex_intro _ i (conj Hi (or_introl (conj L eq_refl)))))). rewrite F1 in H. lra.
          * eapply Rle_trans; [|exact W1]. apply Rmult_le_compat_l; auto. now apply IZR_le.
        + destruct (Z_lt_le_dec (snd cb i) (snd B i)) as [L|L].
          * specialize (H _ (proj2 (in_faces3 d cb B _) (ex_intro _ i (conj Hi (or_intror (conj L eq_refl)))))). rewrite F2 in H. lra.
          * eapply Rle_trans; [exact W2|]. apply Rmult_le_compat_l; auto. now apply IZR_le.
      - intros H pl Hpl. apply in_faces3 in Hpl as (i & Hi & [(_ & ->)|(_ & ->)]); destruct (face_sdist3 d cb i x Hi) as (F1 & F2); specialize (H i Hi); rewrite ?F1, ?F2; lra. }
    assert (PF : forall pl, In pl (clamp_faces d cb B) -> proper pl).
    { intros pl Hpl. rewrite <- clamp_faces_eq in Hpl. apply in_faces3 in Hpl as (i & Hi & [(_ & ->)|(_ & ->)]); apply mkpl_proper; auto; lra. }
    destruct (Z.leb_spec (nv p) 0) as [L|L].
    { unfold clip3_dropped, r3d_clip in E1. rn. destruct (Z.leb_spec (nv p) 0); [|lia]. cbn [bind] in E1. injection E1 as <- <-. split; auto. split; [|right; lia].
      rewrite moment3_none by lia. apply content3_none. intros x (Hx & _). exact (hull3_0 p' x L Hx). }
    destruct (Hok L) as (q & Ec). unfold clip3_dropped in E1. rn. rewrite Ec in E1. cbn [bind] in E1. injection E1 as <- <-.
    destruct (r3d_clip_hull MX p p' _ CV HM Ec) as (C' & D). split; auto. split.
    + eapply content3_ext; [|apply (clip_content MX p p' _ CV HM PF Ec)]. intros x. cbv beta. split; intros (X1 & X2); split; auto; now apply HF.
    + destruct D as [D|(Z0 & _)]; auto. left. intros x. rewrite D. split; intros (X1 & X2); split; auto; now apply HF.
  - rewrite (A2 O) in E. injection E as <- <-. cbn [nv]. split; [now apply convex3_0|]. split; [|now right]. rewrite moment3_none by reflexivity.
    assert (X : exists i, (0 <= i < 3)%Z /\ (snd B i <= fst cb i \/ snd cb i <= fst B i)%Z).
    { unfold boxes_overlap in O. destruct (Z_le_gt_dec (snd B 0%Z) (fst cb 0%Z)); [exists 0%Z; lia|]. destruct (Z_le_gt_dec (snd cb 0%Z) (fst B 0%Z)); [exists 0%Z; lia|].
      destruct (Z_le_gt_dec (snd B 1%Z) (fst cb 1%Z)); [exists 1%Z; lia|]. destruct (Z_le_gt_dec (snd cb 1%Z) (fst B 1%Z)); [exists 1%Z; lia|].
      destruct (Z_le_gt_dec (snd B 2%Z) (fst cb 2%Z)); [exists 2%Z; lia|]. destruct (Z_le_gt_dec (snd cb 2%Z) (fst B 2%Z)); [exists 2%Z; lia|].
      exfalso. apply O. intros i Hi. destruct (slot3 i Hi) as [->|[->| ->]]; lia. }
    destruct X as (i & Hi & X).
    apply (plane_content p (axis_plane3 i (spacing d i * IZR (if (snd B i <=? fst cb i)%Z then fst cb i else snd cb i)))); auto; [apply axis_proper|].
    intros x (Hx & Hc). split; auto. rewrite axis_sdist3. pose proof (hull_within d B p x i Wi Hx Hi) as (W1 & W2). pose proof (proj1 (in_cells3_i d cb x) Hc i Hi) as (C1 & C2).
    specialize (Hd i Hi). destruct (Z.leb_spec (snd B i) (fst cb i)) as [L|L].
    + assert (spacing d i * IZR (snd B i) <= spacing d i * IZR (fst cb i)) by (apply Rmult_le_compat_l; auto; now apply IZR_le). lra.
    + assert (L' : (snd cb i <= fst B i)%Z) by lia. assert (spacing d i * IZR (snd cb i) <= spacing d i * IZR (fst B i)) by (apply Rmult_le_compat_l; auto; now apply IZR_le). lra.
Qed.

(** ** Cases that meet the hypotheses *)
(** the cube cut by two planes, the first through four of its vertices *)
Lemma cube_clip p0 : exists p p', r3d_init_box RN 512 p0 (V3 0 0 0) (V3 1 1 1) = OK p /\ convex3 p
  /\ r3d_clip RN 512 p [PL3 (V3 1 (-1) 0) 0; PL3 (V3 (-1) (-1) (-1)) (3 / 2)] = OK (p', 1%Z).
Proof.
  destruct (r3d_init_box_shape 512 p0 (V3 0 0 0) (V3 1 1 1) ltac:(lia)) as (p & E & Hn & W & _).
  destruct (init_box_convex 512 p0 p (V3 0 0 0) (V3 1 1 1) ltac:(lia)) as (CV & _); cbn [x3 y3 z3]; try lra; auto.
  destruct (r3d_clip_room RN 512 p [PL3 (V3 1 (-1) 0) 0; PL3 (V3 (-1) (-1) (-1)) (3 / 2)] W ltac:(rn; lia)) as (p' & Ec); [rn; rewrite Hn; vm_compute; discriminate|].
  exists p, p'. auto.
Qed.
(** the cube split by a plane through four of its vertices *)
Lemma cube_split p0 : exists p o, r3d_init_box RN 512 p0 (V3 0 0 0) (V3 1 1 1) = OK p /\ convex3 p
  /\ r3d_split RN 512 (PL3 (V3 1 (-1) 0) 0) [(p, (p0, p0))] = OK (o, 1%Z).
Proof.
  destruct (r3d_init_box_shape 512 p0 (V3 0 0 0) (V3 1 1 1) ltac:(lia)) as (p & E & Hn & W & _).
  destruct (init_box_convex 512 p0 p (V3 0 0 0) (V3 1 1 1) ltac:(lia)) as (CV & _); cbn [x3 y3 z3]; try lra; auto.
  destruct (r3d_split_room RN 512 (PL3 (V3 1 (-1) 0) 0) [(p, (p0, p0))]) as (o & Es). { constructor; [|constructor]. cbn [fst]. split; [exact W|]. rn; lia. }
  exists p, o. auto.
Qed.
(** the cube on a grid, one of whose planes holds a face of it *)
Lemma cube_vox p0 stk0 mom0 : exists p gr', r3d_init_box RN 512 p0 (V3 0 0 0) (V3 1 1 1) = OK p /\ convex3 p /\ (nv p <= 512)%Z
  /\ within (V3 (1/2) (1/2) (2/3)) ((fun _ => 0%Z), (fun _ => 2%Z)) p /\ cells3_ok (num_moments3 2) ((fun _ => 0%Z), (fun _ => 2%Z))
  /\ r3d_voxelize RN 512 false 2 stk0 mom0 p ((fun _ => 0%Z), (fun _ => 2%Z)) (fun _ => 0) (V3 (1/2) (1/2) (2/3)) = OK gr'.
Proof.
  destruct (unit_cube_voxels p0 stk0 mom0) as (p & gr' & E & _ & _ & Wi & Ev).
  destruct (init_box_convex 512 p0 p (V3 0 0 0) (V3 1 1 1) ltac:(lia)) as (CV & Hn); cbn [x3 y3 z3]; try lra; auto.
  exists p, gr'. split; auto. split; auto. split; [rn; lia|]. split; auto. split; auto.
  split; [intros i _; cbn; unfold int_min, int_max; lia|vm_compute; discriminate].
Qed.
Lemma tet_orient : 0 < (r3d_orient RN (V3 0 0 0) (V3 1 0 0) (V3 0 1 0) (V3 0 0 1) : R).
Proof. unfold r3d_orient. cbn. lra. Qed.
(** the cube clamped to the cell at its far corner *)
Definition grid3 : box := ((fun _ => 0)%Z, (fun _ => 2)%Z).
Definition clamp3 : box := ((fun _ => 1)%Z, (fun _ => 2)%Z).
Lemma cube_clamp p0 : exists p p' B', r3d_init_box RN 512 p0 (V3 0 0 0) (V3 1 1 1) = OK p /\ convex3 p /\ (nv p <= 512)%Z
  /\ within (V3 (1/2) (1/2) (2/3)) grid3 p /\ (forall i, 0 <= i < 3 -> - int_max <= fst clamp3 i <= int_max)%Z
  /\ ((0 < nv p)%Z -> exists q, r3d_clip RN 512 p (clamp_faces (V3 (1/2) (1/2) (2/3)) clamp3 grid3) = OK (q, 1%Z))
  /\ r3d_clamp_ibox RN 512 p grid3 clamp3 (V3 (1/2) (1/2) (2/3)) = OK (p', B').
Proof.
  destruct (cube_vox p0 (fun _ => (p0, grid3)) (fun _ => 0)) as (p & _ & E & CV & HM & Wi & _).
  destruct (init_box_convex 512 p0 p (V3 0 0 0) (V3 1 1 1) ltac:(lia)) as (_ & Hn); cbn [x3 y3 z3]; try lra; auto.
  assert (Hc : (forall i, 0 <= i < 3 -> - int_max <= fst clamp3 i <= int_max)%Z) by (intros i _; cbn; unfold int_max; lia).
  destruct (r3d_clip_room RN 512 p (clamp_faces (V3 (1/2) (1/2) (2/3)) clamp3 grid3) (proj1 CV) ltac:(rn; lia)) as (q & Ec); [rn; rewrite Hn; vm_compute; discriminate|].
  destruct (clamp_cases RN 512 p grid3 clamp3 (V3 (1/2) (1/2) (2/3)) Hc) as (A1 & _). destruct A1 as (B1 & _ & E1); [intros i Hi; cbn; lia|].
  rn. rewrite clamp_faces_eq in E1. unfold clip3_dropped in E1. rn. rewrite Ec in E1. cbn [bind] in E1.
  exists p, q. eexists. split; auto. split; auto. split; auto. split; auto. split; auto. split; [intros _; now exists q|exact E1].
Qed.
