(** * GlueV3: final lemmas for v3d.c. *)
From Coq Require Import Reals ZArith List Bool Lia Lra.
From Verif Require Import Base Lib ModelCommon CommonFacts Model3 ModelV ModelV3 Spec2 Spec3 Orb3 Cut3 Struct3 Clip3 FaceSpec3 RealNum SumR Reduce3 Spec3R
  Mom3 Geo3 Cons3 Shift3 Grow3 Fail3 Glue3 VoxFacts IBox Vox3 Prism3.
Import ListNotations.
Open Scope Z_scope.

Lemma nobox_moment (p : pol3) pl i j k : Spec3R.proper pl -> wf3 p -> planar_faces p ->
  (forall v, 0 <= v < nv p -> sdist3 pl (ps (vb p) v) = 0%R) -> moment3 p i j k = 0%R.
Proof.
  intros Hpl Hw PF H. pose proof Hw as (Hn & _). rn. destruct (Z.eq_dec (nv p) 0) as [E|E].
  { unfold moment3. rn. rewrite E. reflexivity. }
  assert (A : forall fs, (forall f, In f fs -> f = pl \/ f = flip3 pl) -> r3d_clip RN (nv p) p fs = OK (p, 1)).
  { intros fs Hf. apply r3d_clip_inside_id; auto; [rn; lia|]. intros v f Hv Hi.
    destruct (Hf f Hi) as [->| ->]; [|rewrite sdist3_flip]; rewrite H by auto; lra. }
  pose proof (r3d_clip_conserves (nv p) [] pl p p p p i j k Hpl Hw PF ltac:(rn; lia)) as C.
  rewrite !A in C; [|cbn; intuition..]. specialize (C eq_refl eq_refl eq_refl). lra.
Qed.

(** ** Voxelization *)
Section Any.
Context (NN : num) (MX : Z).
Notation pol := (poly (rvec3 (T NN))).

(** grid position of entry [m] of cell ([i], [j], [k]) *)
Notation at_ po B i j k m := (num_moments3 po * (((i - fst B 0) * (snd B 1 - fst B 1) + (j - fst B 1)) * (snd B 2 - fst B 2) + (k - fst B 2)) + m).

Lemma result_cells sh po (p : pol) B d gr gr' l : cells3_ok (num_moments3 po) B ->
  voxel_result NN MX po p B d gr gr' l sh ->
  NoDup (map (fun x : box * pol => (fst (fst x) 0, fst (fst x) 1, fst (fst x) 2)) l)
  /\ (forall x, In x l -> forall a, 0 <= a < 3 -> fst B a <= fst (fst x) a < snd B a /\ snd (fst x) a = fst (fst x) a + 1).
Proof.
  intros HB (Rt & ND & _). pose proof HB as (HB1 & _).
  assert (Pr : VoxFacts.proper 3 B). { intros a Ha. pose proof (HB1 a Ha). lia. }
  pose proof (rast_leaves NN 3 nv _ _ p B l Rt Pr) as Lv. rewrite Forall_forall in Lv.
  split.
  - revert ND. generalize l. clear. induction l as [|x l IH]; cbn; [constructor|]. inversion 1 as [|? ? Hni ND']; subst.
    constructor; auto. intros Hi. apply Hni. apply in_map_iff in Hi as (y & E & Hy). apply in_map_iff. exists y. split; auto.
    apply pair_equal_spec in E as (E & E2). apply pair_equal_spec in E as (E0 & E1). unfold cell3. now rewrite E0, E1, E2.
  - intros x Hx a Ha. destruct (Lv x Hx) as (S & _ & U). pose proof (S a Ha). pose proof (U a Ha). lia.
Qed.

Lemma voxelize_empty_c sh po stk0 mom0 (p : pol) B gr d nm : nv p <= 0 -> cells3_ok nm B ->
  r3d_voxelize NN MX sh po stk0 mom0 p B gr d = OK gr.
Proof. intros Hp (HB & _). apply voxelize_empty; auto. intros i Hi. pose proof (HB i Hi). unfold int_min, int_max in *. lia. Qed.
(** nothing is added when the box has no cell *)
Lemma voxelize_nobox sh po stk0 mom0 (p : pol) B gr d :
  (forall i, 0 <= i < 3 -> int_min <= snd B i - fst B i <= int_max) -> (exists i, 0 <= i < 3 /\ snd B i <= fst B i) ->
  r3d_voxelize NN MX sh po stk0 mom0 p B gr d = OK gr.
Proof.
  intros HB (i & Hi & Hl). unfold r3d_voxelize, voxelize. destruct (gridsz_spec 3 ltac:(lia) B HB) as (g & E & G). rewrite E. cbn [bind].
  assert (A : all_pos 3 g = false).
  { destruct (all_pos 3 g) eqn:A; auto. unfold all_pos in A. rewrite forallb_forall in A. pose proof (G i Hi) as Gi. unfold size in Gi.
    assert (Hin : In i (map Z.of_nat (seq 0 (Z.to_nat 3)))) by (change (Z.to_nat 3) with 3%nat; destruct (slot3 i Hi) as [->|[->| ->]]; cbn; auto). apply A in Hin. apply Z.ltb_lt in Hin. lia. }
  rewrite A. destruct (nv p <=? 0); reflexivity.
Qed.

Lemma voxelize_own_cells po stk0 mom0 (p : pol) B gr gr' d : 0 <= po -> wf3 p -> nv p <= MX -> cells3_ok (num_moments3 po) B ->
  r3d_voxelize NN MX false po stk0 mom0 p B gr d = OK gr' ->
  exists l : list (Z * Z * Z * pol), NoDup (map fst l)
  /\ (forall i j k q, In (i, j, k, q) l -> fst B 0 <= i < snd B 0 /\ fst B 1 <= j < snd B 1 /\ fst B 2 <= k < snd B 2
       /\ exists m0 mom, r3d_reduce NN MX false q m0 po = OK mom
          /\ forall m, 0 <= m < num_moments3 po -> gr' (at_ po B i j k m) = nadd NN (gr (at_ po B i j k m)) (mom m))
  /\ (forall g, (forall i j k q m, In (i, j, k, q) l -> 0 <= m < num_moments3 po -> g <> at_ po B i j k m) -> gr' g = gr g).
Proof.
  intros Hpo Hw HM HB E. destruct (Z.leb_spec (nv p) 0) as [L|L].
  - exists []. rewrite (voxelize_empty_c _ _ _ _ _ _ _ _ _ L HB) in E. injection E as <-. split; [constructor|]. split; [intros i j k q []|auto].
  - destruct (voxelize_any NN MX po stk0 mom0 p B gr d Hpo Hw ltac:(lia) HB) as [(gr1 & l & E1 & Rr)|(E1 & _)]; [|congruence].
    rewrite E in E1. injection E1 as <-. destruct (result_cells false po p B d gr gr' l HB Rr) as (ND & Rg).
    destruct Rr as (_ & _ & G1 & G2).
    exists (map (fun x => (fst (fst x) 0, fst (fst x) 1, fst (fst x) 2, snd x)) l). rewrite map_map. cbn [fst]. split; [exact ND|]. split.
    + intros i j k q Hi. apply in_map_iff in Hi as (x & Ex & Hx). apply pair_equal_spec in Ex as (Ex & <-).
      apply pair_equal_spec in Ex as (Ex & <-). apply pair_equal_spec in Ex as (<- & <-). pose proof (Rg x Hx) as R.
      split; [apply (R 0); lia|]. split; [apply (R 1); lia|]. split; [apply (R 2); lia|].
      destruct (G1 x Hx) as (m0 & mom & Er & F). exists m0, mom. split; auto.
    + intros g Hg. apply G2. intros x Hx Hr.
      apply (Hg (fst (fst x) 0) (fst (fst x) 1) (fst (fst x) 2) (snd x) (g - num_moments3 po * cell3 B (fst (fst x)))).
      * apply in_map_iff. exists x. auto.
      * lia.
      * unfold cell3 in *. lia.
Qed.
Lemma voxelize_bounds po stk0 mom0 (p : pol) B gr gr' d : 0 <= po -> wf3 p -> nv p <= MX -> cells3_ok (num_moments3 po) B ->
  r3d_voxelize NN MX false po stk0 mom0 p B gr d = OK gr' ->
  forall g, ~ (0 <= g < (snd B 0 - fst B 0) * (snd B 1 - fst B 1) * (snd B 2 - fst B 2) * num_moments3 po) -> gr' g = gr g.
Proof.
  intros Hpo Hw HM HB E g Hg. destruct (voxelize_own_cells po stk0 mom0 p B gr gr' d Hpo Hw HM HB E) as (l & _ & A & Bx).
  apply Bx. intros i j k q m Hi Hm ->. apply Hg. destruct (A i j k q Hi) as (R0 & R1 & R2 & _).
  pose proof (cell_step (snd B 0 - fst B 0) (snd B 1 - fst B 1) (i - fst B 0) (j - fst B 1) ltac:(lia) ltac:(lia)) as C.
  pose proof (cell_step _ (snd B 2 - fst B 2) _ (k - fst B 2) C ltac:(lia)) as C'.
  set (c := _ + (k - fst B 2)) in *. set (n := _ * (snd B 2 - fst B 2)) in C' |- *. nia.
Qed.
Lemma voxelize_returns po stk0 mom0 (p : pol) B gr d : 0 <= po -> wf3 p -> nv p <= MX -> cells3_ok (num_moments3 po) B ->
  (forall q, piece NN MX p q -> ~ overflows NN MX q) ->
  exists gr', r3d_voxelize NN MX false po stk0 mom0 p B gr d = OK gr'.
Proof.
  intros Hpo Hw HM HB Ho. destruct (Z.leb_spec (nv p) 0) as [L|L].
  - exists gr. now apply (voxelize_empty_c _ _ _ _ _ _ _ _ _ L HB).
  - destruct (voxelize_any NN MX po stk0 mom0 p B gr d Hpo Hw ltac:(lia) HB) as [(gr1 & l & E1 & Rr)|(E1 & q & X & _ & _ & Y)]; eauto.
    now apply Ho in X.
Qed.
(** the only way not to return is to run past the vertex buffer *)
Lemma voxelize_only_overflow po stk0 mom0 (p : pol) B gr d e : 0 <= po -> wf3 p -> nv p <= MX -> cells3_ok (num_moments3 po) B ->
  r3d_voxelize NN MX false po stk0 mom0 p B gr d = Err e ->
  e = OutOfBounds /\ exists q, piece NN MX p q /\ wf3 q /\ nv q <= MX /\ overflows NN MX q.
Proof.
  intros Hpo Hw HM HB E. destruct (Z.leb_spec (nv p) 0) as [L|L].
  - rewrite (voxelize_empty_c _ _ _ _ _ _ _ _ _ L HB) in E. discriminate.
  - destruct (voxelize_any NN MX po stk0 mom0 p B gr d Hpo Hw ltac:(lia) HB) as [(gr1 & l & E1 & Rr)|(E1 & q & X & W & M & Y)]; rewrite E in E1; [discriminate|].
    injection E1 as ->. split; auto. exists q. split; auto. split; auto. split; auto. lia.
Qed.
Lemma voxelize_room po stk0 mom0 (p : pol) B gr d : 0 <= po -> wf3 p ->
  2 * nv p * 2 ^ (Z.log2_up (snd B 0 - fst B 0) + Z.log2_up (snd B 1 - fst B 1) + Z.log2_up (snd B 2 - fst B 2)) <= MX ->
  cells3_ok (num_moments3 po) B ->
  exists gr', r3d_voxelize NN MX false po stk0 mom0 p B gr d = OK gr'.
Proof.
  intros Hpo Hw HM HB. destruct (Z.leb_spec (nv p) 0) as [L|L].
  - exists gr. now apply (voxelize_empty_c _ _ _ _ _ _ _ _ _ L HB).
  - assert (Dp : depth 3 B = Z.log2_up (snd B 0 - fst B 0) + Z.log2_up (snd B 1 - fst B 1) + Z.log2_up (snd B 2 - fst B 2)).
    { unfold depth, size. change (zrange 3) with [0; 1; 2]. cbn [suml]. lia. }
    rewrite <- Dp in HM.
    destruct (voxelize_room_any NN MX po stk0 mom0 p B gr d Hpo Hw L HM HB) as (gr' & l & E & _). eauto.
Qed.
End Any.

Lemma voxelize_conservative MX sh po stk0 mom0 (p : pol3) B gr gr' d : 0 <= po -> wf3 p -> planar_faces p -> nv p <= MX -> cells3_ok (num_moments3 po) B ->
  r3d_voxelize RN MX sh po stk0 mom0 p B gr d = OK gr' ->
  forall i j k, (i + j + k <= Z.to_nat po)%nat ->
   (lsum (zrange ((snd B 0 - fst B 0) * (snd B 1 - fst B 1) * (snd B 2 - fst B 2))%Z)
     (fun c => gr' (num_moments3 po * c + idx3 (Z.of_nat i) (Z.of_nat j) (Z.of_nat k))%Z - gr (num_moments3 po * c + idx3 (Z.of_nat i) (Z.of_nat j) (Z.of_nat k))%Z)
   = moment3 p i j k)%R.
Proof.
  intros Hpo Hw PF HM HB E i j k Hij. rn. destruct (Z.leb_spec (nv p) 0) as [L|L].
  - rewrite (voxelize_empty_c RN _ _ _ _ _ _ _ _ _ _ L HB) in E. injection E as <-. unfold moment3. destruct Hw as (Hn & _). rn.
    assert (En : nv p = 0) by lia. rewrite En.
    transitivity (lsum (zrange ((snd B 0 - fst B 0) * (snd B 1 - fst B 1) * (snd B 2 - fst B 2))) (fun _ => 0%R)); [|rewrite lsum_0; auto].
    apply lsum_ext. intros. ring.
  - destruct (voxelize_R MX sh po stk0 mom0 p B gr d Hpo Hw ltac:(rn; lia) HB) as [(gr1 & l & E1 & Rr)|(E1 & _)]; rn; [|congruence].
    rewrite E in E1. injection E1 as <-. now apply (voxel_conserves MX sh po p B d gr gr' l).
Qed.

Local Open Scope R_scope.
Lemma voxelize_cell_pieces MX sh po stk0 mom0 (p : pol3) B (gr gr' : Z -> R) d : (0 <= po)%Z -> wf3 p -> (nv p <= MX)%Z -> cells3_ok (num_moments3 po) B ->
  within d B p ->
  r3d_voxelize RN MX sh po stk0 mom0 p B gr d = OK gr' ->
  exists l : list (Z * Z * Z * pol3), NoDup (map fst l)
  /\ (forall a b c q, In (a, b, c, q) l -> (fst B 0 <= a < snd B 0)%Z /\ (fst B 1 <= b < snd B 1)%Z /\ (fst B 2 <= c < snd B 2)%Z /\ wf3 q
       /\ (planar_faces p -> planar_faces q)
       /\ (forall v, (0 <= v < nv q)%Z -> x3 d * IZR a <= x3 (ps (vb q) v) <= x3 d * IZR (a + 1)
              /\ y3 d * IZR b <= y3 (ps (vb q) v) <= y3 d * IZR (b + 1) /\ z3 d * IZR c <= z3 (ps (vb q) v) <= z3 d * IZR (c + 1))
       /\ (forall g, (forall v, (0 <= v < nv p)%Z -> 0 <= sdist3 g (ps (vb p) v)) ->
            forall v, (0 <= v < nv q)%Z -> 0 <= sdist3 g (ps (vb q) v))
       /\ forall i j k, (i + j + k <= Z.to_nat po)%nat ->
            let e := (num_moments3 po * (((a - fst B 0) * (snd B 1 - fst B 1) + (b - fst B 1)) * (snd B 2 - fst B 2) + (c - fst B 2)) + idx3 (Z.of_nat i) (Z.of_nat j) (Z.of_nat k))%Z in
             gr' e = gr e + moment3 q i j k)
  /\ (forall a b c m, (fst B 0 <= a < snd B 0)%Z -> (fst B 1 <= b < snd B 1)%Z -> (fst B 2 <= c < snd B 2)%Z -> ~ In (a, b, c) (map fst l) -> (0 <= m < num_moments3 po)%Z ->
        let e := (num_moments3 po * (((a - fst B 0) * (snd B 1 - fst B 1) + (b - fst B 1)) * (snd B 2 - fst B 2) + (c - fst B 2)) + m)%Z in gr' e = gr e)
  /\ (planar_faces p -> forall i j k, lsum l (fun x => moment3 (snd x) i j k) = moment3 p i j k).
Proof.
  intros Hpo Hw HM HB Wi E. rn. destruct (Z.leb_spec (nv p) 0) as [L|L].
  - exists []. rewrite (voxelize_empty_c RN _ _ _ _ _ _ _ _ _ _ L HB) in E. injection E as <-. split; [constructor|]. split; [intros a b c q []|]. split; [auto|].
    intros _ i j k. unfold moment3. destruct Hw as (Hn & _). rn.
    assert (En : nv p = 0%Z) by lia. rewrite En. reflexivity.
  - destruct (voxelize_R MX sh po stk0 mom0 p B gr d Hpo Hw ltac:(rn; lia) HB) as [(gr1 & l & E1 & Rr)|(E1 & _)]; rn; [|congruence].
    rewrite E in E1. injection E1 as <-. destruct (result_cells RN MX sh po p B d gr gr' l HB Rr) as (ND & Rg). rn.
    destruct Rr as (Rt & _ & G1 & G2). destruct (rast_R MX d p B l Rt Hw HM) as (A & Bx & Cx). specialize (Cx Wi). rn.
    exists (map (fun x => (fst (fst x) 0%Z, fst (fst x) 1%Z, fst (fst x) 2%Z, snd x)) l). rewrite map_map. cbn [fst]. split; [exact ND|]. split; [|split].
    + intros a b c q Hi. apply in_map_iff in Hi as (x & Ex & Hx). apply pair_equal_spec in Ex as (Ex & <-).
      apply pair_equal_spec in Ex as (Ex & <-). apply pair_equal_spec in Ex as (<- & <-).
      destruct (Rg x Hx 0%Z ltac:(lia)) as (R0 & S0). destruct (Rg x Hx 1%Z ltac:(lia)) as (R1 & S1). destruct (Rg x Hx 2%Z ltac:(lia)) as (R2 & S2).
      rn. split; auto. split; auto. split; auto.
      destruct (Bx x Hx) as (Wx & Mx & Hx' & Px). rn. split; auto. split; auto. split; [|split].
      * intros v Hv. pose proof (Cx x Hx v 0%Z Hv ltac:(lia)) as C0. pose proof (Cx x Hx v 1%Z Hv ltac:(lia)) as C1. pose proof (Cx x Hx v 2%Z Hv ltac:(lia)) as C2.
        unfold spacing, coordR3 in C0, C1, C2. cbn in C0, C1, C2. rn. rewrite S0 in C0. rewrite S1 in C1. rewrite S2 in C2. auto.
      * exact Hx'.
      * intros i j k Hij. cbv zeta. destruct (G1 x Hx) as (m0 & mom & Er & F). rn.
        assert (Ix : (0 <= idx3 (Z.of_nat i) (Z.of_nat j) (Z.of_nat k) < num_moments3 po)%Z).
        { destruct (moment_slots3 po Hpo) as (M1 & _). apply M1; lia. }
        rewrite F by auto. cbn [nadd RN]. f_equal.
        destruct (reduce_both MX sh po (snd x) m0 Hpo Wx Mx) as (m' & E' & V). rn. rewrite Er in E'. injection E' as <-. now apply V.
    + intros a b c m Ha Hb Hc Hni Hm. cbv zeta. apply G2. intros x Hx Hr. apply Hni. apply in_map_iff. exists x. split; auto.
      destruct (Rg x Hx 0%Z ltac:(lia)) as (R0 & _). destruct (Rg x Hx 1%Z ltac:(lia)) as (R1 & _). destruct (Rg x Hx 2%Z ltac:(lia)) as (R2 & _).
      unfold cell3 in Hr. rn. set (w := (snd B 2 - fst B 2)%Z) in *. set (h := (snd B 1 - fst B 1)%Z) in *.
      set (c1 := (((a - fst B 0) * h + (b - fst B 1)) * w + (c - fst B 2))%Z) in *.
      set (c2 := (((fst (fst x) 0%Z - fst B 0) * h + (fst (fst x) 1%Z - fst B 1)) * w + (fst (fst x) 2%Z - fst B 2))%Z) in *.
      assert (EQ : c1 = c2) by nia. unfold c1, c2 in EQ.
      apply cell_step_inj in EQ as (EQ & E2); [|unfold w; lia..]. apply cell_step_inj in EQ as (EQ & E3); [|unfold h; lia..].
      f_equal; [f_equal|]; lia.
    + intros PF i j k. rewrite <- A by auto. transitivity (lsum (map (fun x => (fst (fst x) 0%Z, fst (fst x) 1%Z, fst (fst x) 2%Z, snd x)) l) (fun x => moment3 (snd x) i j k)); [reflexivity|].
      rewrite lsum_map. reflexivity.
Qed.

(** ** Index boxes *)
Lemma pos_ok3 MX (p : pol3) v i : (0 <= v < nv p)%Z -> (nv p <= MX)%Z -> (0 <= i < 3)%Z ->
  exists q, rd_ps MX (vb p) v = OK q /\ vget3 RN q i = OK (coordR3 i (ps (vb p) v)).
Proof.
  intros Hv HM Hi. exists (ps (vb p) v). split; [unfold rd_ps; apply rd_ok; lia|].
  destruct (slot3 i Hi) as [->|[->| ->]]; reflexivity.
Qed.

Definition in_range30 (p : pol3) : Prop := forall v i, (0 <= v < nv p)%Z -> (0 <= i < 3)%Z -> -10 ^ 30 <= coordR3 i (ps (vb p) v) <= 10 ^ 30.
Lemma r3d_get_ibox_min MX (p : pol3) (d : rvec3 R) b0 : (0 < nv p <= MX)%Z -> 0 < x3 d -> 0 < y3 d -> 0 < z3 d ->
  in_range30 p -> within d ((fun _ => int_min), (fun _ => int_max)) p ->
  exists b, r3d_get_ibox RN MX p d b0 = OK b
  /\ (forall i, (0 <= i < 3)%Z -> int_min <= fst b i /\ fst b i <= snd b i /\ snd b i <= int_max)%Z
  /\ within d b p
  /\ (forall b', within d b' p -> forall i, (0 <= i < 3)%Z -> (fst b' i <= fst b i /\ snd b i <= snd b' i)%Z).
Proof.
  intros Hp Hx Hy Hz H30 HR.
  assert (Dp : forall i, (0 <= i < 3)%Z -> 0 < spacing d i) by (intros i Hi; destruct (slot3 i Hi) as [->|[->| ->]]; auto).
  destruct (get_ibox_spec 3 ltac:(lia) nv (vget3 RN) (fun p => rd_ps MX (vb p)) p (fun v i => coordR3 i (ps (vb p) v))
     ltac:(intros; apply pos_ok3; auto; lia) (dget3 RN d) b0) as (b & E & S).
  - rn. lia.
  - exact Dp.
  - exact H30.
  - exact HR.
  - exists b. split; [exact E|]. change (dget3 RN d) with (spacing d) in S. split; [|split].
    + intros i Hi. destruct (S i Hi) as (A1 & A2 & A3 & _). split; auto. split; auto.
      apply le_IZR. pose proof (A3 0%Z ltac:(rn; lia)). pose proof (Dp i Hi). apply (Rmult_le_reg_l (spacing d i)); lra.
    + intros v i Hv Hi. destruct (S i Hi) as (_ & _ & A3 & _). apply A3. exact Hv.
    + intros b' Hb' i Hi. destruct (S i Hi) as (_ & _ & _ & A4 & A5). split; [apply A4|apply A5]; intros v Hv; apply Hb'; auto.
Qed.

Lemma r3d_get_ibox_empty MX (p : pol3) (d : rvec3 R) b0 : nv p = 0%Z -> 0 < x3 d <= 10 ^ 20 ->
  r3d_get_ibox RN MX p d b0 = Err BadConversion.
Proof.
  intros En Hd. unfold r3d_get_ibox.
  apply (get_ibox_empty 3 nv (vget3 RN) (fun p => rd_ps MX (vb p)) p (dget3 RN d) b0); [lia|rn; lia|exact Hd].
Qed.

Section Clamp.
Context (NN : num) (MX : Z) (p : poly (rvec3 (T NN))) (B cb : box) (d : rvec3 (T NN)).
Definition box_meet (B cb B' : box) : Prop := forall i, (0 <= i < 3)%Z -> fst B' i = Z.max (fst B i) (fst cb i) /\ snd B' i = Z.min (snd B i) (snd cb i).
Definition boxes_overlap (B cb : box) : Prop := forall i, (0 <= i < 3)%Z -> (fst cb i < snd B i /\ fst B i < snd cb i)%Z.
Lemma overlap_dec : (boxes_overlap B cb /\ forallb (overlap cb B) (zrange 3) = true)
  \/ (~ boxes_overlap B cb /\ forallb (overlap cb B) (zrange 3) = false).
Proof.
  destruct (forallb (overlap cb B) (zrange 3)) eqn:F.
  - left. split; auto. intros i Hi. rewrite forallb_forall in F. specialize (F i (proj2 (in_zrange _ _) Hi)).
    unfold overlap in F. apply andb_true_iff in F as (F1 & F2). apply Z.ltb_lt in F1, F2. auto.
  - right. split; auto. intros O. assert (forallb (overlap cb B) (zrange 3) = true); [|congruence].
    apply forallb_forall. intros i Hi. apply in_zrange in Hi. specialize (O i Hi). unfold overlap.
    apply andb_true_iff. rewrite !Z.ltb_lt. auto.
Qed.
Lemma clip3_dropped_nil (q : poly (rvec3 (T NN))) : clip3_dropped NN MX q [] = OK q.
Proof. unfold clip3_dropped, r3d_clip. now destruct (nv q <=? 0)%Z. Qed.
Lemma clamp_cases : (forall i, 0 <= i < 3 -> - int_max <= fst cb i <= int_max)%Z ->
  (boxes_overlap B cb -> exists B', box_meet B cb B' /\
      r3d_clamp_ibox NN MX p B cb d = (let* q := clip3_dropped NN MX p (faces_of NN 3 (mkpl3 NN) (dget3 NN d) cb B) in OK (q, B')))
  /\ (~ boxes_overlap B cb -> r3d_clamp_ibox NN MX p B cb d = OK (PY (vb p) 0%Z, ((fun _ => 0%Z), (fun _ => 0%Z)))).
Proof.
  intros Hcb. destruct (clamp_ibox_spec NN 3 ltac:(lia) (mkpl3 NN) (clip3_dropped NN MX) (fun p => PY (vb p) 0%Z) 6 ltac:(lia)
     (dget3 NN d) cb Hcb clip3_dropped_nil p B) as (A1 & A2).
  destruct overlap_dec as [(O & F)|(O & F)]; (split; [intros O'|intros O']); try contradiction.
  - destruct (A1 F) as (B' & H & E). exists B'. split; auto.
  - apply (A2 F).
Qed.
End Clamp.

Lemma face_sdist3 (d : rvec3 R) cb i q : (0 <= i < 3)%Z ->
  sdist3 (mkpl3 RN i 1 (IZR (- fst cb i) * spacing d i)) q = coordR3 i q - spacing d i * IZR (fst cb i)
  /\ sdist3 (mkpl3 RN i (- 1) (IZR (snd cb i) * spacing d i)) q = spacing d i * IZR (snd cb i) - coordR3 i q.
Proof.
  intros Hi. destruct (slot3 i Hi) as [->|[->| ->]]; unfold mkpl3, sdist3, coordR3, spacing; cbn; rewrite ?opp_IZR; split; ring.
Qed.
Lemma lsum_nonneg {A} (l : list A) f : (forall a, In a l -> 0 <= f a) -> 0 <= lsum l f.
Proof. intros H. induction l as [|a l IH]; cbn; [lra|]. pose proof (H a (or_introl eq_refl)). assert (0 <= lsum l f) by (apply IH; intros; apply H; now right). lra. Qed.
Lemma in_hull3_sub (p : pol3) q g : in_hull3 p q -> (forall v, (0 <= v < nv p)%Z -> 0 <= sdist3 g (ps (vb p) v)) -> 0 <= sdist3 g q.
Proof.
  intros (w & W0 & W1 & Wx & Wy & Wz) H. unfold sdist3. rewrite Wx, Wy, Wz.
  replace (d3 g) with (lsum (zrange (nv p)) (fun v => w v * d3 g)).
  - rewrite <- !lsum_scal, <- !lsum_add. apply lsum_nonneg. intros v Hv. apply in_zrange in Hv. specialize (H v Hv). specialize (W0 v).
    unfold sdist3 in H. nra.
  - transitivity (d3 g * lsum (zrange (nv p)) w); [|rewrite W1; ring]. rewrite <- lsum_scal. apply lsum_ext. intros. ring.
Qed.
Lemma in_faces3 (d : rvec3 R) cb B pl : In pl (faces_of RN 3 (mkpl3 RN) (dget3 RN d) cb B) <->
  exists i, (0 <= i < 3)%Z /\ (((fst B i < fst cb i)%Z /\ pl = mkpl3 RN i 1 (IZR (- fst cb i) * spacing d i))
    \/ ((snd cb i < snd B i)%Z /\ pl = mkpl3 RN i (- 1) (IZR (snd cb i) * spacing d i))).
Proof.
  unfold faces_of. rewrite in_flat_map. split.
  - intros (i & Hi & H). apply in_zrange in Hi. exists i. split; auto. unfold faces_at in H. apply in_app_or in H.
    destruct H as [H|H].
    + left. destruct (Z.ltb_spec (fst B i) (fst cb i)); [|destruct H]. split; auto. destruct H as [<-|[]]. reflexivity.
    + right. destruct (Z.ltb_spec (snd cb i) (snd B i)); [|destruct H]. split; auto. destruct H as [<-|[]]. reflexivity.
  - intros (i & Hi & H). exists i. split; [now apply in_zrange|]. unfold faces_at. apply in_or_app. destruct H as [(L & ->)|(L & ->)].
    + left. destruct (Z.ltb_spec (fst B i) (fst cb i)); [|lia]. left. reflexivity.
    + right. destruct (Z.ltb_spec (snd cb i) (snd B i)); [|lia]. left. reflexivity.
Qed.
Lemma faces3_length (NN : num) d cb B : (length (faces_of NN 3 (mkpl3 NN) d cb B) <= 6)%nat.
Proof.
  unfold faces_of. change (zrange 3) with [0; 1; 2]%Z. cbn [flat_map]. rewrite !app_length. cbn [length].
  pose proof (faces_at_length NN (mkpl3 NN) d cb B 0).
  pose proof (faces_at_length NN (mkpl3 NN) d cb B 1). pose proof (faces_at_length NN (mkpl3 NN) d cb B 2). lia.
Qed.

(** the planes that [r3d_clamp_ibox] clips against *)
Definition clamp_faces (d : rvec3 R) (cb B : box) : list (plane3 R) :=
  flat_map (fun i => (if (fst B i <? fst cb i)%Z then [mkpl3 RN i 1 (IZR (- fst cb i) * spacing d i)] else [])
                  ++ (if (snd cb i <? snd B i)%Z then [mkpl3 RN i (- 1) (IZR (snd cb i) * spacing d i)] else [])) [0; 1; 2]%Z.
Lemma clamp_faces_eq d cb B : faces_of RN 3 (mkpl3 RN) (dget3 RN d) cb B = clamp_faces d cb B.
Proof. reflexivity. Qed.

(** the clamped polyhedron, when the clip inside succeeds (or there is nothing to clip) *)
Lemma clamp_R MX (p p' : pol3) B cb B' (d : rvec3 R) : (forall i, 0 <= i < 3 -> - int_max <= fst cb i <= int_max)%Z ->
  wf3 p -> (nv p <= MX)%Z -> 0 <= x3 d -> 0 <= y3 d -> 0 <= z3 d ->
  ((0 < nv p)%Z -> exists q, r3d_clip RN MX p (clamp_faces d cb B) = OK (q, 1%Z)) ->
  r3d_clamp_ibox RN MX p B cb d = OK (p', B') ->
  wf3 p' /\ (nv p' <= MX)%Z /\ (planar_faces p -> planar_faces p') /\ hull_sub p p' /\ (within d B p -> within d cb p' /\ within d B' p').
Proof.
  intros Hcb Hw HM Hdx Hdy Hdz Hok E. destruct (clamp_cases RN MX p B cb d Hcb) as (A1 & A2).
  assert (Triv : forall q : pol3, nv q = 0%Z -> wf3 q /\ (nv q <= MX)%Z /\ (planar_faces p -> planar_faces q) /\ hull_sub p q /\ (within d B p -> within d cb q /\ within d B' q)).
  { intros q En. pose proof Hw as (Hn & _). rn. split; [apply wf3_nil; exact En|]. split; [lia|]. split.
    - intros _ e (He & _). unfold below in He. rn. lia.
    - split; [intros g _ v Hv; rn; lia|]. intros _. split; intros v i Hv; rn; lia. }
  destruct (overlap_dec B cb) as [(O & _)|(O & _)].
  - destruct (A1 O) as (B1 & M & E1). rn. rewrite clamp_faces_eq in E1. rewrite E in E1. set (fs := clamp_faces d cb B) in *.
    destruct (Z.leb_spec (nv p) 0) as [L|L].
    { unfold clip3_dropped, r3d_clip in E1. rn. destruct (Z.leb_spec (nv p) 0); [|lia]. cbn [bind] in E1. injection E1 as <- <-. apply Triv.
      destruct Hw as (Hn & _). rn. lia. }
    destruct (Hok L) as (q & Ec). unfold clip3_dropped in E1. rn. rewrite Ec in E1. cbn [bind] in E1.
    injection E1 as <- <-. destruct (r3d_clip_linked RN MX p p' fs Hw HM Ec) as (W & M'). rn.
    destruct (r3d_clip_R MX fs p p' Hw HM Ec) as (In1 & Hu & Pl). rn.
    assert (HS : hull_sub p p'). { intros g Hg v Hv. apply (in_hull3_sub p); auto. }
    split; auto. split; auto. split; auto. split; auto. intros Wi.
    assert (Bd : forall v i, (0 <= v < nv p')%Z -> (0 <= i < 3)%Z ->
       spacing d i * IZR (fst B i) <= coordR3 i (ps (vb p') v) <= spacing d i * IZR (snd B i)).
    { intros v i Hv Hi. split.
      - pose proof (HS (axis_plane3 i (spacing d i * IZR (fst B i)))) as X. 
        specialize (X ltac:(intros w Hw'; rewrite axis_sdist3; pose proof (Wi w i Hw' Hi); lra) v Hv). rewrite axis_sdist3 in X. lra.
      - pose proof (HS (flip3 (axis_plane3 i (spacing d i * IZR (snd B i))))) as X.
        specialize (X ltac:(intros w Hw'; rewrite sdist3_flip, axis_sdist3; pose proof (Wi w i Hw' Hi); lra) v Hv). rewrite sdist3_flip, axis_sdist3 in X. lra. }
    assert (Lo : forall v i, (0 <= v < nv p')%Z -> (0 <= i < 3)%Z -> (fst B i < fst cb i)%Z -> spacing d i * IZR (fst cb i) <= coordR3 i (ps (vb p') v)).
    { intros v i Hv Hi L'. pose proof (In1 v (mkpl3 RN i 1 (IZR (- fst cb i) * spacing d i)) Hv) as X.
      rewrite (proj1 (face_sdist3 d cb i _ Hi)) in X. enough (0 <= coordR3 i (ps (vb p') v) - spacing d i * IZR (fst cb i)) by lra.
      apply X. apply in_faces3. exists i. auto. }
    assert (Up : forall v i, (0 <= v < nv p')%Z -> (0 <= i < 3)%Z -> (snd cb i < snd B i)%Z -> coordR3 i (ps (vb p') v) <= spacing d i * IZR (snd cb i)).
    { intros v i Hv Hi L'. pose proof (In1 v (mkpl3 RN i (-1) (IZR (snd cb i) * spacing d i)) Hv) as X.
      rewrite (proj2 (face_sdist3 d cb i _ Hi)) in X. enough (0 <= spacing d i * IZR (snd cb i) - coordR3 i (ps (vb p') v)) by lra.
      apply X. apply in_faces3. exists i. auto. }
    assert (Dp : forall i, (0 <= i < 3)%Z -> 0 <= spacing d i). { intros i Hi. destruct (slot3 i Hi) as [->|[->| ->]]; auto. }
    assert (Mn : forall i a b, (0 <= i < 3)%Z -> (a <= b)%Z -> spacing d i * IZR a <= spacing d i * IZR b).
    { intros i a b Hi Hab. apply IZR_le in Hab. pose proof (Dp i Hi). nra. }
    assert (Wc : within d cb p').
    { intros v i Hv Hi. pose proof (Bd v i Hv Hi). split.
      - destruct (Z.lt_ge_cases (fst B i) (fst cb i)) as [L'|L']; auto. pose proof (Mn i _ _ Hi L'). lra.
      - destruct (Z.lt_ge_cases (snd cb i) (snd B i)) as [L'|L']; auto. pose proof (Mn i _ _ Hi L'). lra. }
    split; auto. intros v i Hv Hi. destruct (M i Hi) as (-> & ->). pose proof (Bd v i Hv Hi). pose proof (Wc v i Hv Hi). split.
    + destruct (Z.max_spec (fst B i) (fst cb i)) as [(_ & ->)|(_ & ->)]; lra.
    + destruct (Z.min_spec (snd B i) (snd cb i)) as [(_ & ->)|(_ & ->)]; lra.
  - rewrite (A2 O) in E. injection E as <- <-. apply Triv. reflexivity.
Qed.

(** a polyhedron already inside the clamp box is not touched *)
Lemma clamp_id MX (p : pol3) B cb (d : rvec3 R) : (forall i, 0 <= i < 3 -> - int_max <= fst cb i <= int_max)%Z ->
  wf3 p -> (nv p <= MX)%Z -> boxes_overlap B cb -> within d cb p ->
  exists B', r3d_clamp_ibox RN MX p B cb d = OK (p, B') /\ box_meet B cb B'.
Proof.
  intros Hcb Hw HM O Wi. destruct (clamp_cases RN MX p B cb d Hcb) as (A1 & _).
  destruct (A1 O) as (B1 & M & E1). rn. exists B1. split; auto. rewrite E1. unfold clip3_dropped.
  destruct (Z.leb_spec (nv p) 0) as [L|L].
  { unfold r3d_clip. rn. destruct (Z.leb_spec (nv p) 0); [|lia]. reflexivity. }
  rewrite (r3d_clip_inside_id MX _ p Hw); [reflexivity|rn; lia|].
  intros v pl Hv Hp. apply in_faces3 in Hp as (i & Hi & [(_ & ->)|(_ & ->)]); pose proof (Wi v i Hv Hi).
  - rewrite (proj1 (face_sdist3 d cb i _ Hi)). lra.
  - rewrite (proj2 (face_sdist3 d cb i _ Hi)). lra.
Qed.

Lemma clamp_returns (NN : num) MX (p : poly (rvec3 (T NN))) B cb d : (forall i, 0 <= i < 3 -> - int_max <= fst cb i <= int_max)%Z ->
  wf3 p -> (nv p <= MX)%Z -> exists p' B', r3d_clamp_ibox NN MX p B cb d = OK (p', B').
Proof.
  intros Hcb Hw HM. destruct (clamp_cases NN MX p B cb d Hcb) as (A1 & A2).
  destruct (overlap_dec B cb) as [(O & _)|(O & _)].
  - destruct (A1 O) as (B1 & M & E1). rewrite E1. unfold clip3_dropped.
    destruct (r3d_clip_total NN MX p (faces_of NN 3 (mkpl3 NN) (dget3 NN d) cb B) Hw HM) as (q & st & E & _). rewrite E. cbn [bind]. eauto.
  - rewrite (A2 O). eauto.
Qed.

Lemma clamp_box (NN : num) MX (p p' : poly (rvec3 (T NN))) B cb B' d : (forall i, 0 <= i < 3 -> - int_max <= fst cb i <= int_max)%Z ->
  r3d_clamp_ibox NN MX p B cb d = OK (p', B') ->
  ((forall i, 0 <= i < 3 -> fst cb i < snd B i /\ fst B i < snd cb i) ->
     forall i, 0 <= i < 3 -> fst B' i = Z.max (fst B i) (fst cb i) /\ snd B' i = Z.min (snd B i) (snd cb i))%Z
  /\ (~ (forall i, 0 <= i < 3 -> fst cb i < snd B i /\ fst B i < snd cb i) ->
     p' = PY (vb p) 0 /\ forall i, 0 <= i < 3 -> fst B' i = 0 /\ snd B' i = 0)%Z.
Proof.
  intros Hcb E. destruct (clamp_cases NN MX p B cb d Hcb) as (A1 & A2). split; intros O.
  - destruct (A1 O) as (B1 & M & E1). rewrite E in E1. destruct (clip3_dropped NN MX p _) as [q|e]; cbn [bind] in E1; [|discriminate].
    apply (f_equal (fun r => match r with OK x => snd x | Err _ => B' end)) in E1. cbn in E1. subst. exact M.
  - rewrite (A2 O) in E. injection E as <- <-. split; auto.
Qed.

Lemma clamp_room MX (p : pol3) B cb (d : rvec3 R) : wf3 p -> (0 < nv p)%Z -> (80 * nv p <= MX)%Z ->
  exists q, r3d_clip RN MX p (clamp_faces d cb B) = OK (q, 1%Z).
Proof.
  intros Hw Hp HM. destruct (clip3_planes_room RN MX (clamp_faces d cb B) p Hw) as (q & E); [rn; pose proof Hp; lia| |].
  - pose proof (faces3_length RN (dget3 RN d) cb B) as FL. rewrite clamp_faces_eq in FL.
    set (k := length (clamp_faces d cb B)) in *. rn.
    assert (2 ^ Z.of_nat k <= 2 ^ 6)%Z by (apply Z.pow_le_mono_r; lia). change (2 ^ 6)%Z with 64%Z in *.
    apply (Z.le_trans _ (5 * nv p * 64)%Z); [|rn; lia]. apply Z.mul_le_mono_nonneg_l; [rn; lia|auto].
  - exists q. exact (eq_trans (r3d_clip_pre RN MX p _ Hp) E).
Qed.

(** ** get_ibox followed by voxelize *)
Lemma voxelize_ibox MX sh po stk0 mom0 (p : pol3) B (gr gr' : Z -> R) d b0 : (0 <= po)%Z -> wf3 p -> planar_faces p -> (0 < nv p <= MX)%Z ->
  0 < x3 d -> 0 < y3 d -> 0 < z3 d -> in_range30 p -> within d ((fun _ => int_min), (fun _ => int_max)) p ->
  r3d_get_ibox RN MX p d b0 = OK B ->
  (forall i, 0 <= i < 3 -> snd B i - fst B i <= int_max)%Z ->
  (num_moments3 po * ((snd B 0 - fst B 0) * (snd B 1 - fst B 1) * (snd B 2 - fst B 2)) <= int_max)%Z ->
  r3d_voxelize RN MX sh po stk0 mom0 p B gr d = OK gr' ->
  forall i j k, (i + j + k <= Z.to_nat po)%nat ->
   lsum (zrange ((snd B 0 - fst B 0) * (snd B 1 - fst B 1) * (snd B 2 - fst B 2))%Z)
     (fun c => gr' (num_moments3 po * c + idx3 (Z.of_nat i) (Z.of_nat j) (Z.of_nat k))%Z - gr (num_moments3 po * c + idx3 (Z.of_nat i) (Z.of_nat j) (Z.of_nat k))%Z)
   = moment3 p i j k.
Proof.
  intros Hpo Hw PF Hp Hx Hy Hz H30 HR Eb S1 S2 E i j k Hij. rn.
  destruct (r3d_get_ibox_min MX p d b0 Hp Hx Hy Hz H30 HR) as (B' & Eb' & Rg & Cov & _). rn.
  rewrite Eb in Eb'. injection Eb' as <-.
  assert (CASE : (exists a, (0 <= a < 3)%Z /\ fst B a = snd B a) \/ (forall a, (0 <= a < 3)%Z -> (fst B a < snd B a)%Z)).
  { pose proof (Rg 0%Z ltac:(lia)). pose proof (Rg 1%Z ltac:(lia)). pose proof (Rg 2%Z ltac:(lia)).
    destruct (Z.eq_dec (fst B 0%Z) (snd B 0%Z)); [left; exists 0%Z; lia|]. destruct (Z.eq_dec (fst B 1%Z) (snd B 1%Z)); [left; exists 1%Z; lia|].
    destruct (Z.eq_dec (fst B 2%Z) (snd B 2%Z)); [left; exists 2%Z; lia|]. right. intros a Ha. destruct (slot3 a Ha) as [->|[->| ->]]; lia. }
  destruct CASE as [(a & Ha & D0)|D0].
  - assert (X : r3d_voxelize RN MX sh po stk0 mom0 p B gr d = OK gr).
    { apply voxelize_nobox; [|exists a; lia]. intros c Hc. pose proof (S1 c Hc). pose proof (Rg c Hc). unfold int_min, int_max in *; lia. }
    rn. rewrite X in E. injection E as <-.
    assert (((snd B 0 - fst B 0) * (snd B 1 - fst B 1) * (snd B 2 - fst B 2))%Z = 0%Z) as ->.
    { destruct (slot3 a Ha) as [->|[->| ->]]; rewrite D0, Z.sub_diag; ring. }
    change (zrange 0) with (@nil Z). cbn [lsum]. symmetry.
    apply (nobox_moment p (axis_plane3 a (spacing d a * IZR (fst B a)))); auto.
    + destruct (slot3 a Ha) as [->|[->| ->]]; unfold Spec3R.proper, axis_plane3; cbn; [left|right; left|right; right]; lra.
    + intros v Hv. rewrite axis_sdist3. pose proof (Cov v a Hv Ha) as C. rewrite <- D0 in C. lra.
  - apply (voxelize_conservative MX sh po stk0 mom0 p B gr gr' d); auto; [rn; lia|].
    split; auto. intros a Ha. pose proof (Rg a Ha). pose proof (D0 a Ha). pose proof (S1 a Ha). lia.
Qed.

(** ** a clamp whose clip fails *)
Definition high_box : box := ((fun _ => 0%Z), (fun _ => 2%Z)).
Definition low_clamp : box := ((fun _ => 0%Z), (fun i => if (i =? 2)%Z then 1%Z else 2%Z)).
Lemma clamp_fails MX k : (4 * k < MX)%Z -> (MX < 7 * k)%Z ->
  exists p' B', r3d_clamp_ibox RN MX (tets k tets_pos) high_box low_clamp (V3 1 1 (/ 2)) = OK (p', B') /\ box_meet high_box low_clamp B' /\ ~ wf3 p'.
Proof.
  intros H1 H2. destruct (tets_fail MX k H1 H2) as (p' & E & En & St).
  destruct (clamp_cases RN MX (tets k tets_pos) high_box low_clamp (V3 1 1 (/ 2))) as (A & _).
  { intros i Hi. cbn. unfold int_max. lia. }
  destruct A as (B' & M & Ec). { intros i Hi. destruct (slot3 i Hi) as [->|[->| ->]]; cbn; lia. }
  exists p', B'. split.
  - rn. rewrite Ec, clamp_faces_eq.
    assert (EF : clamp_faces (V3 1 1 (/ 2)) low_clamp high_box = [tets_cut]).
    { unfold clamp_faces, tets_cut. cbn. unfold mkpl3. cbn. repeat f_equal; lra. }
    rn. rewrite EF. unfold clip3_dropped. rn. rewrite E. reflexivity.
  - split; auto. intros (_ & L & _). rn. rewrite En in L.
    assert (R : below MX (4 * k)%Z) by (unfold below; lia).
    pose proof (l_dist _ _ L (4 * k)%Z 1%Z 2%Z R ltac:(lia) ltac:(lia)) as X.
    rewrite !St in X by lia. specialize (X eq_refl). lia.
Qed.

(** ** Statements for PropsV3 *)
Lemma prism_overflow (o : pol3) :
  exists (p : pol3) (c : R), wf3 p /\ planar_faces p /\ nv p = 512%Z
  /\ (forall e, isd (below (nv p)) e -> exists g, Spec3R.proper g
        /\ (forall e', same_face (nb (vb p)) e e' -> sdist3 g (ps (vb p) (fst e')) = 0)
        /\ (forall v, (0 <= v < nv p)%Z -> 0 <= sdist3 g (ps (vb p) v)))
  /\ r3d_split_coord RN 512 p o c 2 = Err OutOfBounds
  /\ forall sh po stk0 mom0 gr, (0 <= po <= 10)%Z -> exists d, r3d_voxelize RN 512 sh po stk0 mom0 p two_cells gr d = Err OutOfBounds.
Proof.
  assert (H3 : (3 <= 256)%Z) by lia. exists (par_prism 256), (/ 2). split; [exact (prism_wf 256 H3 _)|]. split; [exact (prism_planar 256 H3)|].
  split; [reflexivity|]. split; [exact (prism_convex 256 H3)|]. split; [apply prism_split; lia|].
  intros sh po stk0 mom0 gr Hpo. exists (V3 1000 100000 (/ 2)). apply prism_voxelize; try lia.
  assert (num_moments3 po <= 286)%Z; [|unfold int_max; lia]. unfold num_moments3. apply Z.div_le_upper_bound; [lia|].
  assert ((po + 1) * (po + 2) <= 11 * 12)%Z by (apply Z.mul_le_mono_nonneg; lia).
  assert ((po + 1) * (po + 2) * (po + 3) <= 11 * 12 * 13)%Z by (apply Z.mul_le_mono_nonneg; lia). lia.
Qed.

Lemma clamp_unreported :
  exists (p p' : pol3) (B cb B' : box) (d : rvec3 R), wf3 p /\ (nv p <= 512)%Z
  /\ 0 < x3 d /\ 0 < y3 d /\ 0 < z3 d
  /\ r3d_clamp_ibox RN 512 p B cb d = OK (p', B')
  /\ (forall i, 0 <= i < 3 -> fst B' i = Z.max (fst B i) (fst cb i) /\ snd B' i = Z.min (snd B i) (snd cb i))%Z
  /\ ~ wf3 p'.
Proof.
  destruct (clamp_fails 512 127 ltac:(lia) ltac:(lia)) as (p' & B' & E & M & Nw).
  exists (tets 127 tets_pos), p', high_box, low_clamp, B', (V3 1 1 (/ 2)). split; [apply tets_wf; lia|]. split; [cbn; lia|].
  cbn [x3 y3 z3]. split; [lra|]. split; [lra|]. split; [lra|]. split; [exact E|]. split; [exact M|exact Nw].
Qed.

Lemma unit_cube (MX : Z) (p0 : pol3) : (8 <= MX)%Z -> exists p, r3d_init_box RN MX p0 (V3 0 0 0) (V3 1 1 1) = OK p
  /\ wf3 p /\ planar_faces p /\ nv p = 8%Z /\ forall v i, (0 <= v < nv p)%Z -> (0 <= i < 3)%Z -> 0 <= coordR3 i (ps (vb p) v) <= 1.
Proof.
  intros HM. destruct (r3d_init_box_shape MX p0 (V3 0 0 0) (V3 1 1 1) HM) as (p & E & Hn & W & P & L & _).
  exists p. split; [exact E|]. split; auto. split; auto. split; auto.
  cbn [map x3 y3 z3] in L. injection L as P0 P1 P2 P3 P4 P5 P6 P7.
  intros v i Hv Hi. rn. rewrite Hn in Hv.
  assert (C : (v = 0 \/ v = 1 \/ v = 2 \/ v = 3 \/ v = 4 \/ v = 5 \/ v = 6 \/ v = 7)%Z) by lia.
  destruct C as [->|[->|[->|[->|[->|[->|[->| ->]]]]]]]; rewrite ?P0, ?P1, ?P2, ?P3, ?P4, ?P5, ?P6, ?P7;
  destruct (slot3 i Hi) as [->|[->| ->]]; cbn; lra.
Qed.
Lemma unit_cube_voxels p0 stk0 mom0 : exists p gr', r3d_init_box RN 512 p0 (V3 0 0 0) (V3 1 1 1) = OK p
  /\ wf3 p /\ planar_faces p /\ within (V3 (1/2) (1/2) (2/3)) ((fun _ => 0%Z), (fun _ => 2%Z)) p
  /\ r3d_voxelize RN 512 false 2 stk0 mom0 p ((fun _ => 0%Z), (fun _ => 2%Z)) (fun _ => 0) (V3 (1/2) (1/2) (2/3)) = OK gr'.
Proof.
  destruct (unit_cube 512 p0 ltac:(lia)) as (p & E & W & P & Hn & L). 
  destruct (voxelize_room RN 512 2 stk0 mom0 p ((fun _ => 0%Z), (fun _ => 2%Z)) (fun _ => 0) (V3 (1/2) (1/2) (2/3))) as (gr' & Eg); [lia|auto| | |].
  - rn. rewrite Hn. vm_compute. discriminate.
  - split; [intros i _; cbn; unfold int_min, int_max; lia|vm_compute; discriminate].
  - exists p, gr'. split; [exact E|]. split; auto. split; auto. split; [|exact Eg].
    intros v i Hv Hi. pose proof (L v i Hv Hi). destruct (slot3 i Hi) as [->|[->| ->]]; unfold spacing; cbn [fst snd x3 y3 z3 Z.eqb Pos.eqb]; rn. all: lra.
Qed.
Lemma unit_cube_clamp p0 : exists p q, r3d_init_box RN 2048 p0 (V3 0 0 0) (V3 1 1 1) = OK p
  /\ r3d_clip RN 2048 p (clamp_faces (V3 (1/2) (1/2) (2/3)) ((fun _ => 0%Z), (fun _ => 1%Z)) ((fun _ => 0%Z), (fun _ => 2%Z))) = OK (q, 1%Z).
Proof.
  destruct (unit_cube 2048 p0 ltac:(lia)) as (p & E & W & P & Hn & L). 
  destruct (clamp_room 2048 p ((fun _ => 0%Z), (fun _ => 2%Z)) ((fun _ => 0%Z), (fun _ => 1%Z)) (V3 (1/2) (1/2) (2/3)) W) as (q & Ec); [rn; lia|rn; lia|].
  exists p, q. split; [exact E|exact Ec].
Qed.
