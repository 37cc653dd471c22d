(** * GlueV2: final lemmas for v2d.c. *)
From Coq Require Import Reals ZArith List Bool Lia Lra.
From Verif Require Import Base Lib ModelCommon Model2 ModelV Spec2 Struct2 Clip2 Reduce2 RealNum SumR Spec2R Mom2 Cons2
  Misc2 Small2 Wit2 Glue2 VoxFacts Convex2 IBox Vox2.
Import ListNotations.
Open Scope Z_scope.

(** ** Convexity: base cases *)
Lemma convex2_small (p : pol2) : wf2 p -> nv p <= 3 -> convex2 p.
Proof.
  intros (Hn & HL) H3 g. unfold crossings.
  pose proof (exits_le (fun v => Rleb 0 (sdist g (ps (vb p) v))) (nb (vb p)) (nv p) Hn HL).
  pose proof (exits_even (fun v => Rleb 0 (sdist g (ps (vb p) v))) (nb (vb p)) (nv p) Hn HL). rn. lia.
Qed.

Lemma cnt4 K : cnt K 4 = (if K 0 then 1 else 0) + (if K 1 then 1 else 0) + (if K 2 then 1 else 0) + (if K 3 then 1 else 0).
Proof.
  unfold cnt. change (zrange 4) with [0; 1; 2; 3]. cbn [filter].
  destruct (K 0), (K 1), (K 2), (K 3); reflexivity.
Qed.
Lemma convex2_parallelogram (p : pol2) : nv p = 4 ->
  (forall v, 0 <= v < 4 -> nb (vb p) v 0 = (v + 1) mod 4 /\ nb (vb p) v 1 = (v - 1) mod 4) ->
  (vx (ps (vb p) 0) + vx (ps (vb p) 2) = vx (ps (vb p) 1) + vx (ps (vb p) 3))%R ->
  (vy (ps (vb p) 0) + vy (ps (vb p) 2) = vy (ps (vb p) 1) + vy (ps (vb p) 3))%R -> convex2 p.
Proof.
  intros En Eb Ex Ey g. unfold crossings. rn. rewrite En.
  assert (HL : linked (nb (vb p)) 4).
  { intros v Hv. assert (C : v = 0 \/ v = 1 \/ v = 2 \/ v = 3) by lia.
    destruct (Eb v Hv) as (-> & ->).
    destruct C as [->|[->|[->| ->]]]; cbn; (split; [lia|]); (split; [lia|]);
    (split; [match goal with |- nb _ ?w _ = _ => apply (proj2 (Eb w ltac:(lia))) end|
             match goal with |- nb _ ?w _ = _ => apply (proj1 (Eb w ltac:(lia))) end]). }
  rewrite exits_even by (auto; lia). rewrite cnt4.
  rewrite (proj1 (Eb 0 ltac:(lia))), (proj1 (Eb 1 ltac:(lia))), (proj1 (Eb 2 ltac:(lia))), (proj1 (Eb 3 ltac:(lia))).
  change ((0 + 1) mod 4) with 1. change ((1 + 1) mod 4) with 2. change ((2 + 1) mod 4) with 3. change ((3 + 1) mod 4) with 0.
  assert (S : (sdist g (ps (vb p) 0%Z) + sdist g (ps (vb p) 2%Z) = sdist g (ps (vb p) 1%Z) + sdist g (ps (vb p) 3%Z))%R).
  { unfold sdist. apply (f_equal (Rmult (vx (pn g)))) in Ex. apply (f_equal (Rmult (vy (pn g)))) in Ey. lra. }
  destruct (Rleb 0 (sdist g (ps (vb p) 0))) eqn:E0; destruct (Rleb 0 (sdist g (ps (vb p) 1))) eqn:E1;
  destruct (Rleb 0 (sdist g (ps (vb p) 2))) eqn:E2; destruct (Rleb 0 (sdist g (ps (vb p) 3))) eqn:E3; cbn [andb negb]; try lia;
  exfalso; rb; lra.
Qed.
Lemma convex2_init_box MX (p p' : pol2) lo hi : 4 <= MX -> r2d_init_box RN MX p lo hi = OK p' -> convex2 p'.
Proof.
  intros HM E. destruct (init_box_spec RN MX p lo hi HM) as (q & E' & En & Ep & Eb). rn.
  rewrite E in E'. injection E' as <-. change (zrange 4) with [0; 1; 2; 3] in Ep. cbn [map] in Ep. rn.
  injection Ep as P0 P1 P2 P3. apply convex2_parallelogram; auto; rewrite P0, P1, P2, P3; cbn; ring.
Qed.

Lemma r2d_clip_convex_room MX (planes : list (plane2 R)) (p : pol2) : wf2 p -> convex2 p ->
  nv p + Z.of_nat (length planes) + 1 <= MX ->
  exists p', r2d_clip RN MX p planes = OK p' /\ convex2 p' /\ nv p' <= nv p + Z.of_nat (length planes).
Proof.
  intros Hw Hc HM. unfold r2d_clip. rn. destruct (Z.leb_spec (nv p) 0).
  - exists p. split; auto. split; auto. lia.
  - destruct (clip_convex MX planes p Hw Hc HM) as (p' & E & W & C & L). exists p'. auto.
Qed.

(** ** Rasterization *)
Section Any.
Context (NN : num) (MX : Z).
Notation pol := (poly (rvec2 (T NN))).

(** grid position of entry [m] of cell ([i], [j]) *)
Notation at_ po B i j m := (num_moments2 po * ((i - fst B 0) * (snd B 1 - fst B 1) + (j - fst B 1)) + m).

Lemma result_cells sh po (p : pol) B d gr gr' l : cells_ok (num_moments2 po) B ->
  raster_result NN MX po p B d gr gr' l sh ->
  NoDup (map (fun x : box * pol => (fst (fst x) 0, fst (fst x) 1)) l)
  /\ (forall x, In x l -> fst B 0 <= fst (fst x) 0 < snd B 0 /\ fst B 1 <= fst (fst x) 1 < snd B 1
       /\ snd (fst x) 0 = fst (fst x) 0 + 1 /\ snd (fst x) 1 = fst (fst x) 1 + 1).
Proof.
  intros HB (Rt & ND & _). pose proof HB as (HB1 & _).
  assert (Pr : proper 2 B). { intros a Ha. pose proof (HB1 a Ha). lia. }
  pose proof (rast_leaves NN 2 nv _ _ p B l Rt Pr) as Lv. rewrite Forall_forall in Lv.
  split.
  - revert ND. generalize l. clear. induction l as [|x l IH]; cbn; [constructor|]. inversion 1 as [|? ? Hni ND']; subst.
    constructor; auto. intros Hi. apply Hni. apply in_map_iff in Hi as (y & E & Hy). apply in_map_iff. exists y. split; auto.
    apply pair_equal_spec in E as (E0 & E1). unfold cell2. now rewrite E0, E1.
  - intros x Hx. destruct (Lv x Hx) as (S & _ & U). pose proof (S 0 ltac:(lia)). pose proof (S 1 ltac:(lia)).
    pose proof (U 0 ltac:(lia)). pose proof (U 1 ltac:(lia)). lia.
Qed.

Lemma rasterize_empty_c sh po stk0 mom0 (p : pol) B gr d nm : nv p <= 0 -> cells_ok nm B ->
  r2d_rasterize NN MX sh po stk0 mom0 p B gr d = OK gr.
Proof. intros Hp (HB & _). apply rasterize_empty; auto. intros i Hi. pose proof (HB i Hi). unfold int_min, int_max in *. lia. Qed.
(** nothing is added when the box has no cell *)
Lemma rasterize_nobox sh po stk0 mom0 (p : pol) B gr d :
  (forall i, 0 <= i < 2 -> int_min <= snd B i - fst B i <= int_max) -> (exists i, 0 <= i < 2 /\ snd B i <= fst B i) ->
  r2d_rasterize NN MX sh po stk0 mom0 p B gr d = OK gr.
Proof.
  intros HB (i & Hi & Hl). unfold r2d_rasterize, voxelize. destruct (gridsz_spec 2 ltac:(lia) B HB) as (g & E & G). rewrite E. cbn [bind].
  assert (A : all_pos 2 g = false).
  { destruct (all_pos 2 g) eqn:A; auto. unfold all_pos in A. rewrite forallb_forall in A. pose proof (G i Hi) as Gi. unfold size in Gi.
    assert (Hin : In i (map Z.of_nat (seq 0 (Z.to_nat 2)))) by (change (Z.to_nat 2) with 2%nat; destruct (slot2 i Hi); subst; cbn; auto). apply A in Hin. apply Z.ltb_lt in Hin. lia. }
  rewrite A. destruct (nv p <=? 0); reflexivity.
Qed.

Lemma rasterize_own_cells po stk0 mom0 (p : pol) B gr gr' d : 0 <= po -> wf2 p -> nv p <= MX -> cells_ok (num_moments2 po) B ->
  r2d_rasterize NN MX false po stk0 mom0 p B gr d = OK gr' ->
  exists l : list (Z * Z * pol), NoDup (map fst l)
  /\ (forall i j q, In (i, j, q) l -> fst B 0 <= i < snd B 0 /\ fst B 1 <= j < snd B 1
       /\ exists m0 mom, r2d_reduce NN MX false q m0 po = OK mom
          /\ forall m, 0 <= m < num_moments2 po -> gr' (at_ po B i j m) = nadd NN (gr (at_ po B i j m)) (mom m))
  /\ (forall g, (forall i j q m, In (i, j, q) l -> 0 <= m < num_moments2 po -> g <> at_ po B i j m) -> gr' g = gr g).
Proof.
  intros Hpo Hw HM HB E. destruct (Z.leb_spec (nv p) 0) as [L|L].
  - exists []. rewrite (rasterize_empty_c _ _ _ _ _ _ _ _ _ L HB) in E. injection E as <-. split; [constructor|]. split; [intros i j q []|auto].
  - destruct (rasterize_any NN MX po stk0 mom0 p B gr d Hpo Hw ltac:(lia) HB) as [(gr1 & l & E1 & Rr)|(E1 & _)]; [|congruence].
    rewrite E in E1. injection E1 as <-. destruct (result_cells false po p B d gr gr' l HB Rr) as (ND & Rg).
    destruct Rr as (_ & _ & G1 & G2).
    exists (map (fun x => (fst (fst x) 0, fst (fst x) 1, snd x)) l). rewrite map_map. cbn [fst]. split; [exact ND|]. split.
    + intros i j q Hi. apply in_map_iff in Hi as (x & Ex & Hx). apply pair_equal_spec in Ex as (Ex & <-).
      apply pair_equal_spec in Ex as (<- & <-). destruct (Rg x Hx) as (R0 & R1 & _). split; auto. split; auto.
      destruct (G1 x Hx) as (m0 & mom & Er & F). exists m0, mom. split; auto.
    + intros g Hg. apply G2. intros x Hx Hr.
      apply (Hg (fst (fst x) 0) (fst (fst x) 1) (snd x) (g - num_moments2 po * cell2 B (fst (fst x)))).
      * apply in_map_iff. exists x. auto.
      * lia.
      * unfold cell2 in *. lia.
Qed.
Lemma rasterize_bounds po stk0 mom0 (p : pol) B gr gr' d : 0 <= po -> wf2 p -> nv p <= MX -> cells_ok (num_moments2 po) B ->
  r2d_rasterize NN MX false po stk0 mom0 p B gr d = OK gr' ->
  forall g, ~ (0 <= g < (snd B 0 - fst B 0) * (snd B 1 - fst B 1) * num_moments2 po) -> gr' g = gr g.
Proof.
  intros Hpo Hw HM HB E g Hg. destruct (rasterize_own_cells po stk0 mom0 p B gr gr' d Hpo Hw HM HB E) as (l & _ & A & Bx).
  apply Bx. intros i j q m Hi Hm ->. apply Hg. destruct (A i j q Hi) as (R0 & R1 & _).
  assert (C : 0 <= (i - fst B 0) * (snd B 1 - fst B 1) + (j - fst B 1) < (snd B 0 - fst B 0) * (snd B 1 - fst B 1)) by nia.
  set (c := (i - fst B 0) * (snd B 1 - fst B 1) + (j - fst B 1)) in *. set (n := (snd B 0 - fst B 0) * (snd B 1 - fst B 1)) in *. nia.
Qed.
Lemma rasterize_returns po stk0 mom0 (p : pol) B gr d : 0 <= po -> wf2 p -> nv p <= MX -> cells_ok (num_moments2 po) B ->
  (forall q, piece NN MX p q -> ~ overflows NN MX q) ->
  exists gr', r2d_rasterize NN MX false po stk0 mom0 p B gr d = OK gr'.
Proof.
  intros Hpo Hw HM HB Ho. destruct (Z.leb_spec (nv p) 0) as [L|L].
  - exists gr. now apply (rasterize_empty_c _ _ _ _ _ _ _ _ _ L HB).
  - destruct (rasterize_any NN MX po stk0 mom0 p B gr d Hpo Hw ltac:(lia) HB) as [(gr1 & l & E1 & Rr)|(E1 & q & X & _ & _ & Y)]; eauto.
    now apply Ho in X.
Qed.
End Any.

Lemma rasterize_conservative MX sh po stk0 mom0 (p : pol2) B gr gr' d : 0 <= po -> wf2 p -> nv p <= MX -> cells_ok (num_moments2 po) B ->
  r2d_rasterize RN MX sh po stk0 mom0 p B gr d = OK gr' ->
  forall i j, (i + j <= Z.to_nat po)%nat ->
   (lsum (zrange ((snd B 0 - fst B 0) * (snd B 1 - fst B 1))%Z)
     (fun c => gr' (num_moments2 po * c + idx2 (Z.of_nat i) (Z.of_nat j))%Z - gr (num_moments2 po * c + idx2 (Z.of_nat i) (Z.of_nat j))%Z)
   = moment2 p i j)%R.
Proof.
  intros Hpo Hw HM HB E i j Hij. rn. destruct (Z.leb_spec (nv p) 0) as [L|L].
  - rewrite (rasterize_empty_c RN _ _ _ _ _ _ _ _ _ _ L HB) in E. injection E as <-. unfold moment2. destruct Hw as (Hn & _). rn.
    assert (En : nv p = 0) by lia. rewrite En. change (zrange 0) with (@nil Z). cbn [lsum].
    transitivity (lsum (zrange ((snd B 0 - fst B 0) * (snd B 1 - fst B 1))) (fun _ => 0%R)); [|apply lsum_0; auto].
    apply lsum_ext. intros. ring.
  - destruct (rasterize_R MX sh po stk0 mom0 p B gr d Hpo Hw ltac:(rn; lia) HB) as [(gr1 & l & E1 & Rr)|(E1 & _)]; rn; [|congruence].
    rewrite E in E1. injection E1 as <-. now apply (raster_conserves MX sh po p B d gr gr' l).
Qed.

Lemma rasterize_convex_returns MX sh po stk0 mom0 (p : pol2) B gr d : 0 <= po -> wf2 p -> convex2 p ->
  nv p + Z.log2_up (snd B 0 - fst B 0) + Z.log2_up (snd B 1 - fst B 1) + 3 <= MX -> cells_ok (num_moments2 po) B ->
  exists gr', r2d_rasterize RN MX sh po stk0 mom0 p B gr d = OK gr'.
Proof.
  intros Hpo Hw Hc HM HB. destruct (Z.leb_spec (nv p) 0) as [L|L].
  - exists gr. now apply (rasterize_empty_c RN _ _ _ _ _ _ _ _ _ _ L HB).
  - destruct (rasterize_convex MX sh po stk0 mom0 p B gr d) as (gr' & l & E & _); eauto.
    assert (Dp : depth 2 B = Z.log2_up (snd B 0 - fst B 0) + Z.log2_up (snd B 1 - fst B 1)).
    { unfold depth, size. change (zrange 2) with [0; 1]. cbn [suml]. lia. }
    rewrite Dp. lia.
Qed.

Local Open Scope R_scope.
Lemma rasterize_cell_pieces MX sh po stk0 mom0 (p : pol2) B (gr gr' : Z -> R) d : (0 <= po)%Z -> wf2 p -> (nv p <= MX)%Z -> cells_ok (num_moments2 po) B ->
  within d B p ->
  r2d_rasterize RN MX sh po stk0 mom0 p B gr d = OK gr' ->
  exists l : list (Z * Z * pol2), NoDup (map fst l)
  /\ (forall a b q, In (a, b, q) l -> (fst B 0 <= a < snd B 0)%Z /\ (fst B 1 <= b < snd B 1)%Z /\ wf2 q
       /\ (forall v, (0 <= v < nv q)%Z -> vx d * IZR a <= vx (ps (vb q) v) <= vx d * IZR (a + 1)
              /\ vy d * IZR b <= vy (ps (vb q) v) <= vy d * IZR (b + 1))
       /\ (forall g, (forall v, (0 <= v < nv p)%Z -> 0 <= sdist g (ps (vb p) v)) ->
            forall v, (0 <= v < nv q)%Z -> 0 <= sdist g (ps (vb q) v))
       /\ forall i j, (i + j <= Z.to_nat po)%nat -> let e := (num_moments2 po * ((a - fst B 0) * (snd B 1 - fst B 1) + (b - fst B 1)) + idx2 (Z.of_nat i) (Z.of_nat j))%Z in
             gr' e = gr e + moment2 q i j)
  /\ (forall a b m, (fst B 0 <= a < snd B 0)%Z -> (fst B 1 <= b < snd B 1)%Z -> ~ In (a, b) (map fst l) -> (0 <= m < num_moments2 po)%Z ->
        let e := (num_moments2 po * ((a - fst B 0) * (snd B 1 - fst B 1) + (b - fst B 1)) + m)%Z in gr' e = gr e)
  /\ (forall i j, lsum l (fun x => moment2 (snd x) i j) = moment2 p i j).
Proof.
  intros Hpo Hw HM HB Wi E. rn. destruct (Z.leb_spec (nv p) 0) as [L|L].
  - exists []. rewrite (rasterize_empty_c RN _ _ _ _ _ _ _ _ _ _ L HB) in E. injection E as <-. split; [constructor|]. split; [intros i j q []|]. split; [auto|].
    intros i j. unfold moment2. destruct Hw as (Hn & _). rn.
    assert (En : nv p = 0%Z) by lia. rewrite En. reflexivity.
  - destruct (rasterize_R MX sh po stk0 mom0 p B gr d Hpo Hw ltac:(rn; lia) HB) as [(gr1 & l & E1 & Rr)|(E1 & _)]; rn; [|congruence].
    rewrite E in E1. injection E1 as <-. destruct (result_cells RN MX sh po p B d gr gr' l HB Rr) as (ND & Rg). rn.
    destruct Rr as (Rt & _ & G1 & G2). destruct (rast_R MX d p B l Rt Hw HM) as (A & Bx & Cx). specialize (Cx Wi). rn.
    exists (map (fun x => (fst (fst x) 0%Z, fst (fst x) 1%Z, snd x)) l). rewrite map_map. cbn [fst]. split; [exact ND|]. split; [|split].
    + intros a b q Hi. apply in_map_iff in Hi as (x & Ex & Hx). apply pair_equal_spec in Ex as (Ex & <-).
      apply pair_equal_spec in Ex as (<- & <-). destruct (Rg x Hx) as (R0 & R1 & R2 & R3). rn. split; auto. split; auto.
      destruct (Bx x Hx) as (Wx & Mx & Hx'). rn. split; auto. split; [|split].
      * intros v Hv. pose proof (Cx x Hx v 0%Z Hv ltac:(lia)) as C0. pose proof (Cx x Hx v 1%Z Hv ltac:(lia)) as C1.
        unfold spacing, coordR in C0, C1. cbn in C0, C1. rn. rewrite R2 in C0. rewrite R3 in C1. auto.
      * exact Hx'.
      * intros i j Hij. cbv zeta. destruct (G1 x Hx) as (m0 & mom & Er & F). rn.
        assert (Ix : (0 <= idx2 (Z.of_nat i) (Z.of_nat j) < num_moments2 po)%Z).
        { destruct (moment_slots po Hpo) as (M1 & _). apply M1; lia. }
        rewrite F by auto. cbn [nadd RN]. f_equal.
        destruct (reduce_both MX sh po (snd x) m0 Hpo Wx Mx) as (m' & E' & V). rn. rewrite Er in E'. injection E' as <-. now apply V.
    + intros a b m Ha Hb Hni Hm. cbv zeta. apply G2. intros x Hx Hr. apply Hni. apply in_map_iff. exists x. split; auto.
      destruct (Rg x Hx) as (R0 & R1 & _). unfold cell2 in Hr. rn.
      assert (((a - fst B 0) * (snd B 1 - fst B 1) + (b - fst B 1) = (fst (fst x) 0 - fst B 0) * (snd B 1 - fst B 1) + (fst (fst x) 1 - fst B 1))%Z) by nia.
      destruct (Z.div_mod_unique (snd B 1 - fst B 1)%Z (a - fst B 0)%Z (fst (fst x) 0 - fst B 0)%Z (b - fst B 1)%Z (fst (fst x) 1 - fst B 1)%Z); try lia.
      f_equal; lia.
    + intros i j. rewrite <- A. transitivity (lsum (map (fun x => (fst (fst x) 0%Z, fst (fst x) 1%Z, snd x)) l) (fun x => moment2 (snd x) i j)); [reflexivity|].
      rewrite lsum_map. reflexivity.
Qed.

(** ** Index boxes *)
Lemma pos_ok MX (p : pol2) v i : (0 <= v < nv p)%Z -> (nv p <= MX)%Z -> (0 <= i < 2)%Z ->
  exists q, rd_ps MX (vb p) v = OK q /\ vget RN q i = OK (coordR i (ps (vb p) v)).
Proof.
  intros Hv HM Hi. exists (ps (vb p) v). split; [unfold rd_ps; apply rd_ok; lia|].
  destruct (slot2 i Hi); subst; reflexivity.
Qed.

Lemma r2d_get_ibox_min MX (p : pol2) (d : rvec2 R) b0 : (0 < nv p <= MX)%Z -> 0 < vx d -> 0 < vy d ->
  (forall v, (0 <= v < nv p)%Z -> -10 ^ 30 <= vx (ps (vb p) v) <= 10 ^ 30 /\ - 10 ^ 30 <= vy (ps (vb p) v) <= 10 ^ 30) ->
  (forall v, (0 <= v < nv p)%Z -> vx d * IZR int_min <= vx (ps (vb p) v) <= vx d * IZR int_max
     /\ vy d * IZR int_min <= vy (ps (vb p) v) <= vy d * IZR int_max) ->
  exists b, r2d_get_ibox RN MX p d b0 = OK b
  /\ (forall i, (0 <= i < 2)%Z -> int_min <= fst b i /\ fst b i <= snd b i /\ snd b i <= int_max)%Z
  /\ (forall v, (0 <= v < nv p)%Z -> vx d * IZR (fst b 0%Z) <= vx (ps (vb p) v) <= vx d * IZR (snd b 0%Z)
       /\ vy d * IZR (fst b 1%Z) <= vy (ps (vb p) v) <= vy d * IZR (snd b 1%Z))
  /\ (forall b' : box, (forall v, (0 <= v < nv p)%Z -> vx d * IZR (fst b' 0%Z) <= vx (ps (vb p) v) <= vx d * IZR (snd b' 0%Z)
       /\ vy d * IZR (fst b' 1%Z) <= vy (ps (vb p) v) <= vy d * IZR (snd b' 1%Z)) ->
       (fst b' 0 <= fst b 0 /\ snd b 0 <= snd b' 0 /\ fst b' 1 <= fst b 1 /\ snd b 1 <= snd b' 1)%Z).
Proof.
  intros Hp Hx Hy H30 HR.
  assert (I2 : forall i, (0 <= i < 2)%Z -> i = 0%Z \/ i = 1%Z) by (intros; lia).
  destruct (get_ibox_spec 2 ltac:(lia) nv (vget RN) (fun p => rd_ps MX (vb p)) p (fun v i => coordR i (ps (vb p) v))
     ltac:(intros; apply pos_ok; auto; lia) (fun i => if (i =? 0)%Z then vx d else vy d) b0) as (b & E & S).
  - rn. lia.
  - intros i Hi. destruct (I2 i Hi); subst; auto.
  - intros v i Hv Hi. destruct (I2 i Hi); subst; apply H30; auto.
  - intros v i Hv Hi. destruct (I2 i Hi); subst; apply HR; auto.
  - exists b. split; [exact E|]. destruct (S 0%Z ltac:(lia)) as (A1 & A2 & A3 & A4 & A5). destruct (S 1%Z ltac:(lia)) as (B1 & B2 & B3 & B4 & B5).
    cbn in A3, A4, A5, B3, B4, B5. rn. split; [|split].
    + assert (F : forall a b x dd, 0 < dd -> dd * IZR a <= x <= dd * IZR b -> (a <= b)%Z).
      { intros a c x dd Hd Hh. apply le_IZR. apply (Rmult_le_reg_l dd); lra. }
      intros i Hi. destruct (I2 i Hi); subst; (split; [auto|split; [|auto]]).
      * apply (F _ _ (vx (ps (vb p) 0%Z)) (vx d)); auto. apply A3. lia.
      * apply (F _ _ (vy (ps (vb p) 0%Z)) (vy d)); auto. apply B3. lia.
    + auto.
    + intros b' Hb'. split; [apply A4; intros; apply Hb'; auto|]. split; [apply A5; intros; apply Hb'; auto|].
      split; [apply B4; intros; apply Hb'; auto|apply B5; intros; apply Hb'; auto].
Qed.

Lemma r2d_get_ibox_empty MX (p : pol2) (d : rvec2 R) b0 : nv p = 0%Z -> 0 < vx d <= 10 ^ 20 ->
  r2d_get_ibox RN MX p d b0 = Err BadConversion.
Proof.
  intros En Hd. unfold r2d_get_ibox.
  apply (get_ibox_empty 2 nv (vget RN) (fun p => rd_ps MX (vb p)) p (fun i => if (i =? 0)%Z then vx d else vy d) b0); [lia|rn; lia|exact Hd].
Qed.

Section Clamp.
Context (NN : num) (MX : Z) (p : poly (rvec2 (T NN))) (B cb : box) (d : rvec2 (T NN)).
Definition box_meet (B cb B' : box) : Prop := forall i, (0 <= i < 2)%Z -> fst B' i = Z.max (fst B i) (fst cb i) /\ snd B' i = Z.min (snd B i) (snd cb i).
Definition boxes_overlap (B cb : box) : Prop := forall i, (0 <= i < 2)%Z -> (fst cb i < snd B i /\ fst B i < snd cb i)%Z.
Lemma overlap_dec : (boxes_overlap B cb /\ forallb (overlap cb B) (zrange 2) = true)
  \/ (~ boxes_overlap B cb /\ forallb (overlap cb B) (zrange 2) = false).
Proof.
  destruct (forallb (overlap cb B) (zrange 2)) eqn:F.
  - left. split; auto. intros i Hi. rewrite forallb_forall in F. specialize (F i (proj2 (in_zrange _ _) Hi)).
    unfold overlap in F. apply andb_true_iff in F as (F1 & F2). apply Z.ltb_lt in F1, F2. auto.
  - right. split; auto. intros O. assert (forallb (overlap cb B) (zrange 2) = true); [|congruence].
    apply forallb_forall. intros i Hi. apply in_zrange in Hi. specialize (O i Hi). unfold overlap.
    apply andb_true_iff. rewrite !Z.ltb_lt. auto.
Qed.
Lemma clamp_cases : (forall i, 0 <= i < 2 -> - int_max <= fst cb i <= int_max)%Z ->
  (boxes_overlap B cb -> exists B', box_meet B cb B' /\
      r2d_clamp_ibox NN MX p B cb d = (let* q := r2d_clip NN MX p (faces_of NN 2 (mkpl2 NN) (fun i => if (i =? 0)%Z then vx d else vy d) cb B) in OK (q, B')))
  /\ (~ boxes_overlap B cb -> r2d_clamp_ibox NN MX p B cb d = OK (PY (vb p) 0%Z, ((fun _ => 0%Z), (fun _ => 0%Z)))).
Proof.
  intros Hcb. destruct (clamp_ibox_spec NN 2 ltac:(lia) (mkpl2 NN) (r2d_clip NN MX) (fun p => PY (vb p) 0%Z) 4 ltac:(lia)
     (fun i => if (i =? 0)%Z then vx d else vy d) cb Hcb (r2d_clip_nil MX NN) p B) as (A1 & A2).
  destruct overlap_dec as [(O & F)|(O & F)]; (split; [intros O'|intros O']); try contradiction.
  - destruct (A1 F) as (B' & H & E). exists B'. split; auto.
  - apply (A2 F).
Qed.
End Clamp.

Lemma face_sdist (d : rvec2 R) cb i q : (0 <= i < 2)%Z ->
  sdist (mkpl2 RN i 1 (IZR (- fst cb i) * spacing d i)) q = coordR i q - spacing d i * IZR (fst cb i)
  /\ sdist (mkpl2 RN i (- 1) (IZR (snd cb i) * spacing d i)) q = spacing d i * IZR (snd cb i) - coordR i q.
Proof.
  intros Hi. destruct (slot2 i Hi); subst; unfold mkpl2, sdist, coordR, spacing; cbn; rewrite ?opp_IZR; split; ring.
Qed.
Lemma lsum_nonneg {A} (l : list A) f : (forall a, In a l -> 0 <= f a) -> 0 <= lsum l f.
Proof. intros H. induction l as [|a l IH]; cbn; [lra|]. pose proof (H a (or_introl eq_refl)). assert (0 <= lsum l f) by (apply IH; intros; apply H; now right). lra. Qed.
Lemma in_hull_sub (p : pol2) q g : in_hull p q -> (forall v, (0 <= v < nv p)%Z -> 0 <= sdist g (ps (vb p) v)) -> 0 <= sdist g q.
Proof.
  intros (w & W0 & W1 & Wx & Wy) H. unfold sdist. rewrite Wx, Wy.
  replace (pd g) with (lsum (zrange (nv p)) (fun v => w v * pd g)).
  - rewrite <- !lsum_scal, <- !lsum_add. apply lsum_nonneg. intros v Hv. apply in_zrange in Hv. specialize (H v Hv). specialize (W0 v).
    unfold sdist in H. nra.
  - transitivity (pd g * lsum (zrange (nv p)) w); [|rewrite W1; ring]. rewrite <- lsum_scal. apply lsum_ext. intros. ring.
Qed.

Lemma in_faces (d : rvec2 R) cb B pl : In pl (faces_of RN 2 (mkpl2 RN) (fun i => if (i =? 0)%Z then vx d else vy d) cb B) <->
  exists i, (0 <= i < 2)%Z /\ (((fst B i < fst cb i)%Z /\ pl = mkpl2 RN i 1 (IZR (- fst cb i) * spacing d i))
    \/ ((snd cb i < snd B i)%Z /\ pl = mkpl2 RN i (- 1) (IZR (snd cb i) * spacing d i))).
Proof.
  unfold faces_of. rewrite in_flat_map. split.
  - intros (i & Hi & H). apply in_zrange in Hi. exists i. split; auto. unfold faces_at in H. apply in_app_or in H.
    destruct H as [H|H].
    + left. destruct (Z.ltb_spec (fst B i) (fst cb i)); [|destruct H]. split; auto. destruct H as [<-|[]]. reflexivity.
    + right. destruct (Z.ltb_spec (snd cb i) (snd B i)); [|destruct H]. split; auto. destruct H as [<-|[]]. reflexivity.
  - intros (i & Hi & H). exists i. split; [now apply in_zrange|]. unfold faces_at. apply in_or_app. destruct H as [(L & ->)|(L & ->)].
    + left. destruct (Z.ltb_spec (fst B i) (fst cb i)); [|lia]. left. reflexivity.
    + right. destruct (Z.ltb_spec (snd cb i) (snd B i)); [|lia]. left. reflexivity.
Qed.

Lemma faces_length (d : rvec2 R) cb B : (length (faces_of RN 2 (mkpl2 RN) (fun i => if (i =? 0)%Z then vx d else vy d) cb B) <= 4)%nat.
Proof.
  unfold faces_of. change (zrange 2) with [0; 1]%Z. cbn [flat_map]. rewrite !app_length. cbn [length].
  pose proof (faces_at_length RN (mkpl2 RN) (fun i => if (i =? 0)%Z then vx d else vy d) cb B 0).
  pose proof (faces_at_length RN (mkpl2 RN) (fun i => if (i =? 0)%Z then vx d else vy d) cb B 1). lia.
Qed.

(** the clamped polygon *)
Lemma clamp_R MX (p p' : pol2) B cb B' (d : rvec2 R) : (forall i, 0 <= i < 2 -> - int_max <= fst cb i <= int_max)%Z ->
  wf2 p -> (nv p <= MX)%Z -> 0 <= vx d -> 0 <= vy d ->
  r2d_clamp_ibox RN MX p B cb d = OK (p', B') ->
  wf2 p' /\ (nv p' <= MX)%Z /\ hull_sub p p' /\ (within d B p -> within d cb p' /\ within d B' p').
Proof.
  intros Hcb Hw HM Hdx Hdy E. destruct (clamp_cases RN MX p B cb d Hcb) as (A1 & A2).
  destruct (overlap_dec B cb) as [(O & _)|(O & _)].
  - destruct (A1 O) as (B1 & M & E1). rn. rewrite E in E1. set (fs := faces_of _ _ _ _ _ _) in E1.
    destruct (r2d_clip RN MX p fs) as [q|e] eqn:Ec; cbn [bind] in E1; [|discriminate].
    injection E1 as <- <-. destruct (r2d_clip_linked RN MX p p' fs Hw HM Ec) as (W & M' & _). rn.
    destruct (r2d_clip_R MX fs p p' Hw HM Ec) as (In1 & Hu). rn.
    assert (HS : hull_sub p p'). { intros g Hg v Hv. apply (in_hull_sub p); auto. }
    split; auto. split; auto. split; auto. intros Wi.
    assert (Bd : forall v i, (0 <= v < nv p')%Z -> (0 <= i < 2)%Z ->
       spacing d i * IZR (fst B i) <= coordR i (ps (vb p') v) <= spacing d i * IZR (snd B i)).
    { intros v i Hv Hi. split.
      - pose proof (HS (axis_plane i (spacing d i * IZR (fst B i)))) as X. 
        specialize (X ltac:(intros w Hw'; rewrite axis_sdist; pose proof (Wi w i Hw' Hi); lra) v Hv). rewrite axis_sdist in X. lra.
      - pose proof (HS (flip (axis_plane i (spacing d i * IZR (snd B i))))) as X.
        specialize (X ltac:(intros w Hw'; rewrite sdist_flip, axis_sdist; pose proof (Wi w i Hw' Hi); lra) v Hv). rewrite sdist_flip, axis_sdist in X. lra. }
    assert (Lo : forall v i, (0 <= v < nv p')%Z -> (0 <= i < 2)%Z -> (fst B i < fst cb i)%Z -> spacing d i * IZR (fst cb i) <= coordR i (ps (vb p') v)).
    { intros v i Hv Hi L. pose proof (In1 v (mkpl2 RN i 1 (IZR (- fst cb i) * spacing d i)) Hv) as X.
      rewrite (proj1 (face_sdist d cb i _ Hi)) in X. enough (0 <= coordR i (ps (vb p') v) - spacing d i * IZR (fst cb i)) by lra.
      apply X. apply in_faces. exists i. auto. }
    assert (Up : forall v i, (0 <= v < nv p')%Z -> (0 <= i < 2)%Z -> (snd cb i < snd B i)%Z -> coordR i (ps (vb p') v) <= spacing d i * IZR (snd cb i)).
    { intros v i Hv Hi L. pose proof (In1 v (mkpl2 RN i (-1) (IZR (snd cb i) * spacing d i)) Hv) as X.
      rewrite (proj2 (face_sdist d cb i _ Hi)) in X. enough (0 <= spacing d i * IZR (snd cb i) - coordR i (ps (vb p') v)) by lra.
      apply X. apply in_faces. exists i. auto. }
    assert (Dp : forall i, (0 <= i < 2)%Z -> 0 <= spacing d i). { intros i Hi. destruct (slot2 i Hi); subst; auto. }
    assert (Mn : forall i a b, (0 <= i < 2)%Z -> (a <= b)%Z -> spacing d i * IZR a <= spacing d i * IZR b).
    { intros i a b Hi Hab. apply IZR_le in Hab. pose proof (Dp i Hi). nra. }
    assert (Wc : within d cb p').
    { intros v i Hv Hi. pose proof (Bd v i Hv Hi). split.
      - destruct (Z.lt_ge_cases (fst B i) (fst cb i)) as [L|L]; auto. pose proof (Mn i _ _ Hi L). lra.
      - destruct (Z.lt_ge_cases (snd cb i) (snd B i)) as [L|L]; auto. pose proof (Mn i _ _ Hi L). lra. }
    split; auto. intros v i Hv Hi. destruct (M i Hi) as (-> & ->). pose proof (Bd v i Hv Hi). pose proof (Wc v i Hv Hi). split.
    + destruct (Z.max_spec (fst B i) (fst cb i)) as [(_ & ->)|(_ & ->)]; lra.
    + destruct (Z.min_spec (snd B i) (snd cb i)) as [(_ & ->)|(_ & ->)]; lra.
  - rewrite (A2 O) in E. injection E as <- <-. split; [split; cbn; [lia|intros v Hv; cbn in Hv; lia]|]. split.
    + destruct Hw as (Hn & _). rn. cbn. lia.
    + split; [intros g Hg v Hv; cbn in Hv; lia|]. intros _. split; intros v i Hv; cbn in Hv; lia.
Qed.

(** a polygon already inside the clamp box is not touched *)
Lemma clamp_id MX (p : pol2) B cb (d : rvec2 R) : (forall i, 0 <= i < 2 -> - int_max <= fst cb i <= int_max)%Z ->
  wf2 p -> (nv p <= MX)%Z -> boxes_overlap B cb -> within d cb p ->
  exists B', r2d_clamp_ibox RN MX p B cb d = OK (p, B') /\ box_meet B cb B'.
Proof.
  intros Hcb Hw HM O Wi. destruct (clamp_cases RN MX p B cb d Hcb) as (A1 & _).
  destruct (A1 O) as (B1 & M & E1). rn. exists B1. split; auto. rewrite E1.
  rewrite (r2d_clip_inside_id MX _ p Hw HM); auto.
  intros v pl Hv Hp. apply in_faces in Hp as (i & Hi & [(_ & ->)|(_ & ->)]); pose proof (Wi v i Hv Hi).
  - rewrite (proj1 (face_sdist d cb i _ Hi)). lra.
  - rewrite (proj2 (face_sdist d cb i _ Hi)). lra.
Qed.

Lemma clamp_convex MX (p : pol2) B cb (d : rvec2 R) : (forall i, 0 <= i < 2 -> - int_max <= fst cb i <= int_max)%Z ->
  wf2 p -> convex2 p -> (nv p + 5 <= MX)%Z ->
  exists p' B', r2d_clamp_ibox RN MX p B cb d = OK (p', B') /\ convex2 p' /\ (nv p' <= nv p + 4)%Z.
Proof.
  intros Hcb Hw Hc HM. destruct (clamp_cases RN MX p B cb d Hcb) as (A1 & A2).
  destruct (overlap_dec B cb) as [(O & _)|(O & _)].
  - destruct (A1 O) as (B1 & M & E1). rn. set (fs := faces_of _ _ _ _ _ _) in E1.
    assert (FL : (length fs <= 4)%nat) by exact (faces_length d cb B). rn.
    destruct (r2d_clip_convex_room MX fs p Hw Hc) as (p' & E & C & L); [lia|]. rn.
    rewrite E in E1. exists p', B1. split; auto. split; auto. lia.
  - rewrite (A2 O). exists (PY (vb p) 0%Z), ((fun _ => 0%Z), (fun _ => 0%Z)). split; auto. split; [apply convex2_empty|]. destruct Hw as (Hn & _). rn. cbn. lia.
Qed.

(** ** get_ibox followed by rasterize *)
Lemma moment_on_line (p : pol2) pl i j : (vx (pn pl) <> 0 \/ vy (pn pl) <> 0) -> wf2 p ->
  (forall v, (0 <= v < nv p)%Z -> sdist pl (ps (vb p) v) = 0) -> moment2 p i j = 0.
Proof.
  intros Hnz (Hn & HL) H. unfold moment2.
  transitivity (lsum (zrange (nv p)) (fun v => Phi2 pl i j (ps (vb p) (nb (vb p) v 0%Z)) - Phi2 pl i j (ps (vb p) v))).
  - apply lsum_ext. intros v Hv. apply in_zrange in Hv. destruct (HL v Hv) as (A & _). apply (edge2_on pl Hnz); auto.
  - rewrite lsum_sub. rewrite (lsum_next p (fun v => Phi2 pl i j (ps (vb p) v)) HL). ring.
Qed.

Lemma rasterize_ibox MX sh po stk0 mom0 (p : pol2) B (gr gr' : Z -> R) d b0 : (0 <= po)%Z -> wf2 p -> (0 < nv p <= MX)%Z -> 0 < vx d -> 0 < vy d ->
  (forall v, (0 <= v < nv p)%Z -> -10 ^ 30 <= vx (ps (vb p) v) <= 10 ^ 30 /\ - 10 ^ 30 <= vy (ps (vb p) v) <= 10 ^ 30) ->
  (forall v, (0 <= v < nv p)%Z -> vx d * IZR int_min <= vx (ps (vb p) v) <= vx d * IZR int_max
     /\ vy d * IZR int_min <= vy (ps (vb p) v) <= vy d * IZR int_max) ->
  r2d_get_ibox RN MX p d b0 = OK B ->
  (snd B 0 - fst B 0 <= int_max)%Z -> (snd B 1 - fst B 1 <= int_max)%Z ->
  (num_moments2 po * ((snd B 0 - fst B 0) * (snd B 1 - fst B 1)) <= int_max)%Z ->
  r2d_rasterize RN MX sh po stk0 mom0 p B gr d = OK gr' ->
  forall i j, (i + j <= Z.to_nat po)%nat ->
   lsum (zrange ((snd B 0 - fst B 0) * (snd B 1 - fst B 1))%Z)
     (fun c => gr' (num_moments2 po * c + idx2 (Z.of_nat i) (Z.of_nat j))%Z - gr (num_moments2 po * c + idx2 (Z.of_nat i) (Z.of_nat j))%Z)
   = moment2 p i j.
Proof.
  intros Hpo Hw Hp Hx Hy H30 HR Eb S0 S1 S2 E i j Hij. rn.
  destruct (r2d_get_ibox_min MX p d b0 Hp Hx Hy H30 HR) as (B' & Eb' & Rg & Cov & _). rn.
  rewrite Eb in Eb'. injection Eb' as <-.
  pose proof (Rg 0%Z ltac:(lia)) as R0. pose proof (Rg 1%Z ltac:(lia)) as R1.
  destruct (Z.eq_dec (fst B 0%Z) (snd B 0%Z)) as [D0|D0]; [|destruct (Z.eq_dec (fst B 1%Z) (snd B 1%Z)) as [D1|D1]].
  - assert (X : r2d_rasterize RN MX sh po stk0 mom0 p B gr d = OK gr).
    { apply rasterize_nobox; [|exists 0%Z; lia]. intros a Ha. destruct (slot2 a Ha); subst; unfold int_min, int_max in *; lia. }
    rn. rewrite X in E. injection E as <-. rewrite D0, Z.sub_diag. cbn [Z.mul]. change (zrange 0) with (@nil Z). cbn [lsum]. symmetry.
    apply (moment_on_line p (axis_plane 0 (vx d * IZR (fst B 0%Z)))); auto; [left; cbn; lra|].
    intros v Hv. rewrite axis_sdist. destruct (Cov v Hv) as (C & _). unfold coordR. cbn. rewrite <- D0 in C. lra.
  - assert (X : r2d_rasterize RN MX sh po stk0 mom0 p B gr d = OK gr).
    { apply rasterize_nobox; [|exists 1%Z; lia]. intros a Ha. destruct (slot2 a Ha); subst; unfold int_min, int_max in *; lia. }
    rn. rewrite X in E. injection E as <-. rewrite D1, Z.sub_diag, Z.mul_0_r. change (zrange 0) with (@nil Z). cbn [lsum]. symmetry.
    apply (moment_on_line p (axis_plane 1 (vy d * IZR (fst B 1%Z)))); auto; [right; cbn; lra|].
    intros v Hv. rewrite axis_sdist. destruct (Cov v Hv) as (_ & C). unfold coordR. cbn. rewrite <- D1 in C. lra.
  - apply (rasterize_conservative MX sh po stk0 mom0 p B gr gr' d); auto; [lia|].
    split; auto. intros a Ha. destruct (slot2 a Ha); subst; lia.
Qed.

Lemma clamp_box (NN : num) MX (p p' : poly (rvec2 (T NN))) B cb B' d : (forall i, 0 <= i < 2 -> - int_max <= fst cb i <= int_max)%Z ->
  r2d_clamp_ibox NN MX p B cb d = OK (p', B') ->
  ((forall i, 0 <= i < 2 -> fst cb i < snd B i /\ fst B i < snd cb i) ->
     forall i, 0 <= i < 2 -> fst B' i = Z.max (fst B i) (fst cb i) /\ snd B' i = Z.min (snd B i) (snd cb i))%Z
  /\ (~ (forall i, 0 <= i < 2 -> fst cb i < snd B i /\ fst B i < snd cb i) ->
     p' = PY (vb p) 0 /\ forall i, 0 <= i < 2 -> fst B' i = 0 /\ snd B' i = 0)%Z.
Proof.
  intros Hcb E. destruct (clamp_cases NN MX p B cb d Hcb) as (A1 & A2). split; intros O.
  - destruct (A1 O) as (B1 & M & E1). rewrite E in E1. destruct (r2d_clip NN MX p _) as [q|e]; cbn [bind] in E1; [|discriminate].
    apply (f_equal (fun r => match r with OK x => snd x | Err _ => B' end)) in E1. cbn in E1. subst. exact M.
  - rewrite (A2 O) in E. injection E as <- <-. split; auto.
Qed.

(** ** The unit square *)
Lemma sq_convex2 : convex2 sq.
Proof.
  apply convex2_parallelogram; [reflexivity| | |].
  - intros v Hv. assert (C : (v = 0 \/ v = 1 \/ v = 2 \/ v = 3)%Z) by lia. destruct C as [->|[->|[->| ->]]]; split; reflexivity.
  - cbn. ring.
  - cbn. ring.
Qed.
Lemma sq_pos v : (0 <= v < nv sq)%Z -> 0 <= vx (ps (vb sq) v) <= 1 /\ 0 <= vy (ps (vb sq) v) <= 1.
Proof.
  intros Hv. cbn [nv sq] in Hv. assert (C : (v = 0 \/ v = 1 \/ v = 2 \/ v = 3)%Z) by (cbn in Hv; lia).
  destruct C as [->|[->|[->| ->]]]; cbn; lra.
Qed.
Lemma sq_within3 : within (V2 (1/2) (1/3)) ((fun _ => (-1)%Z), (fun _ => 3%Z)) sq.
Proof. intros v i Hv Hi. destruct (sq_pos v Hv). destruct (slot2 i Hi); subst; unfold spacing, coordR; cbn [fst snd vx vy Z.eqb Pos.eqb]; lra. Qed.
Lemma sq_range v : (0 <= v < nv sq)%Z -> 1 / 2 * IZR int_min <= vx (ps (vb sq) v) <= 1 / 2 * IZR int_max.
Proof. intros Hv. destruct (sq_pos v Hv). unfold int_min, int_max. cbn [Z.opp Z.pow Z.sub]. lra. Qed.
