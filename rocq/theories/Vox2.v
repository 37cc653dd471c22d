(** * Vox2: r2d_rasterize, from the generic traversal and r2d_split_coord. *)
From Coq Require Import Reals ZArith List Bool Lia Lra Permutation.
From Verif Require Import Base Lib ModelCommon CommonFacts Model2 ModelV Spec2 Struct2 Clip2 HPoly HShift HInt
  RealNum SumR Reduce2 Spec2R Mom2 Cons2 Shift2 Glue2 VoxFacts Convex2.
Import ListNotations.
Open Scope Z_scope.

(** number of cells along an axis *)
Definition cells_ok (nmom : Z) (B : box) : Prop :=
  (forall i, 0 <= i < 2 -> int_min <= fst B i /\ fst B i < snd B i /\ snd B i <= int_max /\ snd B i - fst B i <= int_max)
  /\ nmom * ((snd B 0 - fst B 0) * (snd B 1 - fst B 1)) <= int_max.

(** row-major position of cell [c] *)
Definition cell2 (B : box) (c : Z -> Z) : Z := (c 0 - fst B 0) * (snd B 1 - fst B 1) + (c 1 - fst B 1).

Lemma vol2 B : vol 2 B = (snd B 0 - fst B 0) * (snd B 1 - fst B 1).
Proof. unfold vol. change (zrange 2) with [0; 1]. cbn [prodl]. unfold size. ring. Qed.

Lemma cell2_range B c : (forall i, 0 <= i < 2 -> fst B i <= c i < snd B i) -> 0 <= cell2 B c < vol 2 B.
Proof. intros H. rewrite vol2. unfold cell2. pose proof (H 0 ltac:(lia)). pose proof (H 1 ltac:(lia)). nia. Qed.
Lemma cell2_inj B c c' : (forall i, 0 <= i < 2 -> fst B i <= c i < snd B i) -> (forall i, 0 <= i < 2 -> fst B i <= c' i < snd B i) ->
  cell2 B c = cell2 B c' -> forall i, 0 <= i < 2 -> c i = c' i.
Proof.
  intros H H' E i Hi. unfold cell2 in E.
  pose proof (H 0 ltac:(lia)). pose proof (H 1 ltac:(lia)). pose proof (H' 0 ltac:(lia)). pose proof (H' 1 ltac:(lia)).
  set (w := snd B 1 - fst B 1) in *. assert (0 < w) by lia.
  assert (c 0 = c' 0) by nia. destruct (slot2 i Hi); subst; nia.
Qed.
Lemma gind2_ok nmom B g c m : cells_ok nmom B -> (forall i, 0 <= i < 2 -> g i = size B i) ->
  (forall i, 0 <= i < 2 -> fst B i <= c i < snd B i) -> 0 <= m < nmom ->
  gind2 nmom g (fst B) c m = OK (nmom * cell2 B c + m).
Proof.
  intros (HB & HG) Hg H Hm. pose proof (H 0 ltac:(lia)). pose proof (H 1 ltac:(lia)).
  pose proof (HB 0 ltac:(lia)). pose proof (HB 1 ltac:(lia)).
  pose proof (cell2_range B c H) as R. rewrite vol2 in R. unfold cell2 in *. unfold gind2. rewrite (Hg 1) by lia. unfold size.
  set (w := snd B 1 - fst B 1) in *. set (h := snd B 0 - fst B 0) in *. set (x := c 0 - fst B 0) in *. set (y := c 1 - fst B 1) in *.
  assert (0 <= x < h /\ 0 <= y < w) by (unfold x, y, h, w; lia).
  assert (int_min <= 0) by (unfold int_min; lia).
  assert (0 <= x * w <= h * w) by nia. assert (h * w <= nmom * (h * w)) by nia.
  assert (nmom * (x * w + y) + m < nmom * (h * w)) by nia. assert (0 <= nmom * (x * w + y)) by nia.
  rewrite (int32_ok x) by nia. cbn [bind]. rewrite (int32_ok (x * w)) by nia. cbn [bind].
  rewrite (int32_ok y) by nia. cbn [bind]. rewrite (int32_ok (x * w + y)) by nia. cbn [bind].
  rewrite (int32_ok (nmom * (x * w + y))) by nia. cbn [bind]. apply int32_ok. nia.
Qed.

Section Any.
Context (NN : num) (MX : Z).
Notation pol := (poly (rvec2 (T NN))).

(** polygons obtained from [p] by successive coordinate splits *)
Inductive piece (p : pol) : pol -> Prop :=
| piece_refl : piece p p
| piece_left q o c a q0 q1 : piece p q -> 0 <= a < 2 -> r2d_split_coord NN MX q o c a = OK (q0, q1) -> piece p q0
| piece_right q o c a q0 q1 : piece p q -> 0 <= a < 2 -> r2d_split_coord NN MX q o c a = OK (q0, q1) -> piece p q1.

(** splitting [q] at some coordinate needs more than [MX] vertices *)
Definition overflows (q : pol) : Prop := exists c a, 0 <= a < 2 /\
  MX < nv q + 2 * exits 2 (fun v => negb (cright NN c a (vb q) v)) (nb (vb q)) (nv q).

Lemma split_coord_cases (p o : pol) c a : wf2 p -> nv p <= MX -> 0 < nv p -> 0 <= a < 2 ->
  (exists q0 q1, r2d_split_coord NN MX p o c a = OK (q0, q1) /\ wf2 q0 /\ wf2 q1 /\ nv q0 <= MX /\ nv q1 <= MX
     /\ (good2 p -> good2 q0 /\ good2 q1))
  \/ (r2d_split_coord NN MX p o c a = Err OutOfBounds /\ overflows p).
Proof.
  intros Hw HM Hp Ha. pose proof Hw as (Hn & HL).
  assert (W0 : forall b : vbuf (rvec2 (T NN)), good2 (PY b 0)).
  { intros b. split; [split; [cbn; lia|]|]; intros v Hv; cbn in Hv; lia. }
  destruct (split_coord_spec NN MX p o c a Hw HM Ha) as [(H0 & E')|[(H0 & A & E')|[(H0 & A & E')|(u & v & Hu & Hv & Ru & Rv & [(q0 & q1 & E' & S)|(E' & O)])]]];
    [lia| | | |].
  - left. exists p, (PY (vb o) 0). split; auto. split; auto. split; [apply W0|]. split; auto. split; [cbn; lia|]. auto.
  - left. exists (PY (vb p) 0), p. split; auto. split; [apply W0|]. split; auto. split; [cbn; lia|]. split; auto.
  - left. exists q0, q1. split; auto. destruct (split_result_wf NN MX p _ _ q0 q1 Hw S) as (X0 & X1 & _ & X2 & X3).
    pose proof X0 as (Y0 & _). pose proof X1 as (Y1 & _). split; auto. split; auto. split; [lia|]. split; [lia|].
    intros (_ & G). destruct (X3 G). split; split; auto.
  - right. split; auto. exists c, a. auto.
Qed.

(** the additions made by [r2d_rasterize], as a list of (cell, polygon) *)
Definition raster_result (po : Z) (p : pol) (B : box) (d : rvec2 (T NN)) (gr gr' : Z -> T NN) (l : list (box * pol)) sh : Prop :=
  rast NN 2 nv (r2d_split_coord NN MX) (fun i => if i =? 0 then vx d else vy d) p B l
  /\ NoDup (map (fun x => cell2 B (fst (fst x))) l)
  /\ gridded NN (fun p mom => r2d_reduce NN MX sh p mom po) (num_moments2 po) (cell2 B) l gr gr'.

Lemma num_moments2_pos po : 0 <= po -> 1 <= num_moments2 po.
Proof. intros. unfold num_moments2. apply Z.div_le_lower_bound; nia. Qed.

Lemma rasterize_main (Inv : Z -> pol -> Prop) (Bad : pol -> Prop) sh po stk0 mom0 (p : pol) B gr d : 0 <= po ->
  (forall k k' p, k' <= k -> Inv k p -> Inv k' p) ->
  (forall k p o c a, 1 <= k -> Inv k p -> 0 < nv p -> 0 <= a < 2 ->
    (exists q0 q1, r2d_split_coord NN MX p o c a = OK (q0, q1) /\ Inv (k - 1) q0 /\ Inv (k - 1) q1)
    \/ (r2d_split_coord NN MX p o c a = Err OutOfBounds /\ Bad p)) ->
  (forall k p mom, Inv k p -> 0 < nv p -> exists mom', r2d_reduce NN MX sh p mom po = OK mom') ->
  cells_ok (num_moments2 po) B -> Inv (depth 2 B) p -> 0 < nv p ->
  (exists gr' l, r2d_rasterize NN MX sh po stk0 mom0 p B gr d = OK gr' /\ raster_result po p B d gr gr' l sh)
  \/ (r2d_rasterize NN MX sh po stk0 mom0 p B gr d = Err OutOfBounds
      /\ exists k q, Inv k q /\ 0 < nv q /\ Bad q).
Proof.
  intros Hpo M S Rd HB HI Hp. pose proof HB as (HB1 & HB2). pose proof (num_moments2_pos po Hpo).
  destruct (voxelize_spec NN 2 ltac:(lia) nv (r2d_split_coord NN MX) (fun p mom => r2d_reduce NN MX sh p mom po)
     (num_moments2 po) ltac:(lia) (gind2 (num_moments2 po)) (fun i => if i =? 0 then vx d else vy d) Inv Bad M S Rd B (cell2 B))
    with (stk0 := stk0) (mom0 := mom0) (p := p) (gr := gr)
    as [(gr' & l & E & X1 & X2 & X3)|(E & k & q & o & co & a & X1 & X2 & X3 & X4 & X5)]; auto.
  - intros i Hi. pose proof (HB1 i Hi). lia.
  - intros i Hi. pose proof (HB1 i Hi). lia.
  - intros. now apply gind2_ok.
  - apply cell2_range.
  - apply cell2_inj.
  - left. exists gr', l. split; [exact E|]. split; auto.
  - right. split; [exact E|]. exists k, q. auto.
Qed.

Lemma rasterize_any po stk0 mom0 (p : pol) B gr d : 0 <= po -> wf2 p -> 0 < nv p <= MX -> cells_ok (num_moments2 po) B ->
  (exists gr' l, r2d_rasterize NN MX false po stk0 mom0 p B gr d = OK gr' /\ raster_result po p B d gr gr' l false)
  \/ (r2d_rasterize NN MX false po stk0 mom0 p B gr d = Err OutOfBounds
      /\ exists q, piece p q /\ wf2 q /\ 0 < nv q <= MX /\ overflows q).
Proof.
  intros Hpo Hw Hp HB.
  destruct (rasterize_main (fun _ q => wf2 q /\ nv q <= MX /\ piece p q) overflows false po stk0 mom0 p B gr d)
    as [?|(E & k & q & (X1 & X2 & X3) & X4 & X5)]; auto.
  - intros k q o c a Hk (X1 & X2 & X3) X4 Ha.
    destruct (split_coord_cases q o c a X1 X2 X4 Ha) as [(q0 & q1 & E & Y1 & Y2 & Y3 & Y4 & _)|?]; [left|auto].
    exists q0, q1. split; auto. split; [split; auto; split; auto|split; auto; split; auto].
    + eapply piece_left; eauto. + eapply piece_right; eauto.
  - intros k q mom (X1 & X2 & X3) X4. destruct (r2d_reduce_fills NN MX po q mom Hpo X1 X2) as (m & E & _). eauto.
  - split; auto. split; [lia|constructor].
  - lia.
  - right. split; auto. exists q. auto 10.
Qed.

(** empty polygon or empty box: nothing happens *)
Lemma rasterize_empty sh po stk0 mom0 (p : pol) B gr d : nv p <= 0 ->
  (forall i, 0 <= i < 2 -> int_min <= snd B i - fst B i <= int_max) ->
  r2d_rasterize NN MX sh po stk0 mom0 p B gr d = OK gr.
Proof.
  intros Hp HB. unfold r2d_rasterize, voxelize. destruct (gridsz_spec 2 ltac:(lia) B HB) as (g & E & _). rewrite E. cbn [bind].
  destruct (Z.leb_spec (nv p) 0); [reflexivity|lia].
Qed.
End Any.

(** ** Real arithmetic *)
Open Scope R_scope.

Definition spacing (d : rvec2 R) (i : Z) : R := if (i =? 0)%Z then vx d else vy d.
(** every vertex inside the closed box of cells [b] *)
Definition within (d : rvec2 R) (b : box) (p : pol2) : Prop :=
  forall v i, (0 <= v < nv p)%Z -> (0 <= i < 2)%Z ->
    spacing d i * IZR (fst b i) <= coordR i (ps (vb p) v) <= spacing d i * IZR (snd b i).
(** every half-plane containing [p] contains [q] *)
Definition hull_sub (p q : pol2) : Prop :=
  forall g, (forall v, (0 <= v < nv p)%Z -> 0 <= sdist g (ps (vb p) v)) ->
    forall v, (0 <= v < nv q)%Z -> 0 <= sdist g (ps (vb q) v).

Lemma rast_R MX d (p : pol2) b l :
  rast RN 2 nv (r2d_split_coord RN MX) (fun i => if (i =? 0)%Z then vx d else vy d) p b l ->
  wf2 p -> (nv p <= MX)%Z ->
  (forall i j, lsum l (fun x => moment2 (snd x) i j) = moment2 p i j)
  /\ (forall x, In x l -> wf2 (snd x) /\ (nv (snd x) <= MX)%Z /\ hull_sub p (snd x))
  /\ (within d b p -> forall x, In x l -> within d (fst x) (snd x)).
Proof.
  induction 1 as [p b H0|p b H0 H1|p b o a m q0 q1 l0 l1 H0 Ha Hm Hs R0 IH0 R1 IH1]; intros Hw HM.
  - destruct Hw as (Hn & _). rn. assert (E : nv p = 0%Z) by lia. split; [|split].
    + intros i j. unfold moment2. rewrite E. reflexivity.
    + intros x [].
    + intros _ x [].
  - split; [|split].
    + intros. cbn. ring.
    + intros x [<-|[]]. cbn [snd]. split; auto. split; auto. intros g Hg v Hv. auto.
    + intros Wi x [<-|[]]. exact Wi.
  - rn. assert (Hcase : nv o = 0%Z \/ (0 < nv p)%Z) by auto.
    destruct (split_coord_R MX p o q0 q1 _ a Hw HM Ha Hcase Hs) as (W0 & W1 & M0 & M1 & Mo & C0 & C1 & Hh).
    destruct (IH0 W0 M0) as (A0 & B0 & D0). destruct (IH1 W1 M1) as (A1 & B1 & D1).
    split; [|split].
    + intros i j. rewrite lsum_app, A0, A1, <- (Mo i j). ring.
    + intros x Hx. apply in_app_or in Hx as [Hx|Hx].
      * destruct (B1 x Hx) as (Y1 & Y2 & Y3). split; auto. split; auto. intros g Hg. apply Y3. apply Hh. auto.
      * destruct (B0 x Hx) as (Y1 & Y2 & Y3). split; auto. split; auto. intros g Hg. apply Y3. apply Hh. auto.
    + intros Wi.
      (* coordinate bounds as half-planes *)
      assert (LO : forall q, (forall g, (forall v, (0 <= v < nv p)%Z -> 0 <= sdist g (ps (vb p) v)) ->
                forall v, (0 <= v < nv q)%Z -> 0 <= sdist g (ps (vb q) v)) -> within d b q).
      { intros q Hq v i Hv Hi. split.
        - pose proof (Hq (axis_plane i (spacing d i * IZR (fst b i)))) as X. 
          assert (0 <= sdist (axis_plane i (spacing d i * IZR (fst b i))) (ps (vb q) v)) as Y.
          { apply X; auto. intros u Hu. rewrite axis_sdist. pose proof (Wi u i Hu Hi). lra. }
          rewrite axis_sdist in Y. lra.
        - pose proof (Hq (flip (axis_plane i (spacing d i * IZR (snd b i))))) as X. 
          assert (0 <= sdist (flip (axis_plane i (spacing d i * IZR (snd b i)))) (ps (vb q) v)) as Y.
          { apply X; auto. intros u Hu. rewrite sdist_flip, axis_sdist. pose proof (Wi u i Hu Hi). lra. }
          rewrite sdist_flip, axis_sdist in Y. lra. }
      pose proof (LO q0 (fun g Hg => proj1 (Hh g Hg))) as Z0. pose proof (LO q1 (fun g Hg => proj2 (Hh g Hg))) as Z1.
      assert (V0 : within d (fst b, upd (snd b) a m) q0).
      { intros v i Hv Hi. pose proof (Z0 v i Hv Hi). cbn [fst snd]. destruct (Z.eq_dec i a) as [->|Ne].
        - rewrite upd_eq. pose proof (C0 v Hv) as Y. unfold spacing in *. cbn in Y. split; [lra|exact Y].
        - rewrite upd_neq by auto. auto. }
      assert (V1 : within d (upd (fst b) a m, snd b) q1).
      { intros v i Hv Hi. pose proof (Z1 v i Hv Hi). cbn [fst snd]. destruct (Z.eq_dec i a) as [->|Ne].
        - rewrite upd_eq. pose proof (C1 v Hv) as Y. unfold spacing in *. cbn in Y. split; [exact Y|lra].
        - rewrite upd_neq by auto. auto. }
      intros x Hx. apply in_app_or in Hx as [Hx|Hx]; auto.
Qed.

(** what the code computes for one polygon *)
Lemma reduce_both MX sh po (p : pol2) (mom : Z -> R) : (0 <= po)%Z -> wf2 p -> (nv p <= MX)%Z ->
  exists mom', r2d_reduce RN MX sh p mom po = OK mom'
  /\ forall i j, (i + j <= Z.to_nat po)%nat -> mom' (idx2 (Z.of_nat i) (Z.of_nat j)) = moment2 p i j.
Proof.
  intros Hpo Hw HM. destruct sh.
  - destruct (reduce_shift_moment2 MX p mom po Hpo Hw HM) as (m & E & A & _). eauto.
  - destruct (reduce_moment2 MX p mom po Hpo Hw HM) as (m & E & A & _). eauto.
Qed.

(** sum over a set of positions of a function vanishing outside a list *)
Lemma lsum_cells {A} (l : list A) (c : A -> Z) n (f : Z -> R) : NoDup (map c l) -> (forall x, In x l -> (0 <= c x < n)%Z) ->
  (forall k, (0 <= k < n)%Z -> ~ In k (map c l) -> f k = 0) ->
  lsum (zrange n) f = lsum l (fun x => f (c x)).
Proof.
  intros ND Hr H0. transitivity (lsum (map c l) f); [|apply lsum_map].
  rewrite (lsum_split (fun k => if in_dec Z.eq_dec k (map c l) then true else false) (zrange n)).
  rewrite (lsum_0 (filter (fun k => negb _) _)).
  2: { intros k Hk. apply filter_In in Hk as (Hk & X). apply in_zrange in Hk. apply H0; auto.
       destruct (in_dec Z.eq_dec k (map c l)); auto; discriminate. }
  rewrite Rplus_0_r. apply lsum_perm. apply NoDup_Permutation; auto.
  - apply NoDup_filter, NoDup_zrange.
  - intros k. rewrite filter_In, in_zrange. destruct (in_dec Z.eq_dec k (map c l)) as [I|I]; split; intros X; try tauto; try easy.
    split; auto. apply in_map_iff in I as (x & <- & Hx). auto.
Qed.

Lemma raster_conserves MX sh po (p : pol2) B (d : rvec2 R) (gr gr' : Z -> R) (l : list (box * pol2)) : (0 <= po)%Z -> wf2 p -> (nv p <= MX)%Z -> cells_ok (num_moments2 po) B ->
  raster_result RN MX po p B d gr gr' l sh ->
  forall i j, (i + j <= Z.to_nat po)%nat ->
   lsum (zrange ((snd B 0%Z - fst B 0%Z) * (snd B 1%Z - fst B 1%Z)))
     (fun c => gr' (num_moments2 po * c + idx2 (Z.of_nat i) (Z.of_nat j))%Z - gr (num_moments2 po * c + idx2 (Z.of_nat i) (Z.of_nat j))%Z)
   = moment2 p i j.
Proof.
  intros Hpo Hw HM HB (Rt & ND & (G1 & G2)) i j Hij. rn.
  destruct (rast_R MX d p B l Rt Hw HM) as (A & Bx & _). rewrite <- (A i j).
  pose proof HB as (HB1 & _).
  assert (Pr : proper 2 B). { intros a Ha. pose proof (HB1 a Ha). lia. }
  pose proof (rast_leaves RN 2 nv _ _ p B l Rt Pr) as Lv. rewrite Forall_forall in Lv.
  assert (Ix : (0 <= idx2 (Z.of_nat i) (Z.of_nat j) < num_moments2 po)%Z).
  { destruct (moment_slots po Hpo) as (M1 & _). apply M1; lia. }
  rewrite <- vol2.
  rewrite (lsum_cells l (fun x => cell2 B (fst (fst x))) (vol 2 B)); auto.
  - apply lsum_ext. intros x Hx. destruct (G1 x Hx) as (m0 & mom & E & F). rn. rewrite F by auto.
    destruct (Bx x Hx) as (W & M & _). destruct (reduce_both MX sh po (snd x) m0 Hpo W M) as (mom' & E' & F').
    rn. rewrite E in E'. injection E' as ->. rewrite F' by auto. cbn. ring.
  - intros x Hx. destruct (Lv x Hx) as (S & _ & U). apply cell2_range. intros k Hk. pose proof (S k Hk). pose proof (U k Hk). lia.
  - intros k Hk Hni. rewrite G2; [ring|]. intros x Hx X. apply Hni. apply in_map_iff. exists x. split; auto.
    pose proof (num_moments2_pos po Hpo). nia.
Qed.

Lemma rasterize_R MX sh po stk0 mom0 (p : pol2) B gr d : (0 <= po)%Z -> wf2 p -> (0 < nv p <= MX)%Z -> cells_ok (num_moments2 po) B ->
  (exists gr' l, r2d_rasterize RN MX sh po stk0 mom0 p B gr d = OK gr' /\ raster_result RN MX po p B d gr gr' l sh)
  \/ (r2d_rasterize RN MX sh po stk0 mom0 p B gr d = Err OutOfBounds
      /\ exists q, piece RN MX p q /\ wf2 q /\ (0 < nv q <= MX)%Z /\ overflows RN MX q).
Proof.
  intros Hpo Hw Hp HB.
  destruct (rasterize_main RN MX (fun _ q => wf2 q /\ (nv q <= MX)%Z /\ piece RN MX p q) (overflows RN MX) sh po stk0 mom0 p B gr d)
    as [?|(E & k & q & (X1 & X2 & X3) & X4 & X5)]; auto.
  - intros k q o c a Hk (X1 & X2 & X3) X4 Ha.
    destruct (split_coord_cases RN MX q o c a X1 X2 X4 Ha) as [(q0 & q1 & E & Y1 & Y2 & Y3 & Y4 & _)|?]; [left|auto].
    exists q0, q1. split; auto. split; [split; auto; split; auto|split; auto; split; auto].
    + eapply piece_left; eauto. + eapply piece_right; eauto.
  - intros k q mom (X1 & X2 & X3) X4. destruct (reduce_both MX sh po q mom Hpo X1 X2) as (m & E & _). eauto.
  - split; auto. split; [rn; lia|constructor].
  - rn; lia.
  - right. split; auto. exists q. auto 10.
Qed.

Lemma rasterize_convex MX sh po stk0 mom0 (p : pol2) B gr d : (0 <= po)%Z -> wf2 p -> convex2 p -> (0 < nv p)%Z ->
  (nv p + depth 2 B + 3 <= MX)%Z -> cells_ok (num_moments2 po) B ->
  exists gr' l, r2d_rasterize RN MX sh po stk0 mom0 p B gr d = OK gr' /\ raster_result RN MX po p B d gr gr' l sh.
Proof.
  intros Hpo Hw Hc Hp HM HB.
  destruct (rasterize_main RN MX (fun k q => wf2 q /\ convex2 q /\ (nv q <= MX)%Z /\ (nv q + k + 3 <= MX)%Z) (fun _ => False) sh po stk0 mom0 p B gr d)
    as [?|(E & k & q & _ & _ & [])]; auto.
  - intros k k' q Hk (X1 & X2 & X0 & X3). split; auto. split; auto. rn. lia.
  - intros k q o c a Hk (X1 & X2 & X0 & X3) X4 Ha. left. rn.
    destruct (split_coord_convex MX q o c a X1 X2 X4 ltac:(lia) Ha) as (q0 & q1 & E & Y1 & Y2 & Y3 & Y4 & Y5 & Y6).
    exists q0, q1. split; auto. rn. split; (split; [auto|split; [auto|rn; lia]]).
  - intros k q mom (X1 & X2 & X0 & X3) X4. rn.
    destruct (reduce_both MX sh po q mom Hpo X1 X0) as (m & E & _). eauto.
  - split; auto. split; auto. pose proof (depth_nonneg 2 B). rn. lia.
Qed.
