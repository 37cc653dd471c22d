(** * Vox3: r3d_voxelize, from the generic traversal and r3d_split_coord. *)
From Verif Require Vox2.
From Coq Require Import Reals ZArith List Bool Lia Lra Permutation.
From Verif Require Import Base Lib ModelCommon CommonFacts Model3 ModelV ModelV3 Spec2 Spec3 Orb3 Cut3 Struct3 Clip3 FaceSpec3 HPoly HShift HInt
  RealNum SumR Reduce3 Spec3R Mom3 Geo3 Cons3 Shift3 Grow3 Glue3 VoxFacts.
Import ListNotations.
Open Scope Z_scope.

(** number of cells along each axis, and the entries of the grid, fit in [int] *)
Definition cells3_ok (nmom : Z) (B : box) : Prop :=
  (forall i, 0 <= i < 3 -> int_min <= fst B i /\ fst B i < snd B i /\ snd B i <= int_max /\ snd B i - fst B i <= int_max)
  /\ nmom * ((snd B 0 - fst B 0) * (snd B 1 - fst B 1) * (snd B 2 - fst B 2)) <= int_max.

(** row-major position of cell [c] *)
Definition cell3 (B : box) (c : Z -> Z) : Z :=
  ((c 0 - fst B 0) * (snd B 1 - fst B 1) + (c 1 - fst B 1)) * (snd B 2 - fst B 2) + (c 2 - fst B 2).

Lemma vol3 B : vol 3 B = (snd B 0 - fst B 0) * (snd B 1 - fst B 1) * (snd B 2 - fst B 2).
Proof. unfold vol. change (zrange 3) with [0; 1; 2]. cbn [prodl]. unfold size. ring. Qed.
Lemma cell_step a b x y : 0 <= x < a -> 0 <= y < b -> 0 <= x * b + y < a * b.
Proof. nia. Qed.
Lemma cell_step_inj b x y x' y' : 0 <= y < b -> 0 <= y' < b -> x * b + y = x' * b + y' -> x = x' /\ y = y'.
Proof. intros. assert (x = x') by nia. subst. lia. Qed.

Lemma cell3_range B c : (forall i, 0 <= i < 3 -> fst B i <= c i < snd B i) -> 0 <= cell3 B c < vol 3 B.
Proof.
  intros H. rewrite vol3. unfold cell3. pose proof (H 0 ltac:(lia)). pose proof (H 1 ltac:(lia)). pose proof (H 2 ltac:(lia)).
  apply cell_step; [apply cell_step|]; lia.
Qed.
Lemma cell3_inj B c c' : (forall i, 0 <= i < 3 -> fst B i <= c i < snd B i) -> (forall i, 0 <= i < 3 -> fst B i <= c' i < snd B i) ->
  cell3 B c = cell3 B c' -> forall i, 0 <= i < 3 -> c i = c' i.
Proof.
  intros H H' E i Hi. unfold cell3 in E.
  pose proof (H 0 ltac:(lia)). pose proof (H 1 ltac:(lia)). pose proof (H 2 ltac:(lia)).
  pose proof (H' 0 ltac:(lia)). pose proof (H' 1 ltac:(lia)). pose proof (H' 2 ltac:(lia)).
  apply cell_step_inj in E as (E & E2); [|lia|lia]. apply cell_step_inj in E as (E0 & E1); [|lia|lia].
  destruct (slot3 i Hi) as [->|[->| ->]]; lia.
Qed.
Lemma gind3_ok nmom B g c m : cells3_ok nmom B -> (forall i, 0 <= i < 3 -> g i = size B i) ->
  (forall i, 0 <= i < 3 -> fst B i <= c i < snd B i) -> 0 <= m < nmom ->
  gind3 nmom g (fst B) c m = OK (nmom * cell3 B c + m).
Proof.
  intros (HB & HG) Hg H Hm. pose proof (H 0 ltac:(lia)). pose proof (H 1 ltac:(lia)). pose proof (H 2 ltac:(lia)).
  pose proof (HB 0 ltac:(lia)). pose proof (HB 1 ltac:(lia)). pose proof (HB 2 ltac:(lia)).
  pose proof (cell3_range B c H) as R. rewrite vol3 in R. unfold cell3 in *. unfold gind3. rewrite (Hg 1), (Hg 2) by lia. unfold size.
  set (w := snd B 2 - fst B 2) in *. set (k := snd B 1 - fst B 1) in *. set (h := snd B 0 - fst B 0) in *.
  set (x := c 0 - fst B 0) in *. set (y := c 1 - fst B 1) in *. set (z := c 2 - fst B 2) in *.
  assert (0 <= x < h /\ 0 <= y < k /\ 0 <= z < w) as (Hx & Hy & Hz) by (unfold x, y, z, h, k, w; lia).
  assert (int_min <= 0) by (unfold int_min; lia).
  assert (A1 : x * k + y + 1 <= h * k) by (pose proof (cell_step h k x y Hx Hy); lia).
  assert (A2 : 0 <= x * k /\ 0 <= y * w) by nia.
  assert (A3 : 0 <= x * k * w) by nia.
  assert (A4 : (x * k + y) * w + z = x * k * w + y * w + z) by ring. rewrite A4 in *.
  assert (A5 : h * k * w <= int_max) by nia.
  assert (A6 : nmom * (x * k * w + y * w + z) + m < nmom * (h * k * w)) by nia.
  assert (A7 : 0 <= nmom * (x * k * w + y * w + z)) by nia.
  assert (A8 : x * k <= x * k * w) by nia.
  rewrite (int32_ok x) by lia. cbn [bind]. rewrite (int32_ok (x * k)) by lia. cbn [bind].
  rewrite (int32_ok (x * k * w)) by lia. cbn [bind].
  rewrite (int32_ok y) by lia. cbn [bind]. rewrite (int32_ok (y * w)) by lia. cbn [bind].
  rewrite (int32_ok (x * k * w + y * w)) by lia. cbn [bind]. rewrite (int32_ok z) by lia. cbn [bind].
  rewrite (int32_ok (x * k * w + y * w + z)) by lia. cbn [bind].
  rewrite (int32_ok (nmom * _)) by lia. cbn [bind]. apply int32_ok. lia.
Qed.

Section Any.
Context (NN : num) (MX : Z).
Notation pol := (poly (rvec3 (T NN))).

(** polygons obtained from [p] by successive coordinate splits *)
Inductive piece (p : pol) : pol -> Prop :=
| piece_refl : piece p p
| piece_left q o c a q0 q1 : piece p q -> 0 <= a < 3 -> r3d_split_coord NN MX q o c a = OK (q0, q1) -> piece p q0
| piece_right q o c a q0 q1 : piece p q -> 0 <= a < 3 -> r3d_split_coord NN MX q o c a = OK (q0, q1) -> piece p q1.

(** splitting [q] at some coordinate needs more than [MX] vertices *)
Definition overflows (q : pol) : Prop := exists c a, 0 <= a < 3 /\
  MX < nv q + 2 * exits 3 (fun v => negb (cright3 NN c a (vb q) v)) (nb (vb q)) (nv q).

Lemma split_coord_cases (p o : pol) c a : wf3 p -> nv p <= MX -> 0 < nv p -> 0 <= a < 3 ->
  (exists q0 q1, r3d_split_coord NN MX p o c a = OK (q0, q1) /\ wf3 q0 /\ wf3 q1 /\ nv q0 <= MX /\ nv q1 <= MX
     /\ nv q0 <= 2 * nv p /\ nv q1 <= 2 * nv p)
  \/ (r3d_split_coord NN MX p o c a = Err OutOfBounds /\ overflows p).
Proof.
  intros Hw HM Hp Ha. pose proof Hw as (Hn & HL & _).
  assert (W0 : forall b : vbuf (rvec3 (T NN)), wf3 (PY b 0)) by (intros b; apply wf3_nil; reflexivity).
  destruct (split3_coord_spec NN MX p o c a Hw HM Ha) as [(H0 & E')|[(H0 & A & E')|[(H0 & A & E')|(u & v & Hu & Hv & Ru & Rv & [(q0 & q1 & E' & S)|(E' & O)])]]];
    [lia| | | |].
  - left. exists p, (PY (vb o) 0). split; auto. split; auto. split; [apply W0|]. cbn [nv]. lia.
  - left. exists (PY (vb p) 0), p. split; auto. split; [apply W0|]. cbn [nv]. split; auto. lia.
  - left. exists q0, q1. split; auto. destruct (split3_result_wf NN MX p _ _ q0 q1 Hw S) as (X0 & X1 & X2 & X3).
    pose proof X0 as (Y0 & _). pose proof X1 as (Y1 & _). split; auto. split; auto. split; [lia|]. split; [lia|].
    destruct S as (_ & C0 & C1 & _). split; eapply cut_at_most_double; eauto.
  - right. split; auto. exists c, a. auto.
Qed.

(** the additions made by [r3d_voxelize], as a list of (cell, polygon) *)
Definition voxel_result (po : Z) (p : pol) (B : box) (d : rvec3 (T NN)) (gr gr' : Z -> T NN) (l : list (box * pol)) sh : Prop :=
  rast NN 3 nv (r3d_split_coord NN MX) (dget3 NN d) p B l
  /\ NoDup (map (fun x => cell3 B (fst (fst x))) l)
  /\ gridded NN (fun p mom => r3d_reduce NN MX sh p mom po) (num_moments3 po) (cell3 B) l gr gr'.

Lemma num_moments3_pos po : 0 <= po -> 1 <= num_moments3 po.
Proof. intros. unfold num_moments3. apply Z.div_le_lower_bound; nia. Qed.

Lemma voxelize_main (Inv : Z -> pol -> Prop) (Bad : pol -> Prop) sh po stk0 mom0 (p : pol) B gr d : 0 <= po ->
  (forall k k' p, k' <= k -> Inv k p -> Inv k' p) ->
  (forall k p o c a, 1 <= k -> Inv k p -> 0 < nv p -> 0 <= a < 3 ->
    (exists q0 q1, r3d_split_coord NN MX p o c a = OK (q0, q1) /\ Inv (k - 1) q0 /\ Inv (k - 1) q1)
    \/ (r3d_split_coord NN MX p o c a = Err OutOfBounds /\ Bad p)) ->
  (forall k p mom, Inv k p -> 0 < nv p -> exists mom', r3d_reduce NN MX sh p mom po = OK mom') ->
  cells3_ok (num_moments3 po) B -> Inv (depth 3 B) p -> 0 < nv p ->
  (exists gr' l, r3d_voxelize NN MX sh po stk0 mom0 p B gr d = OK gr' /\ voxel_result po p B d gr gr' l sh)
  \/ (r3d_voxelize NN MX sh po stk0 mom0 p B gr d = Err OutOfBounds
      /\ exists k q, Inv k q /\ 0 < nv q /\ Bad q).
Proof.
  intros Hpo M S Rd HB HI Hp. pose proof HB as (HB1 & HB2). pose proof (num_moments3_pos po Hpo).
  destruct (voxelize_spec NN 3 ltac:(lia) nv (r3d_split_coord NN MX) (fun p mom => r3d_reduce NN MX sh p mom po)
     (num_moments3 po) ltac:(lia) (gind3 (num_moments3 po)) (dget3 NN d) Inv Bad M S Rd B (cell3 B))
    with (stk0 := stk0) (mom0 := mom0) (p := p) (gr := gr)
    as [(gr' & l & E & X1 & X2 & X3)|(E & k & q & o & co & a & X1 & X2 & X3 & X4 & X5)]; auto.
  - intros i Hi. pose proof (HB1 i Hi). lia.
  - intros i Hi. pose proof (HB1 i Hi). lia.
  - intros. now apply gind3_ok.
  - apply cell3_range.
  - apply cell3_inj.
  - left. exists gr', l. split; [exact E|]. split; auto.
  - right. split; [exact E|]. exists k, q. auto.
Qed.

Lemma voxelize_any po stk0 mom0 (p : pol) B gr d : 0 <= po -> wf3 p -> 0 < nv p <= MX -> cells3_ok (num_moments3 po) B ->
  (exists gr' l, r3d_voxelize NN MX false po stk0 mom0 p B gr d = OK gr' /\ voxel_result po p B d gr gr' l false)
  \/ (r3d_voxelize NN MX false po stk0 mom0 p B gr d = Err OutOfBounds
      /\ exists q, piece p q /\ wf3 q /\ 0 < nv q <= MX /\ overflows q).
Proof.
  intros Hpo Hw Hp HB.
  destruct (voxelize_main (fun _ q => wf3 q /\ nv q <= MX /\ piece p q) overflows false po stk0 mom0 p B gr d)
    as [?|(E & k & q & (X1 & X2 & X3) & X4 & X5)]; auto.
  - intros k q o c a Hk (X1 & X2 & X3) X4 Ha.
    destruct (split_coord_cases q o c a X1 X2 X4 Ha) as [(q0 & q1 & E & Y1 & Y2 & Y3 & Y4 & _)|?]; [left|auto].
    exists q0, q1. split; auto. split; [split; auto; split; auto|split; auto; split; auto].
    + eapply piece_left; eauto. + eapply piece_right; eauto.
  - intros k q mom (X1 & X2 & X3) X4. destruct (r3d_reduce_visits NN MX po q mom Hpo X1 X2) as (m & l & E & _). eauto.
  - split; auto. split; [lia|constructor].
  - lia.
  - right. split; auto. exists q. auto 10.
Qed.

(** enough room for every possible sequence of splits *)
Lemma voxelize_room_gen sh po stk0 mom0 (p : pol) B gr d : 0 <= po -> wf3 p -> 0 < nv p ->
  (forall q mom, wf3 q -> nv q <= MX -> exists mom', r3d_reduce NN MX sh q mom po = OK mom') ->
  2 * nv p * 2 ^ depth 3 B <= MX -> cells3_ok (num_moments3 po) B ->
  exists gr' l, r3d_voxelize NN MX sh po stk0 mom0 p B gr d = OK gr' /\ voxel_result po p B d gr gr' l sh.
Proof.
  intros Hpo Hw Hp Rd HM HB.
  destruct (voxelize_main (fun k q => wf3 q /\ (0 <= k -> 2 * nv q * 2 ^ k <= MX) /\ nv q <= MX) (fun _ => False) sh po stk0 mom0 p B gr d)
    as [?|(E & k & q & _ & _ & [])]; auto.
  - intros k k' q Hk (X1 & X2 & X3). split; auto. split; auto. intros Hk'. specialize (X2 ltac:(lia)). destruct X1 as (X1 & _).
    assert (2 ^ k' <= 2 ^ k) by (apply Z.pow_le_mono_r; lia). nia.
  - intros k q o c a Hk (X1 & X2 & X3) X4 Ha. left. specialize (X2 ltac:(lia)).
    assert (Ek : (2 ^ k = 2 * 2 ^ (k - 1))) by (rewrite <- Z.pow_succ_r by lia; f_equal; lia).
    assert (1 <= 2 ^ (k - 1)) by (pose proof (Z.pow_pos_nonneg 2 (k - 1) ltac:(lia) ltac:(lia)); lia).
    destruct (split_coord_cases q o c a X1 X3 X4 Ha) as [(q0 & q1 & E & Y1 & Y2 & Y3 & Y4 & Y5 & Y6)|(_ & c' & a' & Ha' & O)].
    + exists q0, q1. split; auto. pose proof Y1 as (Y10 & _). pose proof Y2 as (Y20 & _). split; (split; [auto|split; [|auto]]); intros _; nia.
    + exfalso. pose proof X1 as (X10 & X11 & _).
      pose proof (exits3_le (fun v => negb (cright3 NN c' a' (vb q) v)) (nb (vb q)) (nv q) X10 X11). nia.
  - intros k q mom (X1 & X2 & X3) X4. apply Rd; auto.
  - split; auto. pose proof (depth_nonneg 3 B). pose proof (Z.pow_pos_nonneg 2 (depth 3 B) ltac:(lia) ltac:(lia)). split; [auto|nia].
Qed.
Lemma voxelize_room_any po stk0 mom0 (p : pol) B gr d : 0 <= po -> wf3 p -> 0 < nv p ->
  2 * nv p * 2 ^ depth 3 B <= MX -> cells3_ok (num_moments3 po) B ->
  exists gr' l, r3d_voxelize NN MX false po stk0 mom0 p B gr d = OK gr' /\ voxel_result po p B d gr gr' l false.
Proof.
  intros Hpo Hw Hp HM HB. apply voxelize_room_gen; auto.
  intros q mom Hq Mq. destruct (r3d_reduce_visits NN MX po q mom Hpo Hq Mq) as (m & l & E & _). eauto.
Qed.

(** empty polygon or empty box: nothing happens *)
Lemma voxelize_empty sh po stk0 mom0 (p : pol) B gr d : nv p <= 0 ->
  (forall i, 0 <= i < 3 -> int_min <= snd B i - fst B i <= int_max) ->
  r3d_voxelize NN MX sh po stk0 mom0 p B gr d = OK gr.
Proof.
  intros Hp HB. unfold r3d_voxelize, voxelize. destruct (gridsz_spec 3 ltac:(lia) B HB) as (g & E & _). rewrite E. cbn [bind].
  destruct (Z.leb_spec (nv p) 0); [reflexivity|lia].
Qed.
End Any.

(** ** Real arithmetic *)
Open Scope R_scope.

Definition spacing (d : rvec3 R) (i : Z) : R := if (i =? 0)%Z then x3 d else if (i =? 1)%Z then y3 d else z3 d.
(** every vertex inside the closed box of cells [b] *)
Definition within (d : rvec3 R) (b : box) (p : pol3) : Prop :=
  forall v i, (0 <= v < nv p)%Z -> (0 <= i < 3)%Z ->
    spacing d i * IZR (fst b i) <= coordR3 i (ps (vb p) v) <= spacing d i * IZR (snd b i).
(** every half-plane containing [p] contains [q] *)
Definition hull_sub (p q : pol3) : Prop :=
  forall g, (forall v, (0 <= v < nv p)%Z -> 0 <= sdist3 g (ps (vb p) v)) ->
    forall v, (0 <= v < nv q)%Z -> 0 <= sdist3 g (ps (vb q) v).

Lemma rast_R MX d (p : pol3) b l :
  rast RN 3 nv (r3d_split_coord RN MX) (dget3 RN d) p b l ->
  wf3 p -> (nv p <= MX)%Z ->
  (planar_faces p -> forall i j k, lsum l (fun x => moment3 (snd x) i j k) = moment3 p i j k)
  /\ (forall x, In x l -> wf3 (snd x) /\ (nv (snd x) <= MX)%Z /\ hull_sub p (snd x) /\ (planar_faces p -> planar_faces (snd x)))
  /\ (within d b p -> forall x, In x l -> within d (fst x) (snd x)).
Proof.
  induction 1 as [p b H0|p b H0 H1|p b o a m q0 q1 l0 l1 H0 Ha Hm Hs R0 IH0 R1 IH1]; intros Hw HM.
  - destruct Hw as (Hn & _). rn. assert (E : nv p = 0%Z) by lia. split; [|split].
    + intros _ i j k. unfold moment3. rn. rewrite E. reflexivity.
    + intros x [].
    + intros _ x [].
  - split; [|split].
    + intros. cbn. ring.
    + intros x [<-|[]]. cbn [snd]. split; auto. split; auto. split; auto. intros g Hg v Hv. auto.
    + intros Wi x [<-|[]]. exact Wi.
  - rn. assert (Hcase : nv o = 0%Z \/ (0 < nv p)%Z) by auto.
    destruct (split3_coord_R MX p o q0 q1 _ a Hw HM Ha Hcase Hs) as (W0 & W1 & M0 & M1 & Mo & C0 & C1 & Hh).
    destruct (IH0 W0 M0) as (A0 & B0 & D0). destruct (IH1 W1 M1) as (A1 & B1 & D1).
    split; [|split].
    + intros PF i j k. destruct (Mo PF) as (PF0 & PF1 & Mo'). rewrite lsum_app, A0, A1, <- (Mo' i j k) by auto. ring.
    + intros x Hx. apply in_app_or in Hx as [Hx|Hx].
      * destruct (B1 x Hx) as (Y1 & Y2 & Y3 & Y4). split; auto. split; auto. split; [intros g Hg; apply Y3; apply Hh; auto|]. intros PF. apply Y4, Mo, PF.
      * destruct (B0 x Hx) as (Y1 & Y2 & Y3 & Y4). split; auto. split; auto. split; [intros g Hg; apply Y3; apply Hh; auto|]. intros PF. apply Y4, Mo, PF.
    + intros Wi.
      (* coordinate bounds as half-planes *)
      assert (LO : forall q, (forall g, (forall v, (0 <= v < nv p)%Z -> 0 <= sdist3 g (ps (vb p) v)) ->
                forall v, (0 <= v < nv q)%Z -> 0 <= sdist3 g (ps (vb q) v)) -> within d b q).
      { intros q Hq v i Hv Hi. split.
        - pose proof (Hq (axis_plane3 i (spacing d i * IZR (fst b i)))) as X. 
          assert (0 <= sdist3 (axis_plane3 i (spacing d i * IZR (fst b i))) (ps (vb q) v)) as Y.
          { apply X; auto. intros u Hu. rewrite axis_sdist3. pose proof (Wi u i Hu Hi). lra. }
          rewrite axis_sdist3 in Y. lra.
        - pose proof (Hq (flip3 (axis_plane3 i (spacing d i * IZR (snd b i))))) as X. 
          assert (0 <= sdist3 (flip3 (axis_plane3 i (spacing d i * IZR (snd b i)))) (ps (vb q) v)) as Y.
          { apply X; auto. intros u Hu. rewrite sdist3_flip, axis_sdist3. pose proof (Wi u i Hu Hi). lra. }
          rewrite sdist3_flip, axis_sdist3 in Y. lra. }
      pose proof (LO q0 (fun g Hg => proj1 (Hh g Hg))) as Z0. pose proof (LO q1 (fun g Hg => proj2 (Hh g Hg))) as Z1.
      assert (V0 : within d (fst b, upd (snd b) a m) q0).
      { intros v i Hv Hi. pose proof (Z0 v i Hv Hi). cbn [fst snd]. destruct (Z.eq_dec i a) as [->|Ne].
        - rewrite upd_eq. pose proof (C0 v Hv) as Y. unfold spacing in *. cbn in Y. split; [lra|exact Y].
        - rewrite upd_neq by auto. auto. }
      assert (V1 : within d (upd (fst b) a m, snd b) q1).
      { intros v i Hv Hi. pose proof (Z1 v i Hv Hi). cbn [fst snd]. destruct (Z.eq_dec i a) as [->|Ne].
        - rewrite upd_eq. pose proof (C1 v Hv) as Y. unfold spacing in *. cbn in Y. split; [exact Y|lra].
        - rewrite upd_neq by auto. auto. }
      intros x Hx. apply in_app_or in Hx as [Hx|Hx]; auto.
Qed.

(** what the code computes for one polygon *)
Lemma reduce_both MX sh po (p : pol3) (mom : Z -> R) : (0 <= po)%Z -> wf3 p -> (nv p <= MX)%Z ->
  exists mom', r3d_reduce RN MX sh p mom po = OK mom'
  /\ forall i j k, (i + j + k <= Z.to_nat po)%nat -> mom' (idx3 (Z.of_nat i) (Z.of_nat j) (Z.of_nat k)) = moment3 p i j k.
Proof.
  intros Hpo Hw HM. destruct sh.
  - destruct (reduce_shift_moment3 MX p mom po Hpo Hw HM) as (m & E & A & _). eauto.
  - destruct (reduce_moment3 MX p mom po Hpo Hw HM) as (m & E & A & _). eauto.
Qed.

Lemma voxel_conserves MX sh po (p : pol3) B (d : rvec3 R) (gr gr' : Z -> R) (l : list (box * pol3)) : (0 <= po)%Z -> wf3 p -> planar_faces p -> (nv p <= MX)%Z -> cells3_ok (num_moments3 po) B ->
  voxel_result RN MX po p B d gr gr' l sh ->
  forall i j k, (i + j + k <= Z.to_nat po)%nat ->
   lsum (zrange ((snd B 0%Z - fst B 0%Z) * (snd B 1%Z - fst B 1%Z) * (snd B 2%Z - fst B 2%Z)))
     (fun c => gr' (num_moments3 po * c + idx3 (Z.of_nat i) (Z.of_nat j) (Z.of_nat k))%Z - gr (num_moments3 po * c + idx3 (Z.of_nat i) (Z.of_nat j) (Z.of_nat k))%Z)
   = moment3 p i j k.
Proof.
  intros Hpo Hw PF HM HB (Rt & ND & (G1 & G2)) i j k Hij. rn.
  destruct (rast_R MX d p B l Rt Hw HM) as (A & Bx & _). rewrite <- (A PF i j k).
  pose proof HB as (HB1 & _).
  assert (Pr : VoxFacts.proper 3 B). { intros a Ha. pose proof (HB1 a Ha). lia. }
  pose proof (rast_leaves RN 3 nv _ _ p B l Rt Pr) as Lv. rewrite Forall_forall in Lv.
  assert (Ix : (0 <= idx3 (Z.of_nat i) (Z.of_nat j) (Z.of_nat k) < num_moments3 po)%Z).
  { destruct (moment_slots3 po Hpo) as (M1 & _). apply M1; lia. }
  rewrite <- vol3.
  rewrite (Vox2.lsum_cells l (fun x => cell3 B (fst (fst x))) (vol 3 B)); auto.
  - apply lsum_ext. intros x Hx. destruct (G1 x Hx) as (m0 & mom & E & F). rn. rewrite F by auto.
    destruct (Bx x Hx) as (W & M & _). destruct (reduce_both MX sh po (snd x) m0 Hpo W M) as (mom' & E' & F').
    rn. rewrite E in E'. injection E' as ->. rewrite F' by auto. cbn. ring.
  - intros x Hx. destruct (Lv x Hx) as (S & _ & U). apply cell3_range. intros c Hk. pose proof (S c Hk). pose proof (U c Hk). lia.
  - intros c Hk Hni. rewrite G2; [ring|]. intros x Hx X. apply Hni. apply in_map_iff. exists x. split; auto.
    pose proof (num_moments3_pos po Hpo). nia.
Qed.

Lemma voxelize_R MX sh po stk0 mom0 (p : pol3) B gr d : (0 <= po)%Z -> wf3 p -> (0 < nv p <= MX)%Z -> cells3_ok (num_moments3 po) B ->
  (exists gr' l, r3d_voxelize RN MX sh po stk0 mom0 p B gr d = OK gr' /\ voxel_result RN MX po p B d gr gr' l sh)
  \/ (r3d_voxelize RN MX sh po stk0 mom0 p B gr d = Err OutOfBounds
      /\ exists q, piece RN MX p q /\ wf3 q /\ (0 < nv q <= MX)%Z /\ overflows RN MX q).
Proof.
  intros Hpo Hw Hp HB.
  destruct (voxelize_main RN MX (fun _ q => wf3 q /\ (nv q <= MX)%Z /\ piece RN MX p q) (overflows RN MX) sh po stk0 mom0 p B gr d)
    as [?|(E & k & q & (X1 & X2 & X3) & X4 & X5)]; auto.
  - intros k q o c a Hk (X1 & X2 & X3) X4 Ha.
    destruct (split_coord_cases RN MX q o c a X1 X2 X4 Ha) as [(q0 & q1 & E & Y1 & Y2 & Y3 & Y4 & _)|?]; [left|auto].
    exists q0, q1. split; auto. split; [split; auto; split; auto|split; auto; split; auto].
    + eapply piece_left; eauto. + eapply piece_right; eauto.
  - intros k q mom (X1 & X2 & X3) X4. destruct (reduce_both MX sh po q mom Hpo X1 X2) as (m & E & _). eauto.
  - split; auto. split; [rn; lia|constructor].
  - rn; lia.
  - right. split; auto. exists q. auto 10.
Qed.

Lemma voxelize_room_R MX sh po stk0 mom0 (p : pol3) B gr d : (0 <= po)%Z -> wf3 p -> (0 < nv p)%Z ->
  (2 * nv p * 2 ^ depth 3 B <= MX)%Z -> cells3_ok (num_moments3 po) B ->
  exists gr' l, r3d_voxelize RN MX sh po stk0 mom0 p B gr d = OK gr' /\ voxel_result RN MX po p B d gr gr' l sh.
Proof.
  intros Hpo Hw Hp HM HB. apply voxelize_room_gen; auto.
  intros q mom Hq Mq. destruct (reduce_both MX sh po q mom Hpo Hq Mq) as (m & E & _). eauto.
Qed.
