(** * TransN: the coordinate transformations of rNd.c. *)
From Coq Require Import Reals ZArith List Bool Lia Lra.
From Verif Require Import Base Lib ModelCommon CommonFacts ModelN RealNum SumR SpecN PermsN HeapPos HeapN.
Import ListNotations.
Open Scope Z_scope.

Section Gen.
Variable N : num.
Variable MX D : Z.
Notation real := (T N).
Notation buf := (vbuf (Z -> real)).

Lemma rd_xyz_ok (b : buf) v i : 0 <= v < MX -> 0 <= i < D -> rd_xyz N MX D b v i = OK (ps b v i).
Proof. intros. unfold rd_xyz. rewrite rd_ps_ok by auto. cbn [bind]. now rewrite rd_ok. Qed.
Lemma wr_xyz_ok (b : buf) v i x : 0 <= v < MX -> 0 <= i < D ->
  wr_xyz N MX D b v i x = OK (VB (nb b) (upd (ps b) v (upd (ps b v) i x))).
Proof.
  intros. unfold wr_xyz. rewrite rd_ps_ok by auto. cbn [bind]. rewrite wr_ok by auto. cbn [bind]. now rewrite wr_ps_ok.
Qed.

(** [b'] is [b] with the position of [v] replaced by [h] of it *)
Definition moved (v : Z) (h : (Z -> real) -> Z -> real) (b b' : buf) : Prop :=
  nb b' = nb b /\ (forall u, u <> v -> ps b' u = ps b u) /\ forall i, 0 <= i < D -> ps b' v i = h (ps b v) i.
(** all vertices moved by [h], nothing else changed *)
Definition all_moved (h : (Z -> real) -> Z -> real) (p p' : polyN N) : Prop :=
  nvN N p' = nvN N p /\ nfN N p' = nfN N p /\ fdN N p' = fdN N p /\ nb (vbN N p') = nb (vbN N p)
  /\ forall v i, 0 <= v < nvN N p -> 0 <= i < D -> ps (vbN N p') v i = h (ps (vbN N p) v) i.

Lemma each_vert_spec p body h : 0 <= nvN N p <= MX ->
  (forall v b, 0 <= v < MX -> exists b', body v b = OK b' /\ moved v h b b') ->
  exists p', each_vert N p body = OK p' /\ all_moved h p p'.
Proof.
  intros Hn Hb. unfold each_vert.
  destruct (for_inv (fun v b => nb b = nb (vbN N p)
      /\ (forall u i, 0 <= u < v -> 0 <= i < D -> ps b u i = h (ps (vbN N p) u) i)
      /\ (forall u, v <= u -> ps b u = ps (vbN N p) u)) 0 (nvN N p) body (vbN N p)) as (b & E & J1 & J2 & J3).
  - lia.
  - split; auto. split; auto. intros; lia.
  - intros v b Hv (J1 & J2 & J3). destruct (Hb v b ltac:(lia)) as (b' & E & K1 & K2 & K3).
    exists b'. split; [exact E|]. split; [congruence|]. split.
    + intros u i Hu Hi. destruct (Z.eq_dec u v) as [->|]; [rewrite K3, J3 by lia; auto|]. rewrite K2 by auto. apply J2; lia.
    + intros u Hu. rewrite K2 by lia. apply J3. lia.
  - rewrite E. cbn [bind]. eexists. split; [reflexivity|]. unfold all_moved. cbn. auto.
Qed.

(** a loop over the axes that sets component [i] from its old value *)
Lemma axes_spec (k : Z -> real -> real) v b : 0 <= D -> 0 <= v < MX ->
  exists b', for_ 0 D (fun i b => let* x := rd_xyz N MX D b v i in wr_xyz N MX D b v i (k i x)) b = OK b'
    /\ moved v (fun q i => k i (q i)) b b'.
Proof.
  intros HD Hv.
  match goal with |- context [for_ 0 D ?bd _] => set (body := bd) end.
  destruct (for_inv (fun i b' => nb b' = nb b /\ (forall u, u <> v -> ps b' u = ps b u)
      /\ forall j, ps b' v j = if (0 <=? j) && (j <? i) then k j (ps b v j) else ps b v j) 0 D body b) as (b' & E & J1 & J2 & J3).
  - lia.
  - split; auto. split; auto. intros j. destruct (Z.leb_spec 0 j), (Z.ltb_spec j 0); auto; lia.
  - intros i b1 Hi (J1 & J2 & J3). unfold body. rewrite rd_xyz_ok by lia. cbn [bind].
    eexists. split; [apply wr_xyz_ok; lia|]. cbn [nb ps]. split; auto. split.
    + intros u Hu. rewrite upd_neq by auto. auto.
    + intros j. rewrite upd_eq. unfold upd. rewrite !J3.
      destruct (Z.eqb_spec j i) as [->|]; destruct (Z.leb_spec 0 i), (Z.ltb_spec i i), (Z.ltb_spec i (i + 1)); try lia; cbn [andb]; auto.
      destruct (Z.leb_spec 0 j), (Z.ltb_spec j i), (Z.ltb_spec j (i + 1)); cbn [andb]; auto; lia.
  - exists b'. split; [exact E|]. split; auto. split; auto. intros i Hi. rewrite J3.
    destruct (Z.leb_spec 0 i), (Z.ltb_spec i D); cbn [andb]; auto; lia.
Qed.

Lemma rNd_translate_spec p s : 0 <= D -> 0 <= nvN N p <= MX ->
  exists p', rNd_translate N MX D p s = OK p' /\ all_moved (fun q i => nadd N (q i) (s i)) p p'.
Proof.
  intros HD Hn. unfold rNd_translate. apply each_vert_spec; auto. intros v b Hv.
  apply (axes_spec (fun i x => nadd N x (s i)) v b); auto.
Qed.
Lemma rNd_scale_spec p s : 0 <= D -> 0 <= nvN N p <= MX ->
  exists p', rNd_scale N MX D p s = OK p' /\ all_moved (fun q i => nmul N (q i) (s i)) p p'.
Proof.
  intros HD Hn. unfold rNd_scale. apply each_vert_spec; auto. intros v b Hv.
  apply (axes_spec (fun i x => nmul N x (s i)) v b); auto.
Qed.
Lemma rNd_shear_spec p s axb axs : 0 <= axb < D -> 0 <= axs < D -> 0 <= nvN N p <= MX ->
  exists p', rNd_shear N MX D p s axb axs = OK p'
    /\ all_moved (fun q i => if i =? axb then nadd N (q i) (nmul N s (q axs)) else q i) p p'.
Proof.
  intros H1 H2 Hn. unfold rNd_shear. apply each_vert_spec; auto. intros v b Hv.
  rewrite rd_xyz_ok by auto. cbn [bind]. rewrite rd_xyz_ok by auto. cbn [bind].
  eexists. split; [apply wr_xyz_ok; auto|]. split; auto. cbn [ps nb]. split.
  - intros u Hu. now rewrite upd_neq.
  - intros i Hi. rewrite upd_eq. unfold upd. destruct (Z.eqb_spec i axb) as [->|]; auto.
Qed.
(** the second assignment wins when the axes coincide *)
Lemma rNd_rotate_spec p th a1 a2 : 0 <= a1 < D -> 0 <= a2 < D -> 0 <= nvN N p <= MX ->
  exists p', rNd_rotate N MX D p th a1 a2 = OK p'
    /\ all_moved (fun q i =>
         if i =? a2 then nadd N (nmul N (nsin N th) (q a1)) (nmul N (ncos N th) (q a2))
         else if i =? a1 then nsub N (nmul N (ncos N th) (q a1)) (nmul N (nsin N th) (q a2)) else q i) p p'.
Proof.
  intros H1 H2 Hn. unfold rNd_rotate. apply each_vert_spec; auto. intros v b Hv.
  rewrite rd_ps_ok by auto. cbn [bind]. rewrite rd_ok by auto. cbn [bind]. rewrite rd_ok by auto. cbn [bind].
  rewrite wr_xyz_ok by auto. cbn [bind]. eexists. split; [apply wr_xyz_ok; auto|]. split; auto. cbn [ps nb]. split.
  - intros u Hu. now rewrite !upd_neq.
  - intros i Hi. rewrite !upd_eq. unfold upd. destruct (Z.eqb_spec i a2), (Z.eqb_spec i a1); auto.
Qed.

(** what the code computes for the homogeneous coordinate *)
Definition wsum (mat : Z -> Z -> real) (q : Z -> real) : real :=
  fold_left (fun w j => nadd N w (nmul N (q j) (mat D j))) (zrange D) (n0 N).
Lemma rNd_affine_spec p mat : 1 <= D -> 0 <= nvN N p <= MX ->
  exists p', rNd_affine N MX D p mat = OK p'
    /\ all_moved (fun q i =>
         ndiv N (nadd N (nmul N (q (D - 1)) (mat i (D - 1))) (mat i D)) (wsum mat q)) p p'.
Proof.
  intros HD Hn. unfold rNd_affine. apply each_vert_spec; auto. intros v b Hv.
  rewrite rd_ps_ok by auto. cbn [bind].
  match goal with |- context [for_ 0 D ?bd b] => set (body := bd) end.
  destruct (for_inv (fun i b' => nb b' = nb b /\ (forall u, u <> v -> ps b' u = ps b u)
      /\ forall j, 0 <= j < i -> ps b' v j = nmul N (ps b v (D - 1)) (mat j (D - 1))) 0 D body b) as (b1 & E1 & J1 & J2 & J3).
  { lia. } { split; auto. split; auto. intros; lia. }
  { intros i b1 Hi (J1 & J2 & J3). unfold body.
    match goal with |- context [for_ 0 D ?bd b1] => set (inner := bd) end.
    destruct (for_inv (fun j b' => nb b' = nb b /\ (forall u, u <> v -> ps b' u = ps b u)
      /\ (forall k, 0 <= k < i -> ps b' v k = nmul N (ps b v (D - 1)) (mat k (D - 1)))
      /\ (0 < j -> ps b' v i = nmul N (ps b v (j - 1)) (mat i (j - 1)))) 0 D inner b1) as (b2 & E2 & K1 & K2 & K3 & K4).
    - lia.
    - split; auto. split; auto. split; auto. lia.
    - intros j b2 Hj (K1 & K2 & K3 & K4). unfold inner. rewrite rd_ok by auto. cbn [bind].
      eexists. split; [apply wr_xyz_ok; lia|]. cbn [nb ps]. split; auto. split; [|split].
      + intros u Hu. rewrite upd_neq; auto.
      + intros k Hk. rewrite upd_eq, upd_neq by lia. auto.
      + intros _. rewrite upd_eq, upd_eq. replace (j + 1 - 1) with j by lia. auto.
    - exists b2. split; [exact E2|]. split; auto. split; auto. intros j Hj.
      destruct (Z.eq_dec j i) as [->|]; [apply K4; lia|apply K3; lia]. }
  rewrite E1. cbn [bind].
  destruct (axes_spec (fun i x => nadd N x (mat i D)) v b1 ltac:(lia) Hv) as (b2 & E2 & K1 & K2 & K3).
  rewrite E2. cbn [bind].
  assert (Ew : for_ 0 D (fun j w => let* t := rd D (ps b v) j in OK (nadd N w (nmul N t (mat D j)))) (n0 N) = OK (wsum mat (ps b v))).
  { match goal with |- for_ 0 D ?bd _ = _ => set (wb := bd) end.
    destruct (for_inv (fun j w => w = fold_left (fun w j => nadd N w (nmul N (ps b v j) (mat D j))) (zrange j) (n0 N)) 0 D wb (n0 N))
      as (w & E & ->); auto; [lia|].
    intros j w Hj ->. unfold wb. rewrite rd_ok by auto. cbn [bind]. eexists. split; [reflexivity|].
    rewrite zrange_succ, fold_left_app by lia. reflexivity. }
  rewrite Ew. cbn [bind].
  destruct (axes_spec (fun i x => ndiv N x (wsum mat (ps b v))) v b2 ltac:(lia) Hv) as (b3 & E3 & L1 & L2 & L3).
  exists b3. split; [exact E3|]. split; [congruence|]. split.
  - intros u Hu. rewrite L2, K2, J2; auto.
  - intros i Hi. rewrite L3, K3, J3 by auto. reflexivity.
Qed.
End Gen.

(** ** orientation *)
Lemma rNd_orient_spec D (v : Z -> Z -> R) : 1 <= D ->
  exists F, forall fuel, (F <= fuel)%nat ->
    rNd_orient RN D fuel v = OK (det D (fun i j => v (i + 1)%Z j - v 0%Z j) / factorial D)%R.
Proof.
  intros HD. destruct (rNd_det_spec D (fun i j => (v (i + 1)%Z j - v 0%Z j)%R) HD) as (F & H).
  exists F. intros fuel Hf. unfold rNd_orient.
  match goal with |- context [for_ 1 (D + 1) ?bd _] => set (body := bd) end.
  destruct (for_inv (fun i (f : R) => f = factorial (i - 1)) 1 (D + 1) body (n1 RN)) as (f & E & Ef).
  - lia.
  - reflexivity.
  - intros i f Hi ->. unfold body. eexists. split; [reflexivity|]. unfold factorial.
    replace (i + 1 - 1) with (i - 1 + 1) by ring. rewrite zrange_succ, !map_app by lia. cbn [map].
    rewrite fold_right_app. cbn [fold_right]. replace (1 + (i - 1)) with i by ring.
    cbn [nmul nofZ RN]. rewrite Rmult_1_r. generalize (map IZR (map (Z.add 1) (zrange (i - 1)))). clear.
    induction l as [|a l IH]; cbn; [lra|]. rewrite <- IH. lra.
  - replace (D + 1 - 1) with D in Ef by ring. rewrite Ef in E.
    refine (eq_trans (f_equal (fun m => bind m _) E) _). cbn [bind].
    refine (eq_trans (f_equal (fun m => bind m _) (H fuel Hf)) _). reflexivity.
Qed.

Lemma det_4 m : det 4 m = det4 m.
Proof.
  unfold det, det4, det3, det2.
  let l := eval vm_compute in (perms (zrange 4)) in change (perms (zrange 4)) with l.
  cbn [lsum sgn below diag Z.ltb Z.compare Pos.compare Pos.compare_cont Z.add Pos.add Pos.succ]. ring.
Qed.

Lemma fact_4 : factorial 4 = 24%R.
Proof.
  unfold factorial. let l := eval vm_compute in (map (Z.add 1) (zrange 4)) in change (map (Z.add 1) (zrange 4)) with l.
  cbn [map fold_right]. lra.
Qed.
