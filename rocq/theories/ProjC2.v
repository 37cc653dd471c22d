(** * ProjC2: the transforms of [src/r2d.c] applied to convex polygons. *)
From Coq Require Import Reals ZArith List Bool Lia Lra Psatz.
From Verif Require Import Base Lib SumR ModelCommon Model2 ModelV RealNum SpecI Spec2 Spec2R SpecC2 SpecP3 Cons2 Reduce2 Small2.
From Verif Require IntC2 ClipC2 GlueC2.
Import ListNotations.
Open Scope R_scope.

Definition adj3 (m : Z -> Z -> R) (r c : Z) : R :=
  let nx k := if (k =? 0)%Z then 1%Z else if (k =? 1)%Z then 2%Z else 0%Z in
  m (nx c) (nx r) * m (nx (nx c)) (nx (nx r)) - m (nx c) (nx (nx r)) * m (nx (nx c)) (nx r).
Definition pull2 (m : Z -> Z -> R) (pl : plane2 R) : plane2 R :=
  let c k := vx (pn pl) * m 0%Z k + vy (pn pl) * m 1%Z k + pd pl * m 2%Z k in PL2 (V2 (c 0%Z) (c 1%Z)) (c 2%Z).

Lemma pull_sdist m pl x : row3 m 2 x <> 0 -> sdist (pull2 m pl) x = row3 m 2 x * sdist pl (proj3 m x).
Proof. intros H. unfold sdist, proj3. cbn [vx vy]. field_simplify_eq; auto. unfold pull2, row3. cbn [pn pd vx vy]. ring. Qed.
Lemma push_sdist m pl x : row3 m 2 x <> 0 -> row3 m 2 x * sdist (pull2 (adj3 m) pl) (proj3 m x) = det33 m * sdist pl x.
Proof.
  intros H. unfold sdist at 1, proj3. cbn [vx vy]. field_simplify_eq; auto. unfold pull2, row3, adj3, det33, sdist. cbn [pn pd vx vy]. cbn -[IZR Rmult Rplus Rminus]. ring.
Qed.
Lemma adj_w m x : row3 m 2 x <> 0 -> row3 m 2 x * row3 (adj3 m) 2 (proj3 m x) = det33 m.
Proof. intros H. unfold row3 at 2, proj3. cbn [vx vy]. field_simplify_eq; auto. unfold row3, adj3, det33. cbn -[IZR Rmult Rplus Rminus]. ring. Qed.
Lemma adj_w' m y : row3 (adj3 m) 2 y <> 0 -> row3 (adj3 m) 2 y * row3 m 2 (proj3 (adj3 m) y) = det33 m.
Proof. intros H. unfold row3 at 2, proj3. cbn [vx vy]. field_simplify_eq; auto. unfold row3, adj3, det33. cbn -[IZR Rmult Rplus Rminus]. ring. Qed.
Lemma adj_back m y : det33 m <> 0 -> row3 (adj3 m) 2 y <> 0 -> proj3 m (proj3 (adj3 m) y) = y.
Proof.
  intros Hd H. pose proof (adj_w' m y H) as E.
  assert (N : row3 m 2 (proj3 (adj3 m) y) <> 0) by (intros Z0; rewrite Z0 in E; lra).
  set (s := row3 (adj3 m) 2 y) in *. set (w := row3 m 2 (proj3 (adj3 m) y)) in *.
  assert (E0 : s * row3 m 0 (proj3 (adj3 m) y) = det33 m * vx y).
  { unfold row3, proj3. cbn [vx vy]. fold s. field_simplify_eq; auto. unfold s, row3, adj3, det33. cbn -[IZR Rmult Rplus Rminus]. ring. }
  assert (E1 : s * row3 m 1 (proj3 (adj3 m) y) = det33 m * vy y).
  { unfold row3, proj3. cbn [vx vy]. fold s. field_simplify_eq; auto. unfold s, row3, adj3, det33. cbn -[IZR Rmult Rplus Rminus]. ring. }
  unfold proj3 at 1. fold w. destruct y as [y0 y1]. cbn [vx vy] in *. f_equal; apply (Rmult_eq_reg_l (s * w)); try nra; field_simplify_eq; auto; nra.
Qed.
Lemma turn_proj m a b c : row3 m 2 a <> 0 -> row3 m 2 b <> 0 -> row3 m 2 c <> 0 ->
  row3 m 2 a * row3 m 2 b * row3 m 2 c * turn (proj3 m a) (proj3 m b) (proj3 m c) = det33 m * turn a b c.
Proof.
  intros Ha Hb Hc. unfold turn at 1, proj3. cbn [vx vy].
  set (wa := row3 m 2 a) in *. set (wb := row3 m 2 b) in *. set (wc := row3 m 2 c) in *.
  transitivity (row3 m 0 b * row3 m 1 c * wa - row3 m 0 b * row3 m 1 a * wc - row3 m 0 a * row3 m 1 c * wb
    - (row3 m 1 b * row3 m 0 c * wa - row3 m 1 b * row3 m 0 a * wc - row3 m 1 a * row3 m 0 c * wb)).
  - field. auto.
  - unfold wa, wb, wc, row3, det33, turn. ring.
Qed.

Lemma hull2_pos (p : poly (rvec2 R)) (pl : plane2 R) x : (forall v, (0 <= v < nv p)%Z -> 0 < sdist pl (ps (vb p) v)) -> hull2 p x -> 0 < sdist pl x.
Proof.
  intros HW H.
  assert (Q : forall m : nat, exists d, 0 < d /\ forall v, (0 <= v < nv p)%Z -> (v < Z.of_nat m)%Z -> d <= sdist pl (ps (vb p) v)).
  { induction m as [|m (d & Hd & IH)]; [exists 1; split; [lra|]; intros; lia|].
    destruct (Z_lt_dec (Z.of_nat m) (nv p)) as [L|L].
    - assert (U : (0 <= Z.of_nat m < nv p)%Z) by lia.
      exists (Rmin d (sdist pl (ps (vb p) (Z.of_nat m)))). split; [apply Rmin_pos; auto|]. intros v Hv Hm.
      assert (v < Z.of_nat m \/ v = Z.of_nat m)%Z as [B| ->] by lia.
      + eapply Rle_trans; [apply Rmin_l|]. auto.
      + apply Rmin_r.
    - exists d. split; auto. intros v Hv Hm. apply IH; auto. lia. }
  destruct (Q (Z.to_nat (nv p))) as (d & Hd & M).
  assert (E : forall y, sdist (PL2 (pn pl) (pd pl - d)) y = sdist pl y - d) by (intros; unfold sdist; cbn [pn pd]; ring).
  enough (0 <= sdist (PL2 (pn pl) (pd pl - d)) x) as X by (rewrite E in X; lra).
  apply H. intros v Hv. rewrite E. enough (d <= sdist pl (ps (vb p) v)) by lra. apply M; auto. lia.
Qed.
Definition wpl (m : Z -> Z -> R) : plane2 R := PL2 (V2 (m 2%Z 0%Z) (m 2%Z 1%Z)) (m 2%Z 2%Z).
Lemma wpl_row m x : sdist (wpl m) x = row3 m 2 x.
Proof. unfold sdist, wpl, row3. cbn. ring. Qed.
Lemma FOP_proj m a l : 0 < det33 m -> 0 < row3 m 2 a -> (forall q, In q l -> 0 < row3 m 2 q) ->
  ForallOrdPairs (fun b c => 0 <= turn a b c) l -> ForallOrdPairs (fun b c => 0 <= turn (proj3 m a) b c) (map (proj3 m) l).
Proof.
  intros Hd Ha. induction l as [|b l IH]; intros HW F; cbn; [constructor|]. inversion F as [|? ? F1 F2]; subst. constructor.
  - rewrite Forall_forall in *. intros y Hy. apply in_map_iff in Hy. destruct Hy as (c & <- & Hc). specialize (F1 c Hc).
    pose proof (HW b (or_introl eq_refl)) as Wb. pose proof (HW c (or_intror Hc)) as Wc.
    pose proof (turn_proj m a b c ltac:(lra) ltac:(lra) ltac:(lra)) as E.
    assert (0 < row3 m 2 a * row3 m 2 b * row3 m 2 c) by (repeat apply Rmult_lt_0_compat; auto).
    set (t := turn (proj3 m a) _ _) in *. destruct (Rle_lt_dec 0 t); auto. exfalso.
    assert (0 <= det33 m * turn a b c) by (apply Rmult_le_pos; lra). nra.
  - apply IH; auto. intros q Hq. apply HW. now right.
Qed.
Lemma ccw_proj m l : 0 < det33 m -> (forall q, In q l -> 0 < row3 m 2 q) -> ccw l -> ccw (map (proj3 m) l).
Proof.
  intros Hd. induction l as [|a l IH]; intros HW C; cbn; auto. destruct C as (C1 & C2). split.
  - apply FOP_proj; auto; [apply HW; now left|]. intros q Hq. apply HW. now right.
  - apply IH; auto. intros q Hq. apply HW. now right.
Qed.

Section Img.
Context (m : Z -> Z -> R) (p p' : poly (rvec2 R)).
Hypothesis Hd : 0 < det33 m.
Hypothesis HW : forall v, (0 <= v < nv p)%Z -> 0 < row3 m 2 (ps (vb p) v).
Hypothesis W' : wf2 p'.
Hypothesis Hn : nv p' = nv p.
Hypothesis Hb : nb (vb p') = nb (vb p).
Hypothesis Hp : forall v, (0 <= v < nv p)%Z -> ps (vb p') v = proj3 m (ps (vb p) v).

Lemma keep_iff pl v : (0 <= v < nv p)%Z -> 0 <= sdist pl (ps (vb p') v) <-> 0 <= sdist (pull2 m pl) (ps (vb p) v).
Proof. intros Hv. rewrite Hp by auto. pose proof (HW v Hv). rewrite pull_sdist by lra. split; intros; [apply Rmult_le_pos; lra|nra]. Qed.
Lemma image_proj2 : convex_ccw p -> image2 (proj3 m) p p'.
Proof.
  intros (Wp & TC & s & L & C). split.
  - split; [exact W'|]. split.
    + intros g u v keep next. rewrite Hn. intros Hu Hv Ku Kv Nu Nv.
      assert (Un : forall w, (0 <= w < nv p)%Z -> (0 <= next w < nv p)%Z) by (intros w Hw; unfold next; rewrite Hb; destruct Wp as (_ & Lk); apply Lk; auto).
      apply (TC (pull2 m g) u v); auto; unfold keep in *; cbv beta in *.
      * now apply keep_iff. * now apply keep_iff.
      * intros X. apply Nu. apply keep_iff; [now apply Un|]. unfold next. rewrite Hb. exact X.
      * intros X. apply Nv. apply keep_iff; [now apply Un|]. unfold next. rewrite Hb. exact X.
    + exists s. rewrite Hb, Hn. split; [exact L|].
      assert (I : forall v, In v s -> (0 <= v < nv p)%Z) by (intros v Hv; now apply (proj1 (proj2 L))).
      rewrite (map_ext_in _ (fun v => proj3 m (ps (vb p) v))) by (intros v Hv; apply Hp; auto). rewrite <- map_map. apply ccw_proj; auto.
      intros q Hq. apply in_map_iff in Hq. destruct Hq as (v & <- & Hv). auto.
  - intros y. split.
    + intros H.
      assert (Sy : 0 < row3 (adj3 m) 2 y).
      { rewrite <- wpl_row. apply (hull2_pos p'); auto. rewrite Hn. intros v Hv. rewrite wpl_row, Hp by auto. pose proof (HW v Hv).
        pose proof (adj_w m (ps (vb p) v) ltac:(lra)). nra. }
      pose proof (adj_w' m y ltac:(lra)) as E.
      assert (Wx : 0 < row3 m 2 (proj3 (adj3 m) y)) by nra.
      exists (proj3 (adj3 m) y). split; [|symmetry; apply adj_back; lra].
      intros pl Hpl. pose proof (push_sdist m pl (proj3 (adj3 m) y) ltac:(lra)) as E1. rewrite adj_back in E1 by lra.
      assert (0 <= sdist (pull2 (adj3 m) pl) y).
      { apply H. rewrite Hn. intros v Hv. rewrite Hp by auto. pose proof (HW v Hv). specialize (Hpl v Hv).
        pose proof (push_sdist m pl (ps (vb p) v) ltac:(lra)) as E2. assert (0 <= det33 m * sdist pl (ps (vb p) v)) by (apply Rmult_le_pos; lra). nra. }
      assert (0 <= det33 m * sdist pl (proj3 (adj3 m) y)) by (rewrite <- E1; apply Rmult_le_pos; lra). nra.
    + intros (x & H & ->) pl Hpl.
      assert (Wx : 0 < row3 m 2 x) by (rewrite <- wpl_row; apply (hull2_pos p); auto; intros v Hv; rewrite wpl_row; auto).
      assert (0 <= sdist (pull2 m pl) x).
      { apply H. intros v Hv. apply keep_iff; auto. apply Hpl. now rewrite Hn. }
      rewrite pull_sdist in H0 by lra. nra.
Qed.
End Img.

(** the matrix with the given rows *)
Definition mat2 (a b c d e f : R) (r k : Z) : R :=
  if (r =? 0)%Z then (if (k =? 0)%Z then a else if (k =? 1)%Z then b else c)
  else if (r =? 1)%Z then (if (k =? 0)%Z then d else if (k =? 1)%Z then e else f) else if (k =? 2)%Z then 1 else 0.

Section T.
Context (MX : Z) (p : poly (rvec2 R)).
Hypothesis CV : convex_ccw p.
Hypothesis HM : (nv p <= MX)%Z.
Let Hw : wf2 p := proj1 CV.

Lemma affine_mat2 a b c d e f (g : rvec2 R -> rvec2 R) (p' : poly (rvec2 R)) : (forall q, g q = V2 (a * vx q + b * vy q + c) (d * vx q + e * vy q + f)) ->
  0 < a * e - b * d -> mapped RN g p p' -> image2 g p p'.
Proof.
  intros G Hd M. pose proof (mapped_wf _ _ _ _ M Hw) as W'. destruct M as (A & B & C & _).
  assert (R3 : forall q, row3 (mat2 a b c d e f) 2 q = 1) by (intros q; unfold row3, mat2; cbn; ring).
  assert (E : forall q, proj3 (mat2 a b c d e f) q = g q) by (intros q; rewrite G; unfold proj3; rewrite R3; unfold row3, mat2; cbn; f_equal; field).
  assert (D : 0 < det33 (mat2 a b c d e f)) by (unfold det33, mat2; cbn; lra).
  destruct (image_proj2 (mat2 a b c d e f) p p' D ltac:(intros; rewrite R3; lra) W' A B ltac:(intros v Hv; rewrite E; now apply C) CV) as (I1 & I4).
  split; auto. intros y. rewrite I4. split; intros (x & H & ->); exists x; rewrite E; auto.
Qed.
Theorem translate_image2 (sh : rvec2 R) : exists p', r2d_translate RN MX p sh = OK p' /\ image2 (fun q => V2 (vx q + vx sh) (vy q + vy sh)) p p'.
Proof.
  destruct (translate_R MX p Hw HM sh) as (p' & E & M). exists p'. split; auto.
  apply (affine_mat2 1 0 (vx sh) 0 1 (vy sh)); auto; [|lra]. intros q. f_equal; ring.
Qed.
Theorem scale_image2 s : 0 < s -> exists p', r2d_scale RN MX p s = OK p' /\ image2 (fun q => V2 (vx q * s) (vy q * s)) p p'.
Proof.
  intros Hs. destruct (scale_R MX p Hw HM s) as (p' & E & M). exists p'. split; auto.
  apply (affine_mat2 s 0 0 0 s 0); auto; [|nra]. intros q. f_equal; ring.
Qed.
Theorem shear_image2 s axb axs : (0 <= axb < 2)%Z -> (0 <= axs < 2)%Z -> axb <> axs ->
  exists p', r2d_shear RN MX p s axb axs = OK p' /\ image2 (shear_map s axb axs) p p'.
Proof.
  intros H1 H2 H3. destruct (shear_R MX p Hw HM s axb axs H1 H2) as (p' & E & M). exists p'. split; auto.
  assert ((axb = 0 /\ axs = 1) \/ (axb = 1 /\ axs = 0))%Z as [(-> & ->)|(-> & ->)] by lia.
  - apply (affine_mat2 1 s 0 0 1 0); auto; [|lra]. intros q. unfold shear_map, coordR. cbn. f_equal; ring.
  - apply (affine_mat2 1 0 0 s 1 0); auto; [|lra]. intros q. unfold shear_map, coordR. cbn. f_equal; ring.
Qed.
Theorem affine_image2 m : 0 < det33 m -> (forall v, (0 <= v < nv p)%Z -> 0 < row3 m 2 (ps (vb p) v)) ->
  exists p', r2d_affine RN MX p m = OK p' /\ image2 (proj3 m) p p'.
Proof.
  intros Hd HW. destruct (affine_R MX p Hw HM m) as (p' & E & M). exists p'. split; auto.
  pose proof (mapped_wf _ _ _ _ M Hw) as W'. destruct M as (A & B & C & _). apply image_proj2; auto.
  intros v Hv. rewrite C by auto. unfold affine_map. cbv zeta. set (q := ps (vb p) v).
  assert (Q : forall r, vx q * m r 0%Z + vy q * m r 1%Z + m r 2%Z = row3 m r q) by (intros; unfold row3; ring).
  change (T RN) with R in *. rewrite !Q. reflexivity.
Qed.
(** [r2d_rotate] writes both results to [pos.x] (C19): a convex result only if the sine is positive *)
Theorem rotate_image2 theta : 0 < sin theta -> exists p', r2d_rotate RN MX p theta = OK p' /\ image2 (fun q => V2 (sin theta * vx q + cos theta * vy q) (vy q)) p p'.
Proof.
  intros Hs. destruct (rotate_R MX p Hw HM theta) as (p' & E & M). exists p'. split; auto.
  apply (affine_mat2 (sin theta) (cos theta) 0 0 1 0); auto; [|lra]. intros q. f_equal; ring.
Qed.
End T.

Theorem image_moments2 MX i j sh (g : rvec2 R -> rvec2 R) (p p' : poly (rvec2 R)) (mom : Z -> R) po : image2 g p p' -> (nv p' <= MX)%Z -> (Z.of_nat i + Z.of_nat j <= po)%Z ->
  exists mom', r2d_reduce RN MX sh p' mom po = OK mom'
  /\ integral2 (fun y => exists x, hull2 p x /\ y = g x) (fun x => vx x ^ i * vy x ^ j) (mom' (idx2 (Z.of_nat i) (Z.of_nat j))).
Proof.
  intros (CV & H) HM Ho. destruct (IntC2.reduce_integral MX i j sh p' mom po CV HM Ho) as (mom' & E & I). exists mom'. split; auto.
  revert I. apply IntC2.integral2_ext. exact H.
Qed.
Theorem image_clip2 MX (g : rvec2 R -> rvec2 R) (p p' o : poly (rvec2 R)) planes : image2 g p p' -> (nv p' <= MX)%Z -> r2d_clip RN MX p' planes = OK o ->
  (forall y, hull2 o y <-> exists x, hull2 p x /\ y = g x /\ holds2 planes y)
  \/ (nv o = 0%Z /\ exists pl, In pl planes /\ forall x, hull2 p x -> holds2 planes (g x) -> sdist pl (g x) = 0).
Proof.
  intros (CV & H) HM E. destruct (ClipC2.r2d_clip_hull MX p' o planes CV HM E) as (_ & [I|(Z0 & pl & Ip & I)]).
  - left. intros y. rewrite I, H. split; [intros ((x & Hx & ->) & Hh); eauto|intros (x & Hx & -> & Hh); eauto].
  - right. split; auto. exists pl. split; auto. intros x Hx. apply I. apply H. eauto.
Qed.

(** the unit square under a perspective map with the denominator [y + 2] *)
Definition persp2 (r k : Z) : R := if (r =? 2)%Z then (if (k =? 1)%Z then 1 else if (k =? 2)%Z then 2 else 0) else if (r =? k)%Z then 1 else 0.
Lemma square_persp p0 : exists p, r2d_init_box RN 256 p0 (V2 0 0) (V2 1 1) = OK p /\ convex_ccw p /\ (nv p <= 256)%Z /\ 0 < det33 persp2
  /\ forall v, (0 <= v < nv p)%Z -> 0 < row3 persp2 2 (ps (vb p) v).
Proof.
  destruct (GlueC2.square_convex p0) as (p & E & CV & Hn & HH). exists p. split; auto. split; auto.
  split; [change (T RN) with R in *; lia|]. split; [unfold det33, persp2; cbn; lra|]. intros v Hv.
  assert (H : hull2 p (ps (vb p) v)) by (intros pl H; auto). apply HH in H. revert H. generalize (ps (vb p) v). intros q H. unfold row3, persp2. cbn. lra.
Qed.
