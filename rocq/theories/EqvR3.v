(** * EqvR3: transforming a polyhedron and clipping it commute. *)
From Coq Require Import Reals ZArith List Bool Lia Lra.
From Verif Require Import Base Lib ModelCommon Model3 RealNum RndNum Small3 Trans3 Spec3R SpecP3 SpecEq Eqv Eqv3.
Import ListNotations.
Open Scope Z_scope.

Section G.
Context (rnd : R -> R) (Hbig : (0 <= rnd (10 ^ 30))%R) (MX : Z) (Q : rvec3 R -> rvec3 R -> Prop).
Notation N := (FN rnd).
Lemma map_polrel (f : rvec3 R -> res (rvec3 R)) g (p : poly (rvec3 R)) : 0 <= nv p <= MX -> (forall q, f q = OK (g q)) ->
  (forall v, 0 <= v < nv p -> Q (ps (vb p) v) (g (ps (vb p) v))) -> exists p', map_pos3 N MX f p = OK p' /\ polrel MX Q p p'.
Proof.
  intros Hn Hf HQ. destruct (map_pos3_spec N MX f g p Hn Hf) as (p' & E & (M1 & M2 & M3 & _)). exists p'. split; auto.
  split; [exact M1|]. split; [lia|]. split; [exact M2|]. intros v Hv. specialize (M3 v Hv). cbn in M3 |- *. rewrite M3. auto.
Qed.
(** [Q x x']: [x'] is the image of [x], and [x] is a point for which the planes are respected *)
Theorem commute (f : rvec3 R -> res (rvec3 R)) g (p : poly (rvec3 R)) planes planes' : 0 <= nv p <= MX -> (forall q, f q = OK (g q)) ->
  (forall x x', Q x x' -> x' = g x) -> (forall v, 0 <= v < nv p -> Q (ps (vb p) v) (g (ps (vb p) v))) -> Forall2 (prel rnd Q) planes planes' ->
  agree same_verts_st
    (let* p1 := map_pos3 N MX f p in r3d_clip N MX p1 planes')
    (let* (q, r) := r3d_clip N MX p planes in let* q1 := map_pos3 N MX f q in OK (q1, r)).
Proof.
  intros Hn Hf Hg HQ HF. destruct (map_polrel f g p Hn Hf HQ) as (p1 & -> & PR). cbn [bind].
  pose proof (clip3_rel rnd Hbig MX Q planes planes' p p1 HF PR) as X.
  destruct (r3d_clip N MX p planes) as [(q, r)|e] eqn:E1, (r3d_clip N MX p1 planes') as [(o, r')|e'] eqn:E2; cbn [rr] in X; try contradiction; cbn [bind]; [|cbn; congruence].
  cbn [fst snd] in X. destruct X as ((H1 & H2 & (H3 & H4)) & H5).
  assert (HQ' : forall v, 0 <= v < nv q -> Q (ps (vb q) v) (g (ps (vb q) v))).
  { intros v Hv. specialize (H4 v Hv). exact (eq_ind _ (fun z => Q (ps (vb q) v) z) H4 _ (Hg _ _ H4)). }
  destruct (map_polrel f g q H2 Hf HQ') as (q1 & -> & (K1 & _ & (K3 & K4))). cbn [bind agree]. split; [|cbn; congruence]. cbn [fst].
  split; [congruence|]. intros v Hv. rewrite H1 in Hv. split.
  - pose proof (Hg _ _ (H4 v Hv)) as A. pose proof (Hg _ _ (K4 v Hv)) as B. congruence.
  - intros i _. congruence.
Qed.
End G.

(** ** Exact arithmetic *)
Lemma sdF_R pl x : sdF (fun x => x) pl x = sdist3 pl x.
Proof. unfold sdF, sdist3, dot3. cbn. ring. Qed.
Lemma persp_ratio k sa sb wa wb ra rb : (0 < k -> 0 < wa -> 0 < wb -> - sb + sa <> 0 -> 0 < - sb * wa + sa * wb ->
  (- (k * sb / wb) * (ra / wa) + k * sa / wa * (rb / wb)) / (- (k * sb / wb) + k * sa / wa) =
  (- sb * ra + sa * rb) / (- sb + sa) / ((- sb * wa + sa * wb) / (- sb + sa)))%R.
Proof.
  intros Hk Ha Hb Hs HP.
  replace (- (k * sb / wb) + k * sa / wa)%R with (k / (wa * wb) * (- sb * wa + sa * wb))%R by (field; lra).
  replace (- (k * sb / wb) * (ra / wa) + k * sa / wa * (rb / wb))%R with (k / (wa * wb) * (- sb * ra + sa * rb))%R by (field; lra).
  set (P := (- sb * wa + sa * wb)%R) in *. set (Y := (- sb * ra + sa * rb)%R). set (S := (- sb + sa)%R) in *. clearbody P Y S. field. repeat split; lra.
Qed.
Section X.
Context (m : Z -> Z -> R).
Definition QP (x x' : rvec3 R) : Prop := (0 < row4 m 3 x)%R /\ x' = proj4 m x.
Lemma carried_prel pl pl' : carried4 m pl pl' -> prel (fun x => x) QP pl pl'.
Proof.
  intros (k & Hk & H). split.
  - intros x x' (Hx & ->). rewrite !sdF_R. specialize (H x Hx). set (w := row4 m 3 x) in *. set (s := sdist3 pl x) in *. set (s' := sdist3 pl' (proj4 m x)) in *.
    split; split; intros L.
    + apply Rnot_le_lt. intros Y. pose proof (Rmult_le_pos _ _ Y (Rlt_le _ _ Hx)). pose proof (Rmult_lt_compat_l k _ _ Hk L). lra.
    + apply Rnot_le_lt. intros Y. pose proof (Rmult_le_pos k _ (Rlt_le _ _ Hk) Y). pose proof (Rmult_lt_compat_r w _ _ Hx L). lra.
    + apply Rnot_lt_le. intros Y. pose proof (Rmult_lt_0_compat _ _ Y Hx). pose proof (Rmult_le_compat_l k _ _ (Rlt_le _ _ Hk) L). lra.
    + apply Rnot_lt_le. intros Y. pose proof (Rmult_lt_0_compat _ _ Hk Y). pose proof (Rmult_le_compat_r w _ _ (Rlt_le _ _ Hx) L). lra.
  - intros a a' b b' (Ha & ->) (Hb & ->). rewrite !sdF_R. pose proof (H a Ha) as EA. pose proof (H b Hb) as EB.
    set (sa := sdist3 pl a) in *. set (sb := sdist3 pl b) in *. set (ta := sdist3 pl' (proj4 m a)) in *. set (tb := sdist3 pl' (proj4 m b)) in *.
    intros Pa Pb. change (wav3 (FN (fun x => x))) with (wav3 RN).
    assert (R4 : forall r, row4 m r (wav3 RN a (- sb)%R b sa) = ((- sb * row4 m r a + sa * row4 m r b) / (- sb + sa))%R).
    { intros r. unfold row4, wav3. cbn. field. lra. }
    assert (W : (0 < - sb * row4 m 3 a + sa * row4 m 3 b)%R).
    { pose proof (Rmult_lt_0_compat (- sb) _ ltac:(lra) Ha). pose proof (Rmult_le_pos _ _ Pa (Rlt_le _ _ Hb)). lra. }
    split.
    + rewrite R4. apply Rdiv_lt_0_compat; lra.
    + assert (Ta : ta = (k * sa / row4 m 3 a)%R) by (rewrite <- EA; field; lra). assert (Tb : tb = (k * sb / row4 m 3 b)%R) by (rewrite <- EB; field; lra).
      clearbody ta tb. subst ta tb. unfold proj4 at 3. rewrite !R4. unfold wav3, proj4. cbn.
      f_equal; apply persp_ratio; auto; lra.
Qed.
Theorem commute4 MX (f : rvec3 R -> res (rvec3 R)) (p : poly (rvec3 R)) planes planes' : 0 <= nv p <= MX -> (forall q, f q = OK (proj4 m q)) ->
  (forall v, 0 <= v < nv p -> (0 < row4 m 3 (ps (vb p) v))%R) -> Forall2 (carried4 m) planes planes' ->
  agree same_verts_st
    (let* p1 := map_pos3 RN MX f p in r3d_clip RN MX p1 planes')
    (let* (q, r) := r3d_clip RN MX p planes in let* q1 := map_pos3 RN MX f q in OK (q1, r)).
Proof.
  intros Hn Hf Hw HF. apply (commute (fun x => x) ltac:(apply Rlt_le, pow_lt; lra) MX QP f (proj4 m) p planes planes'); auto.
  - now intros x x' (_ & ->).
  - intros v Hv. split; auto.
  - clear - HF. induction HF; constructor; auto. now apply carried_prel.
Qed.
End X.

(** ** The routines *)
Section Routines.
Context (MX : Z) (p : poly (rvec3 R)) (Hn : 0 <= nv p <= MX) (planes planes' : list (plane3 R)).
Definition mat4 (a b c d e f g h i j k l : R) : Z -> Z -> R := fun r s =>
  if r =? 0 then (if s =? 0 then a else if s =? 1 then b else if s =? 2 then c else d)
  else if r =? 1 then (if s =? 0 then e else if s =? 1 then f else if s =? 2 then g else h)
  else if r =? 2 then (if s =? 0 then i else if s =? 1 then j else if s =? 2 then k else l)
  else (if s =? 3 then 1%R else 0%R).
Lemma linear_case (f : rvec3 R -> res (rvec3 R)) g a b c d e h i j k l u v :
  (forall q, f q = OK (g q)) -> (forall q, g q = proj4 (mat4 a b c d e h i j k l u v) q) -> Forall2 (carried3 g) planes planes' ->
  agree same_verts_st
    (let* p1 := map_pos3 RN MX f p in r3d_clip RN MX p1 planes')
    (let* (q, r) := r3d_clip RN MX p planes in let* q1 := map_pos3 RN MX f q in OK (q1, r)).
Proof.
  intros Hf Hg HF. assert (W : forall q, row4 (mat4 a b c d e h i j k l u v) 3 q = 1%R) by (intros q; unfold row4, mat4; cbn; ring).
  apply (commute4 (mat4 a b c d e h i j k l u v)); auto.
  - intros q. rewrite Hf. now rewrite Hg.
  - intros w Hw. rewrite W. lra.
  - clear - HF Hg W. induction HF as [|pl pl' r r' (t & Ht & H) _ IH]; constructor; auto. exists t. split; auto. intros x _. rewrite W, <- Hg, H. ring.
Qed.
Ltac mat := intros q; unfold proj4, row4, mat4; cbn; f_equal; field.
Theorem translate_commutes sh : Forall2 (carried3 (fun q => V3 (x3 q + x3 sh) (y3 q + y3 sh) (z3 q + z3 sh))%R) planes planes' ->
  agree same_verts_st (let* p1 := r3d_translate RN MX p sh in r3d_clip RN MX p1 planes')
    (let* (q, r) := r3d_clip RN MX p planes in let* q1 := r3d_translate RN MX q sh in OK (q1, r)).
Proof. apply (linear_case _ _ 1 0 0 (x3 sh) 0 1 0 (y3 sh) 0 0 1 (z3 sh))%R; [reflexivity|]. mat. Qed.
Theorem scale_commutes s : Forall2 (carried3 (fun q => V3 (x3 q * s) (y3 q * s) (z3 q * s))%R) planes planes' ->
  agree same_verts_st (let* p1 := r3d_scale RN MX p s in r3d_clip RN MX p1 planes')
    (let* (q, r) := r3d_clip RN MX p planes in let* q1 := r3d_scale RN MX q s in OK (q1, r)).
Proof. apply (linear_case _ _ s 0 0 0 0 s 0 0 0 0 s 0)%R; [reflexivity|]. mat. Qed.
Theorem shear_commutes s axb axs : 0 <= axb < 3 -> 0 <= axs < 3 -> Forall2 (carried3 (shear3_map s axb axs)) planes planes' ->
  agree same_verts_st (let* p1 := r3d_shear RN MX p s axb axs in r3d_clip RN MX p1 planes')
    (let* (q, r) := r3d_clip RN MX p planes in let* q1 := r3d_shear RN MX q s axb axs in OK (q1, r)).
Proof.
  intros Hb Hs. pose (c i j := ((if i =? j then 1 else 0) + (if (i =? axb) && (j =? axs) then s else 0))%R).
  apply (linear_case _ _ (c 0 0) (c 0 1) (c 0 2) 0%R (c 1 0) (c 1 1) (c 1 2) 0%R (c 2 0) (c 2 1) (c 2 2) 0%R).
  - intros q. assert (axb = 0 \/ axb = 1 \/ axb = 2) as [-> |[-> | ->]] by lia; assert (axs = 0 \/ axs = 1 \/ axs = 2) as [-> |[-> | ->]] by lia; reflexivity.
  - intros q. unfold c, shear3_map.
    assert (axb = 0 \/ axb = 1 \/ axb = 2) as [-> |[-> | ->]] by lia; assert (axs = 0 \/ axs = 1 \/ axs = 2) as [-> |[-> | ->]] by lia; unfold proj4, row4, mat4; cbn; f_equal; field.
Qed.
Theorem rotate_commutes th axis : 0 <= axis < 3 -> Forall2 (carried3 (rot3_map th axis)) planes planes' ->
  agree same_verts_st (let* p1 := r3d_rotate RN MX p th axis in r3d_clip RN MX p1 planes')
    (let* (q, r) := r3d_clip RN MX p planes in let* q1 := r3d_rotate RN MX q th axis in OK (q1, r)).
Proof.
  intros Ha. assert (axis = 0 \/ axis = 1 \/ axis = 2) as [-> |[-> | ->]] by lia.
  - apply (linear_case _ _ 1 0 0 0 0 (cos th) (- sin th) 0 0 (sin th) (cos th) 0)%R; [reflexivity|]. mat.
  - apply (linear_case _ _ (cos th) 0 (sin th) 0 0 1 0 0 (- sin th) 0 (cos th) 0)%R; [reflexivity|]. mat.
  - apply (linear_case _ _ (cos th) (- sin th) 0 0 (sin th) (cos th) 0 0 0 0 1 0)%R; [reflexivity|]. mat.
Qed.
(** also for matrices with a perspective row *)
Theorem affine_commutes m : (forall v, 0 <= v < nv p -> (0 < row4 m 3 (ps (vb p) v))%R) -> Forall2 (carried4 m) planes planes' ->
  agree same_verts_st (let* p1 := r3d_affine RN MX p m in r3d_clip RN MX p1 planes')
    (let* (q, r) := r3d_clip RN MX p planes in let* q1 := r3d_affine RN MX q m in OK (q1, r)).
Proof.
  intros Hw HF. apply (commute4 m); auto. intros q.
  assert (E : forall r, row4 m r q = (x3 q * m r 0%Z + y3 q * m r 1%Z + z3 q * m r 2%Z + m r 3%Z)%R) by (intros r; unfold row4; ring).
  unfold proj4. rewrite !E. reflexivity.
Qed.
End Routines.
