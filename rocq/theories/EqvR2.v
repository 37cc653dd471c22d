(** * EqvR2: transforming a polygon and clipping it commute. *)
From Coq Require Import Reals ZArith List Bool Lia Lra.
From Verif Require Import Base Lib ModelCommon Model2 RealNum RndNum Cons2 Small2 Spec2R SpecP3 SpecEq Eqv Eqv2 EqvR3 EqvF3.
Import ListNotations.
Open Scope Z_scope.

Section G.
Context (rnd : R -> R) (Hbig : (0 <= rnd (10 ^ 30))%R) (MX : Z) (Q : rvec2 R -> rvec2 R -> Prop).
Notation N := (FN rnd).
Lemma map_polrel2 (f : rvec2 R -> res (rvec2 R)) g (p : poly (rvec2 R)) : 0 <= nv p <= MX -> (forall q, f q = OK (g q)) ->
  (forall v, 0 <= v < nv p -> Q (ps (vb p) v) (g (ps (vb p) v))) -> exists p', map_pos N MX f p = OK p' /\ polrel2 MX Q p p'.
Proof.
  intros Hn Hf HQ. destruct (map_pos_spec N MX f g p Hn Hf) as (p' & E & (M1 & M2 & M3 & _)). exists p'. split; auto.
  split; [exact M1|]. split; [lia|]. split; [exact M2|]. intros v Hv. specialize (M3 v Hv). cbn in M3 |- *. rewrite M3. auto.
Qed.
Theorem commute_2d (f : rvec2 R -> res (rvec2 R)) g (p : poly (rvec2 R)) planes planes' : 0 <= nv p <= MX -> (forall q, f q = OK (g q)) ->
  (forall x x', Q x x' -> x' = g x) -> (forall v, 0 <= v < nv p -> Q (ps (vb p) v) (g (ps (vb p) v))) -> Forall2 (prel2 rnd Q) planes planes' ->
  agree (same_verts 2) (let* p1 := map_pos N MX f p in r2d_clip N MX p1 planes') (let* q := r2d_clip N MX p planes in map_pos N MX f q).
Proof.
  intros Hn Hf Hg HQ HF. destruct (map_polrel2 f g p Hn Hf HQ) as (p1 & -> & PR). cbn [bind].
  pose proof (clip2_rel rnd Hbig MX Q planes planes' p p1 HF PR) as X.
  destruct (r2d_clip N MX p planes) as [q|e] eqn:E1, (r2d_clip N MX p1 planes') as [o|e'] eqn:E2; cbn [rr] in X; try contradiction; cbn [bind]; [|cbn; congruence].
  destruct X as (H1 & H2 & (H3 & H4)).
  assert (HQ' : forall v, 0 <= v < nv q -> Q (ps (vb q) v) (g (ps (vb q) v))).
  { intros v Hv. specialize (H4 v Hv). exact (eq_ind _ (fun z => Q (ps (vb q) v) z) H4 _ (Hg _ _ H4)). }
  destruct (map_polrel2 f g q H2 Hf HQ') as (q1 & -> & (K1 & _ & (K3 & K4))). cbn [agree].
  split; [exact (eq_trans K1 (eq_sym H1))|]. intros v Hv.
  assert (Hv' : 0 <= v < nv q) by (unfold T, FN in *; pose proof (H1 : nv o = nv q) as H1'; clear - Hv H1'; rewrite <- H1'; exact Hv). split.
  - pose proof (Hg _ _ (H4 v Hv')) as A. pose proof (Hg _ _ (K4 v Hv')) as B. exact (eq_trans B (eq_sym A)).
  - intros i _. exact (f_equal (fun h => h v i) (eq_trans K3 (eq_sym H3))).
Qed.
End G.

(** ** Exact arithmetic *)
Lemma sdF2_R pl x : sdF2 (fun x => x) pl x = sdist pl x.
Proof. unfold sdF2, sdist, dot2. cbn. ring. Qed.
Section X.
Context (m : Z -> Z -> R).
Definition QP2 (x x' : rvec2 R) : Prop := (0 < row3 m 2 x)%R /\ x' = proj3 m x.
Lemma carried_prel2 pl pl' : carried33 m pl pl' -> prel2 (fun x => x) QP2 pl pl'.
Proof.
  intros (k & Hk & H). split.
  - intros x x' (Hx & ->). rewrite !sdF2_R. specialize (H x Hx). set (w := row3 m 2 x) in *. set (s := sdist pl x) in *. set (s' := sdist pl' (proj3 m x)) in *.
    split; split; intros L.
    + apply Rnot_le_lt. intros Y. pose proof (Rmult_le_pos _ _ Y (Rlt_le _ _ Hx)). pose proof (Rmult_lt_compat_l k _ _ Hk L). lra.
    + apply Rnot_le_lt. intros Y. pose proof (Rmult_le_pos k _ (Rlt_le _ _ Hk) Y). pose proof (Rmult_lt_compat_r w _ _ Hx L). lra.
    + apply Rnot_lt_le. intros Y. pose proof (Rmult_lt_0_compat _ _ Y Hx). pose proof (Rmult_le_compat_l k _ _ (Rlt_le _ _ Hk) L). lra.
    + apply Rnot_lt_le. intros Y. pose proof (Rmult_lt_0_compat _ _ Hk Y). pose proof (Rmult_le_compat_r w _ _ (Rlt_le _ _ Hx) L). lra.
  - intros a a' b b' (Ha & ->) (Hb & ->). rewrite !sdF2_R. pose proof (H a Ha) as EA. pose proof (H b Hb) as EB.
    set (sa := sdist pl a) in *. set (sb := sdist pl b) in *. set (ta := sdist pl' (proj3 m a)) in *. set (tb := sdist pl' (proj3 m b)) in *.
    intros Pa Pb. change (wav2 (FN (fun x => x))) with (wav2 RN).
    assert (R4 : forall r, row3 m r (wav2 RN a (- sb)%R b sa) = ((- sb * row3 m r a + sa * row3 m r b) / (- sb + sa))%R).
    { intros r. unfold row3, wav2. cbn. field. lra. }
    assert (W : (0 < - sb * row3 m 2 a + sa * row3 m 2 b)%R).
    { pose proof (Rmult_lt_0_compat (- sb) _ ltac:(lra) Ha). pose proof (Rmult_le_pos _ _ Pa (Rlt_le _ _ Hb)). lra. }
    split.
    + rewrite R4. apply Rdiv_lt_0_compat; lra.
    + assert (Ta : ta = (k * sa / row3 m 2 a)%R) by (rewrite <- EA; field; lra). assert (Tb : tb = (k * sb / row3 m 2 b)%R) by (rewrite <- EB; field; lra).
      clearbody ta tb. subst ta tb. unfold proj3 at 3. rewrite !R4. unfold wav2, proj3. cbn.
      f_equal; apply persp_ratio; auto; lra.
Qed.
Theorem commute33 MX (f : rvec2 R -> res (rvec2 R)) (p : poly (rvec2 R)) planes planes' : 0 <= nv p <= MX -> (forall q, f q = OK (proj3 m q)) ->
  (forall v, 0 <= v < nv p -> (0 < row3 m 2 (ps (vb p) v))%R) -> Forall2 (carried33 m) planes planes' ->
  agree (same_verts 2) (let* p1 := map_pos RN MX f p in r2d_clip RN MX p1 planes') (let* q := r2d_clip RN MX p planes in map_pos RN MX f q).
Proof.
  intros Hn Hf Hw HF. apply (commute_2d (fun x => x) ltac:(apply Rlt_le, pow_lt; lra) MX QP2 f (proj3 m) p planes planes'); auto.
  - now intros x x' (_ & ->).
  - intros v Hv. split; auto.
  - clear - HF. induction HF; constructor; auto. now apply carried_prel2.
Qed.
End X.

(** ** The routines *)
Section Routines.
Context (MX : Z) (p : poly (rvec2 R)) (Hn : 0 <= nv p <= MX) (planes planes' : list (plane2 R)).
Definition mat3 (a b c d e f : R) : Z -> Z -> R := fun r s =>
  if r =? 0 then (if s =? 0 then a else if s =? 1 then b else c)
  else if r =? 1 then (if s =? 0 then d else if s =? 1 then e else f)
  else (if s =? 2 then 1%R else 0%R).
Lemma linear_case2 (f : rvec2 R -> res (rvec2 R)) g a b c d e h :
  (forall q, f q = OK (g q)) -> (forall q, g q = proj3 (mat3 a b c d e h) q) -> Forall2 (carried2 g) planes planes' ->
  agree (same_verts 2) (let* p1 := map_pos RN MX f p in r2d_clip RN MX p1 planes') (let* q := r2d_clip RN MX p planes in map_pos RN MX f q).
Proof.
  intros Hf Hg HF. assert (W : forall q, row3 (mat3 a b c d e h) 2 q = 1%R) by (intros q; unfold row3, mat3; cbn; ring).
  apply (commute33 (mat3 a b c d e h)); auto.
  - intros q. rewrite Hf. now rewrite Hg.
  - intros w Hw. rewrite W. lra.
  - clear - HF Hg W. induction HF as [|pl pl' r r' (t & Ht & H) _ IH]; constructor; auto. exists t. split; auto. intros x _. rewrite W, <- Hg, H. ring.
Qed.
Ltac mat := intros q; unfold proj3, row3, mat3; cbn; f_equal; field.
Theorem translate_commutes2 sh : Forall2 (carried2 (fun q => V2 (vx q + vx sh) (vy q + vy sh))%R) planes planes' ->
  agree (same_verts 2) (let* p1 := r2d_translate RN MX p sh in r2d_clip RN MX p1 planes') (let* q := r2d_clip RN MX p planes in r2d_translate RN MX q sh).
Proof. apply (linear_case2 _ _ 1 0 (vx sh) 0 1 (vy sh))%R; [reflexivity|]. mat. Qed.
Theorem scale_commutes2 s : Forall2 (carried2 (fun q => V2 (vx q * s) (vy q * s))%R) planes planes' ->
  agree (same_verts 2) (let* p1 := r2d_scale RN MX p s in r2d_clip RN MX p1 planes') (let* q := r2d_clip RN MX p planes in r2d_scale RN MX q s).
Proof. apply (linear_case2 _ _ s 0 0 0 s 0)%R; [reflexivity|]. mat. Qed.
Theorem shear_commutes2 s axb axs : 0 <= axb < 2 -> 0 <= axs < 2 -> Forall2 (carried2 (shear_map s axb axs)) planes planes' ->
  agree (same_verts 2) (let* p1 := r2d_shear RN MX p s axb axs in r2d_clip RN MX p1 planes') (let* q := r2d_clip RN MX p planes in r2d_shear RN MX q s axb axs).
Proof.
  intros Hb Hs. pose (c i j := ((if i =? j then 1 else 0) + (if (i =? axb) && (j =? axs) then s else 0))%R).
  apply (linear_case2 _ _ (c 0 0) (c 0 1) 0%R (c 1 0) (c 1 1) 0%R).
  - intros q. assert (axb = 0 \/ axb = 1) as [-> | ->] by lia; assert (axs = 0 \/ axs = 1) as [-> | ->] by lia; reflexivity.
  - intros q. unfold c, shear_map.
    assert (axb = 0 \/ axb = 1) as [-> | ->] by lia; assert (axs = 0 \/ axs = 1) as [-> | ->] by lia; unfold proj3, row3, mat3, coordR; cbn; f_equal; field.
Qed.
(** the map that [r2d_rotate] applies *)
Theorem rotate_commutes2 th : Forall2 (carried2 (fun q => V2 (sin th * vx q + cos th * vy q) (vy q))%R) planes planes' ->
  agree (same_verts 2) (let* p1 := r2d_rotate RN MX p th in r2d_clip RN MX p1 planes') (let* q := r2d_clip RN MX p planes in r2d_rotate RN MX q th).
Proof. apply (linear_case2 _ _ (sin th) (cos th) 0 0 1 0)%R; [reflexivity|]. mat. Qed.
Theorem affine_commutes2 m : (forall v, 0 <= v < nv p -> (0 < row3 m 2 (ps (vb p) v))%R) -> Forall2 (carried33 m) planes planes' ->
  agree (same_verts 2) (let* p1 := r2d_affine RN MX p m in r2d_clip RN MX p1 planes') (let* q := r2d_clip RN MX p planes in r2d_affine RN MX q m).
Proof.
  intros Hw HF. apply (commute33 m); auto. intros q.
  assert (E : forall r, row3 m r q = (vx q * m r 0%Z + vy q * m r 1%Z + m r 2%Z)%R) by (intros r; unfold row3; ring).
  unfold proj3. rewrite !E. reflexivity.
Qed.
End Routines.

(** ** Rounded arithmetic *)
Open Scope R_scope.
Section F.
Context (u : R) (rnd : R -> R) (HA : accurate u rnd) (Hu : 0 <= u <= 1 / 10).
Section P.
Context (sx sy : R) (HX : exact_factor rnd sx) (HY : exact_factor rnd sy).
Lemma sdF2_scaled c pl pl' x : exact_factor rnd c -> scaled_plane2 sx sy c pl pl' -> sdF2 rnd pl' (scaled2 sx sy x) = c * sdF2 rnd pl x.
Proof.
  intros (_ & Hc) (E1 & E2 & E4). unfold sdF2, dot2, scaled2. cbn.
  replace (sx * vx x * vx (pn pl')) with (c * (vx x * vx (pn pl))) by (rewrite <- Rmult_assoc, (Rmult_comm c), Rmult_assoc, <- E1; ring).
  replace (sy * vy x * vy (pn pl')) with (c * (vy x * vy (pn pl))) by (rewrite <- Rmult_assoc, (Rmult_comm c), Rmult_assoc, <- E2; ring).
  rewrite E4, !Hc. rewrite <- Rmult_plus_distr_l, Hc, <- Rmult_plus_distr_l, Hc. reflexivity.
Qed.
Lemma wav2_scaled c a b wa wb : exact_factor rnd c -> 0 < wa + wb ->
  wav2 (FN rnd) (scaled2 sx sy a) (c * wa) (scaled2 sx sy b) (c * wb) = scaled2 sx sy (wav2 (FN rnd) a wa b wb).
Proof. intros Hc W. unfold wav2, scaled2. cbn. f_equal; apply (wav1_scaled u rnd HA Hu); auto. Qed.
Definition QS2 (Dom : rvec2 R -> Prop) (x x' : rvec2 R) : Prop := Dom x /\ x' = scaled2 sx sy x.
Lemma prel2_scaled (Dom : rvec2 R -> Prop) c pl pl' : exact_factor rnd c -> 0 < c -> (forall a wa b wb, Dom a -> Dom b -> Dom (wav2 (FN rnd) a wa b wb)) ->
  scaled_plane2 sx sy c pl pl' -> prel2 rnd (QS2 Dom) pl pl'.
Proof.
  intros Hc Cp HD HP. split.
  - intros x x' (_ & ->). rewrite (sdF2_scaled c pl pl' x Hc HP). set (t := sdF2 rnd pl x). clearbody t.
    split; split; intros H; try (apply Rnot_le_lt; intros Y); try (apply Rnot_lt_le; intros Y).
    + pose proof (Rmult_lt_compat_l c _ _ Cp H). lra.
    + pose proof (Rmult_le_pos c t ltac:(lra) Y). lra.
    + pose proof (Rmult_le_compat_l c _ _ (Rlt_le _ _ Cp) H). lra.
    + pose proof (Rmult_lt_0_compat c t Cp Y). lra.
  - intros a a' b b' (Da & ->) (Db & ->) Pa Pb. split; [now apply HD|]. rewrite !(sdF2_scaled c pl pl' _ Hc HP).
    replace (- (c * sdF2 rnd pl b)) with (c * - sdF2 rnd pl b) by ring. apply wav2_scaled; auto. lra.
Qed.
End P.
Theorem scaled_clip2 MX sx sy c (p p' : poly (rvec2 R)) planes planes' : exact_factor rnd sx -> exact_factor rnd sy -> exact_factor rnd c -> 0 < c ->
  (0 <= nv p <= MX)%Z -> scaled_verts2 sx sy p p' -> Forall2 (scaled_plane2 sx sy c) planes planes' ->
  agree (scaled_verts2 sx sy) (r2d_clip (FN rnd) MX p planes) (r2d_clip (FN rnd) MX p' planes').
Proof.
  intros HX HY Hc Cp Hn (E1 & E2 & E3) HF.
  pose proof (clip2_rel rnd (big_rnd u rnd HA Hu) MX (QS2 sx sy (fun _ => True)) planes planes' p p') as X.
  assert (X1 : Forall2 (prel2 rnd (QS2 sx sy (fun _ => True))) planes planes').
  { clear - HA Hu HF HX HY Hc Cp. induction HF; constructor; auto. now apply (prel2_scaled sx sy HX HY (fun _ => True) c). }
  specialize (X X1). specialize (X ltac:(split; [exact E1|split; [exact Hn|split; [exact E2|intros v Hv; split; auto]]])).
  destruct (r2d_clip (FN rnd) MX p planes) as [o|], (r2d_clip (FN rnd) MX p' planes') as [o'|]; cbn in X |- *; auto.
  destruct X as (H1 & _ & H2 & H3). split; auto. split; auto. intros v Hv. exact (proj2 (H3 v Hv)).
Qed.
Theorem scale_rounded_commutes2 MX s c (p : poly (rvec2 R)) planes planes' : (forall x, rnd (rnd x) = rnd x) -> exact_factor rnd s -> exact_factor rnd c -> 0 < c ->
  (0 <= nv p <= MX)%Z -> (forall v, (0 <= v < nv p)%Z -> in_format2 rnd (ps (vb p) v)) -> Forall2 (scaled_plane2 s s c) planes planes' ->
  agree (same_verts 2) (let* p1 := r2d_scale (FN rnd) MX p s in r2d_clip (FN rnd) MX p1 planes') (let* q := r2d_clip (FN rnd) MX p planes in r2d_scale (FN rnd) MX q s).
Proof.
  intros HI HS Hc Cp Hn HF0 HF.
  apply (commute_2d rnd (big_rnd u rnd HA Hu) MX (QS2 s s (in_format2 rnd)) _ (fun q => V2 (rnd (vx q * s)) (rnd (vy q * s)))); auto.
  - intros x x' ((F1 & F2) & ->). unfold scaled2. rewrite !(Rmult_comm _ s), !(proj2 HS), F1, F2. reflexivity.
  - intros v Hv. pose proof (HF0 v Hv) as (F1 & F2). split; [split; auto|]. unfold scaled2. rewrite !(Rmult_comm _ s), !(proj2 HS), F1, F2. reflexivity.
  - clear - HA Hu HF HS Hc Cp HI. induction HF; constructor; auto. apply (prel2_scaled s s HS HS (in_format2 rnd) c); auto.
    intros a wa b wb _ _. unfold in_format2, wav2. cbn. rewrite !HI. auto.
Qed.
End F.
