(** * EqvNR: the transforms of rNd.c and [rNd_clip] commute; changes of units under rounding. *)
From Coq Require Import Reals ZArith List Bool Lia Lra.
From Verif Require Import Base Lib ModelCommon ModelN ModelNC RealNum RndNum SumR SpecN SpecNP TransN ClipN HullN SpecEq SpecEqN Eqv Eqv3 EqvF3 EqvN.
Import ListNotations.
Open Scope Z_scope.

Section X.
Context (MX D : Z) (HD : 0 <= D).
Notation rid := (fun x : R => x).
Lemma sdX_Spl (pl : planeN RN) x : sdX rid D pl x = Spl D pl x.
Proof. exact (sdfN_lin D pl (VB (fun _ _ => 0) (fun _ => x)) 0). Qed.
Lemma Spl_ext (pl : planeN RN) x y : (forall i, 0 <= i < D -> x i = y i) -> Spl D pl x = Spl D pl y.
Proof. intros H. unfold Spl, linN. f_equal. apply lsum_ext. intros i Hi. apply in_zrange in Hi. now rewrite H. Qed.

Context (F : (Z -> R) -> Z -> R).
Hypothesis Fext : forall x y, (forall i, 0 <= i < D -> x i = y i) -> forall i, 0 <= i < D -> F x i = F y i.
Hypothesis Faff : forall a b s t i, 0 <= i < D -> (s - t <> 0)%R -> (F (fun j => (b j * s - a j * t) / (s - t)) i = (F b i * s - F a i * t) / (s - t))%R.
Definition QF (x x' : Z -> R) : Prop := forall i, 0 <= i < D -> x' i = F x i.
Lemma QF_ext x x' y y' : QF x x' -> (forall i, 0 <= i < D -> y i = x i) -> (forall i, 0 <= i < D -> y' i = x' i) -> QF y y'.
Proof. intros H H1 H2 i Hi. rewrite H2, H by auto. apply Fext; auto. intros j Hj. symmetry. auto. Qed.
Lemma carried_prel (pl pl' : planeN RN) : carriedN D F pl pl' -> prelN rid D QF pl pl'.
Proof.
  intros (k & Hk & H). assert (S : forall x x', QF x x' -> sdX rid D pl' x' = (k * sdX rid D pl x)%R).
  { intros x x' Hx. rewrite (sdX_Spl pl), (sdX_Spl pl'), <- H. apply Spl_ext. auto. }
  split.
  - intros x x' Hx. rewrite (S x x' Hx). split; split; intros G; nra.
  - intros a a' b b' Ha Hb Pa Pb i Hi. rewrite (S a a' Ha), (S b b' Hb). set (s := sdX rid D pl a) in *. set (t := sdX rid D pl b) in *.
    assert (Hst : (s - t <> 0)%R) by lra. unfold cutX. cbn [ndiv nsub nmul FN]. rewrite (Ha i Hi), (Hb i Hi).
    rewrite (Faff a b s t i Hi Hst).
    assert (Hks : (k * s - k * t <> 0)%R) by (replace (k * s - k * t)%R with (k * (s - t))%R by ring; apply Rmult_integral_contrapositive_currified; lra).
    field. repeat split; auto; lra.
Qed.
Theorem commN fuel (Tr : polyN RN -> res (polyN RN)) (p : polyN RN) planes planes' :
  (forall p, 0 <= nvN RN p <= MX -> exists p', Tr p = OK p' /\ all_moved RN D F p p') ->
  0 <= nvN RN p <= MX -> Forall2 (carriedN D F) planes planes' ->
  agree (same_vertsN D) (let* p1 := Tr p in rNd_clip RN MX D fuel p1 planes') (let* q := rNd_clip RN MX D fuel p planes in Tr q).
Proof.
  intros HT Hn HF. destruct (HT p Hn) as (p1 & -> & A1 & A2 & A3 & A4 & A5). cbn [bind].
  assert (HP : polrelN rid MX QF p p1).
  { split; [exact A1|]. split; [exact A2|]. split; [exact A3|]. split; [exact Hn|]. split; [exact A4|]. intros v Hv i Hi. exact (A5 v i Hv Hi). }
  assert (HF' : Forall2 (prelN rid D QF) planes planes').
  { clear - HF Faff Fext. induction HF as [|x y l l' H _ IH]; constructor; auto. now apply carried_prel. }
  assert (Hb : (0 <= (fun x : R => x) (10 ^ 30))%R) by (apply pow_le; lra).
  pose proof (clipN_rel rid Hb MX D HD QF QF_ext fuel planes planes' p p1 HF' HP) as X.
  change (rr (polrelN rid MX QF) (rNd_clip RN MX D fuel p planes) (rNd_clip RN MX D fuel p1 planes')) in X.
  destruct (rNd_clip RN MX D fuel p planes) as [q|e], (rNd_clip RN MX D fuel p1 planes') as [q'|e']; cbn in X; try contradiction; [|now subst].
  destruct X as (B1 & B2 & B3 & Hq & B4 & B5). cbn [bind]. destruct (HT q Hq) as (q1 & -> & C1 & C2 & C3 & C4 & C5). cbn [agree].
  split; [exact (eq_trans C1 (eq_sym B1))|]. split; [exact (eq_trans C2 (eq_sym B2))|]. intros v Hv. assert (Hv' : 0 <= v < nvN RN q) by (rewrite <- (B1 : nvN RN q' = nvN RN q); exact Hv). split; [|split].
  - intros i Hi. exact (eq_trans (C5 v i Hv' Hi) (eq_sym (B5 v Hv' i Hi))).
  - intros i Hi. exact (f_equal (fun f => f v i) (eq_trans C4 (eq_sym B4))).
  - intros i j. exact (f_equal (fun f => f v i j) (eq_trans C3 (eq_sym B3))).
Qed.
End X.

Theorem translate_clipN MX D fuel (p : polyN RN) planes planes' sh : 0 <= D -> 0 <= nvN RN p <= MX -> Forall2 (carriedN D (fun x i => x i + sh i)%R) planes planes' ->
  agree (same_vertsN D) (let* p1 := rNd_translate RN MX D p sh in rNd_clip RN MX D fuel p1 planes') (let* q := rNd_clip RN MX D fuel p planes in rNd_translate RN MX D q sh).
Proof.
  intros HD. refine (commN MX D HD (fun x i => x i + sh i)%R _ _ fuel (fun q => rNd_translate RN MX D q sh) p planes planes' _).
  - intros x y H i Hi. now rewrite H.
  - intros a b s t i Hi H. field. auto.
  - intros q Hq. exact (rNd_translate_spec RN MX D q sh HD Hq).
Qed.
Theorem scale_clipN MX D fuel (p : polyN RN) planes planes' sc : 0 <= D -> 0 <= nvN RN p <= MX -> Forall2 (carriedN D (fun x i => x i * sc i)%R) planes planes' ->
  agree (same_vertsN D) (let* p1 := rNd_scale RN MX D p sc in rNd_clip RN MX D fuel p1 planes') (let* q := rNd_clip RN MX D fuel p planes in rNd_scale RN MX D q sc).
Proof.
  intros HD. refine (commN MX D HD (fun x i => x i * sc i)%R _ _ fuel (fun q => rNd_scale RN MX D q sc) p planes planes' _).
  - intros x y H i Hi. now rewrite H.
  - intros a b s t i Hi H. field. auto.
  - intros q Hq. exact (rNd_scale_spec RN MX D q sc HD Hq).
Qed.
Theorem shear_clipN MX D fuel (p : polyN RN) planes planes' sh axb axs : 0 <= axb < D -> 0 <= axs < D -> 0 <= nvN RN p <= MX ->
  Forall2 (carriedN D (fun x i => if i =? axb then x i + sh * x axs else x i)%R) planes planes' ->
  agree (same_vertsN D) (let* p1 := rNd_shear RN MX D p sh axb axs in rNd_clip RN MX D fuel p1 planes') (let* q := rNd_clip RN MX D fuel p planes in rNd_shear RN MX D q sh axb axs).
Proof.
  intros H1 H2. refine (commN MX D ltac:(lia) (fun x i => if i =? axb then x i + sh * x axs else x i)%R _ _ fuel (fun q => rNd_shear RN MX D q sh axb axs) p planes planes' _).
  - intros x y H i Hi. rewrite !H by auto. reflexivity.
  - intros a b s t i Hi H. destruct (i =? axb); field; auto.
  - intros q Hq. exact (rNd_shear_spec RN MX D q sh axb axs H1 H2 Hq).
Qed.
(** the map that [rNd_rotate] applies *)
Definition rotN (th : R) (a1 a2 : Z) (x : Z -> R) (i : Z) : R :=
  if i =? a2 then (sin th * x a1 + cos th * x a2)%R else if i =? a1 then (cos th * x a1 - sin th * x a2)%R else x i.
Theorem rotate_clipN MX D fuel (p : polyN RN) planes planes' th a1 a2 : 0 <= a1 < D -> 0 <= a2 < D -> 0 <= nvN RN p <= MX -> Forall2 (carriedN D (rotN th a1 a2)) planes planes' ->
  agree (same_vertsN D) (let* p1 := rNd_rotate RN MX D p th a1 a2 in rNd_clip RN MX D fuel p1 planes') (let* q := rNd_clip RN MX D fuel p planes in rNd_rotate RN MX D q th a1 a2).
Proof.
  intros H1 H2. refine (commN MX D ltac:(lia) (rotN th a1 a2) _ _ fuel (fun q => rNd_rotate RN MX D q th a1 a2) p planes planes' _).
  - intros x y H i Hi. unfold rotN. rewrite !H by auto. reflexivity.
  - intros a b s t i Hi H. unfold rotN. destruct (i =? a2); [|destruct (i =? a1)]; field; auto.
  - intros q Hq. exact (rNd_rotate_spec RN MX D q th a1 a2 H1 H2 Hq).
Qed.

(** ** Units *)
Section UN.
Context (u : R) (rnd : R -> R) (HA : accurate u rnd) (Hu : (0 <= u <= 1 / 10)%R) (MX D : Z) (HD : 0 <= D) (s : Z -> R) (c : R).
Notation N := (FN rnd).
Hypothesis Hs : forall i, 0 <= i < D -> exact_factor rnd (s i).
Hypothesis Hc : exact_factor rnd c.
Hypothesis Pc : (0 < c)%R.
Definition QS (x x' : Z -> R) : Prop := forall i, 0 <= i < D -> x' i = (s i * x i)%R.
Lemma QS_ext x x' y y' : QS x x' -> (forall i, 0 <= i < D -> y i = x i) -> (forall i, 0 <= i < D -> y' i = x' i) -> QS y y'.
Proof. intros H H1 H2 i Hi. rewrite H2, H, H1 by auto. reflexivity. Qed.
Lemma sdX_scaled (pl pl' : planeN N) x x' : scaled_planeN rnd D s c pl pl' -> QS x x' -> sdX rnd D pl' x' = (c * sdX rnd D pl x)%R.
Proof.
  intros (H1 & H2) HQ. unfold sdX. rewrite H2. destruct Hc as (_ & Ec).
  assert (G : forall l, (forall i, In i l -> 0 <= i < D) -> forall a, fold_left (fun s0 i => nadd N s0 (nmul N (x' i) (nN N pl' i))) l (c * a)%R = (c * fold_left (fun s0 i => nadd N s0 (nmul N (x i) (nN N pl i))) l a)%R).
  { induction l as [|i l IH]; intros Hl a; cbn [fold_left]; auto. rewrite <- IH by (intros; apply Hl; now right). f_equal. cbn [nadd nmul FN].
    assert (Hi : 0 <= i < D) by (apply Hl; now left). rewrite (HQ i Hi). replace (s i * x i * nN N pl' i)%R with (c * (x i * nN N pl i))%R by (rewrite <- Rmult_assoc, (Rmult_comm c), Rmult_assoc, <- (H1 i Hi); ring).
    rewrite Ec, <- Rmult_plus_distr_l. apply Ec. }
  apply G. intros i Hi. now apply in_zrange in Hi.
Qed.
Lemma scaled_prelN (pl pl' : planeN N) : scaled_planeN rnd D s c pl pl' -> prelN rnd D QS pl pl'.
Proof.
  intros H. split.
  - intros x x' Hx. rewrite (sdX_scaled pl pl' x x' H Hx). split; split; intros G; nra.
  - intros a a' b b' Ha Hb _ _ i Hi. rewrite (sdX_scaled pl pl' a a' H Ha), (sdX_scaled pl pl' b b' H Hb). set (sa := sdX rnd D pl a). set (sb := sdX rnd D pl b).
    unfold cutX. cbn [ndiv nsub nmul FN]. rewrite (Ha i Hi), (Hb i Hi). destruct (Hs i Hi) as (_ & Es). destruct Hc as (Nc & Ec).
    assert (M : forall x y, rnd (s i * x * (c * y)) = (s i * (c * rnd (x * y)))%R). { intros x y. rewrite <- Ec, <- Es. f_equal. ring. }
    rewrite !M. set (m1 := rnd (b i * sa)). set (m2 := rnd (a i * sb)).
    replace (s i * (c * m1) - s i * (c * m2))%R with (s i * (c * (m1 - m2)))%R by ring. rewrite Es, Ec.
    replace (c * sa - c * sb)%R with (c * (sa - sb))%R by ring. rewrite Ec. rewrite <- Es. f_equal. unfold Rdiv. rewrite Rinv_mult. generalize (/ rnd (sa - sb))%R. intros w. field. exact Nc.
Qed.
Theorem unitsN fuel (p p' : polyN N) planes planes' : 0 <= nvN N p <= MX -> scaled_vertsN rnd D s p p' -> Forall2 (scaled_planeN rnd D s c) planes planes' ->
  agree (scaled_vertsN rnd D s) (rNd_clip N MX D fuel p planes) (rNd_clip N MX D fuel p' planes').
Proof.
  intros Hn (A1 & A2 & A3 & A4 & A5) HF.
  assert (HP : polrelN rnd MX QS p p').
  { split; [exact A1|]. split; [exact A2|]. split; [exact A3|]. split; [exact Hn|]. split; [exact A4|]. intros v Hv i Hi. exact (A5 v i Hv Hi). }
  assert (HF' : Forall2 (prelN rnd D QS) planes planes').
  { clear - HF Hs Hc Pc. induction HF as [|x y l l' H _ IH]; constructor; auto. now apply scaled_prelN. }
  pose proof (clipN_rel rnd (big_rnd u rnd HA Hu) MX D HD QS QS_ext fuel planes planes' p p' HF' HP) as X.
  destruct (rNd_clip N MX D fuel p planes) as [q|e], (rNd_clip N MX D fuel p' planes') as [q'|e']; cbn in X; try contradiction; [|exact X].
  destruct X as (B1 & B2 & B3 & Hq & B4 & B5). cbn [agree]. split; [exact B1|]. split; [exact B2|]. split; [exact B3|]. split; [exact B4|]. intros v i Hv Hi. exact (B5 v Hv i Hi).
Qed.
End UN.
