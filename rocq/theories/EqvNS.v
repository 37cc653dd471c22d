(** * EqvNS: moving and [rNd_split] commute; changes of units under rounding. *)
From Coq Require Import Reals ZArith List Bool Lia Lra.
From Verif Require Import Base Lib ModelCommon ModelN ModelNC RealNum RndNum SumR SpecN SpecNP TransN ClipN HullN SpecEq SpecEqN SpecEqNS Eqv Eqv3 EqvF3 EqvN EqvNR.
Import ListNotations.
Open Scope Z_scope.

Lemma clipN_bound MX D fuel (p q : polyN RN) planes : 0 <= D -> 0 <= nvN RN p <= MX -> rNd_clip RN MX D fuel p planes = OK q -> 0 <= nvN RN q <= MX.
Proof.
  intros HD Hn E. set (F := fun x : Z -> R => x).
  assert (Fe : forall x y, (forall i, 0 <= i < D -> x i = y i) -> forall i, 0 <= i < D -> F x i = F y i) by (intros; unfold F; auto).
  assert (HP : polrelN (fun x => x) MX (QF D F) p p).
  { split; [reflexivity|]. split; [reflexivity|]. split; [reflexivity|]. split; [exact Hn|]. split; [reflexivity|]. intros v Hv i Hi. reflexivity. }
  assert (HF' : Forall2 (prelN (fun x => x) D (QF D F)) planes planes).
  { clear - HD Fe. induction planes as [|x l IH]; constructor; auto. apply carried_prel; auto.
    exists 1%R. split; [lra|]. intros y. unfold F. ring. }
  assert (Hb : (0 <= (fun x : R => x) (10 ^ 30))%R) by (apply pow_le; lra).
  pose proof (clipN_rel (fun x => x) Hb MX D HD (QF D F) (QF_ext D F Fe) fuel planes planes p p HF' HP) as X.
  change (rr (polrelN (fun x => x) MX (QF D F)) (rNd_clip RN MX D fuel p planes) (rNd_clip RN MX D fuel p planes)) in X.
  rewrite E in X. exact (proj1 (proj2 (proj2 (proj2 X)))).
Qed.

Lemma agree_both D (c0 c1 c0' c1' : res (polyN RN)) (T : polyN RN -> res (polyN RN)) :
  (forall q, c0 = OK q -> exists q', T q = OK q') -> agree (same_vertsN D) c0' (let* q := c0 in T q) -> agree (same_vertsN D) c1' (let* q := c1 in T q) ->
  agree (same_partsN D) (let* o0 := c0' in let* o1 := c1' in OK (o0, o1)) (let* o := (let* o0 := c0 in let* o1 := c1 in OK (o0, o1)) in both T o).
Proof.
  intros HT A B. destruct c0 as [q0|e0]; cbn [bind] in *.
  - destruct (HT q0 eq_refl) as (t0 & E0). rewrite E0 in A. destruct c0' as [r0|]; cbn [agree] in A; [|contradiction]. cbn [bind].
    destruct c1 as [q1|e1]; cbn [bind] in *.
    + unfold both. cbn [fst snd]. rewrite E0. cbn [bind]. destruct (T q1) as [t1|], c1' as [r1|]; cbn [agree bind] in *; try contradiction; auto. split; auto.
    + destruct c1' as [r1|]; cbn [agree bind] in *; [contradiction|auto].
  - destruct c0' as [r0|]; cbn [agree bind] in *; [contradiction|auto].
Qed.

Lemma Spl_axis D ax (n d : R) x : 0 <= ax < D -> Spl D (PLN RN (upd (fun _ => 0%R) ax n) d) x = (d + n * x ax)%R.
Proof.
  intros Ha. unfold Spl, linN. cbn [dN nN]. rewrite (PolyN.lsum_single _ _ ax (NoDup_zrange D) (proj2 (in_zrange _ _) Ha)); [now rewrite upd_eq|].
  intros j _ N. rewrite upd_neq by auto. match goal with |- @eq _ ?a ?b => change (@eq R a b) end. ring.
Qed.

Section Y.
Context (MX D : Z) (HD : 0 <= D) (F : (Z -> R) -> Z -> R).
Hypothesis Fext : forall x y, (forall i, 0 <= i < D -> x i = y i) -> forall i, 0 <= i < D -> F x i = F y i.
Hypothesis Faff : forall a b s t i, 0 <= i < D -> (s - t <> 0)%R -> (F (fun j => (b j * s - a j * t) / (s - t)) i = (F b i * s - F a i * t) / (s - t))%R.
Theorem split_commN fuel (Tr : polyN RN -> res (polyN RN)) (p : polyN RN) coord coord' k ax :
  (forall p, 0 <= nvN RN p <= MX -> exists p', Tr p = OK p' /\ all_moved RN D F p p') ->
  0 <= nvN RN p <= MX -> 0 <= ax < D -> (0 < k)%R -> (forall x, coord' - F x ax = k * (coord - x ax))%R ->
  agree (same_partsN D) (let* p1 := Tr p in rNd_split RN MX D fuel p1 coord' ax) (let* o := rNd_split RN MX D fuel p coord ax in both Tr o).
Proof.
  intros HT Hn Ha Hk HC. destruct (HT p Hn) as (p1 & E1 & _).
  assert (X : forall n d d' : R, (forall x, d' + n * F x ax = k * (d + n * x ax))%R ->
    agree (same_vertsN D) (rNd_clip RN MX D fuel p1 [PLN RN (upd (fun _ => 0%R) ax n) d']) (let* q := rNd_clip RN MX D fuel p [PLN RN (upd (fun _ => 0%R) ax n) d] in Tr q)).
  { intros n d d' H. pose proof (commN MX D HD F Fext Faff fuel Tr p [PLN RN (upd (fun _ => 0%R) ax n) d] [PLN RN (upd (fun _ => 0%R) ax n) d'] HT Hn) as Y.
    rewrite E1 in Y. cbn [bind] in Y. apply Y. constructor; [|constructor]. exists k. split; auto. intros x.
    exact (eq_trans (Spl_axis D ax n d' (F x) Ha) (eq_trans (H x) (f_equal (Rmult k) (eq_sym (Spl_axis D ax n d x Ha))))). }
  rewrite E1. cbn [bind]. unfold rNd_split. apply agree_both.
  - intros q E. destruct (HT q) as (q' & Eq & _); [|eauto]. exact (clipN_bound MX D fuel p q _ HD Hn E).
  - apply (X (-1)%R coord coord'). intros x. generalize (HC x). lra.
  - apply (X ((-1) * (-1))%R (coord * -1)%R (coord' * -1)%R). intros x. generalize (HC x). lra.
Qed.
End Y.

Theorem translate_splitN MX D fuel (p : polyN RN) sh coord ax : 0 <= ax < D -> 0 <= nvN RN p <= MX ->
  agree (same_partsN D) (let* p1 := rNd_translate RN MX D p sh in rNd_split RN MX D fuel p1 (coord + sh ax)%R ax)
    (let* o := rNd_split RN MX D fuel p coord ax in both (fun q => rNd_translate RN MX D q sh) o).
Proof.
  intros Ha Hn. refine (split_commN MX D ltac:(lia) (fun x i => x i + sh i)%R _ _ fuel (fun q => rNd_translate RN MX D q sh) p coord _ 1 ax _ Hn Ha ltac:(lra) _).
  - intros x y H i Hi. now rewrite H.
  - intros a b s t i Hi H. field. auto.
  - intros q Hq. exact (rNd_translate_spec RN MX D q sh ltac:(lia) Hq).
  - intros x. lra.
Qed.
Theorem scale_splitN MX D fuel (p : polyN RN) sc coord ax : 0 <= ax < D -> (0 < sc ax)%R -> 0 <= nvN RN p <= MX ->
  agree (same_partsN D) (let* p1 := rNd_scale RN MX D p sc in rNd_split RN MX D fuel p1 (coord * sc ax)%R ax)
    (let* o := rNd_split RN MX D fuel p coord ax in both (fun q => rNd_scale RN MX D q sc) o).
Proof.
  intros Ha Hs Hn. refine (split_commN MX D ltac:(lia) (fun x i => x i * sc i)%R _ _ fuel (fun q => rNd_scale RN MX D q sc) p coord _ (sc ax) ax _ Hn Ha Hs _).
  - intros x y H i Hi. now rewrite H.
  - intros a b s t i Hi H. field. auto.
  - intros q Hq. exact (rNd_scale_spec RN MX D q sc ltac:(lia) Hq).
  - intros x. ring.
Qed.
Theorem shear_splitN MX D fuel (p : polyN RN) sh axb axs coord ax : 0 <= ax < D -> 0 <= axb < D -> 0 <= axs < D -> ax <> axb -> 0 <= nvN RN p <= MX ->
  agree (same_partsN D) (let* p1 := rNd_shear RN MX D p sh axb axs in rNd_split RN MX D fuel p1 coord ax)
    (let* o := rNd_split RN MX D fuel p coord ax in both (fun q => rNd_shear RN MX D q sh axb axs) o).
Proof.
  intros Ha H1 H2 Hne Hn. refine (split_commN MX D ltac:(lia) (fun x i => if i =? axb then x i + sh * x axs else x i)%R _ _ fuel (fun q => rNd_shear RN MX D q sh axb axs) p coord _ 1 ax _ Hn Ha ltac:(lra) _).
  - intros x y H i Hi. rewrite !H by auto. reflexivity.
  - intros a b s t i Hi H. destruct (i =? axb); field; auto.
  - intros q Hq. exact (rNd_shear_spec RN MX D q sh axb axs H1 H2 Hq).
  - intros x. destruct (Z.eqb_spec ax axb); [contradiction|]. ring.
Qed.
Theorem rotate_splitN MX D fuel (p : polyN RN) th a1 a2 coord ax : 0 <= ax < D -> 0 <= a1 < D -> 0 <= a2 < D -> ax <> a1 -> ax <> a2 -> 0 <= nvN RN p <= MX ->
  agree (same_partsN D) (let* p1 := rNd_rotate RN MX D p th a1 a2 in rNd_split RN MX D fuel p1 coord ax)
    (let* o := rNd_split RN MX D fuel p coord ax in both (fun q => rNd_rotate RN MX D q th a1 a2) o).
Proof.
  intros Ha H1 H2 N1 N2 Hn. refine (split_commN MX D ltac:(lia) (rotN th a1 a2) _ _ fuel (fun q => rNd_rotate RN MX D q th a1 a2) p coord _ 1 ax _ Hn Ha ltac:(lra) _).
  - intros x y H i Hi. unfold rotN. rewrite !H by auto. reflexivity.
  - intros a b s t i Hi H. unfold rotN. destruct (i =? a2); [|destruct (i =? a1)]; field; auto.
  - intros q Hq. exact (rNd_rotate_spec RN MX D q th a1 a2 H1 H2 Hq).
  - intros x. unfold rotN. destruct (Z.eqb_spec ax a2); [contradiction|]. destruct (Z.eqb_spec ax a1); [contradiction|]. ring.
Qed.

(** rounded arithmetic: the factor of the split axis positive, the others of either sign *)
Theorem split_unitsN u rnd (HA : accurate u rnd) (Hu : (0 <= u <= 1 / 10)%R) MX D s fuel (p p' : polyN (FN rnd)) coord ax :
  0 <= ax < D -> (forall i, 0 <= i < D -> exact_factor rnd (s i)) -> (0 < s ax)%R ->
  0 <= nvN (FN rnd) p <= MX -> scaled_vertsN rnd D s p p' ->
  agree (scaled_partsN rnd D s) (rNd_split (FN rnd) MX D fuel p coord ax) (rNd_split (FN rnd) MX D fuel p' (s ax * coord)%R ax).
Proof.
  intros Ha Hs Hp Hn HV. destruct (Hs ax Ha) as (_ & Es).
  assert (X : forall n d : R, agree (scaled_vertsN rnd D s) (rNd_clip (FN rnd) MX D fuel p [PLN (FN rnd) (upd (fun _ => 0%R) ax n) d]) (rNd_clip (FN rnd) MX D fuel p' [PLN (FN rnd) (upd (fun _ => 0%R) ax n) (s ax * d)%R])).
  { intros n d. refine (unitsN u rnd HA Hu MX D ltac:(lia) s (s ax) Hs (Hs ax Ha) Hp fuel p p' _ _ Hn HV _). constructor; [|constructor]. split; [|reflexivity].
    intros i Hi. cbn [nN]. unfold upd. destruct (Z.eqb_spec i ax) as [->|]; match goal with |- @eq _ ?a ?b => change (@eq R a b) end; ring. }
  pose proof (X (-1)%R coord) as X0. pose proof (X (rnd (-1 * -1))%R (rnd (coord * -1))%R) as X1.
  replace (s ax * rnd (coord * -1))%R with (rnd (s ax * coord * -1))%R in X1 by (rewrite <- Es; f_equal; ring).
  unfold rNd_split. cbn [nopp n1 n0 nmul FN].
  match goal with |- agree _ (bind ?a _) (bind ?b _) => change (agree (scaled_vertsN rnd D s) a b) in X0; destruct a as [q0|], b as [r0|]; cbn [agree bind] in *; try contradiction; auto end.
  match goal with |- agree _ (bind ?a _) (bind ?b _) => change (agree (scaled_vertsN rnd D s) a b) in X1; destruct a as [q1|], b as [r1|]; cbn [agree bind] in *; try contradiction; auto end.
  split; auto.
Qed.

(** a negative factor on the split axis: the parts exchange their places *)
Theorem mirror_splitN MX D fuel (p q0 q1 : polyN RN) sc coord ax : 0 <= ax < D -> (sc ax < 0)%R -> 0 <= nvN RN p <= MX ->
  rNd_split RN MX D fuel p coord ax = OK (q0, q1) ->
  agree (same_partsN D) (let* p1 := rNd_scale RN MX D p sc in rNd_split RN MX D fuel p1 (coord * sc ax)%R ax) (both (fun q => rNd_scale RN MX D q sc) (q1, q0)).
Proof.
  intros Ha Hs Hn E. assert (HD : 0 <= D) by lia. destruct (rNd_scale_spec RN MX D p sc HD Hn) as (p1 & E1 & _).
  assert (X : forall n n' d d' : R, (forall x : R, d' + n' * (x * sc ax) = - sc ax * (d + n * x))%R ->
    agree (same_vertsN D) (rNd_clip RN MX D fuel p1 [PLN RN (upd (fun _ => 0%R) ax n') d']) (let* q := rNd_clip RN MX D fuel p [PLN RN (upd (fun _ => 0%R) ax n) d] in rNd_scale RN MX D q sc)).
  { intros n n' d d' H. pose proof (scale_clipN MX D fuel p [PLN RN (upd (fun _ => 0%R) ax n) d] [PLN RN (upd (fun _ => 0%R) ax n') d'] sc HD Hn) as Y.
    rewrite E1 in Y. cbn [bind] in Y. apply Y. constructor; [|constructor]. exists (- sc ax)%R. split; [lra|]. intros x.
    exact (eq_trans (Spl_axis D ax n' d' (fun i => x i * sc i)%R Ha) (eq_trans (H (x ax)) (f_equal (Rmult (- sc ax)) (eq_sym (Spl_axis D ax n d x Ha))))). }
  assert (A : agree (same_vertsN D) (rNd_clip RN MX D fuel p1 [PLN RN (upd (fun _ => 0%R) ax (-1)%R) (coord * sc ax)%R]) (rNd_scale RN MX D q1 sc)
            /\ agree (same_vertsN D) (rNd_clip RN MX D fuel p1 [PLN RN (upd (fun _ => 0%R) ax ((-1) * (-1))%R) (coord * sc ax * -1)%R]) (rNd_scale RN MX D q0 sc)
            /\ 0 <= nvN RN q0 <= MX /\ 0 <= nvN RN q1 <= MX).
  { pose proof (X ((-1) * (-1))%R (-1)%R (coord * -1)%R (coord * sc ax)%R ltac:(intros; ring)) as X0.
    pose proof (X (-1)%R ((-1) * (-1))%R coord (coord * sc ax * -1)%R ltac:(intros; ring)) as X1. clear X.
    unfold rNd_split in E.
    match type of E with bind ?a _ = _ => destruct a as [r0|] eqn:F0; [|discriminate] end. cbn [bind] in E.
    match type of E with bind ?a _ = _ => destruct a as [r1|] eqn:F1; [|discriminate] end. cbn [bind] in E. injection E as -> ->.
    pose proof (clipN_bound MX D fuel p q0 _ HD Hn F0) as B0. pose proof (clipN_bound MX D fuel p q1 _ HD Hn F1) as B1.
    refine (conj _ (conj _ (conj B0 B1))).
    - refine (eq_ind _ (fun c => agree (same_vertsN D) _ (bind c (fun q => rNd_scale RN MX D q sc))) X0 _ F1).
    - refine (eq_ind _ (fun c => agree (same_vertsN D) _ (bind c (fun q => rNd_scale RN MX D q sc))) X1 _ F0). }
  destruct A as (A0 & A1 & B0 & B1). destruct (rNd_scale_spec RN MX D q0 sc HD B0) as (t0 & T0 & _). destruct (rNd_scale_spec RN MX D q1 sc HD B1) as (t1 & T1 & _).
  rewrite T1 in A0. rewrite T0 in A1. rewrite E1. cbn [bind]. unfold both. cbn [fst snd]. rewrite T1. cbn [bind]. rewrite T0. cbn [bind]. unfold rNd_split.
  match goal with |- agree _ (bind ?a _) _ => change (agree (same_vertsN D) a (OK t1)) in A0; destruct a as [r0|]; cbn [agree bind] in *; [|contradiction] end.
  match goal with |- agree _ (bind ?a _) _ => change (agree (same_vertsN D) a (OK t0)) in A1; destruct a as [r1|]; cbn [agree bind] in *; [|contradiction] end.
  split; assumption.
Qed.
