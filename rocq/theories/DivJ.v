(** * DivJ: sets that can be cut by axis planes are dissected into pieces as small as needed;
    the integral is then known from an estimate on small pieces. *)
From Coq Require Import Reals ZArith List Bool Lia Lra Psatz.
From Verif Require Import Base Lib SumR ModelCommon ModelN RealNum SpecNP SpecNV SpecNJ SpecI FlagR ContN UniqJ VoxJ DisN PolyN JordJ IntJ.
Import ListNotations.
Open Scope R_scope.

Lemma parted_axis D ax c (K K' : (Z -> R) -> Prop) : (0 <= ax < D)%Z -> (forall x, K x -> x ax <= c) -> (forall x, K' x -> c <= x ax) -> parted D K K'.
Proof.
  intros Ha H1 H2 b b' Rb Rb' B B' x Ib Ib'.
  assert (X : snd b ax <= c). { apply (H1 (snd b)), B. intros i Hi. specialize (Rb i Hi). lra. }
  assert (Y : c <= fst b' ax). { apply (H2 (fst b')), B'. intros i Hi. specialize (Rb' i Hi). lra. }
  specialize (Ib ax Ha). specialize (Ib' ax Ha). lra.
Qed.
Lemma parted_sub D (K K' L L' : (Z -> R) -> Prop) : (forall x, L x -> K x) -> (forall x, L' x -> K' x) -> parted D K K' -> parted D L L'.
Proof. intros H H' P b c Rb Rc B C. apply P; auto. Qed.

(** the widths after halving along the axes of a list *)
Fixpoint wid (w : Z -> R) (sch : list Z) : Z -> R := match sch with [] => w | ax :: r => wid (upd w ax (w ax / 2)) r end.
Lemma wid_eq sch : forall w i, wid w sch i = w i / 2 ^ count_occ Z.eq_dec sch i.
Proof.
  induction sch as [|ax r IH]; intros w i; cbn [wid count_occ]. - cbn. field.
  - rewrite IH. destruct (Z.eq_dec ax i) as [->|N]. + rewrite upd_eq. cbn [pow]. field. apply pow_nonzero. lra. + now rewrite upd_neq by auto.
Qed.
Definition rounds (D : Z) (n : nat) : list Z := flat_map (fun i => repeat i n) (zrange D).
Lemma count_repeat i n : count_occ Z.eq_dec (repeat i n) i = n.
Proof. induction n as [|n IH]; cbn; auto. destruct (Z.eq_dec i i); congruence. Qed.
Lemma count_rounds D n i : (0 <= i < D)%Z -> (n <= count_occ Z.eq_dec (rounds D n) i)%nat.
Proof.
  intros Hi. unfold rounds. assert (In i (zrange D)) by now apply in_zrange. revert H. induction (zrange D) as [|a r IH]; cbn; [tauto|]. rewrite count_occ_app.
  intros [->|H]. - rewrite count_repeat. lia. - specialize (IH H). lia.
Qed.
Lemma rounds_axes D n : forall i, In i (rounds D n) -> (0 <= i < D)%Z.
Proof. intros i H. apply in_flat_map in H as (a & Ha & H). apply repeat_spec in H as ->. now apply in_zrange. Qed.
Lemma small_wid D w s : 0 <= w -> 0 < s -> exists n, forall i, (0 <= i < D)%Z -> wid (fun _ => w) (rounds D n) i <= s.
Proof.
  intros Hw Hs. destruct (Pow_x_infinity 2 ltac:(rewrite Rabs_right; lra) (w / s)) as (n & Hn). exists n. intros i Hi. rewrite wid_eq.
  specialize (Hn _ (count_rounds D n i Hi)). set (k := count_occ _ _ _) in *. assert (0 < 2 ^ k) by (apply pow_lt; lra). rewrite Rabs_right in Hn by lra.
  apply (Rmult_le_reg_r (2 ^ k)); auto. unfold Rdiv. rewrite Rmult_assoc, Rinv_l, Rmult_1_r by lra.
  apply Rge_le, (Rmult_le_compat_r s) in Hn; [|lra]. unfold Rdiv in Hn. rewrite Rmult_assoc, Rinv_l, Rmult_1_r in Hn by lra. lra.
Qed.

Section D.
Context {P M : Type} (D : Z) (HD : (0 <= D)%Z) (good : P -> Prop) (hull : P -> (Z -> R) -> Prop) (mom : P -> M -> R).
(** a body and its pieces *)
Definition pieces (p : P) (l : list P) : Prop :=
  (forall q, In q l -> good q) /\ (forall x, hull p x <-> exists q, In q l /\ hull q x)
  /\ ForallOrdPairs (fun q r => parted D (hull q) (hull r)) l /\ forall m, mom p m = lsum l (fun q => mom q m).
Definition boxed (p : P) (w : Z -> R) : Prop := exists a, forall x i, hull p x -> (0 <= i < D)%Z -> a i <= x i <= a i + w i.
Definition cuttable : Prop := forall p ax c, good p -> (0 <= ax < D)%Z -> exists o0 o1, good o0 /\ good o1
  /\ (forall x, hull o0 x -> hull p x /\ x ax <= c) /\ (forall x, hull o1 x -> hull p x /\ c <= x ax)
  /\ (forall x, hull p x -> hull o0 x \/ hull o1 x) /\ forall m, mom p m = mom o0 m + mom o1 m.

Lemma dissection (HC : cuttable) sch : (forall i, In i sch -> (0 <= i < D)%Z) -> forall p w, good p -> boxed p w ->
  exists l, pieces p l /\ forall q, In q l -> boxed q (wid w sch).
Proof.
  induction sch as [|ax r IH]; intros Hs p w Gp (a & Ba).
  - exists [p]. split; [|intros q [<-|[]]; exists a; auto]. split; [intros q [<-|[]]; auto|]. split; [|split].
    + intros x. split. * intros H. exists p. cbn; auto. * intros (q & [<-|[]] & H). auto.
    + apply FOP_cons; [apply Forall_nil|apply FOP_nil].
    + intros m. cbn. ring.
  - assert (Ha : (0 <= ax < D)%Z) by (apply Hs; now left).
    destruct (HC p ax (a ax + w ax / 2) Gp Ha) as (o0 & o1 & G0 & G1 & H0 & H1 & HU & HM).
    destruct (IH (fun i Hi => Hs i (or_intror Hi)) o0 (upd w ax (w ax / 2)) G0) as (l0 & (L1 & L2 & L3 & L4) & B0).
    { exists a. intros x i Hx Hi. destruct (H0 x Hx) as (Hp & Hc). pose proof (Ba x i Hp Hi) as Y. destruct (Z.eq_dec i ax) as [->|N]; [rewrite upd_eq|rewrite upd_neq by auto]; lra. }
    destruct (IH (fun i Hi => Hs i (or_intror Hi)) o1 (upd w ax (w ax / 2)) G1) as (l1 & (R1 & R2 & R3 & R4) & B1).
    { exists (upd a ax (a ax + w ax / 2)). intros x i Hx Hi. destruct (H1 x Hx) as (Hp & Hc). pose proof (Ba x i Hp Hi) as Y. destruct (Z.eq_dec i ax) as [->|N]; [rewrite !upd_eq|rewrite !upd_neq by auto]; lra. }
    exists (l0 ++ l1). cbn [wid]. split; [|intros q Hq; apply in_app_or in Hq as [Hq|Hq]; auto]. split; [|split; [|split]].
    + intros q Hq; apply in_app_or in Hq as [Hq|Hq]; auto.
    + intros x. split.
      * intros Hx. destruct (HU x Hx) as [Y|Y]; [apply L2 in Y|apply R2 in Y]; destruct Y as (q & Hq & Y); exists q; split; auto; apply in_or_app; auto.
      * intros (q & Hq & Y). apply in_app_or in Hq as [Hq|Hq]; [apply H0, L2|apply H1, R2]; eauto.
    + apply FOP_app; auto. intros q q' Hq Hq'. apply (parted_axis D ax (a ax + w ax / 2)); auto.
      * intros x Hx. apply H0, L2. eauto.
      * intros x Hx. apply H1, R2. eauto.
    + intros m. rewrite HM, L4, R4, lsum_app. reflexivity.
Qed.

(** the points of the body are within [s] of each other in every coordinate *)
Definition narrow (q : P) (s : R) : Prop := forall x y i, hull q x -> hull q y -> (0 <= i < D)%Z -> Rabs (x i - y i) <= s.
Theorem integral_by_cuts (HC : cuttable) (p : P) (m0 m : M) (f : (Z -> R) -> R) w : good p -> boxed p (fun _ => w) ->
  (forall q, good q -> content D (hull q) (mom q m0)) ->
  (forall e, 0 < e -> exists s, 0 < s /\ forall q, good q -> (forall x, hull q x -> hull p x) -> narrow q s ->
     exists v, (forall x, hull q x -> Rabs (f x - v) <= e) /\ Rabs (mom q m - v * mom q m0) <= e * mom q m0) ->
  integral D (hull p) f (mom p m).
Proof.
  intros Gp (a & Ba) HV HE. apply (integral_by_pieces D HD (hull p) f (mom p m0)); auto. intros e He. destruct (HE e He) as (s & Hs & HE').
  destruct (small_wid D (Rmax 0 w) s (Rmax_l 0 w) Hs) as (n & Hn).
  destruct (dissection HC (rounds D n) (rounds_axes D n) p (fun _ => Rmax 0 w) Gp) as (l & (L1 & L2 & L3 & L4) & Lb).
  { exists a. intros x i Hx Hi. pose proof (Ba x i Hx Hi). pose proof (Rmax_r 0 w). lra. }
  assert (X : exists vs, dissect D (hull p) f e vs /\ Rabs (lsum vs (fun q => pval q * pvol q) - lsum l (fun q => mom q m)) <= e * lsum l (fun q => mom q m0)).
  { assert (Y : exists vs, Forall2 (fun q u => pset u = hull q /\ pvol u = mom q m0 /\ (forall x, hull q x -> Rabs (f x - pval u) <= e) /\ Rabs (mom q m - pval u * mom q m0) <= e * mom q m0) l vs).
    { assert (Z : forall q, In q l -> exists u, pset u = hull q /\ pvol u = mom q m0 /\ (forall x, hull q x -> Rabs (f x - pval u) <= e) /\ Rabs (mom q m - pval u * mom q m0) <= e * mom q m0).
      { intros q Hq. destruct (HE' q (L1 q Hq)) as (v & V1 & V2). - intros x Hx. apply L2. eauto.
        - intros x y i Hx Hy Hi. destruct (Lb q Hq) as (c & Bc). pose proof (Bc x i Hx Hi). pose proof (Bc y i Hy Hi). pose proof (Hn i Hi). apply Rabs_le. lra.
        - exists (hull q, (mom q m0, v)). auto. }
      clear - Z. induction l as [|q r IH]. - exists []. constructor.
      - destruct (Z q (or_introl eq_refl)) as (u & Hu). destruct IH as (vs & Hvs). { intros q' Hq'. apply Z. now right. } exists (u :: vs). constructor; auto. }
    destruct Y as (vs & F). exists vs. split.
    - split; [|split].
      + intros x. rewrite L2. clear - F. induction F as [|q u r vs (E1 & _) F IH].
        * split; intros (q & [] & _).
        * split. -- intros (q' & [->|Hq'] & H). ++ exists u. split; [now left|]. now rewrite E1. ++ destruct (proj1 IH (ex_intro _ q' (conj Hq' H))) as (u' & Hu' & H'). exists u'. split; [now right|auto].
          -- intros (u' & [->|Hu'] & H). ++ exists q. split; [now left|]. now rewrite <- E1. ++ destruct (proj2 IH (ex_intro _ u' (conj Hu' H))) as (q' & Hq' & H'). exists q'. split; [now right|auto].
      + clear - F L3. induction F as [|q u r vs (E1 & _) F IH]; [apply FOP_nil|]. inversion L3 as [|? ? A B]; subst. apply FOP_cons; auto. clear - A F E1.
        induction F as [|q' u' r vs (E1' & _) F IH]; [apply Forall_nil|]. inversion A; subst. apply Forall_cons; auto. now rewrite E1, E1'.
      + intros u Hu. assert (G : exists q, In q l /\ pset u = hull q /\ pvol u = mom q m0 /\ (forall x, hull q x -> Rabs (f x - pval u) <= e)).
        { clear - F Hu. induction F as [|q u' r vs (A & B & C & _) F IH]; [destruct Hu|]. destruct Hu as [->|Hu]; [exists q; cbn; auto|]. destruct (IH Hu) as (q' & ? & ?). exists q'. cbn; auto. }
        destruct G as (q & Hq & E1 & E2 & E3). rewrite E1, E2. split; auto.
    - clear - F. induction F as [|q u r vs (_ & E2 & _ & E4) F IH]; cbn. + rewrite Rminus_0_r, Rabs_R0. lra.
      + rewrite E2. apply NearN.Rabs_le_inv in E4. apply NearN.Rabs_le_inv in IH. apply Rabs_le. lra. }
  destruct X as (vs & Dv & Sv). exists vs. split; auto. rewrite (L4 m), (L4 m0). exact Sv.
Qed.
End D.
