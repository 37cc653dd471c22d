(** * FrameN: the Gram-Schmidt frames of [rNd_reduce] in terms of the facets. *)
From Coq Require Import Reals ZArith List Bool Lia Lra Permutation.
From Verif Require Import Base Lib SumR RealNum SpecN SpecNR RedN PolyN FlagR FlagX PermsN.
Import ListNotations.
Open Scope R_scope.

Section F.
Context (D : Z).
Hypothesis HD : (0 <= D)%Z.
Notation vec := (Z -> R).
Notation dotN := (dotN RN D).
Notation orthN := (orthN RN D).
Notation unitN := (unitN RN D).
Notation eqv := (eqv RN D).
Notation lin c x := (linN D 0 c x).
Notation dot := (dotR D).

Lemma dotN_dot (a c : vec) : dotN a c = dot a c.
Proof. apply dot_R. Qed.
Lemma dotR_comm (a c : vec) : dot a c = dot c a.
Proof. apply lsum_ext. intros. ring. Qed.
Lemma dotR_scal (a c : vec) t : dot a (fun k => t * c k) = t * dot a c.
Proof. unfold dotR. rewrite <- lsum_scal. apply lsum_ext. intros. ring. Qed.
Lemma dotR_ext (a a' c c' : vec) : eqv a a' -> eqv c c' -> dot a c = dot a' c'.
Proof. intros A C. apply lsum_ext. intros k Hk. apply in_zrange in Hk. rewrite A, C; auto. Qed.
Lemma eqv_refl (a : vec) : eqv a a. Proof. intros k _. reflexivity. Qed.
Lemma eqv_sym (a b : vec) : eqv a b -> eqv b a. Proof. intros H k Hk. symmetry. auto. Qed.
Lemma lin_ext c (a b : vec) : eqv a b -> lin c a = lin c b.
Proof. intros H. now apply linN_ext. Qed.
Lemma dotR_pos (a : vec) : 0 <= dot a a. Proof. rewrite <- dotN_dot. apply dot_pos. Qed.
Lemma dotR_0 (a : vec) : dot a a = 0 -> eqv a (fun _ => 0).
Proof. intros H k Hk. apply (dot_0 D); auto. now rewrite dotN_dot. Qed.

(** ** Gram-Schmidt *)
Lemma orth_succ L d e : (0 <= d)%Z -> orthN L (d + 1) e = fun j => orthN L d e j - dotN (orthN L d e) (L d) * L d j.
Proof. intros Hd. unfold SpecNR.orthN. rewrite zrange_succ, fold_left_app by auto. reflexivity. Qed.
Lemma orth_lin L c e d : (0 <= d)%Z -> (forall i, (0 <= i < d)%Z -> lin c (L i) = 0) -> lin c (orthN L d e) = lin c e.
Proof.
  intros Hd. revert d Hd. refine (zrange_ind _ _ _); [reflexivity|]. intros d Hd IH H. rewrite orth_succ by auto.
  rewrite lin_sub, lin_scal, H, IH by (intros; try apply H; lia). lra.
Qed.
Lemma orth_dot L e d : (0 <= d)%Z -> (forall i j, (0 <= i < d)%Z -> (0 <= j < d)%Z -> dot (L i) (L j) = if (i =? j)%Z then 1 else 0) ->
  forall i, (0 <= i < d)%Z -> dot (L i) (orthN L d e) = 0.
Proof.
  intros Hd. revert d Hd. refine (zrange_ind _ _ _); [intros; lia|]. intros d Hd IH H i Hi. rewrite orth_succ by auto.
  rewrite dotR_sub, dotR_scal, dotN_dot, (dotR_comm (orthN L d e)), H by lia. destruct (Z.eqb_spec i d) as [->|]; [lra|].
  rewrite IH; [lra| |lia]. intros; apply H; lia.
Qed.

(** The frame of [e 0, e 1, ...]; each form [c k] vanishes on all but [e k]. *)
Section G.
Context (c e L : Z -> vec).
Hypothesis C1 : forall k, (0 <= k < D)%Z -> lin (c k) (e k) < 0.
Hypothesis C0 : forall j k, (0 <= j < D)%Z -> (0 <= k < D)%Z -> j <> k -> lin (c j) (e k) = 0.
Hypothesis CN : forall y, (forall k, (0 <= k < D)%Z -> lin (c k) y = 0) -> forall k, (0 <= k < D)%Z -> y k = 0.
Hypothesis HL : forall k, (0 <= k < D)%Z -> eqv (L k) (unitN (orthN L k (e k))).

Lemma unit_R (a : vec) : unitN a = fun j => a j / sqrt (dot a a).
Proof. unfold SpecNR.unitN. cbn [nsqrt ndiv RN]. now rewrite dotN_dot. Qed.
Lemma gs_all n : (0 <= n)%Z -> (n <= D)%Z ->
  (forall i j, (0 <= i < n)%Z -> (0 <= j < n)%Z -> dot (L i) (L j) = if (i =? j)%Z then 1 else 0)
  /\ forall k, (0 <= k < n)%Z -> lin (c k) (L k) < 0 /\ forall j, (k < j < D)%Z -> lin (c j) (L k) = 0.
Proof.
  intros Hn. revert n Hn. refine (zrange_ind _ _ _); [intros _; split; intros; lia|]. intros n Hn IH Hd. destruct IH as (O & S); [lia|].
  set (a := orthN L n (e n)).
  assert (A1 : lin (c n) a < 0).
  { unfold a. rewrite orth_lin; auto; [apply C1; lia|]. intros i Hi. apply S; lia. }
  assert (A2 : forall j, (n < j < D)%Z -> lin (c j) a = 0).
  { intros j Hj. unfold a. rewrite orth_lin; auto; [apply C0; lia|]. intros i Hi. apply S; lia. }
  assert (A3 : forall i, (0 <= i < n)%Z -> dot (L i) a = 0) by (apply orth_dot; auto).
  assert (P : 0 < dot a a).
  { destruct (dotR_pos a) as [|E]; auto. exfalso. symmetry in E. apply dotR_0 in E. rewrite (lin_ext _ a _ E) in A1.
    unfold linN in A1. rewrite lsum_0 in A1 by (intros; lra). lra. }
  assert (Q : 0 < sqrt (dot a a)) by (now apply sqrt_lt_R0).
  assert (E : eqv (L n) (fun k => / sqrt (dot a a) * a k)).
  { intros k Hk. rewrite HL by (auto; lia). fold a. rewrite unit_R. unfold Rdiv. match goal with |- @eq _ ?a ?b => change (@eq R a b) end. ring. }
  assert (B3 : forall i, (0 <= i < n)%Z -> dot (L i) (L n) = 0) by (intros i Hi; rewrite (dotR_ext _ _ _ _ (eqv_refl _) E), dotR_scal, A3 by auto; ring).
  split.
  - intros i j Hi Hj. destruct (Z.eq_dec i n) as [->|Ni], (Z.eq_dec j n) as [->|Nj].
    + rewrite Z.eqb_refl. rewrite (dotR_ext _ _ _ _ E E), dotR_scal, (dotR_comm (fun k => / sqrt (dot a a) * a k) a), dotR_scal.
      replace (/ sqrt (dot a a) * (/ sqrt (dot a a) * dot a a)) with (dot a a / (sqrt (dot a a) * sqrt (dot a a))) by (field; lra).
      rewrite sqrt_sqrt by lra. field. lra.
    + destruct (Z.eqb_spec n j); [lia|]. rewrite dotR_comm. apply B3. lia.
    + destruct (Z.eqb_spec i n); [lia|]. apply B3. lia.
    + apply O; lia.
  - intros k Hk. destruct (Z.eq_dec k n) as [->|]; [|apply S; lia]. split; [|intros j Hj]; rewrite (lin_ext _ _ _ E), lin_scal.
    + assert (0 < / sqrt (dot a a)) by (now apply Rinv_0_lt_compat). nra.
    + rewrite A2 by lia. ring.
Qed.
Lemma gs_span n : (0 <= n)%Z -> (n <= D)%Z -> forall z y : vec, (forall j, (n <= j < D)%Z -> lin (c j) y = 0) ->
  (forall i, (0 <= i < n)%Z -> dot z (L i) = 0) -> dot z y = 0.
Proof.
  intros Hn. revert n Hn. refine (zrange_ind _ _ _).
  - intros _ z y Hy _. unfold dotR. apply lsum_0. intros k Hk. apply in_zrange in Hk. rewrite (CN y); auto. ring.
  - intros n Hn IH Hd z y Hy Hz. destruct (gs_all (n + 1)%Z ltac:(lia) Hd) as (_ & S). destruct (S n ltac:(lia)) as (S1 & S2).
    set (t := lin (c n) y / lin (c n) (L n)).
    assert (X : dot z (fun k => y k - t * L n k) = 0).
    { apply IH; [lia| |intros; apply Hz; lia]. intros j Hj. rewrite lin_sub, lin_scal. destruct (Z.eq_dec j n) as [->|]; [unfold t; field; lra|].
      rewrite Hy, S2 by lia. ring. }
    rewrite dotR_sub, dotR_scal, Hz in X by lia. lra.
Qed.
End G.

(** ** directions by facets *)
Context (l : Z -> vec).
(** the unit vector along which facet [g] is left, within the facets [S], and orthogonal to
    what lies in [g] and all of [S] *)
Record isU (g : Z) (S : list Z) (u : vec) : Prop := {
  is_unit : dot u u = 1;
  is_in : forall a, In a S -> lin (l a) u = 0;
  is_out : lin (l g) u < 0;
  is_orth : forall y, lin (l g) y = 0 -> (forall a, In a S -> lin (l a) y = 0) -> dot u y = 0 }.
Lemma isU_height g S u y : isU g S u -> (forall a, In a S -> lin (l a) y = 0) -> dot u y = lin (l g) y / lin (l g) u.
Proof.
  intros [U1 U2 U3 U4] Hy. set (t := lin (l g) y / lin (l g) u).
  assert (X : dot u (fun k => y k - t * u k) = 0).
  { apply U4; [rewrite lin_sub, lin_scal; unfold t; field; lra|]. intros a Ha. rewrite lin_sub, lin_scal, Hy, U2 by auto. ring. }
  rewrite dotR_sub, dotR_scal, U1 in X. lra.
Qed.
Lemma isU_unique g S S' u u' : isU g S u -> isU g S' u' -> (forall a, In a S <-> In a S') -> eqv u u'.
Proof.
  intros H H' E. pose proof (isU_height g S u u' H) as A. pose proof (isU_height g S' u' u H') as B.
  specialize (B ltac:(intros a Ha; apply H, E, Ha)).
  assert (A' : dot u u' = lin (l g) u' / lin (l g) u) by (apply A; intros a Ha; apply H', E, Ha). rewrite (dotR_comm u' u) in B.
  pose proof (is_out _ _ _ H) as O1. pose proof (is_out _ _ _ H') as O2. pose proof (is_unit _ _ _ H) as N1. pose proof (is_unit _ _ _ H') as N2.
  set (t := dot u u') in *. assert (T1 : t * t = 1).
  { rewrite A' at 1. rewrite B. field. lra. }
  assert (T2 : 0 < t).
  { rewrite A'. replace (lin (l g) u' / lin (l g) u) with ((- lin (l g) u') / (- lin (l g) u)) by (field; lra). apply Rdiv_lt_0_compat; lra. }
  assert (T3 : t = 1) by nra. intros k Hk. apply Rminus_diag_uniq. apply (dotR_0 (fun k => u k - u' k)); auto.
  rewrite dotR_sub, (dotR_comm _ u), (dotR_comm _ u'), !dotR_sub, N1, N2, (dotR_comm u' u). fold t. lra.
Qed.
Lemma isU_wedge a b S u1 u2 v1 v2 y t : isU a (b :: S) u1 -> isU b S u2 -> isU b (a :: S) v1 -> isU a S v2 ->
  dot v1 y * dot v2 t - dot v2 y * dot v1 t = - (dot u1 y * dot u2 t - dot u2 y * dot u1 t).
Proof.
  intros H1 H2 H3 H4.
  assert (Ba : In a (a :: S)) by now left. assert (Bb : In b (b :: S)) by now left.
  pose proof (is_out _ _ _ H1) as A1. pose proof (is_in _ _ _ H1 b Bb) as B1. pose proof (is_out _ _ _ H2) as B2.
  pose proof (is_out _ _ _ H3) as B3. pose proof (is_in _ _ _ H3 a Ba) as A3. pose proof (is_out _ _ _ H4) as A4.
  assert (O12 : dot u1 u2 = 0) by (rewrite dotR_comm; apply (is_orth _ _ _ H2); auto; intros c Hc; apply (is_in _ _ _ H1); now right).
  assert (O34 : dot v1 v2 = 0) by (rewrite dotR_comm; apply (is_orth _ _ _ H4); auto; intros c Hc; apply (is_in _ _ _ H3); now right).
  (* both pairs span the same plane *)
  assert (SP : forall w, (forall c, In c S -> lin (l c) w = 0) -> (forall z, lin (l a) z = 0 -> lin (l b) z = 0 -> (forall c, In c S -> lin (l c) z = 0) -> dot w z = 0) ->
    exists al be, lin (l a) w = al * lin (l a) u1 + be * lin (l a) u2 /\ lin (l b) w = be * lin (l b) u2 /\ (forall z, dot w z = al * dot u1 z + be * dot u2 z)).
  { intros w W1 W2. exists ((lin (l a) w - lin (l b) w / lin (l b) u2 * lin (l a) u2) / lin (l a) u1), (lin (l b) w / lin (l b) u2).
    set (be := lin (l b) w / lin (l b) u2). set (al := (lin (l a) w - be * lin (l a) u2) / lin (l a) u1).
    assert (Ea : lin (l a) w = al * lin (l a) u1 + be * lin (l a) u2) by (unfold al; field; lra).
    assert (Eb : lin (l b) w = be * lin (l b) u2) by (unfold be; field; lra). split; auto. split; auto.
    set (r := fun k => w k - (al * u1 k + be * u2 k)).
    assert (RS : forall c, lin c r = lin c w - (al * lin c u1 + be * lin c u2)) by (intros c; unfold r; rewrite lin_sub, lin_add, !lin_scal; ring).
    assert (R0 : lin (l a) r = 0 /\ lin (l b) r = 0 /\ forall c, In c S -> lin (l c) r = 0).
    { rewrite !RS. split; [lra|]. split; [rewrite B1; lra|]. intros c Hc. rewrite RS, W1, (is_in _ _ _ H1 c), (is_in _ _ _ H2 c) by (auto; now right). ring. }
    destruct R0 as (Ra & Rb & Rc).
    assert (DR : forall z, dot z r = dot z w - (al * dot z u1 + be * dot z u2)).
    { intros z. unfold r. rewrite dotR_sub. f_equal. unfold dotR. rewrite <- !lsum_scal, <- lsum_add. apply lsum_ext. intros; ring. }
    assert (Z0 : dot r r = 0).
    { rewrite DR. rewrite (dotR_comm r w), (dotR_comm r u1), (dotR_comm r u2). rewrite W2 by auto.
      rewrite (is_orth _ _ _ H1) by (auto; intros c [<-|Hc]; auto). rewrite (is_orth _ _ _ H2) by auto. ring. }
    apply dotR_0 in Z0. intros z. pose proof (DR z) as X. rewrite (dotR_ext z z r (fun _ => 0)) in X by (auto; apply eqv_refl).
    unfold dotR in X at 1. rewrite lsum_0 in X by (intros; ring). rewrite (dotR_comm z w), (dotR_comm z u1), (dotR_comm z u2) in X. lra. }
  destruct (SP v1) as (al & be & Ea & Eb & Ez).
  { intros c Hc. apply (is_in _ _ _ H3). now right. }
  { intros z Z1 Z2 Z3. apply (is_orth _ _ _ H3); auto. intros c [<-|Hc]; auto. }
  destruct (SP v2) as (ga & de & Fa & Fb & Fz).
  { intros c Hc. apply (is_in _ _ _ H4). auto. }
  { intros z Z1 Z2 Z3. apply (is_orth _ _ _ H4); auto. }
  rewrite A3 in Ea. pose proof (is_unit _ _ _ H1) as N1. pose proof (is_unit _ _ _ H2) as N2. pose proof (is_unit _ _ _ H3) as N3. pose proof (is_unit _ _ _ H4) as N4.
  rewrite Ez in N3. rewrite (dotR_comm u1 v1), (dotR_comm u2 v1), !Ez, (dotR_comm u2 u1), O12, N1, N2 in N3.
  rewrite Ez in O34. rewrite (dotR_comm u1 v2), (dotR_comm u2 v2), !Fz, (dotR_comm u2 u1), O12, N1, N2 in O34.
  rewrite Fz in N4. rewrite (dotR_comm u1 v2), (dotR_comm u2 v2), !Fz, (dotR_comm u2 u1), O12, N1, N2 in N4.
  rewrite !Ez, !Fz.
  set (p1 := lin (l a) u1) in *. set (p2 := lin (l a) u2) in *. set (q2 := lin (l b) u2) in *.
  assert (Hb : 0 < be) by nra.
  assert (Hal : al = - be * p2 / p1) by (apply (Rmult_eq_reg_r p1); [field_simplify; lra|lra]).
  set (ep := al * de - be * ga).
  assert (G : ga = - ep * be /\ de = ep * al) .
  { assert (N : al * al + be * be = 1) by lra. assert (O : al * ga = - (be * de)) by lra. unfold ep. split.
    - replace (- (al * de - be * ga) * be) with (al * - (be * de) + be * be * ga) by ring. rewrite <- O.
      replace (al * (al * ga) + be * be * ga) with ((al * al + be * be) * ga) by ring. rewrite N. ring.
    - replace ((al * de - be * ga) * al) with (al * al * de - be * (al * ga)) by ring. rewrite O.
      replace (al * al * de - be * - (be * de)) with ((al * al + be * be) * de) by ring. rewrite N. ring. }
  assert (EE : ep * ep = 1).
  { assert (N : al * al + be * be = 1) by lra. assert (N' : ga * ga + de * de = 1) by lra. destruct G as (G1 & G2). rewrite G1, G2 in N'. clearbody ep. rewrite <- N'. replace (- ep * be * (- ep * be) + ep * al * (ep * al)) with (ep * ep * (al * al + be * be)) by ring.
    rewrite N. ring. }
  assert (EN : ep < 0).
  { assert (X : ga * p1 + de * p2 < 0) by lra. destruct G as (G1 & G2). rewrite G1, G2 in X.
    assert (Y : - be * p1 + al * p2 = - be * (p1 * p1 + p2 * p2) / p1) by (rewrite Hal; field; lra).
    assert (Z : 0 < - be * p1 + al * p2).
    { rewrite Y. replace (- be * (p1 * p1 + p2 * p2) / p1) with (be * (p1 * p1 + p2 * p2) / (- p1)) by (field; lra). apply Rdiv_lt_0_compat; [|lra].
      apply Rmult_lt_0_compat; auto. assert (0 < p1 * p1) by nra. assert (0 <= p2 * p2) by nra. lra. }
    replace (- ep * be * p1 + ep * al * p2) with (ep * (- be * p1 + al * p2)) in X by ring. nra. }
  assert (E1 : ep = -1) by nra.
  transitivity (ep * (dot u1 y * dot u2 t - dot u2 y * dot u1 t)); [unfold ep; ring|]. rewrite E1. ring.
Qed.
End F.
