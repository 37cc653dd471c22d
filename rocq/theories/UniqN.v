(** * UniqN: two simple polytopes with the same hull have the same sum over flags. *)
From Coq Require Import Reals ZArith List Bool Lia Lra Permutation.
From Verif Require Import Base Lib SumR RealNum SpecN SpecNC SpecNR RedN PolyN FlagR NearN FlagN.
Import ListNotations.
Open Scope R_scope.

Lemma inj_surj D (pi : Z -> Z) : (0 <= D)%Z -> (forall i, (0 <= i < D)%Z -> (0 <= pi i < D)%Z) ->
  (forall i j, (0 <= i < D)%Z -> (0 <= j < D)%Z -> pi i = pi j -> i = j) -> forall j, (0 <= j < D)%Z -> exists i, (0 <= i < D)%Z /\ pi i = j.
Proof.
  intros HD P1 P2 j Hj. assert (P : Permutation (map pi (zrange D)) (zrange D)).
  { apply NoDup_Permutation_bis.
    - apply NoDup_map_inj; [|apply NoDup_zrange]. intros a b Ha Hb. apply in_zrange in Ha, Hb. auto.
    - rewrite map_length. lia.
    - intros a Ha. apply in_map_iff in Ha as (i & <- & Hi). apply in_zrange in Hi. apply in_zrange. auto. }
  apply (proj2 (in_zrange D j)) in Hj. rewrite <- P in Hj. apply in_map_iff in Hj as (i & E & Hi). apply in_zrange in Hi. eauto.
Qed.
Lemma lsum_nonneg_0 {A} (l : list A) f : (forall a, In a l -> 0 <= f a) -> lsum l f = 0 -> forall a, In a l -> f a = 0.
Proof.
  induction l as [|b l IH]; intros H E a []; cbn in E; assert (0 <= f b) by (apply H; now left);
    assert (0 <= lsum l f) by (apply lsum_nonneg; intros; apply H; now right); [subst; lra|]. apply IH; auto; [intros; apply H; now right|lra].
Qed.
Lemma hull_vertex D n p v : upto n v -> hullN D n p (p v).
Proof. intros Hv c0 c H. auto. Qed.

(** The sum of the facets of [v] vanishes only at [v]. *)
Section V.
Context (D n nf nh : Z) (f bk h : Z -> Z -> Z) (fd : Z -> Z -> Z -> Z) (p : Z -> Z -> R) (l0 : Z -> R) (l : Z -> Z -> R).
Hypothesis C : cells D (upto n) nf nh f bk h fd.
Hypothesis Q : realized D n nh h p l0 l.
Lemma vertex_match n' (q : Z -> Z -> R) v : (0 < n')%Z -> (forall x, hullN D n p x <-> hullN D n' q x) -> upto n v ->
  exists w, upto n' w /\ forall k, (0 <= k < D)%Z -> q w k = p v k.
Proof.
  intros Hn' HH Hv. assert (Hn : (0 < n)%Z) by (unfold upto in Hv; lia).
  set (c0 := lsum (zrange D) (fun i => l0 (h v i))). set (c := fun k => lsum (zrange D) (fun i => l (h v i) k)).
  assert (S : forall x, linN D c0 c x = lsum (zrange D) (fun i => linN D (l0 (h v i)) (l (h v i)) x)).
  { intros x. unfold linN, c0, c. rewrite lsum_add. f_equal. rewrite <- lsum_swap. apply lsum_ext. intros k _. rewrite Rmult_comm, <- lsum_scal. apply lsum_ext. intros; ring. }
  destruct (least_vertex n' (fun w => linN D c0 c (q w)) Hn') as (w & Hw & MW). exists w. split; auto.
  assert (P0 : linN D c0 c (p v) = 0) by (rewrite S; apply lsum_0; intros i Hi; apply in_zrange in Hi; now apply (re_on _ _ _ _ _ _ _ Q)).
  assert (KW : forall i, In i (zrange D) -> 0 <= linN D (l0 (h v i)) (l (h v i)) (q w)).
  { intros i Hi. apply in_zrange in Hi. apply (proj1 (hull_facets D n nf nh f bk h fd p l0 l C Q (q w) Hn)); [apply HH, hull_vertex; auto|]. now apply (ce_h _ _ _ _ _ _ _ _ C). }
  assert (W0 : linN D c0 c (q w) <= 0).
  { assert (X : halfN D (c0 - linN D c0 c (q w)) c (p v)).
    { apply (proj1 (HH (p v)) (hull_vertex D n p v Hv)). intros u Hu. unfold halfN. specialize (MW u Hu). cbv beta in MW. unfold linN in *. lra. }
    unfold halfN in X. unfold linN in *. lra. }
  assert (W1 : lsum (zrange D) (fun i => linN D (l0 (h v i)) (l (h v i)) (q w)) = 0) by (rewrite <- S; rewrite S in W0 |- *; pose proof (lsum_nonneg _ _ KW); lra).
  intros k Hk. apply Rminus_diag_uniq. apply (re_nd _ _ _ _ _ _ _ Q v (fun k => q w k - p v k) Hv); auto. intros i Hi. rewrite lin_sub.
  pose proof (lsum_nonneg_0 _ _ KW W1 i (proj2 (in_zrange D i) Hi)) as A. cbv beta in A. pose proof (re_on _ _ _ _ _ _ _ Q v i Hv Hi) as B.
  rewrite (linN_split D (l0 (h v i))) in A, B. lra.
Qed.
End V.

Section W.
Context (D : Z).
Hypothesis HD : (1 <= D)%Z.
Context (n nf nh : Z) (f bk h : Z -> Z -> Z) (fd : Z -> Z -> Z -> Z) (p : Z -> Z -> R) (l0 : Z -> R) (l : Z -> Z -> R).
Hypothesis C : cells D (upto n) nf nh f bk h fd.
Hypothesis Q : realized D n nh h p l0 l.
Context (n' nf' nh' : Z) (f' bk' h' : Z -> Z -> Z) (fd' : Z -> Z -> Z -> Z) (q : Z -> Z -> R) (m0 : Z -> R) (m : Z -> Z -> R).
Hypothesis C' : cells D (upto n') nf' nh' f' bk' h' fd'.
Hypothesis Q' : realized D n' nh' h' q m0 m.
Hypothesis HH : forall x, hullN D n p x <-> hullN D n' q x.
Notation I i := (0 <= i < D)%Z.
Notation lin c x := (linN D 0 c x).
Notation E := (edgeN RN p f).
Notation E' := (edgeN RN q f').

Lemma same_cone v w : upto n v -> upto n' w -> (forall k, I k -> q w k = p v k) -> vertexN RN D (p v) (E v) = vertexN RN D (q w) (E' w).
Proof.
  intros Hv Hw HP.
  assert (A : forall i j, I i -> I j -> lin (m (h' w j)) (E v i) <= 0).
  { intros i j Hi Hj. change (E v i) with (fun k => p v k - p (f v i) k). rewrite lin_sub. pose proof (re_on _ _ _ _ _ _ _ Q' w j Hw Hj) as B.
    assert (X : 0 <= linN D (m0 (h' w j)) (m (h' w j)) (p (f v i))).
    { apply (proj1 (hull_facets D n' nf' nh' f' bk' h' fd' q m0 m C' Q' _ ltac:(unfold upto in Hw; lia))); [|now apply (ce_h _ _ _ _ _ _ _ _ C')]. apply HH, hull_vertex. now apply (ce_f _ _ _ _ _ _ _ _ C). }
    rewrite (linN_ext D _ _ (q w) (p v)) in B by auto. rewrite (linN_split D (m0 (h' w j))) in B, X. lra. }
  assert (B : forall i j, I i -> I j -> 0 <= lin (l (h v i)) (fun k => q (f' w j) k - q w k)).
  { intros i j Hi Hj. rewrite lin_sub. pose proof (re_on _ _ _ _ _ _ _ Q v i Hv Hi) as B.
    assert (X : 0 <= linN D (l0 (h v i)) (l (h v i)) (q (f' w j))).
    { apply (proj1 (hull_facets D n nf nh f bk h fd p l0 l C Q _ ltac:(unfold upto in Hv; lia))); [|now apply (ce_h _ _ _ _ _ _ _ _ C)]. apply HH, hull_vertex. now apply (ce_f _ _ _ _ _ _ _ _ C'). }
    rewrite <- (linN_ext D _ _ (q w) (p v)) in B by auto. rewrite (linN_split D (l0 (h v i))) in B, X. lra. }
  assert (EX : forall j, I j -> exists i, I i /\ lin (m (h' w j)) (E v i) < 0 /\ forall k, I k -> k <> j -> lin (m (h' w k)) (E v i) = 0).
  { intros j Hj. set (y := fun k => q (f' w j) k - q w k).
    set (a := fun i => lin (l (h v i)) y / linN D (l0 (h v i)) (l (h v i)) (p (f v i))).
    assert (Pa : forall i, I i -> 0 <= a i).
    { intros i Hi. unfold a. apply Rmult_le_pos; [apply B; auto|]. left. apply Rinv_0_lt_compat. eapply edge_pos; eauto. }
    assert (Ex : forall c, lin c y = lsum (zrange D) (fun i => a i * - lin c (E v i))).
    { intros c. rewrite (linN_ext D 0 c y (fun k => lsum (zrange D) (fun i => a i * (p (f v i) k - p v k)))) by (intros; eapply lin_expand; eauto).
      rewrite lin_lsum. apply lsum_ext. intros i _. rewrite lin_scal. f_equal. change (E v i) with (fun k => p v k - p (f v i) k). rewrite !lin_sub. ring. }
    assert (Ey : forall k, lin (m (h' w k)) y = - lin (m (h' w k)) (E' w j)).
    { intros k. unfold y. change (E' w j) with (fun k => q w k - q (f' w j) k). rewrite !lin_sub. ring. }
    assert (Z : forall k, I k -> k <> j -> forall i, I i -> a i * - lin (m (h' w k)) (E v i) = 0).
    { intros k Hk N i Hi. apply (lsum_nonneg_0 (zrange D) (fun i => a i * - lin (m (h' w k)) (E v i))); [| |now apply in_zrange].
      - intros i' Hi'. apply in_zrange in Hi'. apply Rmult_le_pos; auto. specialize (A i' k Hi' Hk). lra.
      - rewrite <- Ex, Ey. rewrite (form_zero D n' nf' nh' f' bk' h' fd' C' q m0 m Q' w j k) by auto. ring. }
    assert (Pj : 0 < lsum (zrange D) (fun i => a i * - lin (m (h' w j)) (E v i))).
    { rewrite <- Ex, Ey. pose proof (form_neg D n' nf' nh' f' bk' h' fd' C' q m0 m Q' w j Hw Hj). lra. }
    assert (EXi : exists i, I i /\ a i * - lin (m (h' w j)) (E v i) <> 0).
    { destruct (existsb (fun i => if Req_EM_T (a i * - lin (m (h' w j)) (E v i)) 0 then false else true) (zrange D)) eqn:X.
      - apply existsb_exists in X as (i & Hi & X). apply in_zrange in Hi. exists i. split; auto. revert X. destruct (Req_EM_T (a i * - lin (m (h' w j)) (E v i)) 0); [discriminate|auto].
      - exfalso. rewrite lsum_0 in Pj; [lra|]. intros i Hi. destruct (Req_EM_T (a i * - lin (m (h' w j)) (E v i)) 0) as [|N]; auto.
        assert (T : existsb (fun i => if Req_EM_T (a i * - lin (m (h' w j)) (E v i)) 0 then false else true) (zrange D) = true); [|congruence].
        apply existsb_exists. exists i. split; auto. now destruct (Req_EM_T (a i * - lin (m (h' w j)) (E v i)) 0). }
    destruct EXi as (i & Hi & N). assert (a i <> 0) by (intros X; apply N; rewrite X; ring). exists i. split; auto. split.
    - specialize (A i j Hi Hj). destruct A as [|A]; auto. exfalso. apply N. rewrite A. ring.
    - intros k Hk Nk. specialize (Z k Hk Nk i Hi). apply Rmult_integral in Z as [Z|Z]; [contradiction|lra]. }
  destruct (finite_choice 0%Z D (fun j i => I i /\ lin (m (h' w j)) (E v i) < 0 /\ forall k, I k -> k <> j -> lin (m (h' w k)) (E v i) = 0) ltac:(lia)) as (pi & Hpi); [exact EX|].
  unfold upto in Hpi.
  assert (P2 : forall i j, I i -> I j -> pi i = pi j -> i = j).
  { intros i j Hi Hj X. destruct (Z.eq_dec i j) as [|N]; auto. exfalso. destruct (Hpi i Hi) as (_ & Y & _). destruct (Hpi j Hj) as (_ & _ & Z). rewrite X, Z in Y; auto. lra. }
  rewrite (vertex_forms D (p v) (E' w) (E v) (fun i => m (h' w i)) pi (fun _ => 1)); auto; try lia.
  - rewrite lprod_1 by auto. rewrite Rmult_1_l. apply vertex_ext; [lia| |].
    + intros k Hk. symmetry. apply HP; auto.
    + intros i _ k _. reflexivity.
  - intros y Hy. apply (re_nd _ _ _ _ _ _ _ Q' w y Hw). auto.
  - intros i Hi. apply Hpi; auto.
  - apply inj_surj; auto; [lia|]. intros i Hi. apply Hpi; auto.
  - intros i Hi. split; [lra|]. split; [eapply form_neg; eauto|]. destruct (Hpi i Hi) as (_ & Y & _). lra.
  - intros i j Hi Hj N. split; [eapply form_zero; eauto|]. destruct (Hpi i Hi) as (_ & _ & Z). apply Z; auto.
Qed.
Lemma same_zero : (n <= 0)%Z -> (n' <= 0)%Z.
Proof.
  intros H0. destruct (Z.leb_spec n' 0) as [|P]; auto. exfalso. assert (U0 : upto n' 0%Z) by (unfold upto; lia).
  apply hull_vertex with (D := D) (p := q) in U0. apply HH in U0. specialize (U0 (-1) (fun _ => 0)). unfold halfN, linN in U0.
  rewrite lsum_0 in U0 by (intros; lra). assert (X : 0 <= -1 + 0); [|lra]. apply U0. unfold upto. intros; lia.
Qed.
End W.

Section T.
Context (D : Z).
Hypothesis HD : (1 <= D)%Z.
Context (n nf nh : Z) (f bk h : Z -> Z -> Z) (fd : Z -> Z -> Z -> Z) (p : Z -> Z -> R) (l0 : Z -> R) (l : Z -> Z -> R).
Hypothesis C : cells D (upto n) nf nh f bk h fd.
Hypothesis Q : realized D n nh h p l0 l.
Context (n' nf' nh' : Z) (f' bk' h' : Z -> Z -> Z) (fd' : Z -> Z -> Z -> Z) (q : Z -> Z -> R) (m0 : Z -> R) (m : Z -> Z -> R).
Hypothesis C' : cells D (upto n') nf' nh' f' bk' h' fd'.
Hypothesis Q' : realized D n' nh' h' q m0 m.
Hypothesis HH : forall x, hullN D n p x <-> hullN D n' q x.
Theorem same_hull : lsum (zrange n) (fun v => vertexN RN D (p v) (edgeN RN p f v)) = lsum (zrange n') (fun v => vertexN RN D (q v) (edgeN RN q f' v)).
Proof.
  assert (HH' : forall x, hullN D n' q x <-> hullN D n p x) by (intros; symmetry; auto).
  destruct (Z.leb_spec n 0) as [N0|N0].
  { pose proof (same_zero D n p n' q HH N0). rewrite !zrange_nonpos by auto. reflexivity. }
  destruct (Z.leb_spec n' 0) as [N1|N1]; [pose proof (same_zero D n' q n p HH' N1); lia|].
  destruct (finite_choice 0%Z n (fun v w => upto n' w /\ forall k, (0 <= k < D)%Z -> q w k = p v k) ltac:(lia)) as (mt & Hm).
  { intros v Hv. exact (vertex_match D n nf nh f bk h fd p l0 l C Q n' q v N1 HH Hv). }
  rewrite <- (lsum_bij mt (zrange n) (zrange n')).
  - apply lsum_ext. intros v Hv. apply in_zrange in Hv. destruct (Hm v Hv) as (Hw & E). exact (same_cone D HD n nf nh f bk h fd p l0 l C Q n' nf' nh' f' bk' h' fd' q m0 m C' Q' HH v _ Hv Hw E).
  - apply NoDup_zrange.
  - apply NoDup_zrange.
  - intros v Hv. apply in_zrange in Hv. apply in_zrange. apply (Hm v Hv).
  - intros v v' Hv Hv' E. apply in_zrange in Hv, Hv'. apply (re_inj _ _ _ _ _ _ _ Q); auto. intros k Hk.
    destruct (Hm v Hv) as (_ & E1). destruct (Hm v' Hv') as (_ & E2). rewrite <- E1, <- E2 by auto. now rewrite E.
  - intros w Hw. apply in_zrange in Hw. destruct (vertex_match D n' nf' nh' f' bk' h' fd' q m0 m C' Q' n p w N0 HH' Hw) as (v & Hv & E). exists v.
    split; [now apply in_zrange|]. destruct (Hm v Hv) as (Hw' & E'). apply (re_inj _ _ _ _ _ _ _ Q'); auto. intros k Hk. rewrite E' by auto. now apply E.
Qed.
End T.
