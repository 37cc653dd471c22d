(** * PolyN: simple polytopes over the reals. *)
From Coq Require Import Reals ZArith List Bool Lia Lra Psatz.
From Verif Require Import Base Lib SumR SpecN SpecNC.
Import ListNotations.
Open Scope R_scope.

Lemma lsum_swap {A B} (l : list A) (l' : list B) (F : A -> B -> R) :
  lsum l (fun a => lsum l' (fun b => F a b)) = lsum l' (fun b => lsum l (fun a => F a b)).
Proof.
  induction l; cbn [lsum].
  - rewrite lsum_0; auto.
  - rewrite lsum_add, IHl. reflexivity.
Qed.
Lemma lsum_single (l : list Z) f i : NoDup l -> In i l -> (forall j, In j l -> j <> i -> f j = 0) -> lsum l f = f i.
Proof.
  induction l as [|a r IH]; intros N I Z; [destruct I|]. cbn [lsum]. inversion N; subst. destruct I as [->|I].
  - rewrite lsum_0; [lra|]. intros j Hj. apply Z; [now right|]. intros ->. contradiction.
  - rewrite (Z a); [rewrite IH; auto; [lra|]; intros; apply Z; auto; now right|now left|intros ->; contradiction].
Qed.
Lemma lsum_nonneg {A} (l : list A) f : (forall a, In a l -> 0 <= f a) -> 0 <= lsum l f.
Proof. induction l; cbn; intros H; [lra|]. assert (0 <= f a) by auto. assert (0 <= lsum l f) by auto. lra. Qed.

Lemma NoDup_map_inj {A B} (h : A -> B) l : (forall a b, In a l -> In b l -> h a = h b -> a = b) -> NoDup l -> NoDup (map h l).
Proof.
  induction l; intros HJ N; cbn; constructor; inversion N; subst.
  - intros X. apply in_map_iff in X as (b & E & Hb). apply HJ in E; cbn; auto. subst. contradiction.
  - apply IHl; auto. intros. apply HJ; cbn; auto.
Qed.
Lemma filter_length_lt {A} (K : A -> bool) l a : In a l -> K a = false -> (length (filter K l) < length l)%nat.
Proof.
  induction l as [|b r IH]; intros I E; [destruct I|]. cbn [filter]. assert (G : (length (filter K r) <= length r)%nat) by (clear; induction r; cbn; auto; destruct (K a); cbn; lia).
  destruct I as [->|I]; [rewrite E; cbn; lia|]. specialize (IH I E). destruct (K b); cbn; lia.
Qed.

Section P.
Context (D : Z).
Notation lin c x := (linN D 0 c x).

Lemma linN_ext c0 c x y : (forall k, (0 <= k < D)%Z -> x k = y k) -> linN D c0 c x = linN D c0 c y.
Proof. intros H. unfold linN. f_equal. apply lsum_ext. intros k Hk. apply in_zrange in Hk. now rewrite H. Qed.
Lemma linN_split c0 c x : linN D c0 c x = c0 + lin c x.
Proof. unfold linN. lra. Qed.
Lemma lin_sub c x y : lin c (fun k => x k - y k) = lin c x - lin c y.
Proof. unfold linN. rewrite (lsum_ext _ _ (fun k => c k * x k - c k * y k)); [rewrite lsum_sub; lra|intros; lra]. Qed.
Lemma lin_scal c t x : lin c (fun k => t * x k) = t * lin c x.
Proof. unfold linN. rewrite (lsum_ext _ _ (fun k => t * (c k * x k))); [rewrite lsum_scal; lra|intros; lra]. Qed.
Lemma lin_add c x y : lin c (fun k => x k + y k) = lin c x + lin c y.
Proof. unfold linN. rewrite (lsum_ext _ _ (fun k => c k * x k + c k * y k)); [rewrite lsum_add; lra|intros; lra]. Qed.
Lemma lin_lsum {A} c (l : list A) (x : A -> Z -> R) : lin c (fun k => lsum l (fun a => x a k)) = lsum l (fun a => lin c (x a)).
Proof.
  unfold linN. rewrite (lsum_ext _ _ (fun k => lsum l (fun a => c k * x a k))) by (intros; now rewrite lsum_scal).
  rewrite lsum_swap. rewrite lsum_add. rewrite (lsum_0 l (fun _ => 0)) by auto. reflexivity.
Qed.
Lemma linN_comb c0 c x y a b : a - b <> 0 ->
  linN D c0 c (fun k => (y k * a - x k * b) / (a - b)) = (linN D c0 c y * a - linN D c0 c x * b) / (a - b).
Proof.
  intros H. rewrite !(linN_split c0).
  rewrite (linN_ext 0 c _ (fun k => (a / (a - b)) * y k - (b / (a - b)) * x k)) by (intros; field; auto).
  rewrite lin_sub, !lin_scal. field. auto.
Qed.
Lemma linN_seg c0 c x y t : linN D c0 c (fun k => x k + t * (y k - x k)) = linN D c0 c x + t * (linN D c0 c y - linN D c0 c x).
Proof. rewrite !(linN_split c0). rewrite lin_add, lin_scal, lin_sub. lra. Qed.

(** a vertex where a function is least *)
Lemma least_vertex n (phi : Z -> R) : (0 < n)%Z -> exists v, upto n v /\ forall w, upto n w -> phi v <= phi w.
Proof.
  intros Hn. assert (G : forall m, (0 <= m)%Z -> (0 < m)%Z -> exists v, upto m v /\ forall w, upto m w -> phi v <= phi w); [|apply G; lia].
  intros m Hm. pattern m. apply zrange_ind; auto; [intros; lia|]. intros k Hk IH _. destruct (Z.eq_dec k 0) as [->|N0].
  - exists 0%Z. split; [unfold upto; lia|]. intros w Hw. assert (w = 0)%Z as -> by (unfold upto in Hw; lia). lra.
  - destruct IH as (v & Hv & L); [lia|]. destruct (Rle_dec (phi v) (phi k)).
    + exists v. split; [unfold upto in *; lia|]. intros w Hw. destruct (Z.eq_dec w k) as [->|]; auto. apply L. unfold upto in *; lia.
    + exists k. split; [unfold upto in *; lia|]. intros w Hw. destruct (Z.eq_dec w k) as [->|]; [lra|].
      assert (phi v <= phi w) by (apply L; unfold upto in *; lia). lra.
Qed.

Section R.
Context (n nf nh : Z) (f bk h : Z -> Z -> Z) (fd : Z -> Z -> Z -> Z) (p : Z -> Z -> R) (l0 : Z -> R) (l : Z -> Z -> R).
Hypothesis HD : (1 <= D)%Z.
Hypothesis C : cells D (upto n) nf nh f bk h fd.
Hypothesis Q : realized D n nh h p l0 l.
Notation L g x := (linN D (l0 g) (l g) x).
Notation U := (upto n).
Notation I i := (0 <= i < D)%Z.

Lemma cf v i : U v -> I i -> U (f v i). Proof. intros. apply (ce_f _ _ _ _ _ _ _ _ C); auto. Qed.
Lemma ch v i : U v -> I i -> (0 <= h v i < nh)%Z. Proof. intros. apply (ce_h _ _ _ _ _ _ _ _ C); auto. Qed.
Lemma label_dec v g : {i | I i /\ h v i = g} + {forall i, I i -> h v i <> g}.
Proof.
  destruct (find (fun i => h v i =? g)%Z (zrange D)) as [i|] eqn:E.
  - left. exists i. apply find_some in E as (E1 & E2). apply in_zrange in E1. apply Z.eqb_eq in E2. auto.
  - right. intros i Hi X. pose proof (find_none _ _ E i ltac:(apply in_zrange; auto)) as Y. cbv beta in Y. apply Z.eqb_neq in Y. contradiction.
Qed.
Lemma facet_nonneg v g : U v -> (0 <= g < nh)%Z -> 0 <= L g (p v).
Proof.
  intros Hv Hg. destruct (label_dec v g) as [(i & Hi & <-)|N].
  - rewrite (re_on _ _ _ _ _ _ _ Q) by auto. lra.
  - left. apply (re_off _ _ _ _ _ _ _ Q); auto.
Qed.
Lemma facet_zero v g : U v -> (0 <= g < nh)%Z -> L g (p v) = 0 -> exists i, I i /\ h v i = g.
Proof.
  intros Hv Hg E. destruct (label_dec v g) as [(i & Hi & <-)|N]; [eauto|]. pose proof (re_off _ _ _ _ _ _ _ Q v g Hv Hg N). lra.
Qed.
Lemma edge_zero v i j : U v -> I i -> I j -> j <> i -> L (h v j) (p (f v i)) = 0.
Proof.
  intros Hv Hi Hj N. destruct (ce_edge _ _ _ _ _ _ _ _ C v i j Hv Hi Hj N) as (j' & Hj' & _ & <- & _). apply (re_on _ _ _ _ _ _ _ Q); auto. apply cf; auto.
Qed.
Lemma edge_pos v i : U v -> I i -> 0 < L (h v i) (p (f v i)).
Proof.
  intros Hv Hi. pose proof (cf v i Hv Hi) as Hw. destruct (Rle_lt_or_eq_dec 0 _ (facet_nonneg (f v i) (h v i) Hw (ch v i Hv Hi))) as [X|X]; auto. exfalso.
  apply (ce_f _ _ _ _ _ _ _ _ C v i Hv Hi). apply (re_inj _ _ _ _ _ _ _ Q); auto.
  intros k Hk. apply Rminus_diag_uniq. apply (re_nd _ _ _ _ _ _ _ Q v (fun k => p (f v i) k - p v k)); auto.
  intros j Hj. rewrite lin_sub. pose proof (re_on _ _ _ _ _ _ _ Q v j Hv Hj) as Y. rewrite linN_split in Y.
  assert (Z : L (h v j) (p (f v i)) = 0) by (destruct (Z.eq_dec j i) as [->|]; [now rewrite <- X|apply edge_zero; auto]).
  rewrite linN_split in Z. lra.
Qed.
Lemma realized_simple : simple_edges D U f.
Proof.
  intros v i j Hv Hi Hj E. destruct (Z.eq_dec i j); auto. exfalso. pose proof (edge_pos v i Hv Hi) as X. rewrite E in X. rewrite edge_zero in X by auto. lra.
Qed.

(** a vector in terms of the edges at a vertex *)
Lemma lin_expand v y k : U v -> I k ->
  y k = lsum (zrange D) (fun i => lin (l (h v i)) y / L (h v i) (p (f v i)) * (p (f v i) k - p v k)).
Proof.
  intros Hv Hk. apply Rminus_diag_uniq.
  apply (re_nd _ _ _ _ _ _ _ Q v (fun k => y k - lsum (zrange D) (fun i => lin (l (h v i)) y / L (h v i) (p (f v i)) * (p (f v i) k - p v k)))); auto.
  intros j Hj. rewrite lin_sub, lin_lsum.
  rewrite (lsum_single _ _ j (NoDup_zrange _) (proj2 (in_zrange _ _) Hj)).
  - rewrite lin_scal, lin_sub. pose proof (edge_pos v j Hv Hj) as X. pose proof (re_on _ _ _ _ _ _ _ Q v j Hv Hj) as Y. rewrite (linN_split (l0 (h v j))) in X, Y |- *.
    replace (lin (l (h v j)) (p (f v j)) - lin (l (h v j)) (p v)) with (l0 (h v j) + lin (l (h v j)) (p (f v j))) by lra. field. lra.
  - intros i Hi Nij. apply in_zrange in Hi. rewrite lin_scal, lin_sub.
    pose proof (edge_zero v i j Hv Hi Hj (not_eq_sym Nij)) as X. pose proof (re_on _ _ _ _ _ _ _ Q v j Hv Hj) as Y. rewrite linN_split in X, Y.
    replace (lin (l (h v j)) (p (f v i)) - lin (l (h v j)) (p v)) with 0 by lra. lra.
Qed.
Lemma point_expand v x k : U v -> I k ->
  x k = p v k + lsum (zrange D) (fun i => L (h v i) x / L (h v i) (p (f v i)) * (p (f v i) k - p v k)).
Proof.
  intros Hv Hk. pose proof (lin_expand v (fun k => x k - p v k) k Hv Hk) as E. cbv beta in E.
  rewrite (lsum_ext _ _ (fun i => L (h v i) x / L (h v i) (p (f v i)) * (p (f v i) k - p v k))) in E; [lra|].
  intros i Hi. apply in_zrange in Hi. rewrite lin_sub. pose proof (re_on _ _ _ _ _ _ _ Q v i Hv Hi) as Y. rewrite (linN_split (l0 (h v i)) _ x). rewrite linN_split in Y.
  replace (lin (l (h v i)) x - lin (l (h v i)) (p v)) with (l0 (h v i) + lin (l (h v i)) x) by lra. reflexivity.
Qed.
Lemma affine_expand c0 c v x : U v ->
  linN D c0 c x = linN D c0 c (p v) + lsum (zrange D) (fun i => L (h v i) x / L (h v i) (p (f v i)) * (linN D c0 c (p (f v i)) - linN D c0 c (p v))).
Proof.
  intros Hv. rewrite (linN_ext c0 c x (fun k => p v k + lsum (zrange D) (fun i => L (h v i) x / L (h v i) (p (f v i)) * (p (f v i) k - p v k)))) by (intros; now apply point_expand).
  rewrite (linN_split c0 c (fun k => _)), lin_add, lin_lsum. rewrite (linN_split c0 c (p v)).
  rewrite <- Rplus_assoc. f_equal. apply lsum_ext. intros i _. rewrite lin_scal, lin_sub. rewrite (linN_split c0 c (p (f v i))). lra.
Qed.
Lemma local_min c0 c v x : U v -> (forall i, I i -> linN D c0 c (p v) <= linN D c0 c (p (f v i))) ->
  (forall i, I i -> 0 <= L (h v i) x) -> linN D c0 c (p v) <= linN D c0 c x.
Proof.
  intros Hv M P. rewrite (affine_expand c0 c v x Hv).
  assert (0 <= lsum (zrange D) (fun i => L (h v i) x / L (h v i) (p (f v i)) * (linN D c0 c (p (f v i)) - linN D c0 c (p v)))); [|lra].
  apply lsum_nonneg. intros i Hi. apply in_zrange in Hi. apply Rmult_le_pos; [|specialize (M i Hi); lra].
  apply Rmult_le_pos; auto. left. apply Rinv_0_lt_compat, edge_pos; auto.
Qed.
Lemma hull_facets x : (0 < n)%Z -> hullN D n p x <-> forall g, (0 <= g < nh)%Z -> 0 <= L g x.
Proof.
  intros Hn. split.
  - intros H g Hg. apply H. intros v Hv. apply facet_nonneg; auto.
  - intros H c0 c P. destruct (least_vertex n (fun v => linN D c0 c (p v)) Hn) as (v & Hv & M). unfold halfN in *.
    eapply Rle_trans; [apply (P v Hv)|]. apply local_min; auto.
    + intros i Hi. apply M. apply cf; auto.
    + intros i Hi. apply H. apply ch; auto.
Qed.

(** a point on the line through the edge [i] of [v], between its ends *)
Lemma on_edge v i x : U v -> I i -> (forall j, I j -> j <> i -> L (h v j) x = 0) ->
  forall k, I k -> x k = p v k + L (h v i) x / L (h v i) (p (f v i)) * (p (f v i) k - p v k).
Proof.
  intros Hv Hi Z k Hk. rewrite (point_expand v x k Hv Hk) at 1. f_equal. rewrite (lsum_single _ _ i (NoDup_zrange _) (proj2 (in_zrange _ _) Hi)); auto.
  intros j Hj N. apply in_zrange in Hj. rewrite Z by auto. unfold Rdiv. lra.
Qed.
(** a facet that holds neither end of an edge, or only one, is positive between them *)
Lemma between v i g : U v -> I i -> (0 <= g < nh)%Z -> (forall j, I j -> j <> i -> h v j <> g) -> 0 < L g (p v) \/ 0 < L g (p (f v i)).
Proof.
  intros Hv Hi Hg N. destruct (label_dec v g) as [(j & Hj & E)|NL].
  - right. destruct (Z.eq_dec j i) as [->|Nj]; [rewrite <- E; apply edge_pos; auto|]. exfalso. apply (N j); auto.
  - left. apply (re_off _ _ _ _ _ _ _ Q); auto.
Qed.
Lemma vertex_on_edge v i u : U v -> I i -> U u -> (forall j, I j -> j <> i -> L (h v j) (p u) = 0) -> u = v \/ u = f v i.
Proof.
  intros Hv Hi Hu Z. pose proof (on_edge v i (p u) Hv Hi Z) as E. set (t := L (h v i) (p u) / L (h v i) (p (f v i))) in *.
  pose proof (cf v i Hv Hi) as Hw.
  assert (T0 : 0 <= t) by (apply Rmult_le_pos; [apply facet_nonneg; auto; apply ch; auto|left; apply Rinv_0_lt_compat, edge_pos; auto]).
  assert (SEG : forall g, L g (p u) = L g (p v) + t * (L g (p (f v i)) - L g (p v))).
  { intros g. rewrite <- linN_seg. apply linN_ext. intros k Hk. apply E; auto. }
  destruct (Req_dec t 0) as [T|T]; [left; apply (re_inj _ _ _ _ _ _ _ Q); auto; intros k Hk; rewrite E, T by auto; lra|].
  destruct (Req_dec t 1) as [T1|T1]; [right; apply (re_inj _ _ _ _ _ _ _ Q); auto; intros k Hk; rewrite E, T1 by auto; lra|]. exfalso.
  (* t <= 1: the facet at the far end *)
  destruct (ce_bk _ _ _ _ _ _ _ _ C v i Hv Hi) as (Hb & Fb & _).
  assert (T2 : t <= 1).
  { pose proof (edge_pos (f v i) (bk v i) Hw Hb) as X. rewrite Fb in X. pose proof (SEG (h (f v i) (bk v i))) as Y.
    rewrite (re_on _ _ _ _ _ _ _ Q (f v i) (bk v i)) in Y by auto. pose proof (facet_nonneg u (h (f v i) (bk v i)) Hu (ch _ _ Hw Hb)) as Z0. rewrite Y in Z0.
    nra. }
  (* the labels of u are among those of the edge, but there are D of them *)
  assert (LB : forall a, I a -> exists j, I j /\ j <> i /\ h v j = h u a).
  { intros a Ha. pose proof (ch u a Hu Ha) as Hg. pose proof (re_on _ _ _ _ _ _ _ Q u a Hu Ha) as X. rewrite SEG in X.
    destruct (label_dec v (h u a)) as [(j & Hj & Ej)|NL].
    - destruct (Z.eq_dec j i) as [->|Nj]; [|eauto]. exfalso. pose proof (edge_pos v i Hv Hi) as Y. rewrite Ej in Y. pose proof (re_on _ _ _ _ _ _ _ Q v i Hv Hi) as Z0. rewrite Ej in Z0. nra.
    - exfalso. pose proof (re_off _ _ _ _ _ _ _ Q v _ Hv Hg NL). pose proof (facet_nonneg (f v i) _ Hw Hg). nra. }
  assert (X : (length (map (h u) (zrange D)) <= length (map (h v) (filter (fun j => negb (j =? i)%Z) (zrange D))))%nat).
  { apply NoDup_incl_length.
    - apply NoDup_map_inj; [|apply NoDup_zrange]. intros a b Ha Hb' Eab. apply in_zrange in Ha, Hb'. apply (ce_hinj _ _ _ _ _ _ _ _ C u); auto.
    - intros g Hg. apply in_map_iff in Hg as (a & <- & Ha). apply in_zrange in Ha. destruct (LB a Ha) as (j & Hj & Nj & <-). apply in_map. apply filter_In.
      split; [apply in_zrange; auto|]. apply negb_true_iff, Z.eqb_neq; auto. }
  rewrite !map_length in X. pose proof (filter_length_lt (fun j => negb (j =? i)%Z) (zrange D) i (proj2 (in_zrange _ _) Hi)) as Y. cbv beta in Y. rewrite Z.eqb_refl in Y. specialize (Y eq_refl). lia.
Qed.
End R.
End P.
