(** * ProjN: the transforms of [src/rNd.c] applied to convex polytopes. *)
From Coq Require Import Reals ZArith List Bool Lia Lra Psatz.
From Verif Require Import Base Lib SumR ModelCommon ModelN ModelNC SpecN SpecNC SpecNP RealNum PolyN ContN ProjJ.
Import ListNotations.
Open Scope R_scope.

Lemma realized_same D n nh h p q l0 l : (forall v, upto n v -> same D (p v) (q v)) -> realized D n nh h p l0 l -> realized D n nh h q l0 l.
Proof.
  intros E RE. split.
  - intros v i Hv Hi. rewrite <- (linN_same _ _ _ _ _ (E v Hv)). now apply (re_on _ _ _ _ _ _ _ RE).
  - intros v g Hv Hg N. rewrite <- (linN_same _ _ _ _ _ (E v Hv)). now apply (re_off _ _ _ _ _ _ _ RE).
  - intros v y Hv. now apply (re_nd _ _ _ _ _ _ _ RE).
  - intros v w Hv Hw H. apply (re_inj _ _ _ _ _ _ _ RE v w Hv Hw). intros k Hk. rewrite (E v Hv k Hk), (E w Hw k Hk). auto.
Qed.
Lemma polytope_same D n nh h p q : (forall v, upto n v -> same D (p v) (q v)) -> polytope D n nh h p -> polytope D n nh h q.
Proof.
  intros E P d Hd. destruct (P d Hd) as (r & l0 & l & RE & NE). exists r, l0, l. split; auto. intros v k Hv Hk. rewrite <- (E v Hv k Hk). auto.
Qed.

(** affine functions are continuous *)
Lemma aff_cont D c0 c x e : 0 < e -> exists d, 0 < d /\ forall y, (forall k, (0 <= k < D)%Z -> Rabs (y k - x k) < d) -> Rabs (linN D c0 c y - linN D c0 c x) < e.
Proof.
  intros He. set (M := lsum (zrange D) (fun k => Rabs (c k))).
  assert (0 <= M) by (apply lsum_nonneg; intros; apply Rabs_pos).
  exists (e / (M + 1)). split; [apply Rdiv_lt_0_compat; lra|]. intros y Hy. rewrite linN_diff. unfold linN. rewrite Rplus_0_l.
  assert (Q : forall l, (forall k, In k l -> (0 <= k < D)%Z) -> Rabs (lsum l (fun i => c i * (y i - x i))) <= lsum l (fun k => Rabs (c k)) * (e / (M + 1))).
  { induction l as [|a l IH]; intros Hl; cbn [lsum]; [rewrite Rabs_R0; lra|]. eapply Rle_trans; [apply Rabs_triang|].
    rewrite Rabs_mult. assert (Rabs (y a - x a) <= e / (M + 1)) by (left; apply Hy; apply Hl; now left).
    assert (Rabs (c a) * Rabs (y a - x a) <= Rabs (c a) * (e / (M + 1))) by (apply Rmult_le_compat_l; [apply Rabs_pos|auto]).
    specialize (IH (fun k Hk => Hl k (or_intror Hk))). lra. }
  eapply Rle_lt_trans; [apply Q; intros k Hk; now apply in_zrange|]. fold M. replace e with ((M + 1) * (e / (M + 1))) at 2 by (field; lra).
  assert (0 < e / (M + 1)) by (apply Rdiv_lt_0_compat; lra). lra.
Qed.
Lemma aff_cont_all D (t : Z -> R) (A : Z -> Z -> R) (l : list Z) x e : 0 < e -> exists d, 0 < d
  /\ forall y, (forall k, (0 <= k < D)%Z -> Rabs (y k - x k) < d) -> forall k, In k l -> Rabs (linN D (t k) (A k) y - linN D (t k) (A k) x) < e.
Proof.
  intros He. induction l as [|a l (d & Hd & IH)]; [exists 1; split; [lra|]; intros y _ k []|].
  destruct (aff_cont D (t a) (A a) x e He) as (d' & Hd' & H'). exists (Rmin d d'). split; [apply Rmin_pos; auto|].
  intros y Hy k [<-|I].
  - apply H'. intros k Hk. eapply Rlt_le_trans; [apply Hy; auto|apply Rmin_r].
  - apply IH; auto. intros j Hj. eapply Rlt_le_trans; [apply Hy; auto|apply Rmin_l].
Qed.
Lemma linN_comp D (t : Z -> R) (A : Z -> Z -> R) c0 c x :
  linN D c0 c (fun k => linN D (t k) (A k) x) = linN D (c0 + lsum (zrange D) (fun k => c k * t k)) (fun j => lsum (zrange D) (fun k => c k * A k j)) x.
Proof.
  unfold linN. rewrite (lsum_ext _ (fun i => c i * (t i + _)) (fun k => c k * t k + lsum (zrange D) (fun j => c k * A k j * x j))).
  - rewrite lsum_add, lsum_swap. rewrite Rplus_assoc. do 2 f_equal. apply lsum_ext. intros j _.
    rewrite Rmult_comm, <- lsum_scal. apply lsum_ext. intros. ring.
  - intros k _. rewrite Rmult_plus_distr_l, <- lsum_scal. f_equal. apply lsum_ext. intros. ring.
Qed.

Lemma affine_chart D (g gi : (Z -> R) -> Z -> R) (t u : Z -> R) (A B : Z -> Z -> R) :
  (forall x k, (0 <= k < D)%Z -> g x k = linN D (t k) (A k) x) -> (forall x k, (0 <= k < D)%Z -> gi x k = linN D (u k) (B k) x) ->
  (forall x, same D (gi (g x)) x) -> (forall x, same D (g (gi x)) x) ->
  chart D g gi 1 (fun _ => 0) 1 (fun _ => 0)
    (fun c0 c => c0 + lsum (zrange D) (fun k => c k * u k)) (fun c0 c j => lsum (zrange D) (fun k => c k * B k j))
    (fun c0 c => c0 + lsum (zrange D) (fun k => c k * t k)) (fun c0 c j => lsum (zrange D) (fun k => c k * A k j)).
Proof.
  intros HG HI E1 E2. assert (W : forall x, linN D 1 (fun _ => 0) x = 1) by (intros; unfold linN; rewrite lsum_0; [ring|intros; ring]).
  assert (X : forall x y, same D x y -> same D (g x) (g y)) by (intros x y E k Hk; rewrite !HG by auto; now apply linN_same).
  split.
  - intros x _. rewrite W. lra.
  - intros z _. rewrite W. split; [lra|apply E2].
  - intros l0 l x _. rewrite W, Rmult_1_l, <- linN_comp. rewrite (linN_same D l0 l _ (gi (g x))).
    + apply linN_same, E1.
    + intros k Hk. symmetry. now apply HI.
  - intros l0 l x _. rewrite W, Rmult_1_l, <- linN_comp. apply linN_same. intros k Hk. symmetry. now apply HG.
  - exact X.
  - intros x _ e He. destruct (aff_cont_all D t A (zrange D) x e He) as (d & Hd & H). exists d. split; auto. intros y Hy. split; [rewrite W; lra|].
    intros k Hk. rewrite !HG by auto. apply H; auto. now apply in_zrange.
Qed.

(** [p'] is [p] with every position mapped by [g] *)
Definition moved (D : Z) (g : (Z -> R) -> Z -> R) (p p' : polyN RN) : Prop :=
  nvN RN p' = nvN RN p /\ nfN RN p' = nfN RN p /\ fdN RN p' = fdN RN p /\ nb (vbN RN p') = nb (vbN RN p)
  /\ forall v, (0 <= v < nvN RN p)%Z -> same D (ps (vbN RN p') v) (g (ps (vbN RN p) v)).

Section M.
Context (D : Z) (g gi : (Z -> R) -> Z -> R) (t u : Z -> R) (A B : Z -> Z -> R).
Hypothesis HG : forall x k, (0 <= k < D)%Z -> g x k = linN D (t k) (A k) x.
Hypothesis HI : forall x k, (0 <= k < D)%Z -> gi x k = linN D (u k) (B k) x.
Hypothesis E1 : forall x, same D (gi (g x)) x.
Hypothesis E2 : forall x, same D (g (gi x)) x.
Lemma one_pos n (p : Z -> Z -> R) : forall v, upto n v -> 0 < linN D 1 (fun _ => 0) (p v).
Proof. intros v _. unfold linN. rewrite lsum_0; [lra|intros; ring]. Qed.

Lemma moved_convex p p' : moved D g p p' -> convexN D p -> convexN D p'.
Proof.
  intros (M1 & M2 & M3 & M4 & M5) (H0 & nh & bk & h & C & P). unfold convexN. rewrite M1, M2, M3, M4. split; auto. exists nh, bk, h. split; auto.
  apply polytope_same with (fun v => g (ps (vbN RN p) v)); [intros v Hv k Hk; symmetry; now apply M5|].
  exact (polytope_map _ _ _ _ _ _ _ _ _ _ _ (affine_chart D g gi t u A B HG HI E1 E2) _ _ _ _ P (one_pos _ _)).
Qed.
Lemma moved_solid p p' : moved D g p p' -> solidN D p -> solidN D p'.
Proof.
  intros (M1 & M2 & M3 & M4 & M5) (H0 & nh & bk & h & l0 & l & C & P). unfold solidN. rewrite M1, M2, M3, M4. split; auto.
  eexists nh, bk, h, _, _. split; [exact C|].
  apply realized_same with (fun v => g (ps (vbN RN p) v)); [intros v Hv k Hk; symmetry; now apply M5|].
  exact (realized_map _ _ _ _ _ _ _ _ _ _ _ (affine_chart D g gi t u A B HG HI E1 E2) _ _ _ _ _ _ P (one_pos _ _)).
Qed.
Lemma moved_hull p p' : moved D g p p' -> forall y, hullP D p' y <-> exists x, hullP D p x /\ same D y (g x).
Proof.
  intros (M1 & M2 & M3 & M4 & M5) y. unfold hullP. rewrite M1.
  rewrite <- (hull_image _ _ _ _ _ _ _ _ _ _ _ _ _ y (affine_chart D g gi t u A B HG HI E1 E2) (one_pos _ (ps (vbN RN p)))).
  split; apply hull_same_pts; intros v Hv k Hk; [|symmetry]; now apply M5.
Qed.
End M.
