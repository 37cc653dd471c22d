(** * TruncN: cutting a simple polytope by a half-space, over the reals. *)
From Coq Require Import Reals ZArith List Bool Lia Lra Psatz.
From Verif Require Import Base Lib SumR SpecN SpecNC PolyN.
Import ListNotations.
Open Scope R_scope.

Lemma other_rng D i a : (0 <= i < D)%Z -> (0 < a < D)%Z -> (0 <= other i a < D)%Z /\ other i a <> i.
Proof. intros. unfold other. destruct (Z.ltb_spec (a - 1) i); lia. Qed.
Lemma other_all D i j : (0 <= i < D)%Z -> (0 <= j < D)%Z -> j <> i -> exists a, (0 < a < D)%Z /\ other i a = j.
Proof.
  intros. destruct (Z_lt_dec j i); [exists (j + 1)%Z|exists j]; unfold other; (split; [lia|]).
  - destruct (Z.ltb_spec (j + 1 - 1) i); lia.
  - destruct (Z.ltb_spec (j - 1) i); lia.
Qed.

(** The vertices of a truncation: [ov v] for each kept vertex, [nw v i] for each cut edge. *)
Record tverts (D n : Z) (keep : Z -> bool) (f : Z -> Z -> Z) (n' : Z) (ov : Z -> Z) (nw : Z -> Z -> Z) : Prop := {
  tv_old : forall v, (0 <= v < n)%Z -> keep v = true -> (0 <= ov v < n')%Z;
  tv_new : forall v i, (0 <= v < n)%Z -> (0 <= i < D)%Z -> keep v = true -> keep (f v i) = false -> (0 <= nw v i < n')%Z;
  tv_all : forall u, (0 <= u < n')%Z -> (exists v, (0 <= v < n)%Z /\ keep v = true /\ u = ov v)
     \/ exists v i, (0 <= v < n)%Z /\ (0 <= i < D)%Z /\ keep v = true /\ keep (f v i) = false /\ u = nw v i;
  tv_oinj : forall v w, (0 <= v < n)%Z -> (0 <= w < n)%Z -> keep v = true -> keep w = true -> ov v = ov w -> v = w;
  tv_ninj : forall v i w j, (0 <= v < n)%Z -> (0 <= i < D)%Z -> keep v = true -> keep (f v i) = false ->
     (0 <= w < n)%Z -> (0 <= j < D)%Z -> keep w = true -> keep (f w j) = false -> nw v i = nw w j -> v = w /\ i = j;
  tv_on : forall v w j, (0 <= v < n)%Z -> keep v = true -> (0 <= w < n)%Z -> (0 <= j < D)%Z -> keep w = true -> keep (f w j) = false -> ov v <> nw w j }.
Lemma tr_verts D n nf keep f fd n' f' fd' ov nw : truncated D n nf keep f fd n' f' fd' ov nw -> tverts D n keep f n' ov nw.
Proof. intros T. constructor; apply T. Qed.
(** slot 0 of a new vertex leaves out the new facet, the others the facets of the cut edge *)
Definition new_slots (D nh : Z) (h : Z -> Z -> Z) (v i : Z) (h' : Z -> Z) : Prop :=
  h' 0%Z = nh /\ (forall a, (0 < a < D)%Z -> exists j, (0 <= j < D)%Z /\ j <> i /\ h' a = h v j)
  /\ forall j, (0 <= j < D)%Z -> j <> i -> exists a, (0 < a < D)%Z /\ h' a = h v j.
Lemma other_slots D nh h v i h' : (0 <= i < D)%Z -> h' 0%Z = nh /\ (forall a, (0 < a < D)%Z -> h' a = h v (other i a)) -> new_slots D nh h v i h'.
Proof.
  intros Hi (E & Ea). split; auto. split.
  - intros a Ha. destruct (other_rng D i a Hi Ha). exists (other i a). auto.
  - intros j Hj N. destruct (other_all D i j Hi Hj N) as (a & Ha & Eo). exists a. split; auto. rewrite Ea by auto. now rewrite Eo.
Qed.

Section T.
Context (D n nf nh : Z) (f bk h : Z -> Z -> Z) (fd : Z -> Z -> Z -> Z).
Hypothesis HD : (1 <= D)%Z.
Hypothesis C : cells D (upto n) nf nh f bk h fd.
Context (keep : Z -> bool) (n' : Z) (ov : Z -> Z) (nw : Z -> Z -> Z).
Hypothesis TR : tverts D n keep f n' ov nw.
Context (h' : Z -> Z -> Z).
Hypothesis HO : forall v i, upto n v -> keep v = true -> (0 <= i < D)%Z -> h' (ov v) i = h v i.
Hypothesis H0 : forall v i, upto n v -> (0 <= i < D)%Z -> keep v = true -> keep (f v i) = false ->
  new_slots D nh h v i (h' (nw v i)).
Notation U := (upto n).
Notation I i := (0 <= i < D)%Z.

(** positions of the new vertices *)
Definition mixed (sd : Z -> R) (p p' : Z -> Z -> R) : Prop :=
  (forall v k, U v -> keep v = true -> I k -> p' (ov v) k = p v k)
  /\ forall v i k, U v -> I i -> I k -> keep v = true -> keep (f v i) = false ->
       p' (nw v i) k = (p (f v i) k * sd v - p v k * sd (f v i)) / (sd v - sd (f v i)).

Section G.
Context (p p' : Z -> Z -> R) (l0 : Z -> R) (l : Z -> Z -> R) (s0 : R) (s : Z -> R).
Hypothesis Q : realized D n nh h p l0 l.
Notation S x := (linN D s0 s x).
Hypothesis Kt : forall v, U v -> keep v = true -> 0 < S (p v).
Hypothesis Kf : forall v, U v -> keep v = false -> S (p v) < 0.
Hypothesis M : mixed (fun v => S (p v)) p p'.
Definition l0' (g : Z) : R := if (g =? nh)%Z then s0 else l0 g.
Definition l' (g : Z) : Z -> R := if (g =? nh)%Z then s else l g.
Notation L g x := (linN D (l0 g) (l g) x).
Notation L' g x := (linN D (l0' g) (l' g) x).

Lemma L'_old g x : (g < nh)%Z -> L' g x = L g x.
Proof. intros. unfold l0', l'. destruct (Z.eqb_spec g nh); [lia|auto]. Qed.
Lemma L'_new x : L' nh x = S x. Proof. unfold l0', l'. now rewrite Z.eqb_refl. Qed.

Lemma cut_den v i : U v -> I i -> keep v = true -> keep (f v i) = false -> 0 < S (p v) /\ S (p (f v i)) < 0.
Proof. intros Hv Hi K K'. split; [apply Kt; auto|apply Kf; auto]. apply (ce_f _ _ _ _ _ _ _ _ C); auto. Qed.
Lemma new_lin c0 c v i : U v -> I i -> keep v = true -> keep (f v i) = false ->
  linN D c0 c (p' (nw v i)) = (linN D c0 c (p (f v i)) * S (p v) - linN D c0 c (p v) * S (p (f v i))) / (S (p v) - S (p (f v i))).
Proof.
  intros Hv Hi K K'. destruct (cut_den v i Hv Hi K K'). rewrite <- linN_comb by lra. apply linN_ext. intros k Hk. apply M; auto.
Qed.
Lemma old_lin c0 c v : U v -> keep v = true -> linN D c0 c (p' (ov v)) = linN D c0 c (p v).
Proof. intros Hv K. apply linN_ext. intros k Hk. apply M; auto. Qed.

Notation cf := (cf D n nf nh f bk h fd C).
Notation ch := (ch D n nf nh f bk h fd C).
Notation edge_zero := (edge_zero D n nf nh f bk h fd p l0 l C Q).
Notation edge_pos := (edge_pos D n nf nh f bk h fd p l0 l C Q).
Notation facet_nonneg := (facet_nonneg D n nh h p l0 l Q).

Lemma new_zero v i j : U v -> I i -> keep v = true -> keep (f v i) = false -> I j -> j <> i -> L (h v j) (p' (nw v i)) = 0.
Proof.
  intros Hv Hi K K' Hj N. rewrite new_lin by auto. rewrite edge_zero by auto. rewrite (re_on _ _ _ _ _ _ _ Q) by auto. unfold Rdiv. lra.
Qed.
Lemma new_pos v i g : U v -> I i -> keep v = true -> keep (f v i) = false -> (0 <= g < nh)%Z -> (forall j, I j -> j <> i -> h v j <> g) ->
  0 < L g (p' (nw v i)).
Proof.
  intros Hv Hi K K' Hg N. rewrite new_lin by auto. destruct (cut_den v i Hv Hi K K') as (D1 & D2).
  pose proof (facet_nonneg v g Hv Hg). pose proof (facet_nonneg (f v i) g (cf v i Hv Hi) Hg).
  apply Rdiv_lt_0_compat; [|lra].
  destruct (between D n nf nh f bk h fd p l0 l C Q v i g Hv Hi Hg N); nra.
Qed.

Lemma trunc_realized : realized D n' (nh + 1) h' p' l0' l'.
Proof.
  constructor.
  - intros u j Hu Hj. destruct (tv_all _ _ _ _ _ _ _ TR u Hu) as [(v & Hv & K & ->)|(v & i & Hv & Hi & K & K' & ->)].
    + rewrite HO by auto. rewrite L'_old by (apply ch; auto). rewrite old_lin by auto. apply (re_on _ _ _ _ _ _ _ Q); auto.
    + destruct (H0 v i Hv Hi K K') as (E0 & Ea & Eb). destruct (Z.eq_dec j 0) as [->|Nj].
      * rewrite E0, L'_new, new_lin by auto. destruct (cut_den v i Hv Hi K K'). field. lra.
      * destruct (Ea j ltac:(lia)) as (j' & Hj' & Nj' & Ej). rewrite Ej. rewrite L'_old by (apply ch; auto). apply new_zero; auto.
  - intros u g Hu Hg NL. destruct (tv_all _ _ _ _ _ _ _ TR u Hu) as [(v & Hv & K & ->)|(v & i & Hv & Hi & K & K' & ->)].
    + destruct (Z.eq_dec g nh) as [->|Ng]; [rewrite L'_new, old_lin by auto; auto|].
      rewrite L'_old, old_lin by (auto; lia). apply (re_off _ _ _ _ _ _ _ Q); auto; [lia|]. intros i Hi. rewrite <- HO by auto. auto.
    + destruct (H0 v i Hv Hi K K') as (E0 & Ea & Eb).
      destruct (Z.eq_dec g nh) as [->|Ng]; [exfalso; apply (NL 0%Z); [lia|auto]|].
      rewrite L'_old by lia. apply new_pos; auto; [lia|]. intros j Hj Nj E. destruct (Eb j Hj Nj) as (a & Ha & Eo).
      apply (NL a); [lia|]. congruence.
  - intros u y Hu Hy. destruct (tv_all _ _ _ _ _ _ _ TR u Hu) as [(v & Hv & K & ->)|(v & i & Hv & Hi & K & K' & ->)].
    + apply (re_nd _ _ _ _ _ _ _ Q v); auto. intros i Hi. specialize (Hy i Hi). rewrite HO in Hy by auto. unfold l' in Hy. pose proof (ch v i Hv Hi).
      destruct (Z.eqb_spec (h v i) nh); [lia|auto].
    + destruct (H0 v i Hv Hi K K') as (E0 & Ea & Eb). destruct (cut_den v i Hv Hi K K') as (D1 & D2).
      assert (Y0 : linN D 0 s y = 0) by (specialize (Hy 0%Z ltac:(lia)); rewrite E0 in Hy; unfold l' in Hy; now rewrite Z.eqb_refl in Hy).
      assert (Yj : forall j, I j -> j <> i -> linN D 0 (l (h v j)) y = 0).
      { intros j Hj Nj. destruct (Eb j Hj Nj) as (a & Ha & Eo). specialize (Hy a ltac:(lia)). rewrite Eo in Hy. unfold l' in Hy. pose proof (ch v j Hv Hj).
        destruct (Z.eqb_spec (h v j) nh); [lia|auto]. }
      assert (E : forall k, I k -> y k = linN D 0 (l (h v i)) y / L (h v i) (p (f v i)) * (p (f v i) k - p v k)).
      { intros k Hk. rewrite (lin_expand D n nf nh f bk h fd p l0 l C Q v y k Hv Hk) at 1. rewrite (lsum_single _ _ i (NoDup_zrange _) (proj2 (in_zrange _ _) Hi)); auto.
        intros j Hj N. apply in_zrange in Hj. rewrite Yj by auto. unfold Rdiv. lra. }
      set (t := linN D 0 (l (h v i)) y / L (h v i) (p (f v i))) in *.
      rewrite (linN_ext D 0 s y (fun k => t * (p (f v i) k - p v k))) in Y0 by auto. rewrite lin_scal, lin_sub in Y0. rewrite (linN_split D s0) in D1, D2.
      assert (t = 0) by nra. intros k Hk. rewrite E by auto. rewrite H. lra.
  - intros u u' Hu Hu' E.
    assert (EL : forall c0 c, linN D c0 c (p' u) = linN D c0 c (p' u')) by (intros; apply linN_ext; auto).
    destruct (tv_all _ _ _ _ _ _ _ TR u Hu) as [(v & Hv & K & ->)|(v & i & Hv & Hi & K & K' & ->)];
    destruct (tv_all _ _ _ _ _ _ _ TR u' Hu') as [(w & Hw & J & ->)|(w & j & Hw & Hj & J & J' & ->)].
    + f_equal. apply (re_inj _ _ _ _ _ _ _ Q); auto. intros k Hk. destruct M as (M1 & _). rewrite <- (M1 v), <- (M1 w) by auto. auto.
    + exfalso. specialize (EL s0 s). rewrite old_lin, new_lin in EL by auto. pose proof (Kt v Hv K). destruct (cut_den w j Hw Hj J J').
      replace ((S (p (f w j)) * S (p w) - S (p w) * S (p (f w j))) / (S (p w) - S (p (f w j)))) with 0 in EL by (field; lra). lra.
    + exfalso. specialize (EL s0 s). rewrite old_lin, new_lin in EL by auto. pose proof (Kt w Hw J). destruct (cut_den v i Hv Hi K K').
      replace ((S (p (f v i)) * S (p v) - S (p v) * S (p (f v i))) / (S (p v) - S (p (f v i)))) with 0 in EL by (field; lra). lra.
    + (* the labels of the two edges agree *)
      assert (LB : forall a, I a -> a <> j -> exists b, I b /\ b <> i /\ h v b = h w a).
      { intros a Ha Na. pose proof (new_zero w j a Hw Hj J J' Ha Na) as X. rewrite <- EL in X.
        destruct (label_dec D h v (h w a)) as [(b & Hb & Eb)|NL].
        - destruct (Z.eq_dec b i) as [->|]; [|eauto]. exfalso. pose proof (new_pos v i (h w a) Hv Hi K K' (ch w a Hw Ha)) as Y.
          assert (0 < L (h w a) (p' (nw v i))) by (apply Y; intros b Hb' Nb Eb'; apply Nb; apply (ce_hinj _ _ _ _ _ _ _ _ C v); auto; congruence). lra.
        - exfalso. pose proof (new_pos v i (h w a) Hv Hi K K' (ch w a Hw Ha)) as Y. assert (0 < L (h w a) (p' (nw v i))) by (apply Y; intros; apply NL; auto). lra. }
      assert (V : v = w \/ v = f w j).
      { apply (vertex_on_edge D n nf nh f bk h fd p l0 l C Q); auto. intros a Ha Na. destruct (LB a Ha Na) as (b & Hb & Nb & <-). apply (re_on _ _ _ _ _ _ _ Q); auto. }
      destruct V as [->|V]; [|exfalso; congruence]. f_equal.
      destruct (Z.eq_dec i j); auto. exfalso. destruct (LB i Hi n0) as (b & Hb & Nb & Eb). apply Nb. apply (ce_hinj _ _ _ _ _ _ _ _ C w); auto.
Qed.
End G.
End T.
