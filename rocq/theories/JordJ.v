(** * JordJ: contents of unions, subsets and products; existence by approximation. *)
From Coq Require Import Reals ZArith List Bool Lia Lra Psatz.
From Verif Require Import Base Lib SumR ModelCommon ModelN RealNum SpecNP SpecNV SpecNJ FlagR ContN UniqJ VoxJ DisN PolyN.
Import ListNotations.
Open Scope R_scope.

Lemma lsum_app' {A} (l r : list A) f : lsum (l ++ r) f = lsum l f + lsum r f.
Proof. induction l as [|a l IH]; cbn [app lsum]; [lra|rewrite IH; lra]. Qed.
Lemma FOP_NoDup {A} (P : A -> A -> Prop) l : NoDup l -> (forall a b, In a l -> In b l -> a <> b -> P a b) -> ForallOrdPairs P l.
Proof.
  induction 1 as [|a l N _ IH]; intros H; [apply FOP_nil|apply FOP_cons].
  - apply Forall_forall. intros b Hb. apply H; [now left|now right|congruence].
  - apply IH. intros; apply H; auto; now right.
Qed.

Section J.
Context (D : Z).
Hypothesis HD : (0 <= D)%Z.
Lemma box_vol_pos b : real_box D b -> 0 < box_vol D b.
Proof.
  intros H. unfold box_vol. assert (G : forall l, (forall i, In i l -> (0 <= i < D)%Z) -> 0 < fold_right (fun i t => (snd b i - fst b i) * t) 1 l).
  { induction l as [|i l IH]; intros Hl; cbn; [lra|]. apply Rmult_lt_0_compat; [|apply IH; intros; apply Hl; now right]. specialize (H i (Hl i (or_introl eq_refl))). lra. }
  apply G. intros i Hi. now apply in_zrange in Hi.
Qed.
Lemma sum_pos l : (forall b, In b l -> real_box D b) -> 0 <= lsum l (box_vol D).
Proof. intros H. apply lsum_nonneg. intros b Hb. left. apply box_vol_pos. auto. Qed.
Lemma content_nonneg K t : content D K t -> 0 <= t.
Proof.
  intros H. apply Rnot_lt_le. intros C. destruct (H (- t / 2) ltac:(lra)) as (_ & l & (L1 & _) & L2).
  pose proof (sum_pos l L1). lra.
Qed.
Lemma content_mono (K K' : (Z -> R) -> Prop) t t' : (forall x, K x -> K' x) -> content D K t -> content D K' t' -> t <= t'.
Proof.
  intros S H H'. apply Rnot_lt_le. intros C. destruct (H ((t - t') / 3) ltac:(lra)) as ((l & (P1 & P2) & P3) & _).
  destruct (H' ((t - t') / 3) ltac:(lra)) as (_ & l' & C1 & C2).
  assert (P : packed D K' l) by (split; auto; intros b Hb; destruct (P1 b Hb); auto).
  pose proof (packed_covered D HD K' l l' P C1). lra.
Qed.
Lemma content_none (K : (Z -> R) -> Prop) : (forall x, ~ K x) -> content D K 0.
Proof.
  intros H e He. split; exists []; (split; [|cbn; lra]).
  - split; [intros ? []|constructor].
  - split; [intros ? []|]. intros x Hx. now apply H in Hx.
Qed.
Lemma content_zero_sub (K K' : (Z -> R) -> Prop) : (forall x, K x -> K' x) -> content D K' 0 -> content D K 0.
Proof.
  intros S H e He. split; [exists []; split; [split; [intros ? []|constructor]|cbn; lra]|].
  destruct (H e He) as (_ & l & (C1 & C2) & C3). exists l. split; auto. split; auto.
Qed.
(** boxes of one set and boxes of the other have no inner point in common *)
Definition parted (K K' : (Z -> R) -> Prop) : Prop := forall b c, real_box D b -> real_box D c -> (forall x, inb D b x -> K x) -> (forall x, inb D c x -> K' x) -> apart D b c.
Lemma packed_app (K1 K2 K : (Z -> R) -> Prop) l1 l2 : parted K1 K2 -> (forall x, K1 x -> K x) -> (forall x, K2 x -> K x) -> packed D K1 l1 -> packed D K2 l2 -> packed D K (l1 ++ l2).
Proof.
  intros PT S1 S2 (A1 & A2) (B1 & B2). split.
  - intros b Hb. apply in_app_or in Hb as [Hb|Hb]; [destruct (A1 b Hb)|destruct (B1 b Hb)]; auto.
  - apply FOP_app; auto. intros b c Hb Hc. destruct (A1 b Hb), (B1 c Hc). apply PT; auto.
Qed.
Lemma content_add (K1 K2 K : (Z -> R) -> Prop) t1 t2 : parted K1 K2 -> (forall x, K x <-> K1 x \/ K2 x) -> content D K1 t1 -> content D K2 t2 -> content D K (t1 + t2).
Proof.
  intros PT S H1 H2 e He. destruct (H1 (e / 2) ltac:(lra)) as ((a & A1 & A2) & a' & (A3 & A4) & A5). destruct (H2 (e / 2) ltac:(lra)) as ((b & B1 & B2) & b' & (B3 & B4) & B5).
  split.
  - exists (a ++ b). rewrite lsum_app'. split; [|lra]. apply (packed_app K1 K2); auto; intros x Hx; apply S; auto.
  - exists (a' ++ b'). rewrite lsum_app'. split; [|lra]. split.
    + intros c Hc. apply in_app_or in Hc as [Hc|Hc]; auto.
    + intros x Hx. apply S in Hx as [Hx|Hx]; [destruct (A4 x Hx) as (c & C1 & C2)|destruct (B4 x Hx) as (c & C1 & C2)]; exists c; split; auto; apply in_or_app; auto.
Qed.
(** two approximations from inside and from outside *)
Lemma content_exists (K : (Z -> R) -> Prop) : (forall e, 0 < e -> exists l l', packed D K l /\ covered D K l' /\ lsum l' (box_vol D) <= lsum l (box_vol D) + e) -> exists t, content D K t.
Proof.
  intros H. set (E := fun s => exists l, packed D K l /\ s = lsum l (box_vol D)).
  destruct (H 1 ltac:(lra)) as (l0 & l1 & _ & C & _).
  assert (BE : bound E) by (exists (lsum l1 (box_vol D)); intros s (l & P & ->); apply (packed_covered D HD K); auto).
  assert (NE : exists s, E s) by (exists 0, []; split; [split; [intros ? []|constructor]|reflexivity]).
  destruct (completeness E BE NE) as (t & U & L). exists t. intros e He. destruct (H e He) as (l & l' & P & C' & S).
  assert (lsum l (box_vol D) <= t) by (apply U; exists l; auto).
  assert (t <= lsum l' (box_vol D)). { apply L. intros s (m & M & ->). apply (packed_covered D HD K); auto. }
  split; [exists l|exists l']; split; auto; lra.
Qed.
End J.
