(** * PermsN: permutations as lists, their signs. *)
From Coq Require Import Reals ZArith List Bool Lia Lra Permutation.
From Verif Require Import Base Lib SumR SpecN.
Import ListNotations.
Open Scope Z_scope.

Lemma in_inserts x l y : In y (inserts x l) <-> exists l1 l2, l = l1 ++ l2 /\ y = l1 ++ x :: l2.
Proof.
  revert y. induction l as [|a l IH]; intros y; cbn [inserts].
  - split.
    + intros [<-|[]]. now exists [], [].
    + intros (l1 & l2 & E & ->). destruct l1; [|discriminate]. cbn in E. subst l2. now left.
  - cbn [In]. rewrite in_map_iff. split.
    + intros [<-|(z & <- & Hz)]; [now exists [], (a :: l)|]. apply IH in Hz. destruct Hz as (l1 & l2 & -> & ->).
      now exists (a :: l1), l2.
    + intros (l1 & l2 & E & ->). destruct l1 as [|b l1]; cbn in E.
      * subst l2. now left.
      * inversion E; subst. right. exists (l1 ++ x :: l2). split; auto. apply IH. eauto.
Qed.

Lemma in_perms l y : In y (perms l) <-> Permutation y l.
Proof.
  revert y. induction l as [|x l IH]; intros y; cbn [perms].
  - split; [intros [<-|[]]; constructor|]. intros P. apply Permutation_sym, Permutation_nil in P. subst; cbn; auto.
  - rewrite in_flat_map. split.
    + intros (z & Hz & Hy). apply IH in Hz. apply in_inserts in Hy. destruct Hy as (l1 & l2 & -> & ->).
      rewrite <- Hz. symmetry. apply Permutation_middle.
    + intros P. assert (Hx : In x y) by (eapply Permutation_in; [symmetry; apply P|cbn; auto]).
      apply in_split in Hx. destruct Hx as (l1 & l2 & ->).
      exists (l1 ++ l2). split; [|apply in_inserts; eauto]. apply IH.
      apply (Permutation_cons_inv (a := x)). rewrite <- P. apply Permutation_middle.
Qed.

Lemma NoDup_inserts x l : ~ In x l -> NoDup (inserts x l).
Proof.
  induction l as [|a l IH]; intros H; cbn [inserts].
  - repeat constructor; auto.
  - constructor.
    + rewrite in_map_iff. intros (z & E & _). inversion E; subst. apply H; cbn; auto.
    + apply FinFun.Injective_map_NoDup; [intros u v E; now inversion E|]. apply IH. intros C; apply H; cbn; auto.
Qed.

Lemma NoDup_flat_map {A B} (h : A -> list B) l : NoDup l -> (forall a, In a l -> NoDup (h a)) ->
  (forall a a' y, In a l -> In a' l -> In y (h a) -> In y (h a') -> a = a') -> NoDup (flat_map h l).
Proof.
  induction l as [|a l IH]; intros ND H1 H2; cbn [flat_map]; [constructor|].
  inversion ND as [|? ? Na ND']; subst.
  apply Permutation_NoDup with (l := flat_map h l ++ h a); [apply Permutation_app_comm|].
  assert (N1 := H1 a (or_introl eq_refl)).
  assert (N2 : NoDup (flat_map h l)). { apply IH; auto; intros; [apply H1|eapply H2]; cbn; eauto. }
  assert (Dj : forall y, In y (h a) -> ~ In y (flat_map h l)).
  { intros y Hy C. apply in_flat_map in C. destruct C as (a' & Ha' & Hy').
    apply Na. rewrite (H2 a a' y); cbn; auto. }
  revert N2 Dj. generalize (flat_map h l). intros m Nm Dj. induction m as [|b m IHm]; cbn; auto.
  inversion Nm; subst. constructor.
  - rewrite in_app_iff. intros [C|C]; auto. apply (Dj b C). now left.
  - apply IHm; auto. intros y Hy C. apply (Dj y Hy). now right.
Qed.

Lemma split_unique (x : Z) l1 l2 l1' l2' : ~ In x (l1 ++ l2) -> ~ In x (l1' ++ l2') ->
  l1 ++ x :: l2 = l1' ++ x :: l2' -> l1 ++ l2 = l1' ++ l2'.
Proof.
  revert l1'. induction l1 as [|a l1 IH]; intros [|a' l1'] H H' E; cbn in *; inversion E; subst; auto.
  - elim H'. now left.
  - elim H. now left.
  - f_equal. apply IH; auto.
Qed.

Lemma NoDup_perms l : NoDup l -> NoDup (perms l).
Proof.
  induction l as [|x l IH]; intros H; cbn [perms]; [repeat constructor; auto|].
  inversion H; subst. apply NoDup_flat_map.
  - now apply IH.
  - intros a Ha. apply in_perms in Ha. apply NoDup_inserts. intros C. apply H2. exact (Permutation_in _ Ha C).
  - intros a a' y Ha Ha' Hy Hy'. apply in_perms in Ha, Ha'. apply in_inserts in Hy, Hy'.
    destruct Hy as (l1 & l2 & -> & ->). destruct Hy' as (l3 & l4 & -> & E).
    apply (split_unique x); auto; intros C; apply H2; [exact (Permutation_in _ Ha C)|exact (Permutation_in _ Ha' C)].
Qed.

(** ** sign *)
Open Scope R_scope.
Lemma sgn_app l l' : sgn (l ++ l') = sgn l * sgn l' * fold_right Rmult 1 (map (fun x => below x l') l).
Proof.
  induction l as [|x l IH]; cbn; [lra|]. rewrite IH.
  assert (E : below x (l ++ l') = below x l * below x l').
  { clear. induction l as [|y l IH]; cbn; [lra|]. rewrite IH. lra. }
  rewrite E. lra.
Qed.
Lemma below_app x l l' : below x (l ++ l') = below x l * below x l'.
Proof. induction l as [|y l IH]; cbn; [lra|]. rewrite IH. lra. Qed.
Lemma sq_below x l : below x l * below x l = 1.
Proof. induction l as [|y l IH]; cbn; [lra|]. destruct (Z.ltb x y); lra. Qed.

(** swapping two entries flips the sign *)
Lemma sgn_swap l1 a l2 b l3 : a <> b -> ~ In a l2 -> ~ In b l2 ->
  sgn (l1 ++ b :: l2 ++ a :: l3) = - sgn (l1 ++ a :: l2 ++ b :: l3).
Proof.
  intros N Na Nb.
  induction l1 as [|c l1 IH].
  2: { cbn [app sgn]. rewrite IH. rewrite !below_app. cbn [below]. rewrite !below_app. cbn [below]. lra. }
  cbn [app sgn]. rewrite !below_app. cbn [below].
  assert (Ex : forall c, sgn (l2 ++ c :: l3) = fold_right Rmult 1 (map (fun x => (if Z.ltb x c then 1 else -1)) l2)
              * (below c l3) * (sgn l3 * sgn l2 * fold_right Rmult 1 (map (fun x => below x l3) l2))).
  { intros c. rewrite sgn_app. cbn [sgn]. 
    assert (E : fold_right Rmult 1 (map (fun x => below x (c :: l3)) l2) =
      fold_right Rmult 1 (map (fun x => (if Z.ltb x c then 1 else -1)) l2) * fold_right Rmult 1 (map (fun x => below x l3) l2)).
    { clear. induction l2 as [|y l2 IH]; cbn in *; [lra|]. rewrite IH. lra. }
    rewrite E. lra. }
  rewrite (Ex a), (Ex b).
  assert (Ec : forall c, ~ In c l2 -> fold_right Rmult 1 (map (fun x => (if Z.ltb x c then 1 else -1)) l2)
      = (-1) ^ length l2 * below c l2).
  { intros c. clear. induction l2 as [|y l2 IH]; cbn [map fold_right length below pow In]; intros H; [lra|].
    rewrite IH by tauto. destruct (Z.ltb_spec y c), (Z.ltb_spec c y); try lra; exfalso; try lia. }
  rewrite (Ec a Na), (Ec b Nb).
  destruct (Z.ltb_spec a b), (Z.ltb_spec b a); try lra; exfalso; lia.
Qed.

Lemma pow_m1 k : (-1) ^ k * (-1) ^ k = 1.
Proof. rewrite <- pow_add. replace (k + k)%nat with (2 * k)%nat by lia. apply pow_1_even. Qed.

(** shifting the values cyclically by one *)
Lemma sgn_shift (D : Z) l : (0 < D)%Z -> NoDup l -> (forall x, In x l -> (0 <= x < D)%Z) -> In 0%Z l ->
  sgn (map (fun x => (D - 1 + x) mod D)%Z l) = (-1) ^ (length l - 1) * sgn l.
Proof.
  intros HD ND R I0. apply in_split in I0. destruct I0 as (l1 & l2 & ->).
  assert (N0 : forall x, In x (l1 ++ l2) -> (0 < x < D)%Z).
  { intros x Hx. pose proof (NoDup_remove_2 _ _ _ ND) as N0.
    assert (x <> 0)%Z by (intros ->; auto). assert (0 <= x < D)%Z; [|lia].
    apply R. rewrite in_app_iff in *. cbn. tauto. }
  assert (Es : forall x, (0 < x < D)%Z -> ((D - 1 + x) mod D = x - 1)%Z).
  { intros x Hx. replace (D - 1 + x)%Z with (x - 1 + 1 * D)%Z by ring. rewrite Z.mod_add by lia. apply Z.mod_small. lia. }
  assert (E0 : ((D - 1 + 0) mod D = D - 1)%Z) by (rewrite Z.add_0_r; apply Z.mod_small; lia).
  assert (B : forall x l, (0 < x < D)%Z -> (forall y, In y l -> (0 < y < D)%Z) ->
     below (x - 1) (map (fun x => (D - 1 + x) mod D)%Z l) = below x l).
  { clear - Es. intros x l Hx. induction l as [|y l IH]; intros Hl; cbn [map below]; auto.
    rewrite IH by (intros; apply Hl; cbn; auto). rewrite Es by (apply Hl; cbn; auto).
    destruct (Z.ltb_spec (x - 1) (y - 1)), (Z.ltb_spec x y); try lra; lia. }
  assert (S : forall l, (forall y, In y l -> (0 < y < D)%Z) -> sgn (map (fun x => (D - 1 + x) mod D)%Z l) = sgn l).
  { clear - Es B. induction l as [|y l IH]; intros Hl; cbn [map sgn]; auto.
    rewrite IH by (intros; apply Hl; cbn; auto). rewrite Es by (apply Hl; cbn; auto). rewrite B; auto; intros; apply Hl; cbn; auto. }
  clear ND R.
  rewrite app_length. cbn [length]. replace (length l1 + Datatypes.S (length l2) - 1)%nat with (length l1 + length l2)%nat by lia.
  induction l1 as [|c l1 IH].
  - cbn [app map sgn length Nat.add]. rewrite E0, S by auto.
    assert (Ea : below (D - 1) (map (fun x => (D - 1 + x) mod D)%Z l2) = (-1) ^ length l2 /\ below 0 l2 = 1).
    { assert (H : forall y, In y l2 -> (0 < y < D)%Z) by (intros; apply N0; cbn; auto). clear - H Es.
      induction l2 as [|y l2 IH]; cbn [map below length pow]; [lra|]. destruct IH as (-> & ->); [intros; apply H; cbn; auto|].
      specialize (H y (or_introl eq_refl)). rewrite Es by auto.
      destruct (Z.ltb_spec (D - 1) (y - 1)), (Z.ltb_spec 0 y); try lra; lia. }
    destruct Ea as (-> & ->). lra.
  - cbn [app map sgn length Nat.add pow]. rewrite IH by (intros; apply N0; cbn; auto).
    assert (Hc : (0 < c < D)%Z) by (apply N0; cbn; auto). rewrite Es by auto.
    rewrite map_app, !below_app. cbn [map below]. rewrite E0.
    rewrite !B; auto; try (intros; apply N0; cbn; rewrite in_app_iff; auto).
    destruct (Z.ltb_spec (c - 1) (D - 1)), (Z.ltb_spec c 0); try lia. lra.
Qed.
