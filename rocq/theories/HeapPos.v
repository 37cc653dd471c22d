(** * HeapPos: where Heap's algorithm moves the entries of the array.

    Level [m] of the algorithm works on positions [0 .. m].  [hp m] is the net effect
    of the whole level: afterwards position [i] holds what was at position [hp m i].
    [X m k] is the arrangement at the start of round [k] of level [m]. *)
From Coq Require Import ZArith List Bool Lia.
From Verif Require Import Base Lib.
Open Scope Z_scope.

Definition swp (a b i : Z) : Z := if i =? a then b else if i =? b then a else i.
Definition hp (m i : Z) : Z :=
  if Z.even m then swp 0 m i
  else if m =? 1 then swp 0 1 i
  else if i =? 0 then m - 2 else if i =? 1 then m - 1
  else if i =? m - 1 then m else if i =? m then 0
  else if (2 <=? i) && (i <=? m - 2) then i - 1 else i.
(** position swapped with [m] in round [k] (rNd.c:662) *)
Definition js (m k : Z) : Z := Z.rem m 2 * k.
Fixpoint X (m : Z) (k : nat) (i : Z) : Z :=
  match k with
  | O => i
  | S k' => X m k' (hp (m - 1) (swp (js m (Z.of_nat k')) m i))
  end.

Ltac zc1 a b t :=
  lazymatch a with context [if _ then _ else _] => fail | _ =>
  lazymatch b with context [if _ then _ else _] => fail | _ => t end end.
Ltac zc := repeat (match goal with
  | |- context [Z.eqb ?a ?b] => zc1 a b ltac:(destruct (Z.eqb_spec a b))
  | |- context [Z.leb ?a ?b] => zc1 a b ltac:(destruct (Z.leb_spec a b))
  | |- context [Z.ltb ?a ?b] => zc1 a b ltac:(destruct (Z.ltb_spec a b))
  end; cbn [andb]; try lia); try lia.

Lemma swp_rng a b i m : 0 <= a <= m -> 0 <= b <= m -> 0 <= i <= m -> 0 <= swp a b i <= m.
Proof. unfold swp. intros. zc. Qed.
Lemma swp_inv a b i : swp a b (swp a b i) = i.
Proof. unfold swp. zc. Qed.
Lemma swp_high a b i : i <> a -> i <> b -> swp a b i = i.
Proof. unfold swp. intros. zc. Qed.

Lemma hp_rng m i : 0 <= m -> 0 <= i <= m -> 0 <= hp m i <= m.
Proof.
  intros Hm Hi. unfold hp, swp. destruct (Z.even m) eqn:E; [zc|].
  assert (m <> 2) by (intros ->; discriminate). assert (m <> 0) by (intros ->; discriminate). zc.
Qed.
Lemma hp_high m i : 0 <= m -> m < i -> hp m i = i.
Proof.
  intros Hm Hi. unfold hp, swp. destruct (Z.even m) eqn:E; [zc|].
  assert (m <> 0) by (intros ->; discriminate). zc.
Qed.
Lemma hp_inj m i j : 0 <= m -> hp m i = hp m j -> i = j.
Proof.
  intros Hm. unfold hp, swp. destruct (Z.even m) eqn:E; [zc|].
  assert (m <> 2) by (intros ->; discriminate). assert (m <> 0) by (intros ->; discriminate).
  zc.
Qed.

Lemma js_rng m k : 1 <= m -> 0 <= k < m -> 0 <= js m k < m.
Proof.
  intros. unfold js. pose proof (Z.rem_bound_pos m 2). assert (Z.rem m 2 = 0 \/ Z.rem m 2 = 1) as [->| ->] by lia; lia.
Qed.
Lemma js_even m k : 0 <= m -> Z.even m = true -> js m k = 0.
Proof.
  intros Hm E. unfold js. rewrite Z.even_spec in E. destruct E as (q & ->).
  rewrite Z.rem_mod_nonneg by lia. replace (2 * q) with (0 + q * 2) by ring. rewrite Z.mod_add by lia. reflexivity.
Qed.
Lemma js_odd m k : 0 <= m -> Z.even m = false -> js m k = k.
Proof.
  intros Hm E. unfold js. rewrite <- Z.negb_odd in E. apply negb_false_iff in E. rewrite Z.odd_spec in E. destruct E as (q & ->).
  rewrite Z.rem_mod_nonneg by lia. replace (2 * q + 1) with (1 + q * 2) by ring. rewrite Z.mod_add by lia.
  change (1 mod 2) with 1. lia.
Qed.

Lemma X_rng m k i : 1 <= m -> Z.of_nat k <= m -> 0 <= i <= m -> 0 <= X m k i <= m.
Proof.
  intros Hm. revert i. induction k as [|k IH]; intros i Hk Hi; cbn [X]; auto.
  apply IH; [lia|]. pose proof (js_rng m (Z.of_nat k)).
  assert (0 <= swp (js m (Z.of_nat k)) m i <= m) by (apply swp_rng; lia).
  destruct (Z.eq_dec (swp (js m (Z.of_nat k)) m i) m) as [->|].
  - rewrite hp_high by lia. lia.
  - assert (0 <= hp (m - 1) (swp (js m (Z.of_nat k)) m i) <= m - 1); [|lia]. apply hp_rng; lia.
Qed.
Lemma X_high m k i : 1 <= m -> Z.of_nat k <= m -> m < i -> X m k i = i.
Proof.
  intros Hm. revert i. induction k as [|k IH]; intros i Hk Hi; cbn [X]; auto.
  pose proof (js_rng m (Z.of_nat k)). rewrite swp_high by lia. rewrite hp_high by lia. apply IH; lia.
Qed.
Lemma X_inj m k i j : 1 <= m -> X m k i = X m k j -> i = j.
Proof.
  intros Hm. revert i j. induction k as [|k IH]; intros i j E; cbn [X] in E; auto.
  apply IH in E. apply hp_inj in E; [|lia]. rewrite <- (swp_inv (js m (Z.of_nat k)) m i), E. apply swp_inv.
Qed.

(** ** even levels: one big cycle *)
Section Even.
Variable m : Z.
Hypothesis Hm : 2 <= m.
Hypothesis Ev : Z.even m = true.

Definition pe i := hp (m - 1) (swp 0 m i).
Lemma X_even k i : X m k i = iter k pe i.
Proof.
  revert i. induction k as [|k IH]; intros i; cbn [X]; [reflexivity|].
  rewrite js_even by (lia || auto). rewrite IH. rewrite iter_S. reflexivity.
Qed.
(** the orbit of [m] *)
Definition eo (k : Z) : Z :=
  if k =? 0 then m else if k <=? m - 3 then m - 2 - k else if k =? m then 0 else k.
Lemma m_odd : Z.even (m - 1) = false.
Proof. rewrite Z.even_sub, Ev. reflexivity. Qed.
Lemma m_not3 : m <> 3. Proof. intros E. rewrite E in Ev. discriminate. Qed.
Lemma pe_eo k : 0 <= k < m -> pe (eo k) = eo (k + 1).
Proof.
  intros Hk. unfold pe, eo, hp, swp. rewrite m_odd. pose proof m_not3.
  destruct (Z.eq_dec m 2) as [->|]; [assert (k = 0 \/ k = 1) as [->| ->] by lia; reflexivity|]. zc.
Qed.
Lemma pe_last : pe (eo m) = m.
Proof.
  unfold pe, eo, hp, swp. rewrite m_odd. pose proof m_not3.
  destruct (Z.eq_dec m 2) as [->|]; [reflexivity|]. zc.
Qed.
Lemma eo_rng k : 0 <= k <= m -> 0 <= eo k <= m.
Proof. unfold eo. zc. Qed.
Lemma eo_inj k k' : 0 <= k <= m -> 0 <= k' <= m -> eo k = eo k' -> k = k'.
Proof. unfold eo. pose proof m_not3. zc. Qed.
Lemma eo_surj i : 0 <= i <= m -> exists k, 0 <= k <= m /\ eo k = i.
Proof.
  intros Hi. pose proof m_not3.
  exists (if i =? m then 0 else if i =? 0 then m else if i <=? m - 3 then m - 2 - i else i).
  unfold eo. zc.
Qed.
Lemma iter_eo (k : nat) j : 0 <= j -> j + Z.of_nat k <= m -> iter k pe (eo j) = eo (j + Z.of_nat k).
Proof.
  revert j. induction k as [|k IH]; intros j Hj Hk; [cbn; f_equal; lia|].
  rewrite iter_S, pe_eo by lia. rewrite IH by lia. f_equal. lia.
Qed.
Lemma X_even_last k : Z.of_nat k <= m -> X m k m = eo (Z.of_nat k).
Proof. intros Hk. rewrite X_even. change m with (eo 0) at 1. rewrite iter_eo by lia. f_equal. Qed.
Lemma pe_cycle i : 0 <= i <= m -> iter (Z.to_nat (m + 1)) pe i = i.
Proof.
  intros Hi. destruct (eo_surj i Hi) as (j & Hj & <-).
  replace (Z.to_nat (m + 1)) with (Z.to_nat j + Datatypes.S (Z.to_nat (m - j)))%nat by lia.
  rewrite iter_add.
  change (iter (Datatypes.S (Z.to_nat (m - j))) pe (eo j)) with (pe (iter (Z.to_nat (m - j)) pe (eo j))).
  rewrite iter_eo by lia. replace (j + Z.of_nat (Z.to_nat (m - j))) with m by lia. rewrite pe_last.
  change m with (eo 0) at 1. rewrite iter_eo by lia. f_equal. lia.
Qed.
Lemma X_even_end i : 0 <= i <= m -> X m (Z.to_nat m) (hp (m - 1) i) = hp m i.
Proof.
  intros Hi. rewrite X_even. unfold hp at 2. rewrite Ev.
  rewrite <- (swp_inv 0 m i) at 1. fold (pe (swp 0 m i)). rewrite <- iter_S.
  replace (Datatypes.S (Z.to_nat m)) with (Z.to_nat (m + 1)) by lia. apply pe_cycle. apply swp_rng; lia.
Qed.
End Even.

(** ** odd levels *)
Section Odd.
Variable m : Z.
Hypothesis Hm : 3 <= m.
Hypothesis Od : Z.even m = false.

(** the arrangement after the swap of round [k - 1], for [1 <= k <= m - 1] *)
Definition xo (k i : Z) : Z :=
  if i =? 0 then (if Z.even k then 0 else m)
  else if i =? m - 1 then (if Z.even k then m else 0)
  else if i =? m then (if k =? 1 then m - 1 else k - 1)
  else if i <? k then (if i =? 1 then m - 1 else i - 1) else i.
Lemma m_even : Z.even (m - 1) = true.
Proof. rewrite Z.even_sub, Od. reflexivity. Qed.
Lemma X_odd_1 i : 0 <= i <= m -> X m 1 i = xo 1 i.
Proof.
  intros Hi. cbn [X]. rewrite js_odd by (lia || auto). change (Z.of_nat 0) with 0.
  unfold hp. rewrite m_even. unfold swp, xo. change (Z.even 1) with false. cbn iota.
  destruct (Z.ltb_spec i 1); zc.
Qed.
Lemma X_odd k i : (1 <= k)%nat -> Z.of_nat k <= m - 1 -> 0 <= i <= m -> X m k i = xo (Z.of_nat k) i.
Proof.
  revert i. induction k as [|k IH]; intros i Hk Hk2 Hi; [lia|].
  destruct (Nat.eq_dec k 0) as [->|]; [now apply X_odd_1|].
  cbn [X]. rewrite js_odd by (lia || auto).
  assert (Hs : 0 <= swp (Z.of_nat k) m i <= m) by (apply swp_rng; lia).
  rewrite IH; [|lia|lia|].
  2: { destruct (Z.eq_dec (swp (Z.of_nat k) m i) m) as [->|]; [rewrite hp_high; lia|].
       assert (0 <= hp (m - 1) (swp (Z.of_nat k) m i) <= m - 1); [apply hp_rng|]; lia. }
  unfold hp. rewrite m_even. unfold swp, xo.
  replace (Z.of_nat (Datatypes.S k)) with (Z.of_nat k + 1) by lia.
  rewrite Z.even_add. change (Z.even 1) with false.
  assert (1 <= Z.of_nat k) by lia.
  destruct (Z.even (Z.of_nat k)); cbn [Bool.eqb]; zc.
Qed.
(** after the last swap *)
Lemma X_odd_m i : 0 <= i <= m ->
  X m (Z.to_nat m) i = if i =? 0 then m else if i =? m then 0 else if i =? 1 then m - 1 else i - 1.
Proof.
  intros Hi. replace (Z.to_nat m) with (Datatypes.S (Z.to_nat (m - 1))) by lia.
  cbn [X]. rewrite js_odd by (lia || auto). replace (Z.of_nat (Z.to_nat (m - 1))) with (m - 1) by lia.
  rewrite X_odd; [|lia|lia|].
  2: { unfold hp. rewrite m_even. unfold swp. zc. }
  replace (Z.of_nat (Z.to_nat (m - 1))) with (m - 1) by lia.
  unfold hp, xo. rewrite m_even. unfold swp. zc.
Qed.
Lemma X_odd_last k : Z.of_nat k <= m ->
  X m k m = if Z.of_nat k =? 0 then m else if Z.of_nat k =? 1 then m - 1 else if Z.of_nat k =? m then 0 else Z.of_nat k - 1.
Proof.
  intros Hk. destruct (Z.eq_dec (Z.of_nat k) m) as [E|].
  - replace k with (Z.to_nat m) by lia. rewrite X_odd_m by lia. zc.
  - destruct k as [|k]; [reflexivity|]. rewrite X_odd by lia. unfold xo. zc.
Qed.
Lemma X_odd_end i : 0 <= i <= m -> X m (Z.to_nat m) (hp (m - 1) i) = hp m i.
Proof.
  intros Hi. rewrite X_odd_m. 2: { unfold hp. rewrite m_even. unfold swp. zc. }
  unfold hp. rewrite m_even, Od. unfold swp. zc.
Qed.
End Odd.

(** ** every level *)
Lemma X_last_inj m k k' : 1 <= m -> Z.of_nat k <= m -> Z.of_nat k' <= m -> X m k m = X m k' m -> k = k'.
Proof.
  intros Hm Hk Hk' E. destruct (Z.even m) eqn:Ev.
  - assert (m <> 1) by (intros ->; discriminate). rewrite !X_even_last in E by (auto || lia).
    apply eo_inj in E; auto; lia.
  - destruct (Z.eq_dec m 1) as [->|].
    + assert (k = 0 \/ k = 1)%nat as [->| ->] by lia; assert (k' = 0 \/ k' = 1)%nat as [->| ->] by lia; auto; discriminate.
    + assert (m <> 2) by (intros ->; discriminate). rewrite !X_odd_last in E by (auto || lia). revert E. zc.
Qed.
Lemma X_last_surj m i : 1 <= m -> 0 <= i <= m -> exists k, Z.of_nat k <= m /\ X m k m = i.
Proof.
  intros Hm Hi. destruct (Z.even m) eqn:Ev.
  - assert (m <> 1) by (intros ->; discriminate).
    destruct (eo_surj m ltac:(lia) Ev i Hi) as (k & Hk & E). exists (Z.to_nat k). split; [lia|].
    rewrite X_even_last by (auto || lia). rewrite Z2Nat.id by lia. auto.
  - destruct (Z.eq_dec m 1) as [->|].
    + assert (i = 0 \/ i = 1) as [->| ->] by lia; [exists 1%nat|exists O]; split; try lia; reflexivity.
    + assert (m <> 2) by (intros ->; discriminate).
      exists (Z.to_nat (if i =? m then 0 else if i =? m - 1 then 1 else if i =? 0 then m else i + 1)).
      split; [zc|]. rewrite X_odd_last; [|lia|auto|zc]. rewrite Z2Nat.id by zc. zc.
Qed.
Lemma X_end m i : 1 <= m -> 0 <= i -> X m (Z.to_nat m) (hp (m - 1) i) = hp m i.
Proof.
  intros Hm Hi. destruct (Z_lt_dec m i).
  { rewrite !(hp_high _ i) by lia. apply X_high; lia. }
  destruct (Z.even m) eqn:Ev.
  - assert (m <> 1) by (intros ->; discriminate). apply X_even_end; auto; lia.
  - destruct (Z.eq_dec m 1) as [->|].
    + assert (i = 0 \/ i = 1) as [->| ->] by lia; reflexivity.
    + assert (m <> 2) by (intros ->; discriminate). apply X_odd_end; auto; lia.
Qed.

Lemma hp_surj m j : 0 <= m -> 0 <= j <= m -> exists i, 0 <= i <= m /\ hp m i = j.
Proof.
  intros Hm Hj. unfold hp. destruct (Z.even m) eqn:E.
  { exists (swp 0 m j). split; [apply swp_rng; lia|apply swp_inv]. }
  assert (m <> 2) by (intros ->; discriminate). assert (m <> 0) by (intros ->; discriminate).
  destruct (Z.eq_dec m 1) as [->|].
  { exists (swp 0 1 j). split; [apply swp_rng; lia|apply swp_inv]. }
  exists (if j =? m - 2 then 0 else if j =? m - 1 then 1 else if j =? m then m - 1 else if j =? 0 then m else j + 1).
  unfold swp. zc.
Qed.
Lemma X_surj m k j : 1 <= m -> Z.of_nat k <= m -> 0 <= j <= m -> exists i, 0 <= i <= m /\ X m k i = j.
Proof.
  intros Hm. revert j. induction k as [|k IH]; intros j Hk Hj; [now exists j|].
  destruct (IH j ltac:(lia) Hj) as (i & Hi & E). pose proof (js_rng m (Z.of_nat k)).
  assert (exists i', 0 <= i' <= m /\ hp (m - 1) i' = i) as (i' & Hi' & E').
  { destruct (Z.eq_dec i m) as [->|].
    - exists m. rewrite hp_high by lia. split; [lia|auto].
    - destruct (hp_surj (m - 1) i) as (i' & ? & ?); [lia|lia|]. exists i'. split; [lia|auto]. }
  exists (swp (js m (Z.of_nat k)) m i'). split; [apply swp_rng; lia|].
  cbn [X]. now rewrite swp_inv, E'.
Qed.
