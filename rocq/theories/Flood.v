(** * Flood: the flood fill of [r3d_is_good] and [rNd_is_good]. *)
From Coq Require Import ZArith List Bool Lia.
From Verif Require Import Base Lib ModelCommon CommonFacts ModelGood SpecGood.
Import ListNotations.
Open Scope Z_scope.

Section F.
Context {V : Type} (MX D : Z) (b : vbuf V) (n : Z).
Hypothesis HD : 1 <= D.
Hypothesis Hn : 0 <= n <= MX.
Notation f := (nb b).
Hypothesis R : forall v i, 0 <= v < n -> 0 <= i < D -> 0 <= f v i < n.

Lemma push_nbrs_spec vc stk k : 0 <= vc < n -> 0 <= k ->
  (exists stk', push_nbrs MX D b vc (stk, k) = OK (stk', k + D) /\ k + D <= MX
     /\ (forall j, j < k -> stk' j = stk j)
     /\ (forall i, 0 <= i < D -> stk' (k + i) = Some (f vc i)))
  \/ (push_nbrs MX D b vc (stk, k) = Err OutOfBounds /\ MX < k + D).
Proof.
  intros Hvc Hk. unfold push_nbrs.
  match goal with |- context [for_ 0 D ?bd _] => set (body := bd) end.
  destruct (for_inv3 (fun i (s : (Z -> option Z) * Z) => snd s = k + i /\ (i = 0 \/ k + i <= MX)
      /\ (forall j, j < k -> fst s j = stk j) /\ (forall j, 0 <= j < i -> fst s (k + j) = Some (f vc j)))
    (fun e => e = OutOfBounds /\ MX < k + D) 0 D body (stk, k)) as [(s' & E & I1 & I2 & I3 & I4)|(e & E & -> & Q)].
  - lia.
  - cbn. split; [lia|]. split; auto. split; auto. intros; lia.
  - intros i (sk, kk) Hi (I1 & I2 & I3 & I4). unfold body. rewrite rd_nb_ok by lia. cbn [bind fst snd] in *. subst kk.
    unfold wr. destruct (inb_spec MX (k + i)).
    + left. cbn [bind]. eexists. split; [reflexivity|]. cbn [fst snd]. split; [lia|]. split; [lia|]. split.
      * intros j Hj. rewrite upd_neq by lia. auto.
      * intros j Hj. destruct (Z.eq_dec j i) as [->|]; [now rewrite upd_eq|]. rewrite upd_neq by lia. apply I4. lia.
    + right. exists OutOfBounds. cbn. split; auto. split; auto. lia.
  - left. destruct s' as (sk, kk). cbn [fst snd] in *. subst kk. exists sk. split; auto. split; [lia|]. auto.
  - right. split; auto.
Qed.

Variable id : Z.
Hypothesis Hid : id <> 0.
Variable mk0 : Z -> Z.
Variable v0 : Z.
Hypothesis Hv0 : 0 <= v0 < n.
Let X (x : Z) : Prop := mk0 x <> 0.
(** newly marked *)
Definition fresh (mk : Z -> Z) (x : Z) : bool := (mk0 x =? 0) && negb (mk x =? 0).

Definition FI (s : (Z -> Z) * (Z -> option Z) * Z) : Prop :=
  let '(mk, stk, k) := s in
  0 <= k <= MX
  /\ (forall j, 0 <= j < k -> exists w, stk j = Some w /\ 0 <= w < n /\ (X w \/ walk f D X v0 w))
  /\ (forall x, mk x = mk0 x \/ (mk0 x = 0 /\ mk x = id /\ 0 <= x < n /\ walk f D X v0 x))
  /\ (forall u i, fresh mk u = true -> 0 <= i < D -> mk (f u i) <> 0 \/ exists j, 0 <= j < k /\ stk j = Some (f u i))
  /\ (mk v0 <> 0 \/ exists j, 0 <= j < k /\ stk j = Some v0)
  /\ k <= 1 + (D - 1) * cnt (fresh mk) n.

Definition mu (s : (Z -> Z) * (Z -> option Z) * Z) : Z :=
  let '(mk, stk, k) := s in k + D * (n - cnt (fresh mk) n).

Lemma fresh_upd mk x : 0 <= x < n -> mk x = 0 -> mk0 x = 0 -> cnt (fresh (upd mk x id)) n = cnt (fresh mk) n + 1.
Proof.
  intros Hx M0 M1.
  assert (G : forall m, 0 <= m -> m <= n -> cnt (fresh (upd mk x id)) m = cnt (fresh mk) m + if x <? m then 1 else 0).
  { apply (zrange_ind (fun m => m <= n -> cnt (fresh (upd mk x id)) m = cnt (fresh mk) m + if x <? m then 1 else 0)).
    - intros _. rewrite !cnt_0. destruct (Z.ltb_spec x 0); lia.
    - intros m Hm IH Hmn. rewrite !cnt_succ, IH by lia. unfold fresh at 2 4.
      destruct (Z.eq_dec m x) as [->|].
      + rewrite upd_eq, M0, M1. cbn [Z.eqb negb andb]. destruct (Z.eqb_spec id 0); [congruence|]. cbn [negb].
        destruct (Z.ltb_spec x x); destruct (Z.ltb_spec x (x + 1)); lia.
      + rewrite upd_neq by auto. destruct (Z.ltb_spec x m); destruct (Z.ltb_spec x (m + 1)); try lia. }
  rewrite G by lia. destruct (Z.ltb_spec x n); lia.
Qed.

Lemma flood_step_spec s : FI s -> 0 < snd s ->
  (exists s', flood_step MX D b id s = OK s' /\ FI s' /\ mu s' = mu s - 1)
  \/ (flood_step MX D b id s = Err OutOfBounds /\ MX < 1 + (D - 1) * n).
Proof.
  destruct s as ((mk, stk), k). cbn [snd]. intros (I1 & I2 & I3 & I4 & I5 & I6) Hk. cbn [flood_step].
  destruct (I2 (k - 1) ltac:(lia)) as (w & Ew & Hw & Ww).
  unfold rdi. rewrite inb_true by lia. rewrite Ew. cbn [bind]. rewrite rd_ok by lia. cbn [bind].
  destruct (Z.eqb_spec (mk w) 0) as [Mw|Mw].
  - assert (W0 : mk0 w = 0). { destruct (I3 w) as [E|(E & _)]; congruence. }
    destruct Ww as [Xw|Ww]; [now elim Xw|].
    rewrite wr_ok by lia. cbn [bind].
    pose proof (fresh_upd mk w Hw Mw W0) as Fu.
    destruct (push_nbrs_spec w stk (k - 1) Hw ltac:(lia)) as [(stk' & E & B & P1 & P2)|(E & B)]; rewrite E; cbn [bind].
    + left. eexists. split; [reflexivity|]. split; [|unfold mu; rewrite Fu; lia].
      split; [lia|]. split; [|split; [|split; [|split]]].
      * intros j Hj. destruct (Z.lt_ge_cases j (k - 1)).
        -- rewrite P1 by lia. apply I2. lia.
        -- replace j with (k - 1 + (j - (k - 1))) by lia. rewrite P2 by lia. eexists. split; [reflexivity|].
           split; [apply R; auto; lia|]. unfold X. destruct (Z.eq_dec (mk0 (f w (j - (k - 1)))) 0) as [Z0|Z0]; auto. right.
           apply walk_step; auto; lia.
      * intros x. destruct (Z.eq_dec x w) as [->|].
        -- right. rewrite upd_eq. auto.
        -- rewrite upd_neq by auto. apply I3.
      * intros u i Fr Hi. destruct (Z.eq_dec u w) as [->|].
        -- right. exists (k - 1 + i). split; [lia|]. apply P2. auto.
        -- unfold fresh in Fr. rewrite upd_neq in Fr by auto. destruct (Z.eq_dec (f u i) w) as [->|].
           { left. now rewrite upd_eq. }
           rewrite upd_neq by auto. destruct (I4 u i Fr Hi) as [?|(j & Hj & Ej)]; auto. right. exists j.
           assert (j <> k - 1) by (intros ->; congruence). split; [lia|]. rewrite P1 by lia. auto.
      * destruct (Z.eq_dec v0 w) as [->|]; [left; now rewrite upd_eq|]. rewrite upd_neq by auto.
        destruct I5 as [?|(j & Hj & Ej)]; auto. right. exists j.
        assert (j <> k - 1) by (intros ->; congruence). split; [lia|]. rewrite P1 by lia. auto.
      * rewrite Fu. lia.
    + right. split; auto. pose proof (cnt_le (fresh (upd mk w id)) n ltac:(lia)). nia.
  - left. eexists. split; [reflexivity|]. split; [|unfold mu; lia]. split; [lia|]. split; [|split; [|split; [|split]]]; auto.
    + intros j Hj. apply I2. lia.
    + intros u i Fr Hi. destruct (I4 u i Fr Hi) as [?|(j & Hj & Ej)]; auto.
      destruct (Z.eq_dec j (k - 1)) as [->|]; [left; congruence|]. right. exists j. split; [lia|auto].
    + destruct I5 as [?|(j & Hj & Ej)]; auto.
      destruct (Z.eq_dec j (k - 1)) as [->|]; [left; congruence|]. right. exists j. split; [lia|auto].
    + lia.
Qed.

Lemma flood_loop fuel : forall s, FI s -> mu s <= Z.of_nat fuel ->
  (exists s', while_ fuel (fun s => 0 <? snd s) (flood_step MX D b id) s = OK s' /\ FI s' /\ snd s' = 0)
  \/ (while_ fuel (fun s => 0 <? snd s) (flood_step MX D b id) s = Err OutOfBounds /\ MX < 1 + (D - 1) * n).
Proof.
  induction fuel; intros s I M.
  - left. exists s. destruct s as ((mk, stk), k). pose proof I as (I1 & _). cbn [mu snd while_] in *.
    pose proof (cnt_le (fresh mk) n ltac:(lia)).
    assert (k = 0) by nia. subst. auto.
  - cbn [while_]. destruct (Z.ltb_spec 0 (snd s)) as [K|K].
    + destruct (flood_step_spec s I K) as [(s' & E & I' & M')|(E & B)]; rewrite E; cbn [bind]; auto.
      apply IHfuel; auto. lia.
    + left. exists s. split; auto. split; auto. destruct s as ((mk, stk), k). destruct I as (I1 & _). cbn [snd] in *. lia.
Qed.

Theorem flood_spec :
  (exists mk, flood MX D b id v0 mk0 = OK mk
     /\ forall x, (mk0 x <> 0 -> mk x = mk0 x)
               /\ (mk0 x = 0 -> (mk x = id /\ 0 <= x < n /\ walk f D X v0 x) \/ (mk x = 0 /\ ~ walk f D X v0 x)))
  \/ (flood MX D b id v0 mk0 = Err OutOfBounds /\ MX < 1 + (D - 1) * n).
Proof.
  unfold flood. rewrite wr_ok by lia. cbn [bind].
  assert (C0 : forall m, 0 <= m -> cnt (fresh mk0) m = 0).
  { apply zrange_ind; [apply cnt_0|]. intros m Hm IH. rewrite cnt_succ, IH by auto. unfold fresh.
    destruct (mk0 m =? 0); reflexivity. }
  destruct (flood_loop (Z.to_nat (D * MX + 1)) (mk0, upd (fun _ => None) 0 (Some v0), 1)) as [(s' & E & I & K)|(E & B)].
  - split; [lia|]. split; [|split; [|split; [|split]]].
    + intros j Hj. replace j with 0 by lia. rewrite upd_eq. exists v0. split; auto. split; auto.
      destruct (Z.eq_dec (mk0 v0) 0); [right|left; auto]. constructor. unfold X. lia.
    + auto.
    + intros u i Fr. unfold fresh in Fr. destruct (mk0 u =? 0); discriminate.
    + right. exists 0. split; [lia|]. now rewrite upd_eq.
    + rewrite C0 by lia. lia.
  - cbn [mu]. rewrite C0 by lia. rewrite Z2Nat.id by nia. nia.
  - left. rewrite E. cbn [bind]. destruct s' as ((mk, stk), k). cbn [snd] in K. subst k.
    exists mk. split; [reflexivity|]. destruct I as (I1 & I2 & I3 & I4 & I5 & _).
    assert (Cl : forall x, walk f D X v0 x -> mk x <> 0).
    { intros x W. induction W as [Nx|u i W IH Hi Nx].
      - destruct I5 as [?|(j & Hj & _)]; auto. lia.
      - destruct (I4 u i) as [?|(j & Hj & _)]; auto; [|lia]. unfold fresh.
        assert (mk0 u = 0). { inversion W; subst; unfold X in *; lia. }
        destruct (Z.eqb_spec (mk0 u) 0); [|lia]. destruct (Z.eqb_spec (mk u) 0); [lia|]. reflexivity. }
    intros x. destruct (I3 x) as [E3|(E3 & E4 & E5 & E6)].
    + split; auto. intros Z0. right. split; [congruence|]. intros W. specialize (Cl x W). congruence.
    + split; [congruence|]. auto.
  - right. rewrite E. cbn [bind]. auto.
Qed.
End F.
