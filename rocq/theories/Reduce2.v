(** * Reduce2: what [r2d_reduce] computes, for every arithmetic.

    [Dg], [Cg], [Bg] are the coefficient recurrences written as functions; the
    lemmas show that the two-layer tables of the code hold exactly these. *)
From Coq Require Import ZArith List Bool Lia.
From Verif Require Import Base Lib ModelCommon CommonFacts Model2 Spec2.
Import ListNotations.
Open Scope Z_scope.

Definition tri2 (n : Z) : Z := n * (n + 1) / 2.
Lemma tri2_succ n : tri2 (n + 1) = tri2 n + n + 1.
Proof.
  unfold tri2. replace ((n + 1) * (n + 1 + 1)) with (n * (n + 1) + (n + 1) * 2) by ring.
  rewrite Z.div_add by lia. lia.
Qed.
Lemma tri2_nonneg n : 0 <= n -> 0 <= tri2 n.
Proof. intros. apply Z.div_pos; nia. Qed.
Lemma tri2_mono a b : 0 <= a <= b -> tri2 a <= tri2 b.
Proof. intros. apply Z.div_le_mono; nia. Qed.
Lemma num_moments2_tri po : num_moments2 po = tri2 (po + 1).
Proof. unfold num_moments2, tri2. f_equal. ring. Qed.
(** position of [x^i y^j] in the moments array *)
Definition idx2 (i j : Z) : Z := tri2 (i + j) + j.
Lemma idx2_range po i j : 0 <= i -> 0 <= j -> i + j <= po -> 0 <= idx2 i j < num_moments2 po.
Proof.
  intros. rewrite num_moments2_tri. unfold idx2. pose proof (tri2_nonneg (i + j) ltac:(lia)).
  pose proof (tri2_mono (i + j + 1) (po + 1) ltac:(lia)). rewrite tri2_succ in H3. lia.
Qed.
Lemma idx2_inj i j i' j' : 0 <= i -> 0 <= j -> 0 <= i' -> 0 <= j' ->
  idx2 i j = idx2 i' j' -> i = i' /\ j = j'.
Proof.
  intros. unfold idx2 in *.
  destruct (Z.lt_trichotomy (i + j) (i' + j')) as [L|[L|L]].
  - pose proof (tri2_mono (i + j + 1) (i' + j') ltac:(lia)). rewrite tri2_succ in H4. lia.
  - rewrite L in *. lia.
  - pose proof (tri2_mono (i' + j' + 1) (i + j) ltac:(lia)). rewrite tri2_succ in H4. lia.
Qed.

Section G.
Context (NN : num) (MX : Z).
Notation rv := (rvec2 (T NN)).
Notation buf := (vbuf rv).
Notation pol := (poly rv).
Notation "a [+] b" := (nadd NN a b) (at level 50, left associativity).
Notation "a [*] b" := (nmul NN a b) (at level 40, left associativity).

(** one step of a Pascal-like recurrence *)
Definition pstep (fx fy : T NN -> T NN) (i j : nat) (p q : T NN) : T NN :=
  let a := match i with O => n0 NN | S _ => n0 NN [+] fx p end in
  match j with O => a | S _ => a [+] fy q end.

Definition cpas (fx fy : T NN -> T NN) : nat -> nat -> T NN :=
  fix gi i := fix gj j :=
    match i, j with
    | O, O => n1 NN
    | _, _ => pstep fx fy i j (match i with O => n0 NN | S i' => gi i' j end)
                              (match j with O => n0 NN | S j' => gj j' end)
    end.
Definition dpas (fx fy : T NN -> T NN) (c : nat -> nat -> T NN) : nat -> nat -> T NN :=
  fix gi i := fix gj j :=
    match i, j with
    | O, O => n1 NN
    | _, _ => pstep fx fy i j (match i with O => n0 NN | S i' => gi i' j end)
                              (match j with O => n0 NN | S j' => gj j' end) [+] c i j
    end.
Definition Cg (v1 : rv) := cpas (nmul NN (vx v1)) (nmul NN (vy v1)).
Definition Dg (v0 v1 : rv) := dpas (nmul NN (vx v0)) (nmul NN (vy v0)) (Cg v1).
Definition Bg := cpas (fun a => a) (fun a => a).

Definition zz (f : nat -> nat -> T NN) (i j : Z) : T NN := f (Z.to_nat i) (Z.to_nat j).

Definition zstep (fx fy : T NN -> T NN) (f : Z -> Z -> T NN) (i j : Z) : T NN :=
  let a := if 0 <? i then n0 NN [+] fx (f (i - 1) j) else n0 NN in
  if 0 <? j then a [+] fy (f i (j - 1)) else a.

Lemma zcase i : 0 <= i -> i = 0 \/ exists n, i = Z.of_nat (S n) /\ (i - 1) = Z.of_nat n.
Proof. intros. destruct (Z.eq_dec i 0); auto. right. exists (Z.to_nat (i - 1)). lia. Qed.

Lemma zz_cpas fx fy i j : 0 <= i -> 0 <= j -> 0 < i + j ->
  zz (cpas fx fy) i j = zstep fx fy (zz (cpas fx fy)) i j.
Proof.
  intros Hi Hj Hs. unfold zz, zstep.
  destruct (zcase i Hi) as [->|(a & -> & E1)], (zcase j Hj) as [->|(b & -> & E2)]; try lia;
    rewrite ?E1, ?E2, ?Nat2Z.id; cbn [Z.ltb Z.compare Z.of_nat]; try change (Z.to_nat 0) with 0%nat;
    reflexivity.
Qed.
Lemma zz_dpas fx fy c i j : 0 <= i -> 0 <= j -> 0 < i + j ->
  zz (dpas fx fy c) i j = zstep fx fy (zz (dpas fx fy c)) i j [+] zz c i j.
Proof.
  intros Hi Hj Hs. unfold zz, zstep.
  destruct (zcase i Hi) as [->|(a & -> & E1)], (zcase j Hj) as [->|(b & -> & E2)]; try lia;
    rewrite ?E1, ?E2, ?Nat2Z.id; cbn [Z.ltb Z.compare Z.of_nat]; try change (Z.to_nat 0) with 0%nat;
    reflexivity.
Qed.

(** layer accesses *)
Definition lset (a : lay NN) (i l : Z) (x : T NN) : lay NN := upd a i (upd (a i) l (Some x)).
Lemma lset_eq a i l x : lset a i l x i l = Some x.
Proof. unfold lset. now rewrite !upd_eq. Qed.
Lemma lset_neq a i l x i' l' : (i', l') <> (i, l) -> lset a i l x i' l' = a i' l'.
Proof.
  unfold lset, upd. intros. destruct (Z.eqb_spec i' i); auto. subst.
  destruct (Z.eqb_spec l' l); auto. congruence.
Qed.
Lemma rd_l_ok po a i l x : 0 <= i <= po -> 0 <= l < 2 -> a i l = Some x -> rd_l NN po a i l = OK x.
Proof. intros. unfold rd_l. rewrite !inb_true by lia. cbn. now rewrite H1. Qed.
Lemma wr_l_ok po a i l x : 0 <= i <= po -> 0 <= l < 2 -> wr_l NN po a i l x = OK (lset a i l x).
Proof. intros. unfold wr_l. rewrite !inb_true by lia. reflexivity. Qed.

Definition layer (a : lay NN) (l k : Z) (f : Z -> Z -> T NN) :=
  forall i j, 0 <= i -> 0 <= j -> i + j = k -> a i l = Some (f i j).

Ltac lr := rewrite ?lset_eq; try (rewrite lset_neq by congruence); eauto.

(** r2d.c:284-298 *)
Lemma reduce_i_spec po v0 v1 twoa k t s :
  1 <= k <= po -> 0 <= t <= k -> (r_prev NN s = 0 /\ r_cur NN s = 1 \/ r_prev NN s = 1 /\ r_cur NN s = 0) ->
  layer (r_C NN s) (r_prev NN s) (k - 1) (zz (Cg v1)) ->
  layer (r_D NN s) (r_prev NN s) (k - 1) (zz (Dg v0 v1)) ->
  0 <= r_m NN s < num_moments2 po ->
  exists c d, reduce_i NN po v0 v1 twoa k t s
     = OK (RS NN d c (r_m NN s + 1)
            (upd (r_mom NN s) (r_m NN s) (r_mom NN s (r_m NN s) [+] twoa [*] zz (Dg v0 v1) (k - t) t))
            (r_prev NN s) (r_cur NN s))
  /\ c (k - t) (r_cur NN s) = Some (zz (Cg v1) (k - t) t)
  /\ d (k - t) (r_cur NN s) = Some (zz (Dg v0 v1) (k - t) t)
  /\ (forall i l, (i, l) <> (k - t, r_cur NN s) -> c i l = r_C NN s i l /\ d i l = r_D NN s i l).
Proof.
  intros Hk Ht Hpc LC LD Hm. unfold reduce_i.
  replace (k - (k - t)) with t by lia.
  set (i := k - t) in *. set (P := r_prev NN s) in *. set (Cu := r_cur NN s) in *.
  assert (0 <= P < 2 /\ 0 <= Cu < 2 /\ P <> Cu) as (HP & HC & Hne) by lia.
  rewrite !wr_l_ok by lia. cbn [bind].
  assert (EC : zz (Cg v1) i t = zstep (nmul NN (vx v1)) (nmul NN (vy v1)) (zz (Cg v1)) i t)
    by (apply zz_cpas; lia).
  assert (ED : zz (Dg v0 v1) i t = zstep (nmul NN (vx v0)) (nmul NN (vy v0)) (zz (Dg v0 v1)) i t [+] zz (Cg v1) i t)
    by (apply zz_dpas; lia).
  unfold zstep in EC, ED.
  (* after the x and y parts *)
  assert (ST : exists c d, (let* (c, d) :=
    (if 0 <? i then
      let* a := rd_l NN po (lset (r_C NN s) i Cu (n0 NN)) i Cu in
      let* a' := rd_l NN po (lset (r_C NN s) i Cu (n0 NN)) (i - 1) P in
      let* c := wr_l NN po (lset (r_C NN s) i Cu (n0 NN)) i Cu (a [+] vx v1 [*] a') in
      let* a := rd_l NN po (lset (r_D NN s) i Cu (n0 NN)) i Cu in
      let* a' := rd_l NN po (lset (r_D NN s) i Cu (n0 NN)) (i - 1) P in
      let* d := wr_l NN po (lset (r_D NN s) i Cu (n0 NN)) i Cu (a [+] vx v0 [*] a') in
      OK (c, d)
     else OK (lset (r_C NN s) i Cu (n0 NN), lset (r_D NN s) i Cu (n0 NN))) in
    (if 0 <? t then
      let* a := rd_l NN po c i Cu in
      let* a' := rd_l NN po c i P in
      let* c := wr_l NN po c i Cu (a [+] vy v1 [*] a') in
      let* a := rd_l NN po d i Cu in
      let* a' := rd_l NN po d i P in
      let* d := wr_l NN po d i Cu (a [+] vy v0 [*] a') in
      OK (c, d)
     else OK (c, d))) = OK (c, d)
    /\ c i Cu = Some (zz (Cg v1) i t)
    /\ d i Cu = Some (zstep (nmul NN (vx v0)) (nmul NN (vy v0)) (zz (Dg v0 v1)) i t)
    /\ (forall i' l, (i', l) <> (i, Cu) -> c i' l = r_C NN s i' l /\ d i' l = r_D NN s i' l)).
  { unfold zstep. rewrite EC.
    destruct (Z.ltb_spec 0 i) as [Li|Li]; destruct (Z.ltb_spec 0 t) as [Lt|Lt]; try lia.
    - rewrite (rd_l_ok _ _ i Cu (n0 NN)) by (try lia; lr). cbn [bind].
      rewrite (rd_l_ok _ _ (i - 1) P (zz (Cg v1) (i - 1) t)) by (try lia; lr; apply LC; lia). cbn [bind].
      rewrite wr_l_ok by lia. cbn [bind].
      rewrite (rd_l_ok _ _ i Cu (n0 NN)) by (try lia; lr). cbn [bind].
      rewrite (rd_l_ok _ _ (i - 1) P (zz (Dg v0 v1) (i - 1) t)) by (try lia; lr; apply LD; lia). cbn [bind].
      rewrite wr_l_ok by lia. cbn [bind].
      erewrite rd_l_ok by (try lia; apply lset_eq). cbn [bind].
      rewrite (rd_l_ok _ _ i P (zz (Cg v1) i (t - 1))) by (try lia; rewrite !lset_neq by congruence; apply LC; lia). cbn [bind].
      rewrite wr_l_ok by lia. cbn [bind].
      erewrite rd_l_ok by (try lia; apply lset_eq). cbn [bind].
      rewrite (rd_l_ok _ _ i P (zz (Dg v0 v1) i (t - 1))) by (try lia; rewrite !lset_neq by congruence; apply LD; lia). cbn [bind].
      rewrite wr_l_ok by lia. cbn [bind].
      eexists _, _. split; [reflexivity|]. rewrite !lset_eq. split; auto. split; auto.
      intros. rewrite !lset_neq by auto. auto.
    - rewrite (rd_l_ok _ _ i Cu (n0 NN)) by (try lia; lr). cbn [bind].
      rewrite (rd_l_ok _ _ (i - 1) P (zz (Cg v1) (i - 1) t)) by (try lia; lr; apply LC; lia). cbn [bind].
      rewrite wr_l_ok by lia. cbn [bind].
      rewrite (rd_l_ok _ _ i Cu (n0 NN)) by (try lia; lr). cbn [bind].
      rewrite (rd_l_ok _ _ (i - 1) P (zz (Dg v0 v1) (i - 1) t)) by (try lia; lr; apply LD; lia). cbn [bind].
      rewrite wr_l_ok by lia. cbn [bind].
      eexists _, _. split; [reflexivity|]. rewrite !lset_eq. split; auto. split; auto.
      intros. rewrite !lset_neq by auto. auto.
    - cbn [bind].
      erewrite rd_l_ok by (try lia; apply lset_eq). cbn [bind].
      rewrite (rd_l_ok _ _ i P (zz (Cg v1) i (t - 1))) by (try lia; rewrite !lset_neq by congruence; apply LC; lia). cbn [bind].
      rewrite wr_l_ok by lia. cbn [bind].
      erewrite rd_l_ok by (try lia; apply lset_eq). cbn [bind].
      rewrite (rd_l_ok _ _ i P (zz (Dg v0 v1) i (t - 1))) by (try lia; rewrite !lset_neq by congruence; apply LD; lia). cbn [bind].
      rewrite wr_l_ok by lia. cbn [bind].
      eexists _, _. split; [reflexivity|]. rewrite !lset_eq. split; auto. split; auto.
      intros. rewrite !lset_neq by auto. auto. }
  destruct ST as (c & d & ST & Sc & Sd & Sr).
  apply bind_OK in ST as ([c1 d1] & ST1 & ST2).
  rewrite ST1. cbn [bind]. rewrite ST2. cbn [bind].
  rewrite (rd_l_ok po d i Cu _ ltac:(lia) ltac:(lia) Sd). cbn [bind].
  rewrite (rd_l_ok po c i Cu _ ltac:(lia) ltac:(lia) Sc). cbn [bind].
  rewrite wr_l_ok by lia. cbn [bind].
  erewrite rd_l_ok by (try lia; apply lset_eq). cbn [bind].
  rewrite rd_ok by lia. cbn [bind]. rewrite wr_ok by lia. cbn [bind].
  unfold zstep in *. rewrite <- ED. eexists _, _. split; [reflexivity|]. split; auto.
  split; [now rewrite lset_eq|]. intros i' l Hi. rewrite lset_neq by auto. auto.
Qed.

(** contribution of one edge to entry (i, j) *)
Definition eg (v0 v1 : rv) (i j : Z) : T NN :=
  let twoa := nsub NN (vx v0 [*] vy v1) (vy v0 [*] vx v1) in
  if i + j =? 0 then nhalf NN [*] twoa else twoa [*] zz (Dg v0 v1) i j.

Definition okpc (s : redst NN) :=
  r_prev NN s = 0 /\ r_cur NN s = 1 \/ r_prev NN s = 1 /\ r_cur NN s = 0.

(** moments of order at most [k], all others untouched *)
Definition upto (k : Z) (new old : Z -> T NN) (f : T NN -> Z -> Z -> T NN) :=
  (forall i j, 0 <= i -> 0 <= j -> i + j < k -> new (idx2 i j) = f (old (idx2 i j)) i j)
  /\ (forall m, ~ 0 <= m < tri2 k -> new m = old m).

(** r2d.c:283-301 *)
Lemma reduce_order_spec po v0 v1 k s (twoa := nsub NN (vx v0 [*] vy v1) (vy v0 [*] vx v1)) :
  1 <= k <= po -> okpc s -> r_m NN s = tri2 k ->
  layer (r_C NN s) (r_prev NN s) (k - 1) (zz (Cg v1)) ->
  layer (r_D NN s) (r_prev NN s) (k - 1) (zz (Dg v0 v1)) ->
  exists s', reduce_order NN po v0 v1 twoa k s = OK s'
  /\ okpc s' /\ r_m NN s' = tri2 (k + 1)
  /\ layer (r_C NN s') (r_prev NN s') k (zz (Cg v1))
  /\ layer (r_D NN s') (r_prev NN s') k (zz (Dg v0 v1))
  /\ (forall i j, 0 <= i -> 0 <= j -> i + j = k ->
        r_mom NN s' (idx2 i j) = r_mom NN s (idx2 i j) [+] eg v0 v1 i j)
  /\ (forall m, ~ tri2 k <= m < tri2 (k + 1) -> r_mom NN s' m = r_mom NN s m).
Proof.
  intros Hk Hpc Hm LC LD. unfold reduce_order.
  pose proof (tri2_mono (k + 1) (po + 1) ltac:(lia)) as TM. rewrite tri2_succ in TM.
  pose proof (tri2_nonneg k ltac:(lia)) as T0.
  pose proof (num_moments2_tri po) as NM.
  destruct (for_inv (fun t s' =>
      r_prev NN s' = r_prev NN s /\ r_cur NN s' = r_cur NN s /\ r_m NN s' = tri2 k + t
   /\ layer (r_C NN s') (r_prev NN s') (k - 1) (zz (Cg v1))
   /\ layer (r_D NN s') (r_prev NN s') (k - 1) (zz (Dg v0 v1))
   /\ (forall j, 0 <= j < t -> r_C NN s' (k - j) (r_cur NN s) = Some (zz (Cg v1) (k - j) j)
                           /\ r_D NN s' (k - j) (r_cur NN s) = Some (zz (Dg v0 v1) (k - j) j)
                           /\ r_mom NN s' (tri2 k + j) = r_mom NN s (tri2 k + j) [+] eg v0 v1 (k - j) j)
   /\ (forall m, ~ tri2 k <= m < tri2 k + t -> r_mom NN s' m = r_mom NN s m))
   0 (k + 1) (reduce_i NN po v0 v1 twoa k) s) as (s' & E & P1 & P2 & P3 & P4 & P5 & P6 & P7); try lia.
  - repeat split; auto; try lia.
  - intros t s1 Ht (P1 & P2 & P3 & P4 & P5 & P6 & P7).
    destruct (reduce_i_spec po v0 v1 twoa k t s1) as (c & d & E & Ec & Ed & Er); auto; try lia.
    { unfold okpc in Hpc. lia. }
    rewrite E. eexists. split; [reflexivity|]. cbn [r_prev r_cur r_m r_C r_D r_mom].
    assert (Hne : r_prev NN s1 <> r_cur NN s1) by (unfold okpc in Hpc; lia).
    split; auto. split; auto. split; [lia|].
    split. { intros i j Hi Hj Hs. destruct (Er i (r_prev NN s1)) as (-> & _); [congruence|]. apply P4; auto. }
    split. { intros i j Hi Hj Hs. destruct (Er i (r_prev NN s1)) as (_ & ->); [congruence|]. apply P5; auto. }
    split.
    + intros j Hj. destruct (Z.eq_dec j t).
      * subst j. rewrite <- P2. rewrite Ec, Ed. split; auto. split; auto.
        rewrite P3, upd_eq. rewrite P7 by lia. unfold eg. fold twoa.
        destruct (Z.eqb_spec (k - t + t) 0); [lia|reflexivity].
      * destruct (P6 j) as (Q1 & Q2 & Q3); [lia|]. rewrite <- P2.
        destruct (Er (k - j) (r_cur NN s1)) as (-> & ->).
        { intros EE. apply pair_equal_spec in EE. lia. }
        rewrite P2, Q1, Q2, P3. rewrite upd_neq by lia. auto.
    + intros m Hm'. rewrite upd_neq by lia. apply P7. lia.
  - rewrite E. cbn [bind]. eexists. split; [reflexivity|]. cbn [r_prev r_cur r_m r_C r_D r_mom].
    split. { unfold okpc in *. cbn [r_prev r_cur]. lia. }
    split. { rewrite P3, tri2_succ. lia. }
    assert (1 - r_prev NN s' = r_cur NN s) as -> by (unfold okpc in Hpc; lia).
    split. { intros i j Hi Hj Hs. destruct (P6 j) as (Q & _); [lia|]. replace (k - j) with i in Q by lia. auto. }
    split. { intros i j Hi Hj Hs. destruct (P6 j) as (_ & Q & _); [lia|]. replace (k - j) with i in Q by lia. auto. }
    split.
    + intros i j Hi Hj Hs. destruct (P6 j) as (_ & _ & Q); [lia|]. replace (k - j) with i in Q by lia.
      unfold idx2. rewrite Hs. auto.
    + intros m Hm'. rewrite tri2_succ in Hm'. apply P7. lia.
Qed.

(** r2d.c:259-302 *)
Lemma reduce_edge_spec po shift (b : buf) n vcur s : 0 <= po -> 0 <= n <= MX -> linked (nb b) n -> 0 <= vcur < n ->
  okpc s ->
  let sh q := match shift with Some c => vsub2 NN q c | None => q end in
  exists s', reduce_edge NN MX po shift b vcur s = OK s' /\ okpc s'
  /\ upto (po + 1) (r_mom NN s') (r_mom NN s)
       (fun q i j => q [+] eg (sh (ps b vcur)) (sh (ps b (nb b vcur 0))) i j).
Proof.
  intros Hpo Hn HL Hv Hpc sh. unfold reduce_edge.
  destruct (HL vcur Hv) as (Hx & _).
  rewrite rd_nb_ok by lia. cbn [bind]. rewrite !rd_ps_ok by lia. cbn [bind].
  fold (sh (ps b vcur)). fold (sh (ps b (nb b vcur 0))).
  set (v0 := sh (ps b vcur)). set (v1 := sh (ps b (nb b vcur 0))).
  assert (0 <= r_prev NN s < 2) by (unfold okpc in Hpc; lia).
  rewrite !wr_l_ok by lia. cbn [bind].
  pose proof (num_moments2_tri po) as NM.
  pose proof (tri2_mono 1 (po + 1) ltac:(lia)) as TM. change (tri2 1) with 1 in TM.
  rewrite rd_ok by lia. cbn [bind]. rewrite wr_ok by lia. cbn [bind].
  set (twoa := nsub NN (vx v0 [*] vy v1) (vy v0 [*] vx v1)).
  destruct (for_inv (fun k s' => okpc s' /\ r_m NN s' = tri2 k
     /\ layer (r_C NN s') (r_prev NN s') (k - 1) (zz (Cg v1))
     /\ layer (r_D NN s') (r_prev NN s') (k - 1) (zz (Dg v0 v1))
     /\ upto k (r_mom NN s') (r_mom NN s) (fun q i j => q [+] eg v0 v1 i j))
    1 (po + 1) (reduce_order NN po v0 v1 twoa)
    (RS NN (lset (r_D NN s) 0 (r_prev NN s) (n1 NN)) (lset (r_C NN s) 0 (r_prev NN s) (n1 NN)) 1
       (upd (r_mom NN s) 0 (r_mom NN s 0 [+] nhalf NN [*] twoa)) (r_prev NN s) (r_cur NN s)))
    as (s' & E & I); try lia.
  - cbn [r_prev r_cur r_m r_C r_D r_mom]. split; [exact Hpc|]. split; [reflexivity|].
    split. { intros i j Hi Hj Hs. assert (i = 0) by lia. assert (j = 0) by lia. subst. rewrite lset_eq. reflexivity. }
    split. { intros i j Hi Hj Hs. assert (i = 0) by lia. assert (j = 0) by lia. subst. rewrite lset_eq. reflexivity. }
    split.
    + intros i j Hi Hj Hs. assert (i = 0) by lia. assert (j = 0) by lia. subst. reflexivity.
    + intros m Hm. change (tri2 1) with 1 in Hm. rewrite upd_neq by lia. reflexivity.
  - intros k s1 Hk (I1 & I2 & I3 & I4 & I5 & I6).
    destruct (reduce_order_spec po v0 v1 k s1) as (s2 & E & J1 & J2 & J3 & J4 & J5 & J6); auto; try lia.
    fold twoa in E. exists s2. split; [exact E|]. split; auto. split; auto.
    replace (k + 1 - 1) with k by lia. split; auto. split; auto. split.
    + intros i j Hi Hj Hs. destruct (Z.eq_dec (i + j) k) as [Ek|Ek].
      * rewrite J5 by auto. f_equal. apply I6. unfold idx2. rewrite Ek. lia.
      * rewrite J6, I5 by (auto; try lia; unfold idx2; pose proof (tri2_mono (i + j + 1) k ltac:(lia)) as X; rewrite tri2_succ in X; lia).
        reflexivity.
    + intros m Hm. rewrite tri2_succ in Hm. rewrite J6 by (rewrite tri2_succ; pose proof (tri2_nonneg k); lia).
      apply I6. pose proof (tri2_nonneg k). lia.
  - exists s'. destruct I as (I1 & _ & _ & _ & I5). auto.
Qed.

(** r2d.c:307-313 *)
Lemma binom_i_spec po k t s :
  1 <= k <= po -> 0 <= t <= k -> okpc s ->
  layer (r_C NN s) (r_prev NN s) (k - 1) (zz Bg) ->
  0 <= r_m NN s < num_moments2 po ->
  exists c, binom_i NN po k t s
     = OK (RS NN (r_D NN s) c (r_m NN s + 1)
            (upd (r_mom NN s) (r_m NN s)
              (ndiv NN (r_mom NN s (r_m NN s)) (zz Bg (k - t) t [*] nofZ NN (k + 1) [*] nofZ NN (k + 2))))
            (r_prev NN s) (r_cur NN s))
  /\ c (k - t) (r_cur NN s) = Some (zz Bg (k - t) t)
  /\ (forall i l, (i, l) <> (k - t, r_cur NN s) -> c i l = r_C NN s i l).
Proof.
  intros Hk Ht Hpc LC Hm. unfold binom_i.
  replace (k - (k - t)) with t by lia.
  set (i := k - t) in *. unfold okpc in Hpc. set (P := r_prev NN s) in *. set (Cu := r_cur NN s) in *.
  assert (0 <= P < 2 /\ 0 <= Cu < 2 /\ P <> Cu) as (HP & HC & Hne) by lia.
  rewrite !wr_l_ok by lia. cbn [bind].
  assert (EC : zz Bg i t = zstep (fun a => a) (fun a => a) (zz Bg) i t) by (apply zz_cpas; lia).
  unfold zstep in EC.
  assert (ST : exists c, (let* c :=
    (if 0 <? i then
      let* a := rd_l NN po (lset (r_C NN s) i Cu (n0 NN)) i Cu in
      let* a' := rd_l NN po (lset (r_C NN s) i Cu (n0 NN)) (i - 1) P in
      wr_l NN po (lset (r_C NN s) i Cu (n0 NN)) i Cu (a [+] a')
     else OK (lset (r_C NN s) i Cu (n0 NN))) in
    (if 0 <? t then
      let* a := rd_l NN po c i Cu in
      let* a' := rd_l NN po c i P in
      wr_l NN po c i Cu (a [+] a')
     else OK c)) = OK c
    /\ c i Cu = Some (zz Bg i t)
    /\ (forall i' l, (i', l) <> (i, Cu) -> c i' l = r_C NN s i' l)).
  { rewrite EC.
    destruct (Z.ltb_spec 0 i) as [Li|Li]; destruct (Z.ltb_spec 0 t) as [Lt|Lt]; try lia.
    - rewrite (rd_l_ok _ _ i Cu (n0 NN)) by (try lia; lr). cbn [bind].
      rewrite (rd_l_ok _ _ (i - 1) P (zz Bg (i - 1) t)) by (try lia; lr; apply LC; lia). cbn [bind].
      rewrite wr_l_ok by lia. cbn [bind].
      erewrite rd_l_ok by (try lia; apply lset_eq). cbn [bind].
      rewrite (rd_l_ok _ _ i P (zz Bg i (t - 1))) by (try lia; rewrite !lset_neq by congruence; apply LC; lia). cbn [bind].
      rewrite wr_l_ok by lia.
      eexists. split; [reflexivity|]. rewrite !lset_eq. split; auto.
      intros. rewrite !lset_neq by auto. auto.
    - rewrite (rd_l_ok _ _ i Cu (n0 NN)) by (try lia; lr). cbn [bind].
      rewrite (rd_l_ok _ _ (i - 1) P (zz Bg (i - 1) t)) by (try lia; lr; apply LC; lia). cbn [bind].
      rewrite wr_l_ok by lia. cbn [bind].
      eexists. split; [reflexivity|]. rewrite !lset_eq. split; auto.
      intros. rewrite !lset_neq by auto. auto.
    - cbn [bind].
      erewrite rd_l_ok by (try lia; apply lset_eq). cbn [bind].
      rewrite (rd_l_ok _ _ i P (zz Bg i (t - 1))) by (try lia; rewrite !lset_neq by congruence; apply LC; lia). cbn [bind].
      rewrite wr_l_ok by lia.
      eexists. split; [reflexivity|]. rewrite !lset_eq. split; auto.
      intros. rewrite !lset_neq by auto. auto. }
  destruct ST as (c & ST & Sc & Sr).
  apply bind_OK in ST as (c1 & ST1 & ST2).
  rewrite ST1. cbn [bind]. rewrite ST2. cbn [bind].
  rewrite (rd_l_ok po c i Cu _ ltac:(lia) ltac:(lia) Sc). cbn [bind].
  rewrite rd_ok by lia. cbn [bind]. rewrite wr_ok by lia. cbn [bind].
  eexists. split; [reflexivity|]. auto.
Qed.

(** the division of r2d.c:311 *)
Definition bdiv (q : T NN) (i j : Z) : T NN :=
  if i + j =? 0 then q
  else ndiv NN q (zz Bg i j [*] nofZ NN (i + j + 1) [*] nofZ NN (i + j + 2)).

Lemma binom_order_spec po k s :
  1 <= k <= po -> okpc s -> r_m NN s = tri2 k ->
  layer (r_C NN s) (r_prev NN s) (k - 1) (zz Bg) ->
  exists s', binom_order NN po k s = OK s'
  /\ okpc s' /\ r_m NN s' = tri2 (k + 1)
  /\ layer (r_C NN s') (r_prev NN s') k (zz Bg)
  /\ (forall i j, 0 <= i -> 0 <= j -> i + j = k -> r_mom NN s' (idx2 i j) = bdiv (r_mom NN s (idx2 i j)) i j)
  /\ (forall m, ~ tri2 k <= m < tri2 (k + 1) -> r_mom NN s' m = r_mom NN s m).
Proof.
  intros Hk Hpc Hm LC. unfold binom_order.
  pose proof (tri2_mono (k + 1) (po + 1) ltac:(lia)) as TM. rewrite tri2_succ in TM.
  pose proof (tri2_nonneg k ltac:(lia)) as T0.
  pose proof (num_moments2_tri po) as NM.
  destruct (for_inv (fun t s' =>
      r_prev NN s' = r_prev NN s /\ r_cur NN s' = r_cur NN s /\ r_m NN s' = tri2 k + t
   /\ layer (r_C NN s') (r_prev NN s') (k - 1) (zz Bg)
   /\ (forall j, 0 <= j < t -> r_C NN s' (k - j) (r_cur NN s) = Some (zz Bg (k - j) j)
                           /\ r_mom NN s' (tri2 k + j) = bdiv (r_mom NN s (tri2 k + j)) (k - j) j)
   /\ (forall m, ~ tri2 k <= m < tri2 k + t -> r_mom NN s' m = r_mom NN s m))
   0 (k + 1) (binom_i NN po k) s) as (s' & E & P1 & P2 & P3 & P4 & P6 & P7); try lia.
  - repeat split; auto; try lia.
  - intros t s1 Ht (P1 & P2 & P3 & P4 & P6 & P7).
    destruct (binom_i_spec po k t s1) as (c & E & Ec & Er); auto; try lia.
    { unfold okpc in *. lia. }
    rewrite E. eexists. split; [reflexivity|]. cbn [r_prev r_cur r_m r_C r_D r_mom].
    assert (Hne : r_prev NN s1 <> r_cur NN s1) by (unfold okpc in Hpc; lia).
    split; auto. split; auto. split; [lia|].
    split. { intros i j Hi Hj Hs. rewrite Er by congruence. apply P4; auto. }
    split.
    + intros j Hj. destruct (Z.eq_dec j t).
      * subst j. rewrite <- P2. rewrite Ec. split; auto.
        rewrite P3, upd_eq. rewrite P7 by lia. unfold bdiv.
        destruct (Z.eqb_spec (k - t + t) 0); [lia|]. replace (k - t + t) with k by lia. reflexivity.
      * destruct (P6 j) as (Q1 & Q3); [lia|]. rewrite <- P2.
        rewrite Er. 2: { intros EE. apply pair_equal_spec in EE. lia. }
        rewrite P2, Q1, P3. rewrite upd_neq by lia. auto.
    + intros m Hm'. rewrite upd_neq by lia. apply P7. lia.
  - rewrite E. cbn [bind]. eexists. split; [reflexivity|]. cbn [r_prev r_cur r_m r_C r_D r_mom].
    split. { unfold okpc in *. cbn [r_prev r_cur]. lia. }
    split. { rewrite P3, tri2_succ. lia. }
    assert (1 - r_prev NN s' = r_cur NN s) as -> by (unfold okpc in Hpc; lia).
    split. { intros i j Hi Hj Hs. destruct (P6 j) as (Q & _); [lia|]. replace (k - j) with i in Q by lia. auto. }
    split.
    + intros i j Hi Hj Hs. destruct (P6 j) as (_ & Q); [lia|]. replace (k - j) with i in Q by lia.
      unfold idx2. rewrite Hs. auto.
    + intros m Hm'. rewrite tri2_succ in Hm'. apply P7. lia.
Qed.

(** sum over the edges, in the order of the code *)
Definition esum (sh : rv -> rv) (b : buf) (n : Z) (i j : Z) : T NN :=
  fold_left (fun q v => q [+] eg (sh (ps b v)) (sh (ps b (nb b v 0))) i j) (zrange n) (n0 NN).

(** entry (i, j) of [r2d_reduce] before the optional shift back *)
Definition mom_entry (sh : rv -> rv) (b : buf) (n : Z) (i j : Z) : T NN :=
  bdiv (esum sh b n i j) i j.

Lemma zero_loop nm (mom : Z -> T NN) : 0 <= nm ->
  exists mom', for_ 0 nm (fun m a => wr nm a m (n0 NN)) mom = OK mom'
  /\ (forall m, 0 <= m < nm -> mom' m = n0 NN) /\ (forall m, ~ 0 <= m < nm -> mom' m = mom m).
Proof.
  intros Hnm.
  destruct (for_inv (fun k mom' => (forall m, 0 <= m < k -> mom' m = n0 NN)
     /\ (forall m, ~ 0 <= m < k -> mom' m = mom m)) 0 nm (fun m a => wr nm a m (n0 NN)) mom)
    as (mom' & E & I); try lia; eauto.
  - split; auto. lia.
  - intros k a Hk (I1 & I2). rewrite wr_ok by lia. eexists. split; [reflexivity|]. split.
    + intros m Hm. destruct (Z.eq_dec m k); [subst; now rewrite upd_eq|]. rewrite upd_neq by lia. apply I1. lia.
    + intros m Hm. rewrite upd_neq by lia. apply I2. lia.
Qed.

Lemma poly_center_ok (p : pol) : 0 <= nv p <= MX -> exists c, r2d_poly_center NN MX p = OK c.
Proof.
  intros Hn. unfold r2d_poly_center.
  destruct (for_inv (fun _ (_ : rv) => True) 0 (nv p) (fun vcur vc =>
     let* q := rd_ps MX (vb p) vcur in
     OK (V2 (vx vc [+] vx q) (vy vc [+] vy q))) (V2 (n0 NN) (n0 NN))) as (s & E & _); try lia; auto.
  - intros i s Hi _. rewrite rd_ps_ok by lia. cbn [bind]. eauto.
  - rewrite E. cbn [bind]. eauto.
Qed.

(** r2d.c:229-317 for a well-linked polygon: every documented entry is the edge
    sum, everything outside the documented range is untouched. *)
Lemma reduce_loops po vc (p : pol) mom0 : 0 <= po -> wf2 p -> nv p <= MX ->
  (forall m, 0 <= m < num_moments2 po -> mom0 m = n0 NN) ->
  let sh q := match vc with Some c => vsub2 NN q c | None => q end in
  exists s1 c s2,
   for_ 0 (nv p) (reduce_edge NN MX po vc (vb p)) (RS NN (fun _ _ => None) (fun _ _ => None) 1 mom0 0 1) = OK s1
   /\ wr_l NN po (r_C NN s1) 0 (r_prev NN s1) (n1 NN) = OK c
   /\ for_ 1 (po + 1) (binom_order NN po) (RS NN (r_D NN s1) c 1 (r_mom NN s1) (r_prev NN s1) (r_cur NN s1)) = OK s2
   /\ (forall i j, 0 <= i -> 0 <= j -> i + j <= po -> r_mom NN s2 (idx2 i j) = mom_entry sh (vb p) (nv p) i j)
   /\ (forall m, ~ 0 <= m < num_moments2 po -> r_mom NN s2 m = mom0 m).
Proof.
  intros Hpo (Hn & HL) HM Hz sh.
  destruct (for_inv (fun v s => okpc s
     /\ (forall i j, 0 <= i -> 0 <= j -> i + j <= po -> r_mom NN s (idx2 i j) = esum sh (vb p) v i j)
     /\ (forall m, ~ 0 <= m < num_moments2 po -> r_mom NN s m = mom0 m))
    0 (nv p) (reduce_edge NN MX po vc (vb p)) (RS NN (fun _ _ => None) (fun _ _ => None) 1 mom0 0 1))
    as (s1 & E1 & I1 & I2 & I3); try lia.
  - cbn [r_prev r_cur r_m r_C r_D r_mom]. split; [unfold okpc; auto|]. split; auto.
    intros i j Hi Hj Hs. rewrite Hz by (apply idx2_range; auto). reflexivity.
  - intros v s Hv (I1 & I2 & I3).
    destruct (reduce_edge_spec po vc (vb p) (nv p) v s) as (s' & E & J1 & J2 & J3); auto; try lia.
    exists s'. split; auto. split; auto. split.
    + intros i j Hi Hj Hs. rewrite J2 by lia. rewrite I2 by auto. unfold esum at 2.
      rewrite zrange_succ, fold_left_app by lia. reflexivity.
    + intros m Hm. rewrite J3 by (rewrite <- num_moments2_tri; lia). auto.
  - assert (HP : 0 <= r_prev NN s1 < 2) by (unfold okpc in I1; lia).
    rewrite num_moments2_tri in *.
    destruct (for_inv (fun k s => okpc s /\ r_m NN s = tri2 k
       /\ layer (r_C NN s) (r_prev NN s) (k - 1) (zz Bg)
       /\ upto k (r_mom NN s) (r_mom NN s1) bdiv)
      1 (po + 1) (binom_order NN po)
      (RS NN (r_D NN s1) (lset (r_C NN s1) 0 (r_prev NN s1) (n1 NN)) 1 (r_mom NN s1) (r_prev NN s1) (r_cur NN s1)))
      as (s2 & E2 & J1 & J2 & J3 & J4 & J5); try lia.
    + cbn [r_prev r_cur r_m r_C r_D r_mom]. split; [exact I1|]. split; [reflexivity|]. split.
      { intros i j Hi Hj Hs. assert (i = 0) by lia. assert (j = 0) by lia. subst. rewrite lset_eq. reflexivity. }
      split; auto. intros i j Hi Hj Hs. assert (i = 0) by lia. assert (j = 0) by lia. subst. reflexivity.
    + intros k s Hk (J1 & J2 & J3 & J4 & J5).
      destruct (binom_order_spec po k s) as (s' & E & Q1 & Q2 & Q3 & Q4 & Q5); auto; try lia.
      exists s'. split; auto. split; auto. split; auto. replace (k + 1 - 1) with k by lia. split; auto. split.
      * intros i j Hi Hj Hs. destruct (Z.eq_dec (i + j) k) as [Ek|Ek].
        { rewrite Q4 by auto. f_equal. apply J5. unfold idx2. rewrite Ek. lia. }
        { rewrite Q5, J4 by (auto; try lia; unfold idx2; pose proof (tri2_mono (i + j + 1) k ltac:(lia)) as X; rewrite tri2_succ in X; lia).
          reflexivity. }
      * intros m Hm. rewrite tri2_succ in Hm. rewrite Q5 by (rewrite tri2_succ; pose proof (tri2_nonneg k); lia).
        apply J5. pose proof (tri2_nonneg k). lia.
    + exists s1, (lset (r_C NN s1) 0 (r_prev NN s1) (n1 NN)), s2.
      split; auto. split; [apply wr_l_ok; lia|]. split; auto. split.
      * intros i j Hi Hj Hs. rewrite J4 by lia. rewrite I2 by auto. reflexivity.
      * intros m Hm. rewrite J5 by auto. apply I3. auto.
Qed.

(** [r2d_reduce] without [SHIFT_POLY]. *)
Lemma reduce_spec po (p : pol) mom : 0 <= po -> wf2 p -> nv p <= MX ->
  exists mom', r2d_reduce NN MX false p mom po = OK mom'
  /\ (forall i j, 0 <= i -> 0 <= j -> i + j <= po ->
        mom' (idx2 i j) = if nv p =? 0 then n0 NN else mom_entry (fun q => q) (vb p) (nv p) i j)
  /\ (forall m, ~ 0 <= m < num_moments2 po -> mom' m = mom m).
Proof.
  intros Hpo Hw HM. unfold r2d_reduce.
  assert (Hnm : 0 <= num_moments2 po) by (rewrite num_moments2_tri; apply tri2_nonneg; lia).
  destruct (zero_loop (num_moments2 po) mom Hnm) as (mom0 & E0 & Z1 & Z2).
  rewrite E0. cbn [bind]. pose proof Hw as (Hn & _).
  destruct (Z.leb_spec (nv p) 0) as [L|L]; destruct (Z.eqb_spec (nv p) 0) as [L'|L']; try lia.
  { exists mom0. split; auto. split; auto. intros. apply Z1. apply idx2_range; auto. }
  cbn [bind].
  destruct (reduce_loops po None p mom0) as (s1 & c & s2 & E1 & E2 & E3 & R1 & R2); auto.
  rewrite E1. cbn [bind]. rewrite E2. cbn [bind]. rewrite E3. cbn [bind].
  eexists. split; [reflexivity|]. split; auto. intros m Hm. rewrite R2 by auto. auto.
Qed.
End G.
