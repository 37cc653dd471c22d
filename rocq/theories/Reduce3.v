(** * Reduce3: what the moment loops of [r3d_reduce] compute, for every arithmetic. *)
From Coq Require Import ZArith List Bool Lia.
From Verif Require Import Base Lib ModelCommon CommonFacts Model3 Spec3 Reduce2.
Import ListNotations.
Open Scope Z_scope.

(** ** Positions in the moment array *)
Definition tri3 (n : Z) : Z := n * (n + 1) * (n + 2) / 6.
Lemma tri2_double n : 0 <= n -> 2 * tri2 n = n * (n + 1).
Proof.
  intros Hn. pattern n. apply (natlike_ind (fun n => 2 * tri2 n = n * (n + 1))); [reflexivity| |auto].
  intros x Hx IH. unfold Z.succ. rewrite tri2_succ. lia.
Qed.
Lemma tri3_sext n : 0 <= n -> 6 * tri3 n = n * (n + 1) * (n + 2).
Proof.
  intros Hn. unfold tri3. pattern n.
  apply (natlike_ind (fun n => 6 * (n * (n + 1) * (n + 2) / 6) = n * (n + 1) * (n + 2))); [reflexivity| |auto].
  intros x Hx IH. unfold Z.succ.
  pose proof (tri2_double (x + 1) ltac:(lia)) as T.
  replace ((x + 1) * (x + 1 + 1) * (x + 1 + 2)) with (x * (x + 1) * (x + 2) + tri2 (x + 1) * 6) by nia.
  rewrite Z.div_add by lia. nia.
Qed.
Lemma tri3_succ n : 0 <= n -> tri3 (n + 1) = tri3 n + tri2 (n + 1).
Proof.
  intros. pose proof (tri3_sext n H). pose proof (tri3_sext (n + 1) ltac:(lia)).
  pose proof (tri2_double (n + 1) ltac:(lia)). nia.
Qed.
Lemma tri3_nonneg n : 0 <= n -> 0 <= tri3 n.
Proof. intros. apply Z.div_pos; [|lia]. repeat apply Z.mul_nonneg_nonneg; lia. Qed.
Lemma tri3_mono a b : 0 <= a <= b -> tri3 a <= tri3 b.
Proof.
  intros. apply Z.div_le_mono; [lia|]. apply Z.mul_le_mono_nonneg; try nia.
Qed.
Lemma num_moments3_tri po : num_moments3 po = tri3 (po + 1).
Proof. unfold num_moments3, tri3. f_equal. ring. Qed.
(** position of [x^i y^j z^k]: by order, then [i] decreasing, then [j] decreasing *)
Definition idx3 (i j k : Z) : Z := tri3 (i + j + k) + tri2 (j + k) + k.
Lemma idx3_order i j k : 0 <= i -> 0 <= j -> 0 <= k ->
  tri3 (i + j + k) <= idx3 i j k < tri3 (i + j + k + 1).
Proof.
  intros. unfold idx3. rewrite tri3_succ by lia.
  pose proof (tri2_nonneg (j + k) ltac:(lia)).
  pose proof (tri2_mono (j + k + 1) (i + j + k + 1) ltac:(lia)). rewrite tri2_succ in H3. lia.
Qed.
Lemma idx3_range po i j k : 0 <= i -> 0 <= j -> 0 <= k -> i + j + k <= po -> 0 <= idx3 i j k < num_moments3 po.
Proof.
  intros. rewrite num_moments3_tri. pose proof (idx3_order i j k H H0 H1).
  pose proof (tri3_nonneg (i + j + k) ltac:(lia)). pose proof (tri3_mono (i + j + k + 1) (po + 1) ltac:(lia)). lia.
Qed.
Lemma pos2_inj r k r' k' : 0 <= k <= r -> 0 <= k' <= r' -> tri2 r + k = tri2 r' + k' -> r = r' /\ k = k'.
Proof.
  intros. destruct (idx2_inj (r - k) k (r' - k') k') as (A & B); try lia.
  unfold idx2. replace (r - k + k) with r by lia. replace (r' - k' + k') with r' by lia. auto.
Qed.
Lemma idx3_inj i j k i' j' k' : 0 <= i -> 0 <= j -> 0 <= k -> 0 <= i' -> 0 <= j' -> 0 <= k' ->
  idx3 i j k = idx3 i' j' k' -> i = i' /\ j = j' /\ k = k'.
Proof.
  intros H1 H2 H3 H4 H5 H6 E.
  pose proof (idx3_order i j k H1 H2 H3) as A. pose proof (idx3_order i' j' k' H4 H5 H6) as B.
  destruct (Z.lt_trichotomy (i + j + k) (i' + j' + k')) as [L|[L|L]].
  - pose proof (tri3_mono (i + j + k + 1) (i' + j' + k') ltac:(lia)). lia.
  - unfold idx3 in E. rewrite L in E. destruct (pos2_inj (j + k) k (j' + k') k'); lia.
  - pose proof (tri3_mono (i' + j' + k' + 1) (i + j + k) ltac:(lia)). lia.
Qed.
Lemma idx3_surj po m : 0 <= m < num_moments3 po ->
  exists i j k, 0 <= i /\ 0 <= j /\ 0 <= k /\ i + j + k <= po /\ m = idx3 i j k.
Proof.
  rewrite num_moments3_tri. intros Hm.
  assert (Hpo : 0 <= po).
  { destruct (Z_lt_dec po 0); [|lia]. exfalso. unfold tri3 in Hm.
    assert (po + 1 <= 0) by lia. destruct (Z_le_dec po (-4)).
    - pose proof (Z.div_le_mono ((po + 1) * (po + 1 + 1) * (po + 1 + 2)) 0 6 ltac:(lia)). change (0 / 6) with 0 in H0. nia.
    - assert (po = -1 \/ po = -2 \/ po = -3) as X by lia. destruct X as [X|X]; [|destruct X as [X|X]]; rewrite X in Hm; cbn in Hm; lia. }
  assert (G : forall n, 0 <= n -> m < tri3 n -> exists c, 0 <= c < n /\ tri3 c <= m < tri3 (c + 1)).
  { intros n Hn. pattern n. apply natlike_ind; auto.
    - cbn. lia.
    - intros x Hx IH L. unfold Z.succ in *. destruct (Z_lt_dec m (tri3 x)).
      + destruct IH as (c & A & B); auto. exists c. lia.
      + exists x. lia. }
  destruct (G (po + 1)) as (c & Hc & B); try lia.
  rewrite tri3_succ in B by lia.
  assert (G2 : forall n, 0 <= n -> m - tri3 c < tri2 n -> exists r, 0 <= r < n /\ tri2 r <= m - tri3 c < tri2 (r + 1)).
  { intros n Hn. pattern n. apply natlike_ind; auto.
    - cbn. lia.
    - intros x Hx IH L. unfold Z.succ in *. destruct (Z_lt_dec (m - tri3 c) (tri2 x)).
      + destruct IH as (r & A & D); auto. exists r. lia.
      + exists x. lia. }
  destruct (G2 (c + 1)) as (r & Hr & D); try lia. rewrite tri2_succ in D.
  exists (c - r), (r - (m - tri3 c - tri2 r)), (m - tri3 c - tri2 r).
  repeat split; try lia. unfold idx3.
  replace (c - r + (r - (m - tri3 c - tri2 r)) + (m - tri3 c - tri2 r)) with c by lia.
  replace (r - (m - tri3 c - tri2 r) + (m - tri3 c - tri2 r)) with r by lia. lia.
Qed.

(** the double loop over one order *)
Lemma loop_ij_inv {St} (P : Z -> St -> Prop) c (body : Z -> Z -> St -> res St) s :
  0 <= c -> P 0 s ->
  (forall r k s, 0 <= k <= r -> r <= c -> P (tri2 r + k) s ->
     exists s', body (c - r) (r - k) s = OK s' /\ P (tri2 r + k + 1) s') ->
  exists s', loop_ij c body s = OK s' /\ P (tri2 (c + 1)) s'.
Proof.
  intros Hc H0 Hs. unfold loop_ij.
  apply (for_inv (fun t => P (tri2 t))); [lia|auto|].
  intros t s1 Ht H1.
  destruct (for_inv (fun u => P (tri2 t + u)) 0 (c - (c - t) + 1)
    (fun u => body (c - t) (c - (c - t) - u)) s1) as (s2 & E & H2).
  - lia.
  - now rewrite Z.add_0_r.
  - intros u s2 Hu H2. replace (c - (c - t) - u) with (t - u) by lia.
    destruct (Hs t u s2) as (s3 & E & H3); [lia|lia|auto|]. exists s3. split; auto.
    now replace (tri2 t + (u + 1)) with (tri2 t + u + 1) by lia.
  - exists s2. split; auto. rewrite tri2_succ. now replace (tri2 t + t + 1) with (tri2 t + (c - (c - t) + 1)) by lia.
Qed.

Section G.
Context (NN : num) (MX : Z).
Notation rv := (rvec3 (T NN)).
Notation buf := (vbuf rv).
Notation pol := (poly rv).
Notation "a [+] b" := (nadd NN a b) (at level 50, left associativity).
Notation "a [*] b" := (nmul NN a b) (at level 40, left associativity).
Notation fn3 := (nat -> nat -> nat -> T NN).

(** ** The coefficient recurrences as functions *)
Definition pstep3 (fx fy fz : T NN -> T NN) (i j k : nat) (x y z : T NN) : T NN :=
  let a := match i with O => n0 NN | S _ => n0 NN [+] fx x end in
  let a := match j with O => a | S _ => a [+] fy y end in
  match k with O => a | S _ => a [+] fz z end.
Definition cpas3 (fx fy fz : T NN -> T NN) : fn3 :=
  fix gi i := fix gj j := fix gk k :=
    match i, j, k with
    | O, O, O => n1 NN
    | _, _, _ => pstep3 fx fy fz i j k (match i with O => n0 NN | S i' => gi i' j k end)
                   (match j with O => n0 NN | S j' => gj j' k end)
                   (match k with O => n0 NN | S k' => gk k' end)
    end.
Definition dpas3 (fx fy fz : T NN -> T NN) (c : fn3) : fn3 :=
  fix gi i := fix gj j := fix gk k :=
    match i, j, k with
    | O, O, O => n1 NN
    | _, _, _ => pstep3 fx fy fz i j k (match i with O => n0 NN | S i' => gi i' j k end)
                   (match j with O => n0 NN | S j' => gj j' k end)
                   (match k with O => n0 NN | S k' => gk k' end) [+] c i j k
    end.
Definition C3 (v : rv) : fn3 := cpas3 (nmul NN (x3 v)) (nmul NN (y3 v)) (nmul NN (z3 v)).
Definition D3 (v1 v2 : rv) : fn3 := dpas3 (nmul NN (x3 v1)) (nmul NN (y3 v1)) (nmul NN (z3 v1)) (C3 v2).
Definition E3 (v0 v1 v2 : rv) : fn3 := dpas3 (nmul NN (x3 v0)) (nmul NN (y3 v0)) (nmul NN (z3 v0)) (D3 v1 v2).
Definition B3 : fn3 := cpas3 (fun a => a) (fun a => a) (fun a => a).

Definition zz3 (f : fn3) (i j k : Z) : T NN := f (Z.to_nat i) (Z.to_nat j) (Z.to_nat k).
Definition zstep3 (fx fy fz : T NN -> T NN) (f : Z -> Z -> Z -> T NN) (i j k : Z) : T NN :=
  let a := if 0 <? i then n0 NN [+] fx (f (i - 1) j k) else n0 NN in
  let a := if 0 <? j then a [+] fy (f i (j - 1) k) else a in
  if 0 <? k then a [+] fz (f i j (k - 1)) else a.

Lemma zz_cpas3 fx fy fz i j k : 0 <= i -> 0 <= j -> 0 <= k -> 0 < i + j + k ->
  zz3 (cpas3 fx fy fz) i j k = zstep3 fx fy fz (zz3 (cpas3 fx fy fz)) i j k.
Proof.
  intros Hi Hj Hk Hs. unfold zz3, zstep3.
  destruct (zcase i Hi) as [->|(a & -> & E1)], (zcase j Hj) as [->|(b & -> & E2)], (zcase k Hk) as [->|(c & -> & E3)]; try lia;
    rewrite ?E1, ?E2, ?E3, ?Nat2Z.id; cbn [Z.ltb Z.compare Z.of_nat]; try change (Z.to_nat 0) with 0%nat;
    reflexivity.
Qed.
Lemma zz_dpas3 fx fy fz c i j k : 0 <= i -> 0 <= j -> 0 <= k -> 0 < i + j + k ->
  zz3 (dpas3 fx fy fz c) i j k = zstep3 fx fy fz (zz3 (dpas3 fx fy fz c)) i j k [+] zz3 c i j k.
Proof.
  intros Hi Hj Hk Hs. unfold zz3, zstep3.
  destruct (zcase i Hi) as [->|(a & -> & E1)], (zcase j Hj) as [->|(b & -> & E2)], (zcase k Hk) as [->|(d & -> & E3)]; try lia;
    rewrite ?E1, ?E2, ?E3, ?Nat2Z.id; cbn [Z.ltb Z.compare Z.of_nat]; try change (Z.to_nat 0) with 0%nat;
    reflexivity.
Qed.

(** ** Layer accesses *)
Notation lay := (lay3 NN).
Definition lset3 (a : lay) (i j l : Z) (x : T NN) : lay := upd a i (upd (a i) j (upd (a i j) l (Some x))).
Lemma lset3_eq a i j l x : lset3 a i j l x i j l = Some x.
Proof. unfold lset3. now rewrite !upd_eq. Qed.
Lemma lset3_neq a i j l x i' j' l' : (i', j', l') <> (i, j, l) -> lset3 a i j l x i' j' l' = a i' j' l'.
Proof.
  unfold lset3, upd. intros. destruct (Z.eqb_spec i' i); auto. subst.
  destruct (Z.eqb_spec j' j); auto. subst. destruct (Z.eqb_spec l' l); auto. congruence.
Qed.
Lemma rd_l3_ok po a i j l x : 0 <= i <= po -> 0 <= j <= po -> 0 <= l < 2 -> a i j l = Some x -> rd_l3 NN po a i j l = OK x.
Proof. intros. unfold rd_l3. rewrite !inb_true by lia. cbn. now rewrite H2. Qed.
Lemma wr_l3_ok po a i j l x : 0 <= i <= po -> 0 <= j <= po -> 0 <= l < 2 -> wr_l3 NN po a i j l x = OK (lset3 a i j l x).
Proof. intros. unfold wr_l3. rewrite !inb_true by lia. reflexivity. Qed.

Definition layer3 (a : lay) (l c : Z) (f : Z -> Z -> Z -> T NN) :=
  forall i j k, 0 <= i -> 0 <= j -> 0 <= k -> i + j + k = c -> a i j l = Some (f i j k).
(** [a'] is [a] except at [(i,j,l)], where it holds [x] *)
Definition lput (a a' : lay) (i j l : Z) (x : T NN) :=
  a' i j l = Some x /\ forall i' j' l', (i', j', l') <> (i, j, l) -> a' i' j' l' = a i' j' l'.

Lemma lput_set a i j l x : lput a (lset3 a i j l x) i j l x.
Proof. split; [apply lset3_eq|]. intros. now apply lset3_neq. Qed.
Lemma lput_trans a a' i j l x y : lput a a' i j l x -> lput a (lset3 a' i j l y) i j l y.
Proof. intros (A & B). split; [apply lset3_eq|]. intros. rewrite lset3_neq by auto. auto. Qed.

Definition okpc3 (s : redst3 NN) :=
  r3_prev NN s = 0 /\ r3_cur NN s = 1 \/ r3_prev NN s = 1 /\ r3_cur NN s = 0.

(** one optional accumulation step *)
Lemma acc_step po (g : T NN -> T NN) cur prev i j i' j' (t : bool) (a0 a : lay) x y :
  0 <= i <= po -> 0 <= j <= po -> 0 <= cur < 2 -> 0 <= prev < 2 -> prev <> cur ->
  lput a0 a i j cur x ->
  (t = true -> 0 <= i' <= po /\ 0 <= j' <= po /\ a0 i' j' prev = Some y) ->
  exists a', (if t then
      let* x := rd_l3 NN po a i j cur in
      let* y := rd_l3 NN po a i' j' prev in
      wr_l3 NN po a i j cur (x [+] g y) else OK a) = OK a'
   /\ lput a0 a' i j cur (if t then x [+] g y else x).
Proof.
  intros Hi Hj Hc Hp Hne P HT. destruct t.
  - destruct HT as (Hi' & Hj' & Ey); auto. pose proof P as (P1 & P2).
    rewrite (rd_l3_ok _ _ _ _ _ x) by auto. cbn [bind].
    rewrite (rd_l3_ok _ _ _ _ _ y); auto; [|rewrite P2; auto; congruence]. cbn [bind].
    rewrite wr_l3_ok by auto. eexists. split; [reflexivity|]. eapply lput_trans; eauto.
  - exists a. auto.
Qed.

Lemma pyr_spec po fx fy fz cur prev c i j k (a : lay) f :
  0 <= i -> 0 <= j -> 0 <= k -> i + j + k = c -> 1 <= c <= po ->
  0 <= cur < 2 -> 0 <= prev < 2 -> prev <> cur -> layer3 a prev (c - 1) f ->
  exists a', pyr NN po fx fy fz cur prev i j k a = OK a'
   /\ lput a a' i j cur (zstep3 fx fy fz f i j k).
Proof.
  intros Hi Hj Hk Hs Hc Hcur Hprev Hne L. unfold pyr.
  rewrite wr_l3_ok by lia. cbn [bind].
  pose proof (lput_set a i j cur (n0 NN)) as P0.
  destruct (acc_step po fx cur prev i j (i - 1) j (0 <? i) a _ _ (f (i - 1) j k) ltac:(lia) ltac:(lia) Hcur Hprev Hne P0)
    as (a1 & E1 & P1).
  { intros Ht. apply Z.ltb_lt in Ht. split; [lia|]. split; [lia|]. apply L; lia. }
  rewrite E1. cbn [bind].
  destruct (acc_step po fy cur prev i j i (j - 1) (0 <? j) a _ _ (f i (j - 1) k) ltac:(lia) ltac:(lia) Hcur Hprev Hne P1)
    as (a2 & E2 & P2).
  { intros Ht. apply Z.ltb_lt in Ht. split; [lia|]. split; [lia|]. apply L; lia. }
  rewrite E2. cbn [bind].
  destruct (acc_step po fz cur prev i j i j (0 <? k) a _ _ (f i j (k - 1)) ltac:(lia) ltac:(lia) Hcur Hprev Hne P2)
    as (a3 & E3 & P3).
  { intros Ht. apply Z.ltb_lt in Ht. split; [lia|]. split; [lia|]. apply L; lia. }
  rewrite E3. exists a3. split; auto.
Qed.

Lemma lay_add_spec po cur i j (a0 a c : lay) x y :
  0 <= i <= po -> 0 <= j <= po -> 0 <= cur < 2 -> lput a0 a i j cur x -> c i j cur = Some y ->
  exists a', lay_add NN po cur i j a c = OK a' /\ lput a0 a' i j cur (x [+] y).
Proof.
  intros Hi Hj Hc P Ey. unfold lay_add. destruct P as (P1 & P2).
  rewrite (rd_l3_ok _ _ _ _ _ x) by auto. cbn [bind].
  rewrite (rd_l3_ok _ _ _ _ _ y) by auto. cbn [bind].
  rewrite wr_l3_ok by auto. eexists. split; [reflexivity|]. apply (lput_trans a0 a i j cur x). split; auto.
Qed.

(** contribution of one triangle to entry (i, j, k) *)
Definition tg (v0 v1 v2 : rv) (i j k : Z) : T NN :=
  if i + j + k =? 0 then nsixth NN [*] sixv3 NN v0 v1 v2
  else sixv3 NN v0 v1 v2 [*] zz3 (E3 v0 v1 v2) i j k.

Lemma reduce3_ij_spec po v0 v1 v2 sixv c i j k s :
  0 <= i -> 0 <= j -> 0 <= k -> i + j + k = c -> 1 <= c <= po -> okpc3 s ->
  layer3 (r3_C NN s) (r3_prev NN s) (c - 1) (zz3 (C3 v2)) ->
  layer3 (r3_D NN s) (r3_prev NN s) (c - 1) (zz3 (D3 v1 v2)) ->
  layer3 (r3_S NN s) (r3_prev NN s) (c - 1) (zz3 (E3 v0 v1 v2)) ->
  0 <= r3_m NN s < num_moments3 po ->
  exists e d cc, reduce3_ij NN po v0 v1 v2 sixv c i j s
     = OK (RS3 NN e d cc (r3_m NN s + 1)
            (upd (r3_mom NN s) (r3_m NN s) (r3_mom NN s (r3_m NN s) [+] sixv [*] zz3 (E3 v0 v1 v2) i j k))
            (r3_prev NN s) (r3_cur NN s))
  /\ lput (r3_C NN s) cc i j (r3_cur NN s) (zz3 (C3 v2) i j k)
  /\ lput (r3_D NN s) d i j (r3_cur NN s) (zz3 (D3 v1 v2) i j k)
  /\ lput (r3_S NN s) e i j (r3_cur NN s) (zz3 (E3 v0 v1 v2) i j k).
Proof.
  intros Hi Hj Hk Hs Hc Hpc LC LD LE Hm. unfold reduce3_ij.
  replace (c - i - j) with k by lia. unfold okpc3 in Hpc.
  assert (0 <= r3_cur NN s < 2) as H1 by lia. assert (0 <= r3_prev NN s < 2) as H2 by lia.
  assert (r3_prev NN s <> r3_cur NN s) as H3 by lia.
  unfold pyrv.
  destruct (pyr_spec po (nmul NN (x3 v2)) (nmul NN (y3 v2)) (nmul NN (z3 v2)) _ _ c i j k (r3_C NN s) _ Hi Hj Hk Hs Hc H1 H2 H3 LC) as (c1 & E1 & P1).
  destruct (pyr_spec po (nmul NN (x3 v1)) (nmul NN (y3 v1)) (nmul NN (z3 v1)) _ _ c i j k (r3_D NN s) _ Hi Hj Hk Hs Hc H1 H2 H3 LD) as (d1 & E2 & P2).
  destruct (pyr_spec po (nmul NN (x3 v0)) (nmul NN (y3 v0)) (nmul NN (z3 v0)) _ _ c i j k (r3_S NN s) _ Hi Hj Hk Hs Hc H1 H2 H3 LE) as (e1 & E3' & P3).
  rewrite E1, E2, E3'. cbn [bind].
  unfold C3 in P1. rewrite <- zz_cpas3 in P1 by lia. fold (C3 v2) in P1.
  destruct (lay_add_spec po (r3_cur NN s) i j _ d1 c1 _ _ ltac:(lia) ltac:(lia) H1 P2 (proj1 P1)) as (d2 & E4 & P4).
  rewrite E4. cbn [bind]. unfold D3 in P4. rewrite <- zz_dpas3 in P4 by lia. fold (D3 v1 v2) in P4.
  destruct (lay_add_spec po (r3_cur NN s) i j _ e1 d2 _ _ ltac:(lia) ltac:(lia) H1 P3 (proj1 P4)) as (e2 & E5 & P5).
  rewrite E5. cbn [bind]. unfold E3 in P5. rewrite <- zz_dpas3 in P5 by lia. fold (E3 v0 v1 v2) in P5.
  rewrite (rd_l3_ok po e2 i j _ _ ltac:(lia) ltac:(lia) H1 (proj1 P5)). cbn [bind].
  rewrite rd_ok by lia. cbn [bind]. rewrite wr_ok by lia. cbn [bind].
  exists e2, d2, c1. auto.
Qed.

(** positions (r,k) inside one order that the loop has passed *)
Definition done3 (c m : Z) (a : lay) (l : Z) (f : Z -> Z -> Z -> T NN) :=
  forall i j k, 0 <= i -> 0 <= j -> 0 <= k -> i + j + k = c -> tri2 (j + k) + k < m -> a i j l = Some (f i j k).

Lemma done3_put c m (a a' : lay) l f i j k : 0 <= i -> 0 <= j -> 0 <= k -> i + j + k = c -> tri2 (j + k) + k = m ->
  done3 c m a l f -> lput a a' i j l (f i j k) -> done3 c (m + 1) a' l f.
Proof.
  intros Hi Hj Hk Hs Hm Dn (P1 & P2) i' j' k' Hi' Hj' Hk' Hs' L.
  destruct (Z.eq_dec (tri2 (j' + k') + k') m) as [E|E].
  - destruct (pos2_inj (j' + k') k' (j + k) k) as (A & B); try lia.
    assert (j' = j) by lia. assert (i' = i) by lia. subst. auto.
  - rewrite P2.
    + apply Dn; auto. lia.
    + intros X. apply pair_equal_spec in X as (X & _). apply pair_equal_spec in X as (X1 & X2). subst i' j'.
      assert (k' = k) by lia. subst. lia.
Qed.
Lemma layer3_put c (a a' : lay) l l' f i j x : l <> l' -> layer3 a l c f -> lput a a' i j l' x -> layer3 a' l c f.
Proof. intros Hl L (_ & P) i' j' k' A B C D. rewrite P by congruence. auto. Qed.

Lemma reduce3_order_spec po v0 v1 v2 c s (sixv := sixv3 NN v0 v1 v2) :
  1 <= c <= po -> okpc3 s -> r3_m NN s = tri3 c ->
  layer3 (r3_C NN s) (r3_prev NN s) (c - 1) (zz3 (C3 v2)) ->
  layer3 (r3_D NN s) (r3_prev NN s) (c - 1) (zz3 (D3 v1 v2)) ->
  layer3 (r3_S NN s) (r3_prev NN s) (c - 1) (zz3 (E3 v0 v1 v2)) ->
  exists s', reduce3_order NN po v0 v1 v2 sixv c s = OK s'
  /\ okpc3 s' /\ r3_m NN s' = tri3 (c + 1)
  /\ layer3 (r3_C NN s') (r3_prev NN s') c (zz3 (C3 v2))
  /\ layer3 (r3_D NN s') (r3_prev NN s') c (zz3 (D3 v1 v2))
  /\ layer3 (r3_S NN s') (r3_prev NN s') c (zz3 (E3 v0 v1 v2))
  /\ (forall i j k, 0 <= i -> 0 <= j -> 0 <= k -> i + j + k = c ->
        r3_mom NN s' (idx3 i j k) = r3_mom NN s (idx3 i j k) [+] tg v0 v1 v2 i j k)
  /\ (forall m, ~ tri3 c <= m < tri3 (c + 1) -> r3_mom NN s' m = r3_mom NN s m).
Proof.
  intros Hc Hpc Hm LC LD LE. unfold reduce3_order.
  pose proof (tri3_succ c ltac:(lia)) as TS.
  pose proof (tri3_mono (c + 1) (po + 1) ltac:(lia)) as TM.
  pose proof (tri3_nonneg c ltac:(lia)) as T0.
  pose proof (num_moments3_tri po) as NM.
  assert (Hne : r3_prev NN s <> r3_cur NN s) by (unfold okpc3 in Hpc; lia).
  destruct (loop_ij_inv (fun m s' =>
      r3_prev NN s' = r3_prev NN s /\ r3_cur NN s' = r3_cur NN s /\ r3_m NN s' = tri3 c + m
   /\ (layer3 (r3_C NN s') (r3_prev NN s) (c - 1) (zz3 (C3 v2))
    /\ layer3 (r3_D NN s') (r3_prev NN s) (c - 1) (zz3 (D3 v1 v2))
    /\ layer3 (r3_S NN s') (r3_prev NN s) (c - 1) (zz3 (E3 v0 v1 v2)))
   /\ (done3 c m (r3_C NN s') (r3_cur NN s) (zz3 (C3 v2))
    /\ done3 c m (r3_D NN s') (r3_cur NN s) (zz3 (D3 v1 v2))
    /\ done3 c m (r3_S NN s') (r3_cur NN s) (zz3 (E3 v0 v1 v2)))
   /\ (forall i j k, 0 <= i -> 0 <= j -> 0 <= k -> i + j + k = c -> tri2 (j + k) + k < m ->
        r3_mom NN s' (idx3 i j k) = r3_mom NN s (idx3 i j k) [+] tg v0 v1 v2 i j k)
   /\ (forall q, ~ tri3 c <= q < tri3 c + m -> r3_mom NN s' q = r3_mom NN s q))
   c (reduce3_ij NN po v0 v1 v2 sixv c) s) as (s' & E & P1 & P2 & P3 & _ & (P4 & P5 & P6) & P7 & P8).
  - lia.
  - split; auto. split; auto. split; [lia|]. split; [auto|].
    assert (Z0 : forall j k, 0 <= j -> 0 <= k -> ~ tri2 (j + k) + k < 0).
    { intros j k Hj Hk. pose proof (tri2_nonneg (j + k)). lia. }
    split. { split; [|split]; intros i j k Hi Hj Hk Hs L; destruct (Z0 j k Hj Hk L). }
    split; auto. intros i j k Hi Hj Hk Hs L. destruct (Z0 j k Hj Hk L).
  - intros r k s1 Hk Hr (P1 & P2 & P3 & (L1 & L2 & L3) & (D1 & D2 & D3') & P7 & P8).
    pose proof (tri2_nonneg r ltac:(lia)) as R0.
    pose proof (tri2_mono (r + 1) (c + 1) ltac:(lia)) as R1. rewrite tri2_succ in R1.
    destruct (reduce3_ij_spec po v0 v1 v2 sixv c (c - r) (r - k) k s1) as (e & d & cc & E & Q1 & Q2 & Q3); try lia.
    { unfold okpc3 in *. lia. }
    { now rewrite P1. } { now rewrite P1. } { now rewrite P1. }
    rewrite E. eexists. split; [reflexivity|]. cbn [r3_prev r3_cur r3_m r3_C r3_D r3_S r3_mom].
    rewrite P2 in Q1, Q2, Q3.
    split; auto. split; auto. split; [lia|].
    split. { split; [|split]; eapply layer3_put; eauto. }
    assert (PK : tri2 (r - k + k) + k = tri2 r + k) by (f_equal; f_equal; lia).
    split. { split; [|split]; (eapply done3_put; [| | | | |eassumption|eassumption]); lia. }
    split.
    + intros i' j' k' Hi' Hj' Hk' Hs' L.
      assert (IX : idx3 i' j' k' = tri3 c + (tri2 (j' + k') + k')) by (unfold idx3; rewrite Hs'; lia).
      destruct (Z.eq_dec (tri2 (j' + k') + k') (tri2 r + k)) as [Eq|Eq].
      * destruct (pos2_inj (j' + k') k' r k) as (A & B); try lia.
        assert (j' = r - k) by lia. assert (i' = c - r) by lia. subst i' j' k'.
        rewrite IX, Eq, P3, upd_eq. rewrite P8 by lia. f_equal.
        unfold tg. destruct (Z.eqb_spec (c - r + (r - k) + k) 0); [lia|]. reflexivity.
      * rewrite upd_neq by lia. apply P7; auto. lia.
    + intros q Hq. rewrite upd_neq by lia. apply P8. lia.
  - rewrite E. cbn [bind]. eexists. split; [reflexivity|]. cbn [r3_prev r3_cur r3_m r3_C r3_D r3_S r3_mom].
    split. { unfold okpc3 in *. cbn [r3_prev r3_cur]. lia. }
    split. { lia. }
    assert (1 - r3_prev NN s' = r3_cur NN s) as -> by (unfold okpc3 in Hpc; lia).
    assert (ALL : forall i j k, 0 <= i -> 0 <= j -> 0 <= k -> i + j + k = c -> tri2 (j + k) + k < tri2 (c + 1)).
    { intros i j k Hi Hj Hk Hs. pose proof (tri2_mono (j + k + 1) (c + 1) ltac:(lia)) as X. rewrite tri2_succ in X. lia. }
    split. { intros i j k Hi Hj Hk Hs. apply P4; eauto. }
    split. { intros i j k Hi Hj Hk Hs. apply P5; eauto. }
    split. { intros i j k Hi Hj Hk Hs. apply P6; eauto. }
    split. { intros i j k Hi Hj Hk Hs. apply P7; eauto. }
    intros m Hm'. apply P8. lia.
Qed.

(** moments of order below [c], all others untouched *)
Definition upto3 (c : Z) (new old : Z -> T NN) (f : T NN -> Z -> Z -> Z -> T NN) :=
  (forall i j k, 0 <= i -> 0 <= j -> 0 <= k -> i + j + k < c -> new (idx3 i j k) = f (old (idx3 i j k)) i j k)
  /\ (forall m, ~ 0 <= m < tri3 c -> new m = old m).

Lemma upto3_step c (m0 m1 m2 : Z -> T NN) f : 1 <= c -> upto3 c m1 m0 f ->
  (forall i j k, 0 <= i -> 0 <= j -> 0 <= k -> i + j + k = c -> m2 (idx3 i j k) = f (m1 (idx3 i j k)) i j k) ->
  (forall m, ~ tri3 c <= m < tri3 (c + 1) -> m2 m = m1 m) -> upto3 (c + 1) m2 m0 f.
Proof.
  intros Hc (I1 & I2) J5 J6. pose proof (tri3_nonneg c ltac:(lia)). pose proof (tri3_mono c (c + 1) ltac:(lia)).
  split.
  - intros i j k Hi Hj Hk Hs. destruct (Z.eq_dec (i + j + k) c) as [Ek|Ek].
    + rewrite J5 by auto. f_equal. apply I2. pose proof (idx3_order i j k Hi Hj Hk). rewrite Ek in *. lia.
    + rewrite J6; [apply I1; auto; lia|]. pose proof (idx3_order i j k Hi Hj Hk).
      pose proof (tri3_mono (i + j + k + 1) c ltac:(lia)). lia.
  - intros m Hm. rewrite J6 by lia. apply I2. lia.
Qed.

Lemma idx3_000 : idx3 0 0 0 = 0. Proof. reflexivity. Qed.
Lemma layer3_base (a : lay) l (f : fn3) : f 0%nat 0%nat 0%nat = n1 NN -> layer3 (lset3 a 0 0 l (n1 NN)) l (1 - 1) (zz3 f).
Proof.
  intros Hf i j k Hi Hj Hk Hs. assert (i = 0) by lia. assert (j = 0) by lia. assert (k = 0) by lia. subst.
  rewrite lset3_eq. unfold zz3. cbn. now rewrite Hf.
Qed.

Lemma reduce3_tri_spec po v0 v1 v2 s : 0 <= po -> okpc3 s ->
  exists s', reduce3_tri NN po v0 v1 v2 s = OK s' /\ okpc3 s'
  /\ upto3 (po + 1) (r3_mom NN s') (r3_mom NN s) (fun q i j k => q [+] tg v0 v1 v2 i j k).
Proof.
  intros Hpo Hpc. unfold reduce3_tri.
  assert (0 <= r3_prev NN s < 2) by (unfold okpc3 in Hpc; lia).
  rewrite !wr_l3_ok by lia. cbn [bind].
  pose proof (num_moments3_tri po) as NM.
  pose proof (tri3_mono 1 (po + 1) ltac:(lia)) as TM. change (tri3 1) with 1 in TM.
  rewrite rd_ok by lia. cbn [bind]. rewrite wr_ok by lia. cbn [bind].
  set (sixv := sixv3 NN v0 v1 v2).
  destruct (for_inv (fun c s' => okpc3 s' /\ r3_m NN s' = tri3 c
     /\ layer3 (r3_C NN s') (r3_prev NN s') (c - 1) (zz3 (C3 v2))
     /\ layer3 (r3_D NN s') (r3_prev NN s') (c - 1) (zz3 (D3 v1 v2))
     /\ layer3 (r3_S NN s') (r3_prev NN s') (c - 1) (zz3 (E3 v0 v1 v2))
     /\ upto3 c (r3_mom NN s') (r3_mom NN s) (fun q i j k => q [+] tg v0 v1 v2 i j k))
    1 (po + 1) (reduce3_order NN po v0 v1 v2 sixv)
    (RS3 NN (lset3 (r3_S NN s) 0 0 (r3_prev NN s) (n1 NN)) (lset3 (r3_D NN s) 0 0 (r3_prev NN s) (n1 NN))
       (lset3 (r3_C NN s) 0 0 (r3_prev NN s) (n1 NN)) 1
       (upd (r3_mom NN s) 0 (r3_mom NN s 0 [+] nsixth NN [*] sixv)) (r3_prev NN s) (r3_cur NN s)))
    as (s' & E & I); try lia.
  - cbn [r3_prev r3_cur r3_m r3_C r3_D r3_S r3_mom]. split; [exact Hpc|]. split; [reflexivity|].
    split; [now apply layer3_base|]. split; [now apply layer3_base|]. split; [now apply layer3_base|].
    split.
    + intros i j k Hi Hj Hk Hs. assert (i = 0) by lia. assert (j = 0) by lia. assert (k = 0) by lia. subst.
      rewrite idx3_000, upd_eq. reflexivity.
    + intros m Hm. change (tri3 1) with 1 in Hm. rewrite upd_neq by lia. reflexivity.
  - intros c s1 Hc (I1 & I2 & I3 & I4 & I5 & I6).
    destruct (reduce3_order_spec po v0 v1 v2 c s1) as (s2 & E & J1 & J2 & J3 & J4 & J4' & J5 & J6); auto; try lia.
    fold sixv in E. exists s2. split; [exact E|]. split; auto. split; auto.
    replace (c + 1 - 1) with c by lia. split; auto. split; auto. split; auto.
    apply (upto3_step c _ (r3_mom NN s1)); auto. lia.
  - exists s'. split; auto. split; [apply I|]. apply I.
Qed.

(** ** The division by the multinomial coefficients *)
Definition mdiv (q : T NN) (i j k : Z) : T NN :=
  if i + j + k =? 0 then q
  else ndiv NN q (zz3 B3 i j k [*] nofZ NN (i + j + k + 1) [*] nofZ NN (i + j + k + 2) [*] nofZ NN (i + j + k + 3)).

Lemma multi_order_spec po c s :
  1 <= c <= po -> okpc3 s -> r3_m NN s = tri3 c ->
  layer3 (r3_C NN s) (r3_prev NN s) (c - 1) (zz3 B3) ->
  exists s', multi_order NN po c s = OK s'
  /\ okpc3 s' /\ r3_m NN s' = tri3 (c + 1)
  /\ layer3 (r3_C NN s') (r3_prev NN s') c (zz3 B3)
  /\ (forall i j k, 0 <= i -> 0 <= j -> 0 <= k -> i + j + k = c ->
        r3_mom NN s' (idx3 i j k) = mdiv (r3_mom NN s (idx3 i j k)) i j k)
  /\ (forall m, ~ tri3 c <= m < tri3 (c + 1) -> r3_mom NN s' m = r3_mom NN s m).
Proof.
  intros Hc Hpc Hm LC. unfold multi_order.
  pose proof (tri3_succ c ltac:(lia)) as TS.
  pose proof (tri3_mono (c + 1) (po + 1) ltac:(lia)) as TM.
  pose proof (tri3_nonneg c ltac:(lia)) as T0.
  pose proof (num_moments3_tri po) as NM.
  assert (Hne : r3_prev NN s <> r3_cur NN s) by (unfold okpc3 in Hpc; lia).
  destruct (loop_ij_inv (fun m s' =>
      r3_prev NN s' = r3_prev NN s /\ r3_cur NN s' = r3_cur NN s /\ r3_m NN s' = tri3 c + m
   /\ layer3 (r3_C NN s') (r3_prev NN s) (c - 1) (zz3 B3)
   /\ done3 c m (r3_C NN s') (r3_cur NN s) (zz3 B3)
   /\ (forall i j k, 0 <= i -> 0 <= j -> 0 <= k -> i + j + k = c -> tri2 (j + k) + k < m ->
        r3_mom NN s' (idx3 i j k) = mdiv (r3_mom NN s (idx3 i j k)) i j k)
   /\ (forall q, ~ tri3 c <= q < tri3 c + m -> r3_mom NN s' q = r3_mom NN s q))
   c (multi_ij NN po c) s) as (s' & E & P1 & P2 & P3 & _ & P4 & P7 & P8).
  - lia.
  - split; auto. split; auto. split; [lia|]. split; [auto|].
    assert (Z0 : forall j k, 0 <= j -> 0 <= k -> ~ tri2 (j + k) + k < 0).
    { intros j k Hj Hk. pose proof (tri2_nonneg (j + k)). lia. }
    split. { intros i j k Hi Hj Hk Hs L; destruct (Z0 j k Hj Hk L). }
    split; auto. intros i j k Hi Hj Hk Hs L. destruct (Z0 j k Hj Hk L).
  - intros r k s1 Hk Hr (P1 & P2 & P3 & L1 & D1 & P7 & P8).
    pose proof (tri2_nonneg r ltac:(lia)) as R0.
    pose proof (tri2_mono (r + 1) (c + 1) ltac:(lia)) as R1. rewrite tri2_succ in R1.
    unfold multi_ij. replace (c - (c - r) - (r - k)) with k by lia.
    rewrite P1, P2. assert (0 <= r3_cur NN s < 2) as H1 by (unfold okpc3 in Hpc; lia).
    destruct (pyr_spec po (fun a => a) (fun a => a) (fun a => a) (r3_cur NN s) (r3_prev NN s) c (c - r) (r - k) k (r3_C NN s1) (zz3 B3))
      as (cc & E & Q1); auto; try lia.
    { unfold okpc3 in Hpc; lia. }
    rewrite E. cbn [bind]. unfold B3 in Q1. rewrite <- zz_cpas3 in Q1 by lia. fold B3 in Q1.
    rewrite (rd_l3_ok po cc (c - r) (r - k) _ _ ltac:(lia) ltac:(lia) H1 (proj1 Q1)). cbn [bind].
    rewrite rd_ok by lia. cbn [bind]. rewrite wr_ok by lia. cbn [bind].
    eexists. split; [reflexivity|]. cbn [r3_prev r3_cur r3_m r3_C r3_D r3_S r3_mom].
    split; auto. split; auto. split; [lia|].
    split. { eapply layer3_put; eauto. }
    assert (PK : tri2 (r - k + k) + k = tri2 r + k) by (f_equal; f_equal; lia).
    split. { (eapply done3_put; [| | | | |eassumption|eassumption]); lia. }
    split.
    + intros i' j' k' Hi' Hj' Hk' Hs' L.
      assert (IX : idx3 i' j' k' = tri3 c + (tri2 (j' + k') + k')) by (unfold idx3; rewrite Hs'; lia).
      destruct (Z.eq_dec (tri2 (j' + k') + k') (tri2 r + k)) as [Eq|Eq].
      * destruct (pos2_inj (j' + k') k' r k) as (A & B); try lia.
        assert (j' = r - k) by lia. assert (i' = c - r) by lia. subst i' j' k'.
        rewrite IX, Eq, P3, upd_eq. rewrite P8 by lia.
        unfold mdiv. rewrite Hs'. destruct (Z.eqb_spec c 0); [lia|]. reflexivity.
      * rewrite upd_neq by lia. apply P7; auto. lia.
    + intros q Hq. rewrite upd_neq by lia. apply P8. lia.
  - rewrite E. cbn [bind]. eexists. split; [reflexivity|]. cbn [r3_prev r3_cur r3_m r3_C r3_D r3_S r3_mom].
    split. { unfold okpc3 in *. cbn [r3_prev r3_cur]. lia. }
    split. { lia. }
    assert (1 - r3_prev NN s' = r3_cur NN s) as -> by (unfold okpc3 in Hpc; lia).
    assert (ALL : forall i j k, 0 <= i -> 0 <= j -> 0 <= k -> i + j + k = c -> tri2 (j + k) + k < tri2 (c + 1)).
    { intros i j k Hi Hj Hk Hs. pose proof (tri2_mono (j + k + 1) (c + 1) ltac:(lia)) as X. rewrite tri2_succ in X. lia. }
    split. { intros i j k Hi Hj Hk Hs. apply P4; eauto. }
    split. { intros i j k Hi Hj Hk Hs. apply P7; eauto. }
    intros m Hm'. apply P8. lia.
Qed.

Lemma multi_spec po (s : redst3 NN) : 0 <= po -> okpc3 s ->
  exists c s', wr_l3 NN po (r3_C NN s) 0 0 (r3_prev NN s) (n1 NN) = OK c
  /\ for_ 1 (po + 1) (multi_order NN po)
     (RS3 NN (r3_S NN s) (r3_D NN s) c 1 (r3_mom NN s) (r3_prev NN s) (r3_cur NN s)) = OK s'
  /\ upto3 (po + 1) (r3_mom NN s') (r3_mom NN s) mdiv.
Proof.
  intros Hpo Hpc.
  assert (0 <= r3_prev NN s < 2) by (unfold okpc3 in Hpc; lia).
  rewrite !wr_l3_ok by lia. exists (lset3 (r3_C NN s) 0 0 (r3_prev NN s) (n1 NN)).
  destruct (for_inv (fun c s' => okpc3 s' /\ r3_m NN s' = tri3 c
     /\ layer3 (r3_C NN s') (r3_prev NN s') (c - 1) (zz3 B3)
     /\ upto3 c (r3_mom NN s') (r3_mom NN s) mdiv)
    1 (po + 1) (multi_order NN po)
    (RS3 NN (r3_S NN s) (r3_D NN s) (lset3 (r3_C NN s) 0 0 (r3_prev NN s) (n1 NN)) 1 (r3_mom NN s) (r3_prev NN s) (r3_cur NN s)))
    as (s' & E & I); try lia.
  - cbn [r3_prev r3_cur r3_m r3_C r3_D r3_S r3_mom]. split; [exact Hpc|]. split; [reflexivity|].
    split; [now apply layer3_base|].
    split; auto.
    intros i j k Hi Hj Hk Hs. assert (i = 0) by lia. assert (j = 0) by lia. assert (k = 0) by lia. subst. reflexivity.
  - intros c s1 Hc (I1 & I2 & I3 & I6).
    destruct (multi_order_spec po c s1) as (s2 & E & J1 & J2 & J3 & J5 & J6); auto; try lia.
    exists s2. split; [exact E|]. split; auto. split; auto.
    replace (c + 1 - 1) with c by lia. split; auto.
    apply (upto3_step c _ (r3_mom NN s1)); auto. lia.
  - exists s'. split; auto. split; auto. apply I.
Qed.
End G.
