(** * VoxFacts: the grid recursion of r2d_rasterize / r3d_voxelize, for any
    number of axes and any polytope type.  [rast] is the specification: a
    recursive bisection of the index box, independent of the explicit stack. *)
From Coq Require Import ZArith List Bool Lia Permutation.
From Verif Require Import Base Lib ModelCommon Model2 ModelV.
Import ListNotations.
Open Scope Z_scope.

(** ** products and sums over the axes *)
Fixpoint prodl (l : list Z) (f : Z -> Z) : Z := match l with [] => 1 | i :: r => f i * prodl r f end.
Fixpoint suml (l : list Z) (f : Z -> Z) : Z := match l with [] => 0 | i :: r => f i + suml r f end.
Lemma prodl_fold l f : fold_right (fun i acc => f i * acc) 1 l = prodl l f.
Proof. induction l; cbn; auto. now rewrite IHl. Qed.

Lemma prodl_ext l f g : (forall i, In i l -> f i = g i) -> prodl l f = prodl l g.
Proof. induction l; cbn; intros; auto. rewrite H, IHl; auto. Qed.
Lemma suml_ext l f g : (forall i, In i l -> f i = g i) -> suml l f = suml l g.
Proof. induction l; cbn; intros; auto. rewrite H, IHl; auto. Qed.
Lemma prodl_pos l f : (forall i, In i l -> 1 <= f i) -> 1 <= prodl l f.
Proof. induction l; cbn; intros; [lia|]. pose proof (H a ltac:(auto)). pose proof (IHl ltac:(auto)). nia. Qed.
Lemma suml_nonneg l f : (forall i, In i l -> 0 <= f i) -> 0 <= suml l f.
Proof. induction l; cbn; intros; [lia|]. pose proof (H a ltac:(auto)). pose proof (IHl ltac:(auto)). lia. Qed.
Lemma prodl_at l f a : NoDup l -> In a l -> (forall i, In i l -> 1 <= f i) ->
  exists r, 1 <= r /\ forall g, (forall i, In i l -> i <> a -> g i = f i) -> prodl l g = g a * r.
Proof.
  induction l as [|b l IH]; intros Hn Hi Hf; [destruct Hi|]. inversion Hn; subst.
  destruct (Z.eq_dec a b) as [->|Hne].
  - exists (prodl l f). split; [apply prodl_pos; intros; apply Hf; now right|].
    intros g Hg. cbn. f_equal. apply prodl_ext. intros i Hi'. apply Hg; [now right|]. congruence.
  - destruct Hi as [->|Hi]; [congruence|]. destruct IH as (r & Hr & E); auto.
    { intros; apply Hf; now right. }
    pose proof (Hf b (or_introl eq_refl)).
    exists (f b * r). split; [nia|]. intros g Hg. cbn. rewrite E by (intros; apply Hg; auto; now right).
    rewrite (Hg b) by (auto; now left). ring.
Qed.
Lemma suml_at l f a : NoDup l -> In a l -> (forall i, In i l -> 0 <= f i) ->
  exists r, 0 <= r /\ forall g, (forall i, In i l -> i <> a -> g i = f i) -> suml l g = g a + r.
Proof.
  induction l as [|b l IH]; intros Hn Hi Hf; [destruct Hi|]. inversion Hn; subst.
  destruct (Z.eq_dec a b) as [->|Hne].
  - exists (suml l f). split; [apply suml_nonneg; intros; apply Hf; now right|].
    intros g Hg. cbn. f_equal. apply suml_ext. intros i Hi'. apply Hg; [now right|]. congruence.
  - destruct Hi as [->|Hi]; [congruence|]. destruct IH as (r & Hr & E); auto.
    { intros; apply Hf; now right. }
    pose proof (Hf b (or_introl eq_refl)).
    exists (f b + r). split; [lia|]. intros g Hg. cbn. rewrite E by (intros; apply Hg; auto; now right).
    rewrite (Hg b) by (auto; now left). lia.
Qed.

(** [Z.log2_up] under halving *)
Lemma log2_up_half n : 2 <= n -> Z.log2_up (n - n / 2) = Z.log2_up n - 1.
Proof.
  intros Hn. assert (E : n - n / 2 = (n + 1) / 2).
  { pose proof (Z.div_mod n 2 ltac:(lia)). pose proof (Z.mod_pos_bound n 2 ltac:(lia)).
    pose proof (Z.div_mod (n + 1) 2 ltac:(lia)). pose proof (Z.mod_pos_bound (n + 1) 2 ltac:(lia)). lia. }
  rewrite E. pose proof (Z.log2_up_spec n ltac:(lia)) as (A & B).
  assert (1 <= Z.log2_up n) by (pose proof (Z.log2_up_pos n ltac:(lia)); lia).
  destruct (Z.eq_dec n 2) as [->|]; [reflexivity|].
  apply Z.log2_up_unique.
  - assert (2 < n) by lia. pose proof (Z.log2_up_le_mono 3 n ltac:(lia)). change (Z.log2_up 3) with 2 in *. lia.
  - assert (K : 2 ^ Z.log2_up n = 2 * 2 ^ (Z.log2_up n - 1)).
    { rewrite <- Z.pow_succ_r by lia. f_equal. lia. }
    assert (K2 : Z.pred (Z.log2_up n) = Z.log2_up n - 1) by lia. rewrite K2 in A.
    assert (2 <= Z.log2_up n).
    { pose proof (Z.log2_up_le_mono 3 n ltac:(lia)). change (Z.log2_up 3) with 2 in *. lia. }
    assert (K3 : 2 ^ (Z.log2_up n - 1) = 2 * 2 ^ Z.pred (Z.log2_up n - 1)).
    { rewrite <- Z.pow_succ_r by lia. f_equal. lia. }
    pose proof (Z.div_mod (n + 1) 2 ltac:(lia)). pose proof (Z.mod_pos_bound (n + 1) 2 ltac:(lia)). lia.
Qed.
Lemma log2_up_half' n : 2 <= n -> Z.log2_up (n / 2) <= Z.log2_up n - 1.
Proof.
  intros. rewrite <- log2_up_half by auto. apply Z.log2_up_le_mono.
  pose proof (Z.div_mod n 2 ltac:(lia)). pose proof (Z.mod_pos_bound n 2 ltac:(lia)). lia.
Qed.

Lemma while_step {S} f (c : S -> bool) b s : c s = true ->
  while_ (Datatypes.S f) c b s = bind (b s) (while_ f c b).
Proof. intros H. cbn [while_]. now rewrite H. Qed.

Lemma int32_ok z : int_min <= z <= int_max -> int32 z = OK z.
Proof. unfold int32. intros. destruct (Z.leb_spec int_min z), (Z.leb_spec z int_max); cbn; auto; lia. Qed.

Section Vox.
Context (N : num) (D : Z) (HD : 1 <= D).
Notation real := (T N).
Context {P : Type} (nvp : P -> Z) (split : P -> P -> real -> Z -> res (P * P))
  (reduce : P -> (Z -> real) -> res (Z -> real)) (nmom : Z) (Hnm : 0 <= nmom)
  (gind : (Z -> Z) -> (Z -> Z) -> (Z -> Z) -> Z -> res Z) (d : Z -> real).
Notation ax := (zrange D).
Definition size (b : box) (i : Z) : Z := snd b i - fst b i.
Definition vol (b : box) : Z := prodl ax (size b).
Definition depth (b : box) : Z := suml ax (fun i => Z.log2_up (size b i)).
Definition proper (b : box) : Prop := forall i, 0 <= i < D -> fst b i < snd b i.
Definition sub_box (b b' : box) : Prop := forall i, 0 <= i < D -> fst b' i <= fst b i /\ snd b i <= snd b' i.

(** recursive bisection: the leaves are single cells with their polytopes *)
Inductive rast : P -> box -> list (box * P) -> Prop :=
| rast_nil p b : nvp p <= 0 -> rast p b []
| rast_leaf p b : 0 < nvp p -> (forall i, 0 <= i < D -> snd b i = fst b i + 1) -> rast p b [(b, p)]
| rast_split p b o a m q0 q1 l0 l1 : 0 < nvp p -> 0 <= a < D -> fst b a < m < snd b a ->
    split p o (nmul N (d a) (nofZ N m)) a = OK (q0, q1) ->
    rast q0 (fst b, upd (snd b) a m) l0 -> rast q1 (upd (fst b) a m, snd b) l1 ->
    rast p b (l1 ++ l0).

Lemma split_boxes (b : box) a m : proper b -> 0 <= a < D -> fst b a < m < snd b a ->
  let b0 : box := (fst b, upd (snd b) a m) in let b1 : box := (upd (fst b) a m, snd b) in
  proper b0 /\ proper b1 /\ sub_box b0 b /\ sub_box b1 b.
Proof.
  intros Hp Ha Hm b0 b1.
  assert (forall i, 0 <= i < D -> fst b i < snd b0 i <= snd b i /\ fst b i <= fst b1 i < snd b i).
  { intros i Hi. cbn. destruct (Z.eq_dec i a) as [->|]; [rewrite !upd_eq|rewrite !upd_neq by auto; pose proof (Hp i Hi)]; lia. }
  split; [|split; [|split]]; intros i Hi; pose proof (H i Hi); cbn in *; lia.
Qed.
Lemma sub_box_trans a b c : sub_box a b -> sub_box b c -> sub_box a c.
Proof. intros H K i Hi. pose proof (H i Hi). pose proof (K i Hi). lia. Qed.
Lemma sub_box_refl b : sub_box b b. Proof. intros i Hi. lia. Qed.

Lemma rast_leaves p b l : rast p b l -> proper b ->
  Forall (fun x => sub_box (fst x) b /\ 0 < nvp (snd x) /\ forall i, 0 <= i < D -> snd (fst x) i = fst (fst x) i + 1) l.
Proof.
  induction 1; intros Hp.
  - constructor.
  - constructor; [|constructor]. cbn. split; [apply sub_box_refl|auto].
  - destruct (split_boxes b a m Hp H0 H1) as (P0 & P1 & S0 & S1). apply Forall_app. split.
    + eapply Forall_impl; [|apply IHrast2; auto]. cbn. intros x (A & B). split; auto. eapply sub_box_trans; eauto.
    + eapply Forall_impl; [|apply IHrast1; auto]. cbn. intros x (A & B). split; auto. eapply sub_box_trans; eauto.
Qed.

(** different leaves are different cells *)
Lemma rast_distinct (cell : (Z -> Z) -> Z) p b B l :
  (forall c c', (forall i, 0 <= i < D -> fst B i <= c i < snd B i) -> (forall i, 0 <= i < D -> fst B i <= c' i < snd B i) ->
     cell c = cell c' -> forall i, 0 <= i < D -> c i = c' i) ->
  rast p b l -> proper b -> sub_box b B -> NoDup (map (fun x => cell (fst (fst x))) l).
Proof.
  intros Hinj. induction 1; intros Hp Hs; cbn.
  - constructor.
  - constructor; [intros []|constructor].
  - destruct (split_boxes b a m Hp H0 H1) as (P0 & P1 & S0 & S1).
    rewrite map_app.
    pose proof (rast_leaves _ _ _ H3 P0) as L0. pose proof (rast_leaves _ _ _ H4 P1) as L1.
    assert (ND1 := IHrast2 P1 (sub_box_trans _ _ _ S1 Hs)). assert (ND0 := IHrast1 P0 (sub_box_trans _ _ _ S0 Hs)).
    clear IHrast1 IHrast2.
    assert (Dj : forall x, In x (map (fun x => cell (fst (fst x))) l1) -> ~ In x (map (fun x => cell (fst (fst x))) l0)).
    { intros x I1 I0. apply in_map_iff in I1 as (y & <- & I1). apply in_map_iff in I0 as (z & E & I0).
      rewrite Forall_forall in L0, L1. destruct (L0 z I0) as (A0 & _ & B0). destruct (L1 y I1) as (A1 & _ & B1).
      assert (In0 : forall i, 0 <= i < D -> fst B i <= fst (fst z) i < snd B i).
      { intros i Hi. pose proof (sub_box_trans _ _ _ A0 (sub_box_trans _ _ _ S0 Hs) i Hi). pose proof (B0 i Hi). lia. }
      assert (In1 : forall i, 0 <= i < D -> fst B i <= fst (fst y) i < snd B i).
      { intros i Hi. pose proof (sub_box_trans _ _ _ A1 (sub_box_trans _ _ _ S1 Hs) i Hi). pose proof (B1 i Hi). lia. }
      pose proof (Hinj _ _ In0 In1 E a H0) as X. pose proof (A0 a H0) as Y0. pose proof (A1 a H0) as Y1.
      cbn in Y0, Y1. rewrite upd_eq in Y0, Y1. pose proof (B0 a H0). lia. }
    revert ND1 Dj. generalize (map (fun x => cell (fst (fst x))) l1). intros l. induction l as [|x l IH]; cbn; auto.
    intros ND Dj. inversion ND; subst. constructor.
    + rewrite in_app_iff. intros [X|X]; auto. apply (Dj x); auto.
    + apply IH; auto.
Qed.

(** ** the loop *)
Context (Inv : Z -> P -> Prop) (Bad : P -> Prop).
Context (inv_mono : forall k k' p, k' <= k -> Inv k p -> Inv k' p).
Context (split_ok : forall k p o c a, 1 <= k -> Inv k p -> 0 < nvp p -> 0 <= a < D ->
  (exists q0 q1, split p o c a = OK (q0, q1) /\ Inv (k - 1) q0 /\ Inv (k - 1) q1)
  \/ (split p o c a = Err OutOfBounds /\ Bad p)).
Context (reduce_ok : forall k p mom, Inv k p -> 0 < nvp p -> exists mom', reduce p mom = OK mom').
Context (B : box) (g : Z -> Z) (cell : (Z -> Z) -> Z).
Context (HB : forall i, 0 <= i < D -> int_min <= fst B i /\ snd B i <= int_max /\ snd B i - fst B i <= int_max).
Context (Hg : forall i, 0 <= i < D -> g i = size B i).
Context (gind_ok : forall c m, (forall i, 0 <= i < D -> fst B i <= c i < snd B i) -> 0 <= m < nmom ->
  gind g (fst B) c m = OK (nmom * cell c + m)).
Context (cell_range : forall c, (forall i, 0 <= i < D -> fst B i <= c i < snd B i) -> 0 <= cell c < vol B).

(** addition of one leaf to the grid *)
Definition added1 (x : box * P) (gr gr' : Z -> real) : Prop :=
  exists mom0 mom, reduce (snd x) mom0 = OK mom
  /\ (forall m, 0 <= m < nmom -> gr' (nmom * cell (fst (fst x)) + m) = nadd N (gr (nmom * cell (fst (fst x)) + m)) (mom m))
  /\ (forall i, ~ (nmom * cell (fst (fst x)) <= i < nmom * cell (fst (fst x)) + nmom) -> gr' i = gr i).
Inductive added : list (box * P) -> (Z -> real) -> (Z -> real) -> Prop :=
| added_nil gr : added [] gr gr
| added_cons x l gr gr1 gr2 : added1 x gr gr1 -> added l gr1 gr2 -> added (x :: l) gr gr2.
Lemma added_app l l' gr gr1 gr2 : added l gr gr1 -> added l' gr1 gr2 -> added (l ++ l') gr gr2.
Proof. induction 1; cbn; auto. intros. econstructor; eauto. Qed.

Lemma longest_spec b : proper b -> (forall i, 0 <= i < D -> size b i <= int_max) ->
  exists a, longest D b = OK (size b a, a) /\ 0 <= a < D /\ 1 <= size b a /\ forall i, 0 <= i < D -> size b i <= size b a.
Proof.
  intros Hp Hi. unfold longest.
  destruct (for_inv (fun k s => (k = 0 -> s = (0, 0)) /\ (0 < k -> exists a, s = (size b a, a) /\ 0 <= a < D /\ 1 <= size b a
     /\ forall i, 0 <= i < k -> size b i <= size b a)) 0 D
    (fun i s => let* siz := int32 (snd b i - fst b i) in OK (if fst s <? siz then (siz, i) else s)) (0, 0))
    as (s & E & _ & I); try lia.
  - split; auto. lia.
  - intros k s Hk (I0 & I1). pose proof (Hp k Hk). pose proof (Hi k Hk). unfold size in *.
    rewrite int32_ok by (unfold int_min in *; lia). cbn [bind]. eexists. split; [reflexivity|]. split; [lia|].
    intros _. destruct (Z.eq_dec k 0) as [K0|K0].
    + subst. rewrite I0 by auto. cbn [fst]. destruct (Z.ltb_spec 0 (snd b 0 - fst b 0)); [|lia].
      exists 0. split; auto. split; [lia|]. split; [lia|]. intros i Hi'. replace i with 0 by lia. lia.
    + destruct I1 as (a & -> & Ha & H1 & Hx); [lia|]. cbn [fst].
      destruct (Z.ltb_spec (snd b a - fst b a) (snd b k - fst b k)).
      * exists k. split; auto. split; auto. split; [lia|]. intros i Hi'. destruct (Z.eq_dec i k) as [->|]; [lia|].
        pose proof (Hx i ltac:(lia)). lia.
      * exists a. split; auto. split; auto. split; [lia|]. intros i Hi'. destruct (Z.eq_dec i k) as [->|]; [lia|]. apply Hx. lia.
  - destruct I as (a & -> & Ha & H1 & Hx); [lia|]. exists a. auto.
Qed.

Context (SS : Z).
Notation GS := (vol B * nmom).
Notation step := (vox_step N D P nvp split reduce nmom gind SS GS (fst B) g d).
Notation cond := (fun s : vst N P => 0 <? v_n N P s).
Notation VS := (VS N P).

Lemma leaf_add q (b : box) (gr : Z -> real) mom0 mom : reduce q mom0 = OK mom ->
  (forall i, 0 <= i < D -> fst B i <= fst b i < snd B i) ->
  exists gr', for_ 0 nmom (fun m a =>
       let* i := gind g (fst B) (fst b) m in
       let* x := rd GS a i in
       let* y := rd nmom mom m in
       wr GS a i (nadd N x y)) gr = OK gr' /\ added1 (b, q) gr gr'.
Proof.
  intros Er Hin. pose proof (cell_range _ Hin) as Hc.
  destruct (for_inv (fun k a => (forall m, 0 <= m < k -> a (nmom * cell (fst b) + m) = nadd N (gr (nmom * cell (fst b) + m)) (mom m))
     /\ (forall i, ~ (nmom * cell (fst b) <= i < nmom * cell (fst b) + k) -> a i = gr i)) 0 nmom
     (fun m a => let* i := gind g (fst B) (fst b) m in
       let* x := rd GS a i in
       let* y := rd nmom mom m in
       wr GS a i (nadd N x y)) gr) as (gr' & E & I1 & I2); try lia.
  - split; [lia|auto].
  - intros k a Hk (I1 & I2). rewrite gind_ok by auto. cbn [bind].
    assert (0 <= nmom * cell (fst b) + k < GS) by nia.
    rewrite rd_ok by auto. cbn [bind]. rewrite rd_ok by auto. cbn [bind]. rewrite wr_ok by auto.
    eexists. split; [reflexivity|]. split.
    + intros m Hm. destruct (Z.eq_dec m k) as [->|].
      * rewrite upd_eq. rewrite I2 by lia. reflexivity.
      * rewrite upd_neq by lia. apply I1. lia.
    + intros i Hi. rewrite upd_neq by lia. apply I2. lia.
  - exists gr'. split; auto. exists mom0, mom. cbn. auto.
Qed.

Lemma depth_at b a : proper b -> 0 <= a < D ->
  exists r, 0 <= r /\ depth b = Z.log2_up (size b a) + r
  /\ forall b', (forall i, 0 <= i < D -> i <> a -> size b' i = size b i) -> depth b' = Z.log2_up (size b' a) + r.
Proof.
  intros Hp Ha.
  destruct (suml_at ax (fun i => Z.log2_up (size b i)) a) as (r & Hr & E).
  - apply NoDup_zrange. - now apply in_zrange. - intros. apply Z.log2_up_nonneg.
  - exists r. split; auto. split. { unfold depth. now rewrite E. }
    intros b' Hb. unfold depth. rewrite E; auto. intros i Hi Hne. rewrite Hb; auto. now apply in_zrange.
Qed.
Lemma vol_at b a : proper b -> 0 <= a < D ->
  exists r, 1 <= r /\ vol b = size b a * r
  /\ forall b', (forall i, 0 <= i < D -> i <> a -> size b' i = size b i) -> vol b' = size b' a * r.
Proof.
  intros Hp Ha.
  destruct (prodl_at ax (size b) a) as (r & Hr & E).
  - apply NoDup_zrange. - now apply in_zrange. - intros i Hi. apply in_zrange in Hi. pose proof (Hp i Hi). unfold size. lia.
  - exists r. split; auto. split. { unfold vol. now rewrite E. }
    intros b' Hb. unfold vol. rewrite E; auto. intros i Hi Hne. rewrite Hb; auto. now apply in_zrange.
Qed.
Lemma vol_pos b : proper b -> 1 <= vol b.
Proof. intros Hp. apply prodl_pos. intros i Hi. apply in_zrange in Hi. pose proof (Hp i Hi). unfold size. lia. Qed.
Lemma depth_nonneg b : 0 <= depth b.
Proof. apply suml_nonneg. intros. apply Z.log2_up_nonneg. Qed.

Lemma run_node (c : nat) : forall p b stk s gr mom,
  vol b <= Z.of_nat c -> proper b -> sub_box b B -> Inv (depth b) p -> 0 <= s -> s + depth b + 1 <= SS -> stk s = (p, b) ->
  (exists (k : nat) stk' gr' mom' l, Z.of_nat k <= 2 * vol b - 1
     /\ (forall f, while_ (k + f)%nat cond step (VS stk (s + 1) gr mom) = while_ f cond step (VS stk' s gr' mom'))
     /\ (forall i, i < s -> stk' i = stk i) /\ rast p b l /\ added l gr gr')
  \/ (exists (k : nat), Z.of_nat k <= 2 * vol b - 1
     /\ (forall f, while_ (k + f)%nat cond step (VS stk (s + 1) gr mom) = Err OutOfBounds)
     /\ exists k q o co a, Inv k q /\ 0 < nvp q /\ 0 <= a < D /\ split q o co a = Err OutOfBounds /\ Bad q).
Proof.
  induction c as [c IH] using lt_wf_ind. intros p b stk s gr mom Hc Hp Hs HI Hs0 HSS Es.
  pose proof (vol_pos b Hp) as VP.
  assert (C1 : (fun s => 0 <? v_n N P s) (VS stk (s + 1) gr mom) = true).
  { cbn. apply Z.ltb_lt. lia. }
  assert (St : forall f, while_ (1 + f)%nat cond step (VS stk (s + 1) gr mom) = bind (step (VS stk (s + 1) gr mom)) (while_ f cond step)).
  { intros. change (1 + f)%nat with (Datatypes.S f). now apply while_step. }
  pose proof (depth_nonneg b) as DN.
  unfold vox_step in St at 2. cbn [v_n v_stk v_grid v_mom] in St. replace (s + 1 - 1) with s in St by lia.
  rewrite rd_ok in St by lia. rewrite Es in St. cbn [bind] in St.
  destruct (Z.leb_spec (nvp p) 0) as [L|L].
  { left. exists 1%nat, stk, gr, mom, []. split; [lia|]. split; [intros; rewrite St; reflexivity|]. split; auto.
    split; [now constructor|constructor]. }
  destruct (longest_spec b Hp) as (a & El & Ha & Hsz & Hmax).
  { intros i Hi. pose proof (Hs i Hi). pose proof (HB i Hi). unfold size. lia. }
  rewrite El in St. cbn [bind] in St.
  destruct (Z.eqb_spec (size b a) 1) as [E1|E1].
  { (* leaf *)
    destruct (reduce_ok _ p mom HI L) as (mom' & Er). rewrite Er in St. cbn [bind] in St.
    assert (Hin : forall i, 0 <= i < D -> fst B i <= fst b i < snd B i).
    { intros i Hi. pose proof (Hs i Hi). pose proof (Hp i Hi). lia. }
    destruct (leaf_add p b gr mom mom' Er Hin) as (gr' & Eg & Ad). rewrite Eg in St. cbn [bind] in St.
    left. exists 1%nat, stk, gr', mom', [(b, p)]. split; [lia|]. split; [intros; rewrite St; reflexivity|]. split; auto.
    split; [|econstructor; [exact Ad|constructor]].
    apply rast_leaf; auto. intros i Hi. pose proof (Hp i Hi). pose proof (Hmax i Hi). unfold size in *. lia. }
  (* split *)
  set (h := Z.quot (size b a) 2) in *.
  assert (Eh : h = size b a / 2) by (unfold h; apply Z.quot_div_nonneg; lia).
  assert (Hh : 1 <= h < size b a).
  { rewrite Eh. pose proof (Z.div_mod (size b a) 2 ltac:(lia)). pose proof (Z.mod_pos_bound (size b a) 2 ltac:(lia)). lia. }
  set (m := fst b a + h).
  assert (Hm : fst b a < m < snd b a) by (unfold m, size in *; lia).
  assert (Em : snd b a - (size b a - h) = m) by (unfold m, size; lia). rewrite Em in St. fold m in St.
  destruct (split_boxes b a m Hp Ha Hm) as (P0 & P1 & S0 & S1).
  set (b0 := (fst b, upd (snd b) a m) : box) in *. set (b1 := (upd (fst b) a m, snd b) : box) in *.
  assert (Z0 : forall i, 0 <= i < D -> i <> a -> size b0 i = size b i).
  { intros. unfold size, b0. cbn. now rewrite upd_neq. }
  assert (Z1 : forall i, 0 <= i < D -> i <> a -> size b1 i = size b i).
  { intros. unfold size, b1. cbn. now rewrite upd_neq. }
  assert (A0 : size b0 a = h). { unfold size, b0. cbn. rewrite upd_eq. unfold m. lia. }
  assert (A1 : size b1 a = size b a - h). { unfold size, b1. cbn. rewrite upd_eq. unfold m. lia. }
  destruct (depth_at b a Hp Ha) as (rd' & Hr & Ed & Ed'). pose proof (Ed' b0 Z0) as Ed0. pose proof (Ed' b1 Z1) as Ed1.
  destruct (vol_at b a Hp Ha) as (rv & Hrv & Ev & Ev'). pose proof (Ev' b0 Z0) as Ev0. pose proof (Ev' b1 Z1) as Ev1.
  rewrite A0 in Ed0, Ev0. rewrite A1 in Ed1, Ev1.
  assert (Sz : 2 <= size b a) by lia.
  assert (Dp0 : depth b0 <= depth b - 1). { rewrite Ed0, Ed, Eh. pose proof (log2_up_half' _ Sz). lia. }
  assert (Dp1 : depth b1 = depth b - 1). { rewrite Ed1, Ed, Eh, (log2_up_half _ Sz). lia. }
  assert (Vs : vol b = vol b0 + vol b1) by (rewrite Ev, Ev0, Ev1; nia).
  pose proof (vol_pos b0 P0) as VP0. pose proof (vol_pos b1 P1) as VP1.
  pose proof (depth_nonneg b0) as DN0. pose proof (depth_nonneg b1) as DN1.
  rewrite rd_ok in St by lia. destruct (stk (s + 1)) as [o ob] eqn:Eo. cbn [bind] in St.
  rewrite int32_ok in St. 2: { pose proof (Hs a Ha). pose proof (HB a Ha). lia. }
  cbn [bind] in St.
  destruct (split_ok (depth b) p o (nmul N (d a) (nofZ N m)) a ltac:(lia) HI L Ha) as [(q0 & q1 & Esp & I0 & I1)|(Esp & Hbad)].
  2: { rewrite Esp in St. cbn [bind] in St. right. exists 1%nat. split; [lia|]. split; [intros; rewrite St; reflexivity|].
       exists (depth b), p, o, (nmul N (d a) (nofZ N m)), a. auto. }
  rewrite Esp in St. cbn [bind] in St. rewrite wr_ok in St by lia. cbn [bind] in St. rewrite wr_ok in St by lia. cbn [bind] in St.
  replace (s + 2) with (s + 1 + 1) in St by lia.
  set (stk2 := upd (upd stk s (q0, b0)) (s + 1) (q1, b1)) in *.
  destruct (IH (Z.to_nat (vol b1)) ltac:(lia) q1 b1 stk2 (s + 1) gr mom) as
    [(k1 & stk3 & gr3 & mom3 & l1 & K1 & R1 & F1 & T1 & Ad1)|(k1 & K1 & R1 & W)];
    try assumption; try lia.
  { eapply sub_box_trans; eauto. } { rewrite Dp1. auto. } { unfold stk2. now rewrite upd_eq. }
  2: { right. exists (1 + k1)%nat. split; [lia|]. split; [|exact W]. intros f. rewrite <- Nat.add_assoc, St. apply R1. }
  destruct (IH (Z.to_nat (vol b0)) ltac:(lia) q0 b0 stk3 s gr3 mom3) as
    [(k0 & stk4 & gr4 & mom4 & l0 & K0 & R0 & F0 & T0 & Ad0)|(k0 & K0 & R0 & W)];
    try assumption; try lia.
  { eapply sub_box_trans; eauto. } { eapply inv_mono; [|exact I0]. lia. }
  { rewrite F1 by lia. unfold stk2. rewrite upd_neq by lia. now rewrite upd_eq. }
  2: { right. exists (1 + (k1 + k0))%nat. split; [lia|]. split; [|exact W].
       intros f. rewrite <- !Nat.add_assoc, St, R1. apply R0. }
  left. exists (1 + (k1 + k0))%nat, stk4, gr4, mom4, (l1 ++ l0). split; [lia|].
  split. { intros f. rewrite <- !Nat.add_assoc, St, R1. apply R0. }
  split. { intros i Hi. rewrite F0, F1 by lia. unfold stk2. now rewrite !upd_neq by lia. }
  split; [|eapply added_app; eauto].
  eapply rast_split; eauto.
Qed.
End Vox.

Section Main.
Context (N : num) (D : Z) (HD : 1 <= D).
Notation real := (T N).
Context {P : Type} (nvp : P -> Z) (split : P -> P -> real -> Z -> res (P * P))
  (reduce : P -> (Z -> real) -> res (Z -> real)) (nmom : Z) (Hnm : 0 <= nmom)
  (gind : (Z -> Z) -> (Z -> Z) -> (Z -> Z) -> Z -> res Z) (d : Z -> real).

Lemma gridsz_spec (B : box) : (forall i, 0 <= i < D -> int_min <= snd B i - fst B i <= int_max) ->
  exists g, gridsz D (fst B) (snd B) = OK g /\ forall i, 0 <= i < D -> g i = size B i.
Proof.
  intros H. unfold gridsz.
  destruct (for_inv (fun k g => forall i, 0 <= i < k -> g i = size B i) 0 D
    (fun i g => let* s := int32 (snd B i - fst B i) in OK (upd g i s)) (fun _ => 0)) as (g & E & I); try lia.
  - intros k g Hk I. rewrite int32_ok by auto. cbn [bind]. eexists. split; [reflexivity|].
    intros i Hi. destruct (Z.eq_dec i k) as [->|]; [now rewrite upd_eq|]. rewrite upd_neq by auto. apply I. lia.
  - eauto.
Qed.

(** what the final grid is, in terms of a bisection of the index box *)
Definition gridded (cell : (Z -> Z) -> Z) (l : list (box * P)) (gr gr' : Z -> real) : Prop :=
  (forall x, In x l -> exists mom0 mom, reduce (snd x) mom0 = OK mom
     /\ forall m, 0 <= m < nmom -> gr' (nmom * cell (fst (fst x)) + m) = nadd N (gr (nmom * cell (fst (fst x)) + m)) (mom m))
  /\ (forall i, (forall x, In x l -> ~ (nmom * cell (fst (fst x)) <= i < nmom * cell (fst (fst x)) + nmom)) -> gr' i = gr i).

Lemma added_gridded cell l gr gr' : NoDup (map (fun x => cell (fst (fst x))) l) ->
  added N reduce nmom cell l gr gr' -> gridded cell l gr gr'.
Proof.
  intros ND H. induction H as [gr|x l gr gr1 gr2 (mom0 & mom & Er & A1 & A2) H IH].
  - split; [intros x []|auto].
  - cbn in ND. inversion ND as [|? ? Hni ND']; subst. destruct (IH ND') as (I1 & I2).
    assert (Dj : forall y m, In y l -> 0 <= m < nmom ->
       ~ (nmom * cell (fst (fst x)) <= nmom * cell (fst (fst y)) + m < nmom * cell (fst (fst x)) + nmom)).
    { intros y m Hy Hm X. apply Hni. apply in_map_iff. exists y. split; auto.
      assert (cell (fst (fst y)) < cell (fst (fst x)) + 1) by nia. assert (cell (fst (fst x)) < cell (fst (fst y)) + 1) by nia. lia. }
    split.
    + intros y [->|Hy].
      * exists mom0, mom. split; auto. intros m Hm. rewrite I2; auto.
        intros z Hz X. assert (Hni' : cell (fst (fst z)) <> cell (fst (fst y))).
        { intros E. apply Hni. apply in_map_iff. eauto. }
        assert (cell (fst (fst y)) < cell (fst (fst z)) + 1) by nia. assert (cell (fst (fst z)) < cell (fst (fst y)) + 1) by nia. lia.
      * destruct (I1 y Hy) as (m0 & m1 & E & F). exists m0, m1. split; auto. intros m Hm. rewrite F by auto.
        now rewrite A2 by (apply Dj; auto).
    + intros i Hi. rewrite I2. { apply A2. apply Hi. now left. } intros y Hy. apply Hi. now right.
Qed.

Context (Inv : Z -> P -> Prop) (Bad : P -> Prop).
Context (inv_mono : forall k k' p, k' <= k -> Inv k p -> Inv k' p).
Context (split_ok : forall k p o c a, 1 <= k -> Inv k p -> 0 < nvp p -> 0 <= a < D ->
  (exists q0 q1, split p o c a = OK (q0, q1) /\ Inv (k - 1) q0 /\ Inv (k - 1) q1)
  \/ (split p o c a = Err OutOfBounds /\ Bad p)).
Context (reduce_ok : forall k p mom, Inv k p -> 0 < nvp p -> exists mom', reduce p mom = OK mom').
Context (B : box) (cell : (Z -> Z) -> Z) (Hpr : proper D B).
Context (HB : forall i, 0 <= i < D -> int_min <= fst B i /\ snd B i <= int_max /\ snd B i - fst B i <= int_max).
Context (gind_ok : forall g c m, (forall i, 0 <= i < D -> g i = size B i) ->
  (forall i, 0 <= i < D -> fst B i <= c i < snd B i) -> 0 <= m < nmom ->
  gind g (fst B) c m = OK (nmom * cell c + m)).
Context (cell_range : forall c, (forall i, 0 <= i < D -> fst B i <= c i < snd B i) -> 0 <= cell c < vol D B).
Context (cell_inj : forall c c', (forall i, 0 <= i < D -> fst B i <= c i < snd B i) ->
  (forall i, 0 <= i < D -> fst B i <= c' i < snd B i) -> cell c = cell c' -> forall i, 0 <= i < D -> c i = c' i).

Theorem voxelize_spec stk0 mom0 p gr : Inv (depth D B) p -> 0 < nvp p ->
  (exists gr' l, voxelize N D P nvp split reduce nmom gind stk0 mom0 p B gr d = OK gr'
     /\ rast N D nvp split d p B l /\ NoDup (map (fun x => cell (fst (fst x))) l) /\ gridded cell l gr gr')
  \/ (voxelize N D P nvp split reduce nmom gind stk0 mom0 p B gr d = Err OutOfBounds
     /\ exists k q o co a, Inv k q /\ 0 < nvp q /\ 0 <= a < D /\ split q o co a = Err OutOfBounds /\ Bad q).
Proof.
  intros HI Hn. unfold voxelize.
  destruct (gridsz_spec B) as (g & Eg & Hg).
  { intros i Hi. pose proof (HB i Hi). pose proof (Hpr i Hi). unfold int_min in *. lia. }
  rewrite Eg. cbn [bind].
  assert (Ap : all_pos D g = true).
  { unfold all_pos. apply forallb_forall. intros i Hi. change (In i (zrange D)) in Hi. apply in_zrange in Hi. rewrite Hg by auto. apply Z.ltb_lt. pose proof (Hpr i Hi). unfold size. lia. }
  destruct (Z.leb_spec (nvp p) 0); [lia|]. rewrite Ap. cbn [orb negb].
  assert (Cl : cells D g = vol D B).
  { unfold cells, vol. rewrite prodl_fold. apply prodl_ext. intros i Hi. apply Hg. now apply in_zrange. }
  assert (Sk : stack_size D g = depth D B + 1).
  { unfold stack_size, depth. change (map Z.of_nat (seq 0 (Z.to_nat D))) with (zrange D).
    assert (G : forall l, (forall i, In i l -> 0 <= i < D) -> fold_right (fun i acc => Z.log2_up (g i) + acc) 1 l = suml l (fun i => Z.log2_up (size B i)) + 1).
    { induction l as [|a l IH]; cbn; intros; auto. rewrite IH by auto. rewrite Hg by auto. lia. }
    apply G. intros. now apply in_zrange. }
  pose proof (depth_nonneg D B). pose proof (vol_pos D B Hpr).
  rewrite wr_ok by lia. cbn [bind]. rewrite Cl.
  set (stk := upd stk0 0 (p, B)).
  destruct (run_node N D HD nvp split reduce nmom Hnm gind d Inv Bad inv_mono split_ok reduce_ok B g cell HB
      (fun c m => gind_ok g c m Hg) cell_range (stack_size D g) (Z.to_nat (vol D B)) p B stk 0 gr mom0)
    as [(k & stk' & gr' & mom' & l & K & R & _ & T & A)|(k & K & R & W)]; auto; try lia.
  { apply sub_box_refl. }
  - left. exists gr', l. change (0 + 1) with 1 in R.
    replace (2 * Z.to_nat (vol D B))%nat with (k + (2 * Z.to_nat (vol D B) - k))%nat by lia. rewrite R.
    assert (E : forall f b, while_ f (fun s : vst N P => 0 <? v_n N P s) b (VS N P stk' 0 gr' mom') = OK (VS N P stk' 0 gr' mom')).
    { intros f b. destruct f; reflexivity. }
    rewrite E. cbn [bind v_grid]. split; auto. split; auto.
    assert (ND : NoDup (map (fun x => cell (fst (fst x))) l)).
    { eapply rast_distinct; eauto. apply sub_box_refl. }
    split; auto. now apply added_gridded.
  - right. change (0 + 1) with 1 in R.
    replace (2 * Z.to_nat (vol D B))%nat with (k + (2 * Z.to_nat (vol D B) - k))%nat by lia. rewrite R. cbn [bind]. auto.
Qed.
End Main.
