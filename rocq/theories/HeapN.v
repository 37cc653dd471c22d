(** * HeapN: [rNd_det] visits every permutation once, with its sign. *)
From Coq Require Import Reals ZArith List Bool Lia Lra Permutation.
From Verif Require Import Base Lib ModelN RealNum SumR SpecN PermsN HeapPos.
Import ListNotations.
Open Scope Z_scope.


Section Heap.
Variable D : Z.
Hypothesis HD : 1 <= D.
Variable mat : Z -> Z -> R.

Notation arr p := (map p (zrange D)).
Notation sh := (fun x => (D - 1 + x) mod D).
Definition inj (p : Z -> Z) : Prop := forall i j, 0 <= i < D -> 0 <= j < D -> p i = p j -> i = j.

Lemma arr_ext (p q : Z -> Z) : (forall i, 0 <= i < D -> p i = q i) -> arr p = arr q.
Proof. intros E. apply map_ext_in. intros i Hi. apply in_zrange in Hi. auto. Qed.
Lemma arr_inj (p q : Z -> Z) : arr p = arr q -> forall i, 0 <= i < D -> p i = q i.
Proof.
  intros E i Hi. apply (f_equal (fun l => nth (Z.to_nat i) l (p 0))) in E.
  assert (En : forall f : Z -> Z, nth (Z.to_nat i) (arr f) (p 0) = f i).
  { intros f. rewrite (nth_indep _ _ (f 0)) by (rewrite map_length, length_zrange_nat; lia).
    rewrite map_nth. f_equal. unfold zrange. rewrite (nth_indep _ _ (Z.of_nat 0)) by (rewrite map_length, seq_length; lia).
    rewrite map_nth, seq_nth by lia. lia. }
  rewrite !En in E. auto.
Qed.

(** ** the term added in one round *)
Lemma diag_snoc m i l x : diag m i (l ++ [x]) = (diag m i l * m (i + Z.of_nat (length l))%Z x)%R.
Proof.
  revert i. induction l as [|y l IH]; intros i; cbn [app diag length].
  - rewrite Z.add_0_r. lra.
  - rewrite IH. replace (i + 1 + Z.of_nat (length l)) with (i + Z.of_nat (Datatypes.S (length l))) by lia. lra.
Qed.
Lemma det_term_spec par perm :
  det_term RN D mat par perm = OK (IZR par * diag mat 0%Z (map sh (arr perm)))%R.
Proof.
  unfold det_term.
  match goal with |- for_ 0 D ?bd _ = _ => set (body := bd) end.
  destruct (for_inv (fun i (s : R) => i = 0 \/ s = (IZR par * diag mat 0%Z (map (fun x => ((i - 1 + x) mod D)%Z) (arr perm)))%R)
     0 D body (n0 RN)) as (s & E & [C|Es]); auto; try lia.
  - intros i s Hi _. unfold body.
    match goal with |- exists s', for_ 0 D ?bd _ = OK s' /\ _ => set (inner := bd) end.
    destruct (for_inv (fun j (t : R) => t = (IZR par * diag mat 0%Z (map (fun x => ((i + x) mod D)%Z) (map perm (zrange j))))%R)
     0 D inner (nmul RN (n1 RN) (nofZ RN par))) as (t & Et & ->); try lia.
    + cbn. lra.
    + intros j t Hj ->. unfold inner. rewrite rd_ok by lia. cbn [bind]. eexists. split; [reflexivity|].
      rewrite zrange_succ, !map_app by lia. cbn [map]. rewrite diag_snoc, !map_length, length_zrange_nat.
      rewrite Z2Nat.id by lia. cbn [nmul RN Z.add]. lra.
    + exists (IZR par * diag mat 0%Z (map (fun x => ((i + x) mod D)%Z) (arr perm)))%R. split; [exact Et|].
      right. f_equal. f_equal. apply map_ext. intros. f_equal. lia.
  - rewrite Es in E. exact E.
Qed.

(** ** swapping *)
Lemma zrange_at a n : 0 <= a < n -> exists r, zrange n = zrange a ++ a :: r.
Proof.
  intros H. exists (map (fun k => a + 1 + Z.of_nat k) (seq 0 (Z.to_nat (n - a - 1)))).
  unfold zrange. replace (Z.to_nat n) with (Z.to_nat a + Datatypes.S (Z.to_nat (n - a - 1)))%nat by lia.
  rewrite seq_app, map_app. cbn [seq map Nat.add]. f_equal. f_equal; [lia|].
  assert (G : forall k b, map Z.of_nat (seq b k) = map (fun j => Z.of_nat b + Z.of_nat j) (seq 0 k)).
  { induction k as [|k IH]; intros b; cbn [seq map]; auto. f_equal; [lia|]. rewrite IH, <- seq_shift, map_map.
    apply map_ext. intros; lia. }
  rewrite G. apply map_ext. intros; lia.
Qed.
Lemma sgn_swp p a b : 0 <= a < b -> b < D -> inj p -> sgn (arr (fun i => p (swp a b i))) = (- sgn (arr p))%R.
Proof.
  intros Ha Hb I.
  destruct (zrange_at b D ltac:(lia)) as (l3 & E3). destruct (zrange_at a b ltac:(lia)) as (l2 & E2).
  assert (E : zrange D = zrange a ++ a :: l2 ++ b :: l3) by (rewrite E3, E2, <- app_assoc; reflexivity).
  assert (ND := NoDup_zrange D). rewrite E in ND.
  assert (Fix : forall l, ~ In a l -> ~ In b l -> map (fun i => p (swp a b i)) l = map p l).
  { intros l Na Nb. apply map_ext_in. intros i Hi. rewrite swp_high; auto; intros ->; auto. }
  pose proof (NoDup_remove_2 _ _ _ ND) as N1.
  assert (ND' := ND). rewrite app_comm_cons, app_assoc in ND'. pose proof (NoDup_remove_2 _ _ _ ND') as N2.
  rewrite !in_app_iff in N1, N2. cbn [In] in N1, N2.
  rewrite E. rewrite !map_app. cbn [map]. rewrite !map_app. cbn [map]. 
  rewrite !Fix by tauto.
  replace (swp a b a) with b by (unfold swp; zc). replace (swp a b b) with a by (unfold swp; zc).
  assert (R2 : forall x, In x l2 -> 0 <= x < D /\ x <> a /\ x <> b).
  { intros x Hx. split; [|split; intros ->; tauto]. apply in_zrange. rewrite E, in_app_iff; cbn; rewrite in_app_iff; auto. }
  apply sgn_swap.
  - intros C. apply I in C; lia.
  - rewrite in_map_iff. intros (x & C & Hx). destruct (R2 x Hx) as (? & ? & ?). apply I in C; lia.
  - rewrite in_map_iff. intros (x & C & Hx). destruct (R2 x Hx) as (? & ? & ?). apply I in C; lia.
Qed.

(** ** the loop *)
Notation cond := (fun s : dst RN => Z.ltb (d_n RN s) D).
Notation step := (det_step RN D mat).
Definition runs (s s' : dst RN) : Prop :=
  exists k, forall f, while_ (k + f) cond step s = while_ f cond step s'.
Lemma runs_refl s : runs s s. Proof. now exists O. Qed.
Lemma runs_trans s1 s2 s3 : runs s1 s2 -> runs s2 s3 -> runs s1 s3.
Proof.
  intros (k1 & E1) (k2 & E2). exists (k1 + k2)%nat. intros f. rewrite <- Nat.add_assoc, E1. apply E2.
Qed.
Lemma runs_step s s' : d_n RN s < D -> step s = OK s' -> runs s s'.
Proof.
  intros C E. exists 1%nat. intros f. cbn [Nat.add while_]. destruct (Z.ltb_spec (d_n RN s) D); [|lia].
  rewrite E. reflexivity.
Qed.

Variable s0 : R.
Definition g (l : list Z) : R := (s0 * sgn l * diag mat 0%Z (map sh l))%R.

(** arrangements that differ from [p] in positions [0 .. m] only *)
Definition arrangement (m : Z) (p q : Z -> Z) : Prop :=
  inj q /\ (forall i, m < i < D -> q i = p i)
  /\ (forall i, 0 <= i <= m -> exists j, 0 <= j <= m /\ q i = p j).

Lemma X_inj_arr m k p p' : 1 <= m < D -> Z.of_nat k <= m -> inj p ->
  (forall i, 0 <= i < D -> p' i = p (X m k i)) -> inj p'.
Proof.
  intros Hm Hk I E i j Hi Hj. rewrite !E by auto. intros C.
  assert (R : forall i, 0 <= i < D -> 0 <= X m k i < D).
  { intros x Hx. destruct (Z_lt_dec m x); [rewrite X_high; lia|]. assert (0 <= X m k x <= m) by (apply X_rng; lia). lia. }
  apply I in C; auto. apply X_inj in C; auto; lia.
Qed.

(** round [k] of level [m] covers the arrangements with the right last entry *)
Lemma arrangement_round m k p pk q : 1 <= m < D -> Z.of_nat k <= m -> inj p ->
  (forall i, 0 <= i < D -> pk i = p (X m k i)) ->
  (arrangement (m - 1) pk q <-> arrangement m p q /\ q m = p (X m k m)).
Proof.
  intros Hm Hk I E. unfold arrangement. split.
  - intros (Iq & A & B). assert (Em : q m = p (X m k m)) by (rewrite A, E by lia; auto).
    split; auto. split; auto. split.
    + intros i Hi. rewrite A by lia. rewrite E by lia. rewrite X_high by lia. auto.
    + intros i Hi. destruct (Z.eq_dec i m) as [->|].
      * exists (X m k m). split; auto. apply X_rng; lia.
      * destruct (B i ltac:(lia)) as (j & Hj & ->). exists (X m k j). split; [apply X_rng; lia|]. apply E. lia.
  - intros ((Iq & A & B) & Em). split; auto. split.
    + intros i Hi. rewrite E by lia. destruct (Z.eq_dec i m) as [->|]; auto. rewrite X_high by lia. apply A. lia.
    + intros i Hi. destruct (B i ltac:(lia)) as (j & Hj & Ej).
      destruct (X_surj m k j ltac:(lia) Hk Hj) as (x & Hx & Ex). exists x. rewrite E, Ex by lia. split; auto.
      assert (x <> m); [|lia]. intros ->. assert (i = m); [|lia]. apply Iq; try lia. rewrite Ej, Em, Ex. auto.
Qed.

Lemma in_rng_arr p : inj p -> NoDup (arr p).
Proof.
  intros I. apply NoDup_nth with (d := p 0). intros a b Ha Hb E. rewrite map_length, length_zrange_nat in Ha, Hb.
  assert (En : forall k, (k < Z.to_nat D)%nat -> nth k (arr p) (p 0) = p (Z.of_nat k)).
  { intros k Hk. rewrite map_nth. f_equal. unfold zrange. change 0 with (Z.of_nat 0). rewrite map_nth, seq_nth by lia. reflexivity. }
  rewrite !En in E by auto. apply I in E; lia.
Qed.

Definition level_ok (m : Z) : Prop := forall perm c par dt,
  (forall i, 1 <= i <= m -> c i = 0) -> inj perm -> IZR par = (s0 * sgn (arr perm))%R ->
  exists perm' c' par' l,
    runs (DS RN perm c 1 par dt) (DS RN perm' c' (m + 1) par' (dt + lsum l g)%R)
    /\ (forall i, c' i = c i)
    /\ (forall i, 0 <= i < D -> perm' i = perm (hp m i))
    /\ IZR par' = (s0 * sgn (arr perm'))%R
    /\ NoDup (arr perm :: l)
    /\ (forall y, In y (arr perm :: l) <-> exists q, y = arr q /\ arrangement m perm q).

Lemma level_0 : level_ok 0.
Proof.
  intros perm c par dt C I P. exists perm, c, par, []. split; [cbn; rewrite Rplus_0_r; apply runs_refl|].
  split; auto. split; [|split; auto; split].
  - intros i Hi. f_equal. destruct (Z.eq_dec i 0) as [->|]; [reflexivity|]. rewrite hp_high; lia.
  - repeat constructor. auto.
  - intros y. cbn [In]. split.
    + intros [<-|[]]. exists perm. split; auto. split; auto. split; auto. intros i Hi. exists i. split; auto; lia.
    + intros (q & -> & _ & A & B). left. apply arr_ext. intros i Hi. destruct (Z.eq_dec i 0) as [->|].
      * destruct (B 0 ltac:(lia)) as (j & Hj & ->). f_equal. lia.
      * symmetry. apply A. lia.
Qed.

Lemma NoDup_app3 {A} (l l' : list A) : NoDup l -> NoDup l' -> (forall y, In y l -> ~ In y l') -> NoDup (l ++ l').
Proof.
  intros N N' Dj. induction l as [|a l IH]; cbn; auto. inversion N; subst. constructor.
  - rewrite in_app_iff. intros [C|C]; auto. apply (Dj a); cbn; auto.
  - apply IH; auto. intros y Hy. apply Dj. now right.
Qed.

Section Level.
Variable m : Z.
Hypothesis Hm : 1 <= m < D.
Hypothesis IH : level_ok (m - 1).
Variables (perm c : Z -> Z) (par : Z) (dt : R).
Hypothesis C0 : forall i, 1 <= i <= m -> c i = 0.
Hypothesis I0 : inj perm.
Hypothesis P0 : IZR par = (s0 * sgn (arr perm))%R.

(** start of round [k] *)
Definition round_inv (k : nat) : Prop := exists pk ck park l,
    runs (DS RN perm c 1 par dt) (DS RN pk ck 1 park (dt + lsum l g)%R)
    /\ ck m = Z.of_nat k /\ (forall i, i <> m -> ck i = c i)
    /\ (forall i, 0 <= i < D -> pk i = perm (X m k i))
    /\ IZR park = (s0 * sgn (arr pk))%R
    /\ NoDup (arr perm :: l)
    /\ (forall y, In y (arr perm :: l) <-> y = arr pk \/ exists q, y = arr q /\ arrangement m perm q
          /\ exists k', (k' < k)%nat /\ q m = perm (X m k' m)).
(** end of round [k], before the test at level [m] *)
Definition round_end (k : nat) : Prop := exists pk ck park l,
    runs (DS RN perm c 1 par dt) (DS RN pk ck m park (dt + lsum l g)%R)
    /\ ck m = Z.of_nat k /\ (forall i, i <> m -> ck i = c i)
    /\ (forall i, 0 <= i < D -> pk i = perm (X m k (hp (m - 1) i)))
    /\ IZR park = (s0 * sgn (arr pk))%R
    /\ NoDup (arr perm :: l)
    /\ (forall y, In y (arr perm :: l) <-> exists q, y = arr q /\ arrangement m perm q
          /\ exists k', (k' <= k)%nat /\ q m = perm (X m k' m)).

Lemma round_0 : round_inv 0.
Proof.
  exists perm, c, par, []. split; [cbn; rewrite Rplus_0_r; apply runs_refl|].
  split; [apply C0; lia|]. split; auto. split; auto. split; auto. split; [repeat constructor; auto|].
  intros y. cbn [In]. split; [intros [<-|[]]; auto|]. intros [->|(q & _ & _ & k' & ? & _)]; auto; lia.
Qed.

Lemma hp_rng_D i : 0 <= i < D -> 0 <= hp (m - 1) i < D.
Proof.
  intros Hi. destruct (Z_lt_dec (m - 1) i); [rewrite hp_high; lia|].
  assert (0 <= hp (m - 1) i <= m - 1) by (apply hp_rng; lia). lia.
Qed.

Lemma round_run k : Z.of_nat k <= m -> round_inv k -> round_end k.
Proof.
  intros Hk (pk & ck & park & l & Rn & Cm & Co & Pk & Sk & ND & L).
  assert (Ik : inj pk) by (apply (X_inj_arr m k perm); auto).
  destruct (IH pk ck park (dt + lsum l g)%R) as (p' & c' & par' & l' & Rn' & Cc & Pp & Sp & ND' & L'); auto.
  { intros i Hi. rewrite Co by lia. apply C0. lia. }
  replace (m - 1 + 1) with m in Rn' by lia.
  exists p', c', par', (l ++ l'). split; [|split; [|split; [|split; [|split; [|split]]]]]; auto.
  - eapply runs_trans; [apply Rn|]. rewrite lsum_app, <- Rplus_assoc. exact Rn'.
  - rewrite Cc. auto.
  - intros i Hi. rewrite Cc. auto.
  - intros i Hi. rewrite Pp by auto. apply Pk. now apply hp_rng_D.
  - assert (In (arr pk) (arr perm :: l)) by (apply L; auto).
    rewrite app_comm_cons. apply NoDup_app3; auto; [now inversion ND'|].
    intros y Hy Hy'. apply L in Hy. destruct Hy as [->|(q & -> & Aq & k' & Hk' & Eq)].
    + inversion ND'; auto.
    + destruct (proj1 (L' (arr q)) (or_intror Hy')) as (q' & E & Aq').
      apply (arrangement_round m k perm) in Aq'; auto. destruct Aq' as (_ & Em).
      pose proof (arr_inj _ _ E m ltac:(lia)) as Ec. rewrite Eq, Em in Ec.
      assert (X m k' m = X m k m).
      { pose proof (X_rng m k' m ltac:(lia) ltac:(lia)). pose proof (X_rng m k m ltac:(lia) ltac:(lia)). apply I0; auto; lia. }
      apply X_last_inj in H0; lia.
  - intros y. rewrite app_comm_cons, in_app_iff. split.
    + intros [Hy|Hy].
      * apply L in Hy. destruct Hy as [->|(q & -> & Aq & k' & Hk' & Eq)].
        -- destruct (proj1 (L' (arr pk)) (or_introl eq_refl)) as (q & E & Aq).
           apply (arrangement_round m k perm) in Aq; auto. destruct Aq. exists q. split; auto. split; auto. exists k. auto.
        -- exists q. split; auto. split; auto. exists k'. split; auto. lia.
      * destruct (proj1 (L' y) (or_intror Hy)) as (q & -> & Aq).
        apply (arrangement_round m k perm) in Aq; auto. destruct Aq. exists q. split; auto. split; auto. exists k. auto.
    + intros (q & -> & Aq & k' & Hk' & Eq). destruct (Nat.eq_dec k' k) as [->|].
      * assert (A' : arrangement (m - 1) pk q) by (apply (arrangement_round m k perm); auto).
        destruct (proj2 (L' (arr q)) (ex_intro _ q (conj eq_refl A'))) as [E|E]; auto.
        left. apply L. left. auto.
      * left. apply L. right. exists q. split; auto. split; auto. exists k'. split; auto. lia.
Qed.

Lemma round_next k : Z.of_nat k < m -> round_end k -> round_inv (Datatypes.S k).
Proof.
  intros Hk (pk & ck & park & l & Rn & Cm & Co & Pk & Sk & ND & L).
  pose proof (js_rng m (Z.of_nat k) ltac:(lia) ltac:(lia)) as Hj. unfold js in Hj. set (j := Z.rem m 2 * Z.of_nat k) in *.
  assert (Ik : inj pk).
  { intros a b Ha Hb. rewrite !Pk by auto. intros E.
    assert (I' : inj (fun i => perm (X m k i))) by (apply (X_inj_arr m k perm); auto; lia).
    apply I' in E; try (apply hp_rng_D; auto). apply hp_inj in E; auto. lia. }
  set (pn := upd (upd pk j (pk m)) m (pk j)).
  assert (Pn : forall i, pn i = pk (swp j m i)).
  { intros i. unfold pn, upd, swp. zc; subst; auto; lia. }
  assert (Px : forall i, 0 <= i < D -> pn i = perm (X m (Datatypes.S k) i)).
  { intros i Hi. rewrite Pn. cbn [X]. unfold js. fold j. apply Pk. unfold swp. zc. }
  assert (In_ : inj pn) by (apply (X_inj_arr m (Datatypes.S k) perm); auto; lia).
  assert (Sn : IZR (- park) = (s0 * sgn (arr pn))%R).
  { rewrite (arr_ext pn (fun i => pk (swp j m i))) by auto. rewrite sgn_swp by (auto || lia). rewrite opp_IZR, Sk. lra. }
  exists pn, (upd ck m (Z.of_nat k + 1)), (- park), (l ++ [arr pn]).
  split; [|split; [|split; [|split; [|split; [|split]]]]]; auto.
  - eapply runs_trans; [apply Rn|]. apply runs_step; [cbn; lia|].
    unfold det_step. cbn [d_n d_c d_perm d_par d_det]. rewrite rd_ok by lia. cbn [bind]. rewrite Cm.
    destruct (Z.ltb_spec (Z.of_nat k) m); [|lia]. fold j.
    rewrite rd_ok by lia. cbn [bind]. rewrite rd_ok by lia. cbn [bind]. rewrite wr_ok by lia. cbn [bind].
    rewrite wr_ok by lia. cbn [bind]. rewrite wr_ok by lia. cbn [bind]. fold pn. rewrite det_term_spec. cbn [bind].
    do 2 f_equal. rewrite lsum_app. cbn [lsum nadd RN]. change (g (arr pn)) with (s0 * sgn (arr pn) * diag mat 0%Z (map sh (arr pn)))%R. rewrite Sn. lra.
  - rewrite upd_eq. lia.
  - intros i Hi. rewrite upd_neq by auto. auto.
  - rewrite app_comm_cons. apply NoDup_app3; auto; [repeat constructor; auto|].
    intros y Hy [<-|[]]. apply L in Hy. destruct Hy as (q & E & _ & k' & Hk' & Eq).
    pose proof (arr_inj _ _ E m ltac:(lia)) as Ec. rewrite Eq, Px in Ec by lia.
    pose proof (X_rng m k' m ltac:(lia) ltac:(lia)). pose proof (X_rng m (Datatypes.S k) m ltac:(lia) ltac:(lia)).
    apply I0 in Ec; try lia. apply X_last_inj in Ec; lia.
  - intros y. rewrite app_comm_cons, in_app_iff, L. cbn [In]. split.
    + intros [(q & -> & Aq & k' & Hk' & Eq)|[<-|[]]]; auto. right. exists q. split; auto. split; auto. exists k'. split; auto. lia.
    + intros [->|(q & -> & Aq & k' & Hk' & Eq)]; auto. left. exists q. split; auto. split; auto. exists k'. split; auto. lia.
Qed.

Lemma round_all k : Z.of_nat k <= m -> round_end k.
Proof.
  induction k as [|k IHk]; intros Hk; apply round_run; auto.
  - apply round_0.
  - apply round_next; [lia|]. apply IHk. lia.
Qed.

Lemma level_step : exists perm' c' par' l,
    runs (DS RN perm c 1 par dt) (DS RN perm' c' (m + 1) par' (dt + lsum l g)%R)
    /\ (forall i, c' i = c i)
    /\ (forall i, 0 <= i < D -> perm' i = perm (hp m i))
    /\ IZR par' = (s0 * sgn (arr perm'))%R
    /\ NoDup (arr perm :: l)
    /\ (forall y, In y (arr perm :: l) <-> exists q, y = arr q /\ arrangement m perm q).
Proof.
  destruct (round_all (Z.to_nat m) ltac:(lia)) as (pk & ck & park & l & Rn & Cm & Co & Pk & Sk & ND & L).
  exists pk, (upd ck m 0), park, l. split; [|split; [|split; [|split; [|split]]]]; auto.
  - eapply runs_trans; [apply Rn|]. apply runs_step; [cbn; lia|].
    unfold det_step. cbn [d_n d_c d_perm d_par d_det]. rewrite rd_ok by lia. cbn [bind]. rewrite Cm.
    destruct (Z.ltb_spec (Z.of_nat (Z.to_nat m)) m); [lia|]. rewrite wr_ok by lia. reflexivity.
  - intros i. unfold upd. destruct (Z.eqb_spec i m) as [->|]; auto. symmetry. apply C0. lia.
  - intros i Hi. rewrite Pk by auto. f_equal. apply X_end; lia.
  - intros y. rewrite L. split.
    + intros (q & -> & Aq & _). eauto.
    + intros (q & -> & Aq). exists q. split; auto. split; auto.
      destruct Aq as (_ & _ & B). destruct (B m ltac:(lia)) as (j & Hj & Ej).
      destruct (X_last_surj m j ltac:(lia) Hj) as (k & Hk & Ek). exists k. split; [lia|]. now rewrite Ek.
Qed.
End Level.

Lemma levels (m : nat) : Z.of_nat m < D -> level_ok (Z.of_nat m).
Proof.
  induction m as [|m IHm]; intros Hm; [apply level_0|].
  intros perm c par dt C I P. apply level_step; auto; [lia|].
  replace (Z.of_nat (Datatypes.S m) - 1) with (Z.of_nat m) by lia. apply IHm. lia.
Qed.
End Heap.

(** ** the whole function *)
Lemma par_sign D : 1 <= D -> IZR (2 * Z.rem D 2 - 1) = ((-1) ^ (Z.to_nat D - 1))%R.
Proof.
  intros H. destruct (Z.Even_or_Odd D) as [(q & ->)|(q & ->)].
  - rewrite Z.rem_mod_nonneg by lia. replace (2 * q) with (0 + q * 2) at 1 by ring. rewrite Z.mod_add by lia.
    change (0 mod 2) with 0. replace (Z.to_nat (2 * q) - 1)%nat with (Datatypes.S (2 * Z.to_nat (q - 1))) by lia.
    rewrite pow_1_odd. reflexivity.
  - rewrite Z.rem_mod_nonneg by lia. replace (2 * q + 1) with (1 + q * 2) at 1 by ring. rewrite Z.mod_add by lia.
    change (1 mod 2) with 1. replace (Z.to_nat (2 * q + 1) - 1)%nat with (2 * Z.to_nat q)%nat by lia.
    rewrite pow_1_even. reflexivity.
Qed.

Lemma while_stop {S} fuel (cond : S -> bool) body s : cond s = false -> while_ fuel cond body s = OK s.
Proof. intros E. destruct fuel; cbn [while_]; rewrite E; reflexivity. Qed.

Lemma sgn_zrange n : sgn (zrange n) = 1%R.
Proof.
  unfold zrange. generalize (Z.to_nat n) as k. intros k. generalize 0%nat as b. induction k as [|k IH]; intros b; cbn [seq map sgn]; auto.
  rewrite IH. assert (E : forall l, (forall y, In y l -> Z.of_nat b < y) -> below (Z.of_nat b) l = 1%R).
  { clear. induction l as [|y l IH]; cbn [below]; intros H; auto. rewrite IH by (intros; apply H; cbn; auto).
    destruct (Z.ltb_spec (Z.of_nat b) y); [lra|]. specialize (H y (or_introl eq_refl)). lia. }
  rewrite E; [lra|]. intros y Hy. apply in_map_iff in Hy. destruct Hy as (x & <- & Hx). apply in_seq in Hx. lia.
Qed.

Lemma NoDup_perm_zrange D l : 0 <= D -> NoDup l -> (forall x, In x l -> 0 <= x < D) -> length l = Z.to_nat D ->
  Permutation l (zrange D).
Proof.
  intros HD ND R Ln. apply NoDup_Permutation_bis; auto.
  - rewrite length_zrange_nat. lia.
  - intros x Hx. apply in_zrange. auto.
Qed.

Theorem rNd_det_spec D (mat : Z -> Z -> R) : 1 <= D ->
  exists F, forall fuel, (F <= fuel)%nat -> rNd_det RN D fuel mat = OK (det D mat).
Proof.
  intros HD. unfold rNd_det. rewrite det_term_spec by auto. cbn [bind].
  set (s0 := ((-1) ^ (Z.to_nat D - 1))%R).
  pose (sh := fun x => (D - 1 + x) mod D).
  assert (I : inj D (fun i => i)) by (intros i j _ _ E; exact E).
  assert (Em : map (fun i => i) (zrange D) = zrange D) by apply map_id.
  destruct (levels D HD mat s0 (Z.to_nat (D - 1)) ltac:(lia) (fun i => i) (fun _ => 0) (2 * Z.rem D 2 - 1)
     (0 + IZR (2 * Z.rem D 2 - 1) * diag mat 0 (map sh (map (fun i => i) (zrange D))))%R)
    as (p' & c' & par' & l & (k & Rn) & _ & _ & _ & ND & L); auto.
  { rewrite Em, sgn_zrange, par_sign by auto. unfold s0. lra. }
  exists k. intros fuel Hf. replace fuel with (k + (fuel - k))%nat by lia.
  change (fun x : Z => (D - 1 + x) mod D) with sh.
  match goal with |- context [while_ ?F ?C ?S (DS ?N ?p ?c ?n ?pr ?d)] =>
    change (while_ F C S (DS N p c n pr d)) with
    (while_ (k + (fuel - k)) (fun s : dst RN => Z.ltb (d_n RN s) D) (det_step RN D mat)
      (DS RN (fun i => i) (fun _ => 0) 1 (2 * Z.rem D 2 - 1)
        (0 + IZR (2 * Z.rem D 2 - 1) * diag mat 0 (map sh (map (fun i => i) (zrange D))))%R)) end.
  rewrite Rn. rewrite while_stop by (cbn; destruct (Z.ltb_spec (Z.of_nat (Z.to_nat (D - 1)) + 1) D); auto; lia).
  cbn [bind d_det]. f_equal.
  rewrite Em in *.
  assert (E : (0 + IZR (2 * Z.rem D 2 - 1) * diag mat 0 (map sh (zrange D)) + lsum l (g D mat s0) = lsum (zrange D :: l) (g D mat s0))%R).
  { cbn [lsum]. unfold g at 2. rewrite sgn_zrange, par_sign by auto. fold s0. fold sh. lra. }
  refine (eq_trans E _). unfold det.
  assert (In_iff : forall y, In y (zrange D :: l) <-> Permutation y (zrange D)).
  { intros y. rewrite L. replace (Z.of_nat (Z.to_nat (D - 1))) with (D - 1) by lia. split.
    - intros (q & -> & Iq & _ & B). apply NoDup_perm_zrange; [lia| | |now rewrite map_length, length_zrange_nat].
      + now apply in_rng_arr.
      + intros x Hx. apply in_map_iff in Hx. destruct Hx as (i & <- & Hi). apply in_zrange in Hi.
        destruct (B i ltac:(lia)) as (j & Hj & ->). lia.
    - intros P. set (q := fun i => nth (Z.to_nat i) y 0).
      assert (Ln : length y = Z.to_nat D) by (rewrite (Permutation_length P), length_zrange_nat; auto).
      assert (Ny : NoDup y) by (eapply Permutation_NoDup; [symmetry; apply P|apply NoDup_zrange]).
      exists q. split; [|split; [|split]].
      + apply nth_ext with (d := 0) (d' := q 0); [now rewrite map_length, length_zrange_nat|].
        intros i Hi. rewrite map_nth. unfold q, zrange. change 0 with (Z.of_nat 0). rewrite map_nth, seq_nth by lia.
        cbn [Nat.add]. now rewrite Nat2Z.id.
      + intros i j Hi Hj Eq. assert (Z.to_nat i = Z.to_nat j); [|lia]. eapply NoDup_nth; eauto; lia.
      + intros; lia.
      + intros i Hi. exists (q i). split; auto. assert (In (q i) (zrange D)) as H; [|apply in_zrange in H; lia].
        eapply Permutation_in; [apply P|]. apply nth_In. lia. }
  assert (Rs : forall x, 0 <= x < D -> 0 <= sh x < D) by (intros; apply Z.mod_pos_bound; lia).
  assert (Is : forall x y, 0 <= x < D -> 0 <= y < D -> sh x = sh y -> x = y).
  { assert (Es : forall x, 0 <= x < D -> sh x = if x =? 0 then D - 1 else x - 1).
    { intros x Hx. unfold sh. destruct (Z.eqb_spec x 0) as [->|]; [rewrite Z.add_0_r; apply Z.mod_small; lia|].
      replace (D - 1 + x) with (x - 1 + 1 * D) by ring. rewrite Z.mod_add by lia. apply Z.mod_small. lia. }
    intros x y Hx Hy. rewrite !Es by auto. zc. }
  assert (Pr : forall y, Permutation y (zrange D) -> NoDup y /\ (forall x, In x y -> 0 <= x < D) /\ length y = Z.to_nat D).
  { intros y P. split; [eapply Permutation_NoDup; [symmetry; apply P|apply NoDup_zrange]|]. split.
    - intros x Hx. apply in_zrange. eapply Permutation_in; eauto.
    - now rewrite (Permutation_length P), length_zrange_nat. }
  transitivity (lsum (zrange D :: l) (fun y => sgn (map sh y) * diag mat 0 (map sh y))%R).
  { apply lsum_ext. intros y Hy. apply In_iff in Hy. destruct (Pr y Hy) as (Ny & Ry & Ly). unfold g. fold sh.
    unfold sh at 2. rewrite sgn_shift; auto; [|lia|].
    - rewrite Ly. fold s0. lra.
    - eapply Permutation_in; [symmetry; apply Hy|]. apply in_zrange. lia. }
  rewrite <- (lsum_map (map sh) (zrange D :: l) (fun s => sgn s * diag mat 0 s)%R). apply lsum_perm.
  assert (Q : Permutation (zrange D :: l) (perms (zrange D))).
  { apply NoDup_Permutation; auto; [apply NoDup_perms, NoDup_zrange|]. intros y. now rewrite In_iff, in_perms. }
  assert (Inj : forall y y', (forall x, In x y -> 0 <= x < D) -> (forall x, In x y' -> 0 <= x < D) -> map sh y = map sh y' -> y = y').
  { clear - Is. induction y as [|a y IH]; intros [|a' y'] H H' E; cbn in E; inversion E; auto. f_equal.
    - apply Is; auto; [apply H|apply H']; cbn; auto.
    - apply IH; auto; intros; [apply H|apply H']; cbn; auto. }
  apply NoDup_Permutation_bis.
  - apply Permutation_NoDup with (l := map (map sh) (zrange D :: l)); [auto|].
    clear E Rn L Q. revert ND In_iff. generalize (zrange D :: l) as ll. intros ll Nl Hl.
    assert (Hl' : forall y, In y ll -> forall x, In x y -> 0 <= x < D) by (intros y Hy; apply Pr, Hl; auto).
    clear Hl. induction ll as [|y ll IH]; cbn [map]; constructor.
    + rewrite in_map_iff. intros (z & Ez & Hz). inversion Nl; subst. apply Inj in Ez; try (apply Hl'; cbn; auto). now subst.
    + inversion Nl; subst. apply IH; auto. intros; eapply Hl'; cbn; eauto.
  - rewrite map_length, (Permutation_length Q). auto.
  - intros z Hz. apply in_map_iff in Hz. destruct Hz as (y & <- & Hy). apply In_iff in Hy. destruct (Pr y Hy) as (Ny & Ry & Ly).
    apply in_perms. apply NoDup_perm_zrange; [lia| | |now rewrite map_length].
    + clear - Ny Ry Is. induction y as [|a y IH]; cbn [map]; constructor.
      * rewrite in_map_iff. intros (x & Ex & Hx). inversion Ny; subst. apply Is in Ex; try (apply Ry; cbn; auto). now subst.
      * inversion Ny; subst. apply IH; auto. intros; apply Ry; cbn; auto.
    + intros x Hx. apply in_map_iff in Hx. destruct Hx as (x' & <- & Hx'). auto.
Qed.
