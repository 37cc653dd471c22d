(** * CutN: what [rNd_clip] makes of a simple polytope (rNd.c:68-169) *)
From Coq Require Import ZArith List Bool Lia.
From Verif Require Import Base Lib ModelCommon CommonFacts ModelN ModelNC InitN Struct3 WalkN CloseN InsN SpecNC.
Import ListNotations.
Open Scope Z_scope.

Section Cut.
Variable NN : num.
Variable MX D : Z.
Notation buf := (vbuf (Z -> T NN)).
Notation fds := (Z -> Z -> Z -> Z).
Variables (b0 : buf) (fd0 : fds) (n nf nh : Z) (bk h : Z -> Z -> Z) (sds : Z -> option (T NN)) (sd : Z -> T NN) (cl : Z -> Z).
Notation f0 := (nb b0).
Notation keep := (keepN cl).
Notation xs := (xsN NN D b0 n cl).
Hypothesis HD : 3 <= D.
Hypothesis Hn : 0 <= n <= MX.
Hypothesis Hnf : 0 <= nf.
Hypothesis C : cells D (upto n) nf nh f0 bk h fd0.
Hypothesis SE : simple_edges D (upto n) f0.
Hypothesis Hsd : forall v, 0 <= v < n -> sds v = Some (sd v).
Hypothesis Hcl : forall v, n <= v -> cl v = 0.

Lemma crng v i : 0 <= v < n -> 0 <= i < D -> 0 <= f0 v i < n.
Proof. intros Hv Hi. apply (ce_f _ _ _ _ _ _ _ _ C); auto. Qed.
Definition iscut (v i : Z) : Prop := 0 <= v < n /\ 0 <= i < D /\ keep v = true /\ keep (f0 v i) = false.
Lemma in_xs v i : In (v, i) xs <-> iscut v i.
Proof.
  unfold xsN, iscut. rewrite filter_In, in_darts. unfold crossN. cbn [fst snd]. rewrite andb_true_iff, negb_true_iff. tauto.
Qed.
Lemma NoDup_xs : NoDup xs. Proof. apply NoDup_filter, NoDup_darts; lia. Qed.
Definition Mn (v i : Z) : Z := n + Z.of_nat (didx (v, i) xs).
Definition dof (u : Z) : dart := nth (Z.to_nat (u - n)) xs (0, 0).
Notation N := (n + ncrN NN D b0 n cl).
Lemma Mn_rng v i : iscut v i -> n <= Mn v i < N.
Proof. intros H. apply in_xs in H. pose proof (didx_lt _ _ H). unfold Mn, ncrN. lia. Qed.
Lemma dof_Mn v i : iscut v i -> dof (Mn v i) = (v, i).
Proof.
  intros H. apply in_xs in H. unfold dof, Mn. replace (Z.to_nat _) with (didx (v, i) xs) by lia. apply nth_error_nth. apply didx_nth; auto.
Qed.
Lemma Mn_inj v i w j : iscut v i -> iscut w j -> Mn v i = Mn w j -> v = w /\ i = j.
Proof. intros H H' E. apply (f_equal dof) in E. rewrite !dof_Mn in E by auto. inversion E; auto. Qed.
Lemma Mn_surj u : n <= u < N -> exists v i, iscut v i /\ u = Mn v i.
Proof.
  intros Hu. unfold ncrN in Hu. destruct (nth_error xs (Z.to_nat (u - n))) as [(v & i)|] eqn:E; [|apply nth_error_None in E; lia].
  exists v, i. split; [apply in_xs; eapply nth_error_In; eauto|]. unfold Mn. rewrite (nth_didx _ _ _ NoDup_xs E). lia.
Qed.
Lemma other_sg i a : 0 < a -> sg i a = other i a.
Proof. intros. unfold sg, other. destruct (Z.eqb_spec a 0); auto; lia. Qed.

Section Mid.
Variables (b1 : buf) (fd1 : fds).
Hypothesis DE : DescN NN MX D b0 fd0 n sd xs (b1, fd1, N).
Notation g := (nb b1).
Notation U := (UU n N keep).
Notation leaf := (leafb n).
Definition bk1 (v i : Z) : Z := if v <? n then (if keep (f0 v i) then bk v i else 0) else snd (dof v).
Definition h1 (v i : Z) : Z := if v <? n then h v i else if i =? 0 then nh else h (fst (dof v)) (sg (snd (dof v)) i).

Lemma m_old v i : 0 <= v < n -> 0 <= i < D -> keep v = true -> keep (f0 v i) = true -> g v i = f0 v i.
Proof. destruct DE as (_ & _ & _ & H & _). intros. apply H; auto. rewrite in_xs. unfold iscut. intuition congruence. Qed.
Lemma m_ps v : 0 <= v < n -> ps b1 v = ps b0 v. Proof. apply DE. Qed.
Lemma m_fd v : 0 <= v < n -> fd1 v = fd0 v. Proof. apply DE. Qed.
Lemma m_new v i : iscut v i -> g v i = Mn v i /\ g (Mn v i) 0 = v /\ (forall a, 0 < a < D -> g (Mn v i) a = -1)
  /\ (forall k, 0 <= k < D -> ps b1 (Mn v i) k = newposN NN sd (ps b0) v (f0 v i) k)
  /\ (forall a, 0 < a < D -> fd1 (Mn v i) 0 a = fd0 v i (sg i a) /\ fd1 (Mn v i) a 0 = fd0 v i (sg i a))
  /\ forall a c, 0 < a < D -> 0 < c < D -> fd1 (Mn v i) a c = -1.
Proof.
  intros H. apply in_xs in H. destruct DE as (_ & _ & _ & _ & _ & H3). apply (H3 _ _ (didx_nth _ _ H)).
Qed.
Lemma U_cases v : U v -> (0 <= v < n /\ keep v = true /\ leaf v = false /\ (v <? n) = true) \/ exists w i, iscut w i /\ v = Mn w i /\ leaf v = true /\ (v <? n) = false.
Proof.
  unfold UU, leafb. intros [(H & K)|H].
  - left. split; auto. split; auto. split; [apply Z.leb_gt; lia|apply Z.ltb_lt; lia].
  - right. destruct (Mn_surj v H) as (w & i & Hc & E). exists w, i. split; auto. split; auto. split; [apply Z.leb_le; lia|apply Z.ltb_ge; lia].
Qed.
Lemma U_old v : 0 <= v < n -> keep v = true -> U v. Proof. unfold UU. auto. Qed.
Lemma U_new v i : iscut v i -> U (Mn v i). Proof. intros H. right. apply Mn_rng; auto. Qed.
Lemma lf_old v : 0 <= v < n -> leaf v = false. Proof. unfold leafb. intros. apply Z.leb_gt. lia. Qed.
Lemma lf_new v i : iscut v i -> leaf (Mn v i) = true. Proof. unfold leafb. intros H. apply Mn_rng in H. apply Z.leb_le. lia. Qed.
Lemma lt_old v : 0 <= v < n -> (v <? n) = true. Proof. intros. apply Z.ltb_lt. lia. Qed.
Lemma lt_new v i : iscut v i -> (Mn v i <? n) = false. Proof. intros H. apply Mn_rng in H. apply Z.ltb_ge. lia. Qed.

Lemma mid_leafy : leafy D U leaf g bk1 h1 fd1.
Proof.
  assert (CUT : forall v i, 0 <= v < n -> keep v = true -> 0 <= i < D -> (keep (f0 v i) = true /\ g v i = f0 v i /\ bk1 v i = bk v i)
    \/ (iscut v i /\ g v i = Mn v i /\ bk1 v i = 0)).
  { intros v i Hv Kv Hi. unfold bk1. rewrite (lt_old v Hv). destruct (keep (f0 v i)) eqn:E; [left|right].
    - split; auto. split; auto. apply m_old; auto.
    - assert (H : iscut v i) by (repeat split; auto; lia). split; auto. split; auto. apply m_new; auto. }
  assert (BN : forall v i, iscut v i -> bk1 (Mn v i) 0 = i) by (intros v i H; unfold bk1; rewrite lt_new, dof_Mn by auto; auto).
  constructor.
  - intros v i HU (Hi & H0). destruct (U_cases v HU) as [(Hv & Kv & Lv & _)|(w & q & Hc & -> & Lv & _)].
    + destruct (ce_f _ _ _ _ _ _ _ _ C v i Hv Hi) as (A & B). destruct (CUT v i Hv Kv Hi) as [(K & -> & _)|(Hc & -> & _)].
      * split; auto. apply U_old; auto.
      * split; [apply U_new; auto|]. apply Mn_rng in Hc. lia.
    + specialize (H0 Lv). subst i. destruct (m_new w q Hc) as (_ & -> & _). pose proof (Mn_rng w q Hc). destruct Hc as (? & ? & ? & _).
      split; [apply U_old; auto|lia].
  - intros v i HU (Hi & H0). destruct (U_cases v HU) as [(Hv & Kv & Lv & _)|(w & q & Hc & -> & Lv & _)].
    + destruct (ce_bk _ _ _ _ _ _ _ _ C v i Hv Hi) as (A1 & A2 & A3). destruct (CUT v i Hv Kv Hi) as [(K & E1 & E2)|(Hc & E1 & E2)]; rewrite E1, E2.
      * pose proof (crng v i Hv Hi) as R. destruct (CUT (f0 v i) (bk v i) R K A1) as [(K' & -> & ->)|(Hc' & _)].
        -- split; auto. split; auto. intros X. rewrite lf_old in X by auto. discriminate.
        -- exfalso. destruct Hc' as (_ & _ & _ & K'). congruence.
      * destruct (m_new v i Hc) as (_ & -> & _). rewrite BN by auto. split; auto. split; auto. lia.
    + specialize (H0 Lv). subst i. rewrite (BN w q Hc). destruct (m_new w q Hc) as (E1 & E2 & _). rewrite E2.
      pose proof Hc as (A1 & A2 & A3 & A4). split; [split; auto; intros X; rewrite lf_old in X by auto; discriminate|]. split; auto.
      unfold bk1. rewrite lt_old, A4 by auto. auto.
  - intros v HU Lv. destruct (U_cases v HU) as [(Hv & Kv & Lv' & _)|(w & q & Hc & -> & _)]; [congruence|].
    destruct (m_new w q Hc) as (_ & -> & _). apply lf_old. apply Hc.
  - intros v i j HU Lv Hi Hj E. destruct (U_cases v HU) as [(Hv & Kv & _)|(w & q & Hc & -> & Lv' & _)]; [|congruence].
    pose proof (crng v i Hv Hi). pose proof (crng v j Hv Hj).
    destruct (CUT v i Hv Kv Hi) as [(K & E1 & E2)|(Hc & E1 & E2)], (CUT v j Hv Kv Hj) as [(K' & E1' & E2')|(Hc' & E1' & E2')]; rewrite E1, E1' in E.
    + apply (SE v i j); auto.
    + apply Mn_rng in Hc'. lia.
    + apply Mn_rng in Hc. lia.
    + destruct (Mn_inj _ _ _ _ Hc Hc' E); auto.
  - intros v i j HU Hi Hj. unfold h1. destruct (U_cases v HU) as [(Hv & Kv & _ & ->)|(w & q & Hc & -> & Lv' & ->)].
    + apply (ce_hinj _ _ _ _ _ _ _ _ C); auto.
    + rewrite dof_Mn by auto. cbn [fst snd]. destruct Hc as (Hw & Hq & _). 
      assert (R : forall k, 0 <= k < D -> 0 <= sg q k < D) by (intros; apply sg_rng; auto).
      destruct (Z.eqb_spec i 0), (Z.eqb_spec j 0); try lia.
      * intros E. pose proof (ce_h _ _ _ _ _ _ _ _ C w (sg q j) Hw (R j Hj)). lia.
      * intros E. pose proof (ce_h _ _ _ _ _ _ _ _ C w (sg q i) Hw (R i Hi)). lia.
      * intros E. apply (ce_hinj _ _ _ _ _ _ _ _ C) in E; auto. apply (sg_inj D q); auto.
  - intros v i j HU (Hi & H0) Hj Hij. destruct (U_cases v HU) as [(Hv & Kv & Lv & _)|(w & q & Hc & -> & Lv & _)].
    + rewrite m_fd by auto. apply (ce_fd _ _ _ _ _ _ _ _ C); auto.
    + specialize (H0 Lv). subst i. destruct (m_new w q Hc) as (_ & _ & _ & _ & F & _). destruct (F j ltac:(lia)) as (-> & ->). auto.
  - intros v i j k HU (Hi & H0) Hj Hk Hij Hik E. destruct (U_cases v HU) as [(Hv & Kv & Lv & _)|(w & q & Hc & -> & Lv & _)].
    + rewrite m_fd in E by auto. destruct (ce_names _ _ _ _ _ _ _ _ C v i j i k) as [(_ & X)|(X & _)]; auto; congruence.
    + specialize (H0 Lv). subst i. destruct (m_new w q Hc) as (_ & _ & _ & _ & F & _). destruct (F j ltac:(lia)) as (Ej & _). destruct (F k ltac:(lia)) as (Ek & _).
      rewrite Ej, Ek in E. destruct Hc as (Hw & Hq & _).
      apply (sg_inj D q); auto.
      pose proof (sg_ne q j ltac:(lia) ltac:(lia)). pose proof (sg_ne q k ltac:(lia) ltac:(lia)).
      assert (R : forall k, 0 <= k < D -> 0 <= sg q k < D) by (intros; apply sg_rng; auto).
      destruct (ce_names _ _ _ _ _ _ _ _ C w q (sg q j) q (sg q k)) as [(_ & X)|(X & _)]; auto; congruence.
  - intros v i j HU (Hi & H0) Hj Hij. destruct (U_cases v HU) as [(Hv & Kv & Lv & LT)|(w & q & Hc & -> & Lv & LT)].
    + destruct (CUT v i Hv Kv Hi) as [(K & E1 & E2)|(Hc & E1 & E2)]; rewrite E1, E2.
      * destruct (ce_edge _ _ _ _ _ _ _ _ C v i j Hv Hi Hj Hij) as (j' & A & B & E & F).
        exists j'. pose proof (crng v i Hv Hi) as R. unfold h1. rewrite LT, (lt_old (f0 v i)) by auto. rewrite !m_fd by auto. auto.
      * exists (sgi i j). pose proof (sgi_rng D ltac:(lia) i j Hi Hj).
        assert (sgi i j <> 0). { intros X. apply (f_equal (sg i)) in X. rewrite (sg_sgi D) in X by auto. unfold sg in X. cbn in X. lia. }
        split; auto. split; auto. destruct (m_new v i Hc) as (_ & _ & _ & _ & F & _). destruct (F (sgi i j) ltac:(lia)) as (-> & _).
        rewrite (sg_sgi D) by auto. rewrite m_fd by auto. split; auto. unfold h1. rewrite lt_new, LT, dof_Mn by auto. cbn [fst snd].
        destruct (Z.eqb_spec (sgi i j) 0); [lia|]. now rewrite (sg_sgi D).
    + specialize (H0 Lv). subst i. rewrite (BN w q Hc). destruct (m_new w q Hc) as (E1 & E2 & _ & _ & F & _). rewrite E2.
      pose proof Hc as (A1 & A2 & A3 & A4). exists (sg q j). split; [apply sg_rng; auto|]. split; [apply sg_ne; lia|].
      destruct (F j ltac:(lia)) as (-> & _). rewrite m_fd by auto. split; auto. unfold h1. rewrite LT, (lt_old w), dof_Mn by auto. cbn [fst snd].
      destruct (Z.eqb_spec j 0); [lia|]. auto.
Qed.

Lemma mid_fr : fr NN b1 fd1 n N b1 fd1.
Proof. constructor; auto. Qed.
Lemma mid_none x a c : pairs D n N x a c -> fd1 x a c = -1.
Proof. intros (Hx & Ha & Hc & Hac). destruct (Mn_surj x Hx) as (v & i & H & ->). apply m_new; auto. Qed.
Lemma mid_GI : GI NN D b1 fd1 bk1 h1 n N nf keep b1 fd1 nf.
Proof.
  constructor; try lia.
  - apply mid_fr.
  - intros x a c P. left. apply mid_none; auto.
  - intros x a c P. rewrite !mid_none; auto. apply pairs_sym; auto.
  - intros x a Hx Ha. left. destruct (Mn_surj x Hx) as (v & i & H & ->). apply m_new; auto.
  - intros x a c P Q. exfalso. apply Q. apply mid_none; auto.
  - intros x a c y a' c' P P' _. now rewrite !mid_none.
  - intros x a c y a' c' P P' _ Q. exfalso. apply Q. apply mid_none; auto.
Qed.

(** after closing *)
Section Closed.
Variables (b2 : buf) (fd2 : fds) (nf2 : Z).
Hypothesis G : GI NN D b1 fd1 bk1 h1 n N nf keep b2 fd2 nf2.
Hypothesis A : forall x a c, pairs D n N x a c -> fd2 x a c <> -1.
Hypothesis HNM : N <= MX.
Lemma HNN : 0 <= n <= N /\ N <= MX. Proof. unfold ncrN in *. lia. Qed.
Notation mt := (mate D U leaf g bk1 h1).
Definition bk2 (v i : Z) : Z := if v <? n then bk1 v i else if i =? 0 then bk1 v 0
  else match find (fun a => (0 <? a) && (fd1 (nb b2 v i) 0 a =? fd1 v 0 i)) (zrange D) with Some a => a | None => 0 end.
Notation L := mid_leafy.
Lemma new_new x : n <= x < N -> U x /\ leaf x = true /\ (x <? n) = false.
Proof. intros H. destruct (leaf_t n N keep x H). split; auto. split; auto. apply Z.ltb_ge; lia. Qed.
Lemma mate_fd x a y c : n <= x < N -> 0 < a < D -> mt x a y c -> n <= y < N /\ 0 < c < D /\ fd1 y 0 c = fd1 x 0 a.
Proof.
  intros Hx Ha M. destruct (new_new x Hx) as (Ux & Lx & _).
  destruct (mate_ex _ _ _ _ _ _ _ L HD N (U_rng MX n N keep HNN) x a Ux Lx Ha) as (y' & c' & M' & Uy & Ly & Hc & E).
  destruct (mate_fun _ _ _ _ _ _ _ L _ _ _ _ _ _ M M') as (-> & ->). split; auto. apply (leaf_U n N keep); auto.
Qed.
Lemma cl_mate x a : n <= x < N -> 0 < a < D -> exists c, mt x a (nb b2 x a) c.
Proof.
  intros Hx Ha. destruct (gi_nb _ _ _ _ _ _ _ _ _ _ _ _ _ G x a Hx Ha) as [E|]; auto. exfalso.
  assert (exists c, pairs D n N x a c) as (c & P). { exists (if a =? 1 then 2 else 1). unfold pairs. destruct (Z.eqb_spec a 1); lia. }
  destruct (gi_set _ _ _ _ _ _ _ _ _ _ _ _ _ G x a c P (A _ _ _ P)). auto.
Qed.
Lemma cl_slot x a c : n <= x < N -> 0 < a < D -> mt x a (nb b2 x a) c -> bk2 x a = c.
Proof.
  intros Hx Ha M. destruct (mate_fd _ _ _ _ Hx Ha M) as (Hy & Hc & E). destruct (new_new _ Hx) as (_ & _ & LT). destruct (new_new _ Hy) as (Uy & Ly & _).
  unfold bk2. rewrite LT. destruct (Z.eqb_spec a 0); [lia|].
  destruct (find _ (zrange D)) as [c'|] eqn:F.
  - apply find_some in F as (R & F). apply andb_prop in F as (F1 & F2). apply Z.ltb_lt in F1. apply Z.eqb_eq in F2. apply in_zrange in R.
    rewrite <- E in F2. apply (lf_inj _ _ _ _ _ _ _ L (nb b2 x a) 0 c' c) in F2; auto; try lia. split; auto. lia.
  - exfalso. pose proof (find_none _ _ F c ltac:(apply in_zrange; lia)) as Q. cbv beta in Q. rewrite E, Z.eqb_refl, andb_true_r in Q. apply Z.ltb_ge in Q. lia.
Qed.
Lemma cl_old v i : 0 <= v < n -> nb b2 v i = g v i. Proof. intros. apply (fr_nb _ _ _ _ _ _ _ (gi_fr _ _ _ _ _ _ _ _ _ _ _ _ _ G)). lia. Qed.
Lemma cl_nb0 x : n <= x < N -> nb b2 x 0 = g x 0. Proof. apply (fr_nb0 _ _ _ _ _ _ _ (gi_fr _ _ _ _ _ _ _ _ _ _ _ _ _ G)). Qed.
Lemma cl_fd v i j : 0 <= v < n -> fd2 v i j = fd1 v i j. Proof. intros. apply (fr_fd _ _ _ _ _ _ _ (gi_fr _ _ _ _ _ _ _ _ _ _ _ _ _ G)). lia. Qed.
Lemma cl_fd0 x a : n <= x < N -> fd2 x 0 a = fd1 x 0 a /\ fd2 x a 0 = fd1 x a 0. Proof. apply (fr_fd0 _ _ _ _ _ _ _ (gi_fr _ _ _ _ _ _ _ _ _ _ _ _ _ G)). Qed.
Lemma cl_ps : ps b2 = ps b1. Proof. apply (fr_ps _ _ _ _ _ _ _ (gi_fr _ _ _ _ _ _ _ _ _ _ _ _ _ G)). Qed.
Lemma new0_rng x a : n <= x < N -> 0 < a < D -> 0 <= fd1 x 0 a < nf /\ fd1 x a 0 = fd1 x 0 a.
Proof.
  intros Hx Ha. destruct (Mn_surj x Hx) as (v & i & H & ->). destruct (m_new v i H) as (_ & _ & _ & _ & F & _). destruct (F a Ha) as (-> & ->).
  split; auto. destruct H as (Hv & Hi & _). apply (ce_fd _ _ _ _ _ _ _ _ C); auto; [apply sg_rng; lia|]. apply not_eq_sym. apply sg_ne; lia.
Qed.

Lemma closed_cells : cells D U nf2 (nh + 1) (nb b2) bk2 h1 fd2.
Proof.
  assert (HN : 0 <= n <= N) by (unfold ncrN; lia).
  assert (SL : forall v i, 0 <= v < n -> keep v = true -> 0 <= i < D -> slt D leaf v i) by (intros v i Hv Kv Hi; split; auto; intros X; rewrite lf_old in X by auto; discriminate).
  assert (S0 : forall x, slt D leaf x 0) by (intros; split; auto; lia).
  assert (OB : forall v i, 0 <= v < n -> bk2 v i = bk1 v i) by (intros v i Hv; unfold bk2; now rewrite lt_old).
  assert (NB0 : forall x, n <= x < N -> bk2 x 0 = bk1 x 0) by (intros x Hx; unfold bk2; destruct (new_new x Hx) as (_ & _ & ->); auto).
  assert (BB : forall w j, U w -> slt D leaf w j -> bk2 w j = bk1 w j /\ nb b2 w j = g w j).
  { intros w j Hw (Hj & Hj0). destruct Hw as [(Hw & Kw)|Hw]; [split; [apply OB|apply cl_old]; auto|].
    destruct (new_new w Hw) as (_ & Lw & _). rewrite (Hj0 Lw). split; [apply NB0|apply cl_nb0]; auto. }
  assert (FF : forall w i j, U w -> slt D leaf w i -> fd2 w i j = fd1 w i j).
  { intros w i j Hw (Hj & Hj0). destruct Hw as [(Hw & Kw)|Hw]; [apply cl_fd; auto|].
    destruct (new_new w Hw) as (_ & Lw & _). rewrite (Hj0 Lw). apply cl_fd0; auto. }
  assert (CASE : forall v i, U v -> 0 <= i < D -> slt D leaf v i \/ (n <= v < N /\ 0 < i < D)).
  { intros v i [(Hv & Kv)|Hv] Hi; [left; auto|]. destruct (Z.eq_dec i 0) as [->|]; [left; auto|right; lia]. }
  constructor.
  - intros v i Hv Hi. destruct (CASE v i Hv Hi) as [S|(Hx & Ha)].
    + destruct (BB v i Hv S) as (_ & ->). apply (lf_g _ _ _ _ _ _ _ L); auto.
    + destruct (cl_mate v i Hx Ha) as (c & M). destruct (mate_fd _ _ _ _ Hx Ha M) as (Hy & _). split; [apply new_new; auto|].
      apply (mate_ne _ _ _ _ _ _ _ L HD _ _ _ _ M).
  - intros v i Hv Hi. destruct (CASE v i Hv Hi) as [S|(Hx & Ha)].
    + destruct (BB v i Hv S) as (-> & ->). destruct (lf_bk _ _ _ _ _ _ _ L v i Hv S) as (A1 & A2 & A3).
      destruct (lf_g _ _ _ _ _ _ _ L v i Hv S) as (A4 & _). destruct (BB _ _ A4 A1) as (-> & ->). split; auto. apply A1.
    + destruct (cl_mate v i Hx Ha) as (c & M). rewrite (cl_slot v i c Hx Ha M). destruct (mate_fd _ _ _ _ Hx Ha M) as (Hy & Hc & _).
      destruct (cl_mate _ c Hy Hc) as (c' & M'). pose proof (mate_sym _ _ _ _ _ _ _ L HD _ _ _ _ M) as M2.
      pose proof (cl_slot _ _ _ Hy Hc M') as E'. destruct (mate_fun _ _ _ _ _ _ _ L _ _ _ _ _ _ M' M2) as (E1 & E2). split; [lia|]. split; auto. congruence.
  - intros v i Hv Hi. unfold h1. destruct (U_cases v Hv) as [(Hw & Kv & _ & ->)|(w & q & Hc & -> & Lv' & ->)].
    + pose proof (ce_h _ _ _ _ _ _ _ _ C v i Hw Hi). lia.
    + rewrite dof_Mn by auto. cbn [fst snd]. destruct Hc as (Hw & Hq & _). assert (R : 0 <= sg q i < D) by (apply sg_rng; auto).
      pose proof (ce_h _ _ _ _ _ _ _ _ C w (sg q i) Hw R). destruct (Z.eqb_spec i 0); lia.
  - apply (lf_h _ _ _ _ _ _ _ L).
  - intros v i j Hv Hi Hj Hij. pose proof (gi_nf _ _ _ _ _ _ _ _ _ _ _ _ _ G) as Hn2. destruct Hv as [(Hv & Kv)|Hv].
    + rewrite !cl_fd, m_fd by auto. destruct (ce_fd _ _ _ _ _ _ _ _ C v i j Hv Hi Hj Hij). split; auto; lia.
    + destruct (Z.eq_dec i 0) as [->|]; [|destruct (Z.eq_dec j 0) as [->|]].
      * destruct (cl_fd0 v j Hv) as (-> & ->). destruct (new0_rng v j Hv ltac:(lia)). split; auto. lia.
      * destruct (cl_fd0 v i Hv) as (-> & ->). destruct (new0_rng v i Hv ltac:(lia)). split; auto. lia.
      * assert (P : pairs D n N v i j) by (unfold pairs; lia). destruct (gi_rng _ _ _ _ _ _ _ _ _ _ _ _ _ G v i j P) as [X|X]; [exfalso; apply (A _ _ _ P X)|].
        split; [lia|]. symmetry. apply (gi_sym _ _ _ _ _ _ _ _ _ _ _ _ _ G); auto.
  - intros v i j i' j' Hv Hi Hj Hij Hi' Hj' Hij' E. destruct Hv as [(Hv & Kv)|Hv].
    + rewrite !cl_fd, m_fd in E by auto. apply (ce_names _ _ _ _ _ _ _ _ C v); auto.
    + destruct (new_new v Hv) as (Uv & Lv & _).
      assert (Z0 : forall a c, 0 <= a < D -> 0 <= c < D -> a <> c -> (exists q, 0 < q < D /\ fd2 v a c = fd1 v 0 q /\ ((a = 0 /\ c = q) \/ (a = q /\ c = 0))) \/ (pairs D n N v a c /\ nf <= fd2 v a c)).
      { intros a c Ha Hc Hac. destruct (Z.eq_dec a 0) as [->|]; [|destruct (Z.eq_dec c 0) as [->|]].
        - left. exists c. destruct (cl_fd0 v c Hv) as (-> & _). split; [lia|auto].
        - left. exists a. destruct (cl_fd0 v a Hv) as (_ & ->). destruct (new0_rng v a Hv ltac:(lia)) as (_ & ->). split; [lia|auto].
        - right. assert (P : pairs D n N v a c) by (unfold pairs; lia). split; auto. destruct (gi_rng _ _ _ _ _ _ _ _ _ _ _ _ _ G v a c P) as [X|X]; [exfalso; apply (A _ _ _ P X)|lia]. }
      destruct (Z0 i j Hi Hj Hij) as [(q & Hq & E1 & S1)|(P & R)], (Z0 i' j' Hi' Hj' Hij') as [(q' & Hq' & E1' & S1')|(P' & R')].
      * rewrite E1, E1' in E. apply (lf_inj _ _ _ _ _ _ _ L v 0 q q') in E; auto; try lia.
      * exfalso. pose proof (new0_rng v q Hv Hq). lia.
      * exfalso. pose proof (new0_rng v q' Hv Hq'). lia.
      * destruct (gi_dis _ _ _ _ _ _ _ _ _ _ _ _ _ G v i j v i' j' P P' E (A _ _ _ P)) as [(m & K)|(m & K)];
          destruct (leaf_return _ _ _ _ _ _ _ L HD _ _ _ _ _ m Lv (leaf_flag D U leaf HD _ _ _ Uv Lv (proj1 (proj2 P)) (proj1 (proj2 (proj2 P))) (proj2 (proj2 (proj2 P)))) K); auto.
  - intros v i j Hv Hi Hj Hij. destruct (CASE v i Hv Hi) as [S|(Hx & Ha)].
    + destruct (BB v i Hv S) as (-> & ->). destruct (lf_edge _ _ _ _ _ _ _ L v i j Hv S Hj Hij) as (j' & B1 & B2 & B3 & B4).
      destruct (lf_bk _ _ _ _ _ _ _ L v i Hv S) as (A1 & _). destruct (lf_g _ _ _ _ _ _ _ L v i Hv S) as (A4 & _).
      exists j'. split; auto. split; auto. split; auto. rewrite !FF; auto.
    + destruct (cl_mate v i Hx Ha) as (c & M). rewrite (cl_slot v i c Hx Ha M). destruct (mate_fd _ _ _ _ Hx Ha M) as (Hy & Hc & E).
      set (y := nb b2 v i) in *. destruct (new_new v Hx) as (Uv & Lv & LTv). destruct (new_new y Hy) as (Uy & Ly & LTy).
      destruct (Z.eq_dec j 0) as [->|].
      * exists 0. split; [lia|]. split; [lia|]. split; [unfold h1; rewrite LTv, LTy; auto|].
        destruct (cl_fd0 y c Hy) as (_ & ->). destruct (cl_fd0 v i Hx) as (_ & ->). destruct (new0_rng y c Hy Hc) as (_ & ->). destruct (new0_rng v i Hx Ha) as (_ & ->). auto.
      * assert (I : isf D U leaf (v, 0, i, j)) by (apply leaf_flag; auto; lia).
        destruct (hop_exists _ _ _ _ _ _ _ L HD N (U_rng MX n N keep HNN) (v, 0, i, j) I Lv) as (m & w' & Hp).
        destruct (hop_end _ _ _ _ _ _ _ L m v i j w' I Hp) as (y' & b' & a' & Ew & Iw & Ly' & Q). 
        assert (M' : mt v i y' a') by (exists m, j, b'; subst w'; auto).
        destruct (mate_fun _ _ _ _ _ _ _ L _ _ _ _ _ _ M M') as (E1 & E2).
        subst y' a'. subst w'. destruct Iw as (_ & _ & I1 & I2 & I3 & I4 & I5).
        exists b'. split; auto. split; auto. split; [apply Q|].
        assert (P : pairs D n N v i j) by (unfold pairs; lia). assert (P' : pairs D n N y b' c) by (unfold pairs; lia).
        rewrite <- (gi_sym _ _ _ _ _ _ _ _ _ _ _ _ _ G y b' c P'). symmetry. apply (gi_orb _ _ _ _ _ _ _ _ _ _ _ _ _ G); auto.
        destruct Hp as (Hp & _). exists (Datatypes.S m). auto.
Qed.
End Closed.
End Mid.

(** rNd.c:160-169 *)
Lemma compressN_spec (b : buf) (fd : fds) N : 0 <= N <= MX ->
  exists b' fd' cl', for_ 0 N (compressN_body NN MX) (b, fd, cl, 0) = OK (b', fd', cl', cnt keep N)
  /\ (forall u, 0 <= u < N -> keep u = true ->
        nb b' (cnt keep u) = nb b u /\ ps b' (cnt keep u) = ps b u /\ fd' (cnt keep u) = fd u /\ cl' u = cnt keep u).
Proof.
  intros HN.
  destruct (for_inv (fun v (s : buf * fds * (Z -> Z) * Z) => let '(b', fd', cl', num) := s in
     num = cnt keep v
     /\ (forall u, 0 <= u < v -> keep u = true ->
           nb b' (cnt keep u) = nb b u /\ ps b' (cnt keep u) = ps b u /\ fd' (cnt keep u) = fd u /\ cl' u = cnt keep u)
     /\ (forall u, v <= u -> nb b' u = nb b u /\ ps b' u = ps b u /\ fd' u = fd u /\ cl' u = cl u))
     0 N (compressN_body NN MX) (b, fd, cl, 0)) as (s' & E & I).
  - lia.
  - rewrite cnt_0. repeat split; auto; lia.
  - intros i [[[b1 fd1] cl1] num] Hi (Hnum & Hlo & Hhi).
    unfold compressN_body. rewrite rd_ok by lia. cbn [bind].
    destruct (Hhi i) as (En & Ep & Ef & Ec); [lia|]. rewrite Ec.
    change (cl i =? 0) with (keep i).
    pose proof (cnt_le keep i ltac:(lia)). pose proof (cnt_nonneg keep i).
    rewrite cnt_succ by lia.
    destruct (keep i) eqn:Ki.
    + rewrite cp_vert_ok by lia. cbn [bind]. rewrite wr_ok by lia. cbn [bind].
      eexists. split; [reflexivity|]. cbn [nb ps]. split; [lia|]. subst num. split.
      * intros u Hu HK. destruct (Z.eq_dec u i).
        { subst u. rewrite !upd_eq. auto. }
        destruct (Hlo u) as (? & ? & ? & ?); auto; [lia|].
        pose proof (cnt_lt keep u i ltac:(lia) HK).
        rewrite !upd_neq by lia. auto.
      * intros u Hu. destruct (Hhi u) as (? & ? & ? & ?); [lia|].
        rewrite !upd_neq by lia. auto.
    + eexists. split; [reflexivity|]. cbn [nb ps]. split; [lia|]. split.
      * intros u Hu HK. destruct (Z.eq_dec u i); [subst; congruence|]. apply Hlo; auto; lia.
      * intros u Hu. apply Hhi; lia.
  - destruct s' as [[[b' fd'] cl'] num]. destruct I as (-> & I & _). exists b', fd', cl'. auto.
Qed.

(** renumbering a cell structure *)
Lemma cells_renum (U : Z -> Prop) (K : Z -> bool) N nf1 nh1 f bkk hh (fd : fds) f' (fd' : fds) :
  (forall v, U v <-> 0 <= v < N /\ K v = true) -> 0 <= N -> cells D U nf1 nh1 f bkk hh fd ->
  (forall v i, U v -> 0 <= i < D -> f' (cnt K v) i = cnt K (f v i)) -> (forall v, U v -> fd' (cnt K v) = fd v) ->
  exists bk' h', cells D (upto (cnt K N)) nf1 nh1 f' bk' h' fd' /\ forall v i, U v -> h' (cnt K v) i = hh v i.
Proof.
  intros HU HN0 Ce Hf Hd.
  set (inv := fun k => match find (fun u => K u && (cnt K u =? k)) (zrange N) with Some u => u | None => 0 end).
  assert (CI : forall u v, U u -> U v -> cnt K u = cnt K v -> u = v).
  { intros u v Hu Hv E. apply HU in Hu as (Hu & Ku), Hv as (Hv & Kv). destruct (Z.lt_trichotomy u v) as [X|[X|X]]; auto.
    - pose proof (cnt_lt K u v ltac:(lia) Ku). lia.
    - pose proof (cnt_lt K v u ltac:(lia) Kv). lia. }
  assert (I1 : forall v, U v -> inv (cnt K v) = v).
  { intros v Hv. unfold inv. pose proof Hv as Hv'. apply HU in Hv' as (Rv & Kv). destruct (find _ _) eqn:F.
    - apply find_some in F as (R & F). apply andb_prop in F as (F1 & F2). apply Z.eqb_eq in F2. apply in_zrange in R. apply CI; auto. apply HU; auto.
    - exfalso. pose proof (find_none _ _ F v ltac:(apply in_zrange; auto)) as Q. cbv beta in Q. rewrite Kv, Z.eqb_refl in Q. discriminate. }
  assert (SU : forall k, upto (cnt K N) k -> exists v, U v /\ k = cnt K v).
  { intros k Hk. destruct (cnt_surj K N k) as (u & Hu & Ku & E); auto. exists u. split; auto. apply HU; auto. }
  assert (CR : forall v, U v -> upto (cnt K N) (cnt K v)).
  { intros v Hv. apply HU in Hv as (Rv & Kv). pose proof (cnt_lt K v N ltac:(lia) Kv). pose proof (cnt_nonneg K v). unfold upto. lia. }
  exists (fun k => bkk (inv k)), (fun k => hh (inv k)). split.
  - constructor.
    + intros k i Hk Hi. destruct (SU k Hk) as (v & Hv & ->). rewrite Hf by auto. destruct (ce_f _ _ _ _ _ _ _ _ Ce v i Hv Hi) as (A1 & A2).
      split; auto.
    + intros k i Hk Hi. destruct (SU k Hk) as (v & Hv & ->). destruct (ce_f _ _ _ _ _ _ _ _ Ce v i Hv Hi) as (A1 & _).
      destruct (ce_bk _ _ _ _ _ _ _ _ Ce v i Hv Hi) as (A3 & A4 & A5). rewrite Hf by auto. rewrite !I1 by auto. rewrite Hf by auto. rewrite A4. auto.
    + intros k i Hk Hi. destruct (SU k Hk) as (v & Hv & ->). rewrite I1 by auto. apply (ce_h _ _ _ _ _ _ _ _ Ce); auto.
    + intros k i j Hk Hi Hj. destruct (SU k Hk) as (v & Hv & ->). rewrite I1 by auto. apply (ce_hinj _ _ _ _ _ _ _ _ Ce); auto.
    + intros k i j Hk Hi Hj Hij. destruct (SU k Hk) as (v & Hv & ->). rewrite Hd by auto. apply (ce_fd _ _ _ _ _ _ _ _ Ce); auto.
    + intros k i j i' j' Hk Hi Hj Hij Hi' Hj' Hij'. destruct (SU k Hk) as (v & Hv & ->). rewrite Hd by auto. apply (ce_names _ _ _ _ _ _ _ _ Ce); auto.
    + intros k i j Hk Hi Hj Hij. destruct (SU k Hk) as (v & Hv & ->). destruct (ce_f _ _ _ _ _ _ _ _ Ce v i Hv Hi) as (A1 & _).
      destruct (ce_edge _ _ _ _ _ _ _ _ Ce v i j Hv Hi Hj Hij) as (j' & B1 & B2 & B3 & B4). exists j'. rewrite Hf by auto. rewrite !I1, !Hd by auto. auto.
  - intros v i Hv. now rewrite I1.
Qed.

Definition posdesc (ps' : Z -> Z -> T NN) (h' : Z -> Z -> Z) (ov : Z -> Z) (nw : Z -> Z -> Z) : Prop :=
  (forall v, 0 <= v < n -> keep v = true -> ps' (ov v) = ps b0 v /\ forall i, 0 <= i < D -> h' (ov v) i = h v i)
  /\ forall v i, iscut v i -> (forall k, 0 <= k < D -> ps' (nw v i) k = newposN NN sd (ps b0) v (f0 v i) k)
      /\ h' (nw v i) 0 = nh /\ forall a, 0 < a < D -> h' (nw v i) a = h v (other i a).

Lemma clipN_cut_spec fuel p : vbN NN p = b0 -> fdN NN p = fd0 -> nvN NN p = n -> nfN NN p = nf -> (Z.to_nat (MX * D * D * D) <= fuel)%nat ->
  (N <= MX /\ exists p', clipN_cut NN MX D fuel p sds cl = OK p' /\ nvN NN p' = cnt keep n + ncrN NN D b0 n cl /\ nf <= nfN NN p'
     /\ exists bk' h' ov nw, cells D (upto (nvN NN p')) (nfN NN p') (nh + 1) (nb (vbN NN p')) bk' h' (fdN NN p')
        /\ truncated D n nf keep f0 fd0 (nvN NN p') (nb (vbN NN p')) (fdN NN p') ov nw
        /\ posdesc (ps (vbN NN p')) h' ov nw)
  \/ (MX < N /\ clipN_cut NN MX D fuel p sds cl = Err OutOfBounds).
Proof.
  intros Eb Ef En Enf Hfuel. unfold clipN_cut. rewrite Eb, Ef, En, Enf.
  destruct (insN_spec NN MX D b0 fd0 n sds sd cl) as [(((b1 & fd1) & N1) & E1 & DE)|(E1 & X)]; auto; try lia; [intros; apply crng; auto| |].
  2:{ right. rewrite E1. auto. }
  left. assert (EN : N1 = N) by apply DE. subst N1. assert (HM : N <= MX) by apply DE. split; auto. rewrite E1. cbn [bind].
  assert (HNN0 : 0 <= n <= N /\ N <= MX) by (unfold ncrN in *; lia).
  pose proof (mid_leafy b1 fd1 DE) as L. pose proof (mid_GI b1 fd1 DE) as G0.
  destruct (closeN_spec NN MX D b1 fd1 (bk1) h1 n N nf keep L HD HNN0 Hnf fuel) as (b2 & fd2 & nf2 & E2 & G & A); auto.
  { eapply Nat.le_trans; [|exact Hfuel]. assert (N * D * D * D <= MX * D * D * D) by (repeat apply Z.mul_le_mono_nonneg_r; lia). lia. }
  rewrite E2. cbn [bind]. pose proof (closed_cells b1 fd1 DE b2 fd2 nf2 G A HM) as CC.
  destruct (compressN_spec b2 fd2 N) as (b3 & fd3 & cl3 & E3 & H3); [lia|]. rewrite E3. cbn [bind].
  assert (KU : forall v, UU n N keep v <-> 0 <= v < N /\ keep v = true).
  { intros v. unfold UU. split; [|intros (Hv & Kv); destruct (Z_lt_dec v n); [left; split; [lia|auto]|right; lia]].
    intros [(Hv & Kv)|Hv]; [split; auto; lia|]. split; [lia|]. unfold keepN. rewrite Hcl by lia. auto. }
  pose proof (cnt_le keep N ltac:(lia)). pose proof (cnt_nonneg keep N).
  destruct (reindex_loop_spec MX D cl3 b3 (cnt keep N)) as (b4 & E4 & Hp & Hr & _); try lia.
  { intros i np Hi Hnp. destruct (cnt_surj keep N i) as (u & Hu & Ku & <-); try lia.
    destruct (H3 u Hu Ku) as (-> & _). destruct (ce_f _ _ _ _ _ _ _ _ CC u np) as (X & _); [apply KU; auto|auto|]. apply KU in X. lia. }
  rewrite E4. cbn [bind].
  assert (Enb : forall v i, UU n N keep v -> 0 <= i < D -> nb b4 (cnt keep v) i = cnt keep (nb b2 v i)).
  { intros v i Hv Hi. pose proof Hv as Hv'. apply KU in Hv' as (Rv & Kv). pose proof (cnt_lt keep v N ltac:(lia) Kv). pose proof (cnt_nonneg keep v).
    rewrite Hr by lia. destruct (H3 v Rv Kv) as (-> & _). destruct (ce_f _ _ _ _ _ _ _ _ CC v i Hv Hi) as (X & _). apply KU in X as (X1 & X2).
    destruct (H3 _ X1 X2) as (_ & _ & _ & ->). auto. }
  assert (Efd : forall v, UU n N keep v -> fd3 (cnt keep v) = fd2 v) by (intros v Hv; apply KU in Hv as (Rv & Kv); apply H3; auto).
  assert (Eps : forall v, UU n N keep v -> ps b4 (cnt keep v) = ps b2 v) by (intros v Hv; apply KU in Hv as (Rv & Kv); rewrite Hp; apply H3; auto).
  destruct (cells_renum _ keep N nf2 (nh + 1) (nb b2) (bk2 fd1 b2) h1 fd2 (nb b4) fd3 KU ltac:(lia) CC Enb Efd) as (bk' & h' & CC' & EH).
  eexists. split; [reflexivity|]. cbn [vbN nvN nfN fdN].
  assert (UO : forall v, 0 <= v < n -> keep v = true -> UU n N keep v) by (intros; apply U_old; auto).
  assert (UN : forall v i, iscut v i -> UU n N keep (Mn v i)) by (intros; apply U_new; auto).
  assert (CR : forall v, UU n N keep v -> 0 <= cnt keep v < cnt keep N).
  { intros v Hv. apply KU in Hv as (Rv & Kv). pose proof (cnt_lt keep v N ltac:(lia) Kv). pose proof (cnt_nonneg keep v). lia. }
  assert (CI : forall u v, UU n N keep u -> UU n N keep v -> cnt keep u = cnt keep v -> u = v).
  { intros u v Hu Hv E. apply KU in Hu as (Hu & Ku), Hv as (Hv & Kv). destruct (Z.lt_trichotomy u v) as [X|[X|X]]; auto.
    - pose proof (cnt_lt keep u v ltac:(lia) Ku). lia.
    - pose proof (cnt_lt keep v u ltac:(lia) Kv). lia. }
  split; [|split; [apply (gi_nf _ _ _ _ _ _ _ _ _ _ _ _ _ G)|]].
  { clear - HNN0 Hcl. assert (Q : forall k, 0 <= k -> cnt keep (n + k) = cnt keep n + k); [|apply Q; lia].
    intros k Hk. pattern k. apply zrange_ind; auto; [rewrite Z.add_0_r; lia|].
    intros m Hm IH. replace (n + (m + 1)) with (n + m + 1) by lia. rewrite cnt_succ, IH by lia. unfold keepN at 2. rewrite Hcl by lia. cbn. lia. }
  exists bk', h', (cnt keep), (fun v i => cnt keep (Mn v i)). split; [exact CC'|]. split.
  - assert (IC : forall v i, 0 <= v < n -> 0 <= i < D -> keep v = true -> keep (f0 v i) = false -> iscut v i) by (intros; repeat split; auto; lia).
    constructor.
    + intros v Hv Kv. apply CR; auto.
    + intros v i Hv Hi Kv Kf. apply CR; auto.
    + intros u Hu. destruct (cnt_surj keep N u) as (w & Hw & Kw & E); [lia|exact Hu|]. destruct (Z_lt_dec w n).
      * left. exists w. split; [lia|]. split; auto.
      * right. destruct (Mn_surj w ltac:(lia)) as (v & i & Hc & ->). exists v, i. destruct Hc as (A1 & A2 & A3 & A4). auto 10.
    + intros v w Hv Hw Kv Kw E. apply CI; auto.
    + intros v i w j Hv Hi Kv Kf Hw Hj Kw Kf' E. apply CI in E; auto. apply Mn_inj; auto.
    + intros v w j Hv Kv Hw Hj Kw Kf' E. apply CI in E; auto. pose proof (Mn_rng w j (IC _ _ Hw Hj Kw Kf')). lia.
    + intros v i Hv Hi Kv. rewrite Enb by auto. rewrite (cl_old b1 fd1 b2 fd2 nf2 G) by auto. destruct (keep (f0 v i)) eqn:Kf.
      * now rewrite (m_old b1 fd1 DE).
      * destruct (m_new b1 fd1 DE v i) as (-> & _); auto.
    + intros v i Hv Hi Kv Kf. rewrite Enb by (auto; lia). rewrite (cl_nb0 b1 fd1 b2 fd2 nf2 G) by (apply Mn_rng; auto). destruct (m_new b1 fd1 DE v i) as (_ & -> & _); auto.
    + intros v i j Hv Hi Hj Hij Kv. rewrite Efd by auto. rewrite (cl_fd b1 fd1 b2 fd2 nf2 G) by auto. now rewrite (m_fd b1 fd1 DE).
    + intros v i a Hv Hi Ha Kv Kf. rewrite Efd by auto. destruct (cl_fd0 b1 fd1 b2 fd2 nf2 G (Mn v i) a) as (-> & _); [apply Mn_rng; auto|].
      destruct (m_new b1 fd1 DE v i) as (_ & _ & _ & _ & F & _); auto. destruct (F a Ha) as (-> & _). f_equal. apply other_sg; lia.
    + intros v i a c Hv Hi Ha Hc Hac Kv Kf. rewrite Efd by auto. pose proof (Mn_rng v i (IC _ _ Hv Hi Kv Kf)).
      assert (P : pairs D n N (Mn v i) a c) by (repeat split; auto; lia).
      destruct (gi_rng _ _ _ _ _ _ _ _ _ _ _ _ _ G (Mn v i) a c P) as [X|X]; [|lia]. exfalso. revert X. apply A; auto.
  - split.
    + intros v Hv Kv. split; [rewrite Eps by auto; rewrite (cl_ps b1 fd1 b2 fd2 nf2 G); apply (m_ps b1 fd1 DE); auto|].
      intros i Hi. rewrite EH by auto. unfold h1. now rewrite lt_old.
    + intros v i Hc. split; [|split].
      * intros k Hk. rewrite Eps by auto. rewrite (cl_ps b1 fd1 b2 fd2 nf2 G). apply (m_new b1 fd1 DE v i Hc); auto.
      * rewrite EH by auto. unfold h1. rewrite lt_new by auto. auto.
      * intros a Ha. rewrite EH by auto. unfold h1. rewrite lt_new, dof_Mn by auto. cbn [fst snd]. destruct (Z.eqb_spec a 0); [lia|]. f_equal. apply other_sg; lia.
Qed.
End Cut.
