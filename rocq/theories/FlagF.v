(** * FlagF: the flags of a simple polytope as lists of facets; the sum of [rNd_reduce]
    over them is not negative and does not depend on the origin. *)
From Coq Require Import Reals ZArith List Bool Lia Lra Permutation.
From Verif Require Import Base Lib SumR RealNum SpecN SpecNC SpecNR RedN PolyN FlagR FlagX PermsN FrameN BoxVolN FlagN.
Import ListNotations.
Open Scope R_scope.

(** ** exchange of two neighbours in a list *)
Fixpoint swp {A} (j : nat) (g : list A) : list A :=
  match j, g with
  | O, a :: b :: r => b :: a :: r
  | S j', a :: r => a :: swp j' r
  | _, _ => g
  end.
Lemma swp_perm {A} j : forall g : list A, Permutation (swp j g) g.
Proof. induction j as [|j IH]; intros [|a r]; cbn [swp]; auto. destruct r; auto. apply perm_swap. Qed.
Lemma swp_inv {A} j : forall g : list A, swp j (swp j g) = g.
Proof. induction j as [|j IH]; intros [|a r]; cbn; auto; [destruct r; auto|now rewrite IH]. Qed.
Lemma swp_nth {A} (x : A) j : forall k g, k <> j -> k <> S j -> nth k (swp j g) x = nth k g x.
Proof.
  induction j as [|j IH]; intros k [|a r] N1 N2; cbn [swp]; auto.
  - destruct r as [|b r]; auto. destruct k as [|[|k]]; try congruence. reflexivity.
  - destruct k; auto. cbn [nth]. apply IH; congruence.
Qed.
Lemma swp_nth1 {A} (x : A) j : forall g, (S j < length g)%nat -> nth j (swp j g) x = nth (S j) g x /\ nth (S j) (swp j g) x = nth j g x.
Proof.
  induction j as [|j IH]; intros [|a [|b r]] H; cbn in H; try lia; auto.
  change (swp (S j) (a :: b :: r)) with (a :: swp j (b :: r)). destruct (IH (b :: r)) as (A1 & A2); [cbn; lia|]. split; [exact A1|exact A2].
Qed.
Lemma swp_skipn {A} j : forall k (g : list A), k <> S j -> Permutation (skipn k (swp j g)) (skipn k g).
Proof.
  induction j as [|j IH]; intros k [|a r] N; cbn [swp]; auto.
  - destruct r as [|b r]; auto. destruct k as [|[|k]]; try congruence; [apply perm_swap|reflexivity].
  - destruct k; cbn [skipn]; [constructor; apply swp_perm|apply IH; congruence].
Qed.
Lemma swp_skipn_eq {A} j : forall k (g : list A), (S j < k)%nat -> skipn k (swp j g) = skipn k g.
Proof.
  induction j as [|j IH]; intros [|k] [|a r] N; cbn [swp]; auto; try lia.
  - destruct r as [|b r]; auto. destruct k as [|k]; [lia|]. reflexivity.
  - cbn [skipn]. apply IH. lia.
Qed.
Lemma skipn_nth {A} (x : A) k : forall g, (k < length g)%nat -> skipn k g = nth k g x :: skipn (S k) g.
Proof. induction k as [|k IH]; intros [|a r] H; cbn in H; try lia; auto. cbn [skipn nth]. rewrite IH by lia. reflexivity. Qed.
Lemma in_skipn {A} (x : A) k : forall g a, In a (skipn k g) <-> exists j, (k <= j < length g)%nat /\ nth j g x = a.
Proof.
  induction k as [|k IH]; intros g a.
  - cbn [skipn]. split; [intros H; apply (In_nth _ _ x) in H as (j & Hj & E); exists j; split; auto; lia|]. intros (j & Hj & <-). apply nth_In. lia.
  - destruct g as [|b r]; cbn [skipn length]; [split; [intros []|intros (j & Hj & _); cbn in Hj; lia]|]. rewrite IH. split.
    + intros (j & Hj & E). exists (S j). split; [lia|exact E].
    + intros ([|j] & Hj & E); [lia|]. exists j. split; [lia|exact E].
Qed.

Lemma filter_filter' {A} (f g : A -> bool) l : filter f (filter g l) = filter (fun a => g a && f a) l.
Proof. induction l as [|a l IH]; auto. cbn. destruct (g a); cbn; [destruct (f a)|]; now rewrite IH. Qed.

(** ** Gram-Schmidt along a list, and the sum over orderings *)
Section G.
Context (D : Z).
Hypothesis HD : (0 <= D)%Z.
Notation vec := (Z -> R).
Notation orthN := (orthN RN D).
Notation unitN := (unitN RN D).
Notation eqv := (eqv RN D).
Notation dot := (dotR D).
Fixpoint frL (es : list vec) (L : Z -> vec) (d : Z) : Z -> vec :=
  match es with
  | [] => L
  | e :: es' => frL es' (upd L d (unitN (orthN L d e))) (d + 1)%Z
  end.
Lemma orth_same L L' d e : (forall dd, (0 <= dd < d)%Z -> L dd = L' dd) -> orthN L d e = orthN L' d e.
Proof. intros H. apply fold_left_ext. intros s dd Hd. apply in_zrange in Hd. now rewrite H. Qed.
Lemma frL_old es : forall L d dd, (dd < d)%Z -> frL es L d dd = L dd.
Proof. induction es as [|e es IH]; intros L d dd Hd; cbn [frL]; auto. rewrite IH by lia. apply upd_neq. lia. Qed.
Lemma frL_new es : forall L d k, (d <= k < d + Z.of_nat (length es))%Z ->
  frL es L d k = unitN (orthN (frL es L d) k (nth (Z.to_nat (k - d)) es (fun _ => 0))).
Proof.
  induction es as [|e es IH]; intros L d k Hk; cbn [length] in Hk; [lia|]. cbn [frL]. destruct (Z.eq_dec k d) as [->|N].
  - rewrite Z.sub_diag. cbn [Z.to_nat nth]. rewrite frL_old by lia. rewrite upd_eq. f_equal. apply orth_same. intros dd Hd.
    rewrite frL_old by lia. now rewrite upd_neq by lia.
  - rewrite IH at 1 by lia. replace (Z.to_nat (k - d)) with (S (Z.to_nat (k - (d + 1)))) by lia. reflexivity.
Qed.
Lemma perms_first (F : list Z -> R) l : NoDup l ->
  l <> [] -> lsum (perms l) F = lsum l (fun i => lsum (perms (filter (fun j => negb (j =? i)%Z) l)) (fun s => F (i :: s))).
Proof.
  intros ND NE. transitivity (lsum (flat_map (fun i => map (cons i) (perms (filter (fun j => negb (j =? i)%Z) l))) l) F).
  - apply lsum_perm. apply NoDup_Permutation.
    + now apply NoDup_perms.
    + apply NoDup_flat_map; auto.
      * intros i _. apply NoDup_map_inj; [congruence|]. apply NoDup_perms. now apply NoDup_filter.
      * intros i j y _ _ H1 H2. apply in_map_iff in H1 as (s & <- & _). apply in_map_iff in H2 as (s' & E & _). congruence.
    + intros y. rewrite in_perms, in_flat_map. 
      assert (G : forall i, In i l -> Permutation l (i :: filter (fun j => negb (j =? i)%Z) l)).
      { intros i Hi. apply NoDup_Permutation; auto.
        - constructor; [rewrite filter_In, Z.eqb_refl; cbn; intuition congruence|now apply NoDup_filter].
        - intros a. cbn. rewrite filter_In. destruct (Z.eqb_spec a i); cbn; intuition congruence. }
      split.
      * intros P. destruct y as [|i s]; [apply Permutation_nil in P; congruence|].
        assert (Hi : In i l) by (eapply Permutation_in; [exact P|now left]). exists i. split; auto. apply in_map_iff. exists s. split; auto.
        apply in_perms. rewrite (G i Hi) in P. now apply Permutation_cons_inv in P.
      * intros (i & Hi & H). apply in_map_iff in H as (s & <- & H). apply in_perms in H. rewrite (G i Hi). now constructor.
  - rewrite lsum_flat_map. apply lsum_ext. intros i _. now rewrite lsum_map.
Qed.
Lemma flags_lists x (E : Z -> vec) k : forall u L, (Z.of_nat k <= D)%Z -> length (free D u) = k ->
  flagsN RN D k x E u L = lsum (perms (free D u)) (fun s => termN RN D x (frL (map E s) L (D - Z.of_nat k))).
Proof.
  induction k as [|k IH]; intros u L Hk Hl.
  - destruct (free D u); [|discriminate]. cbn [flagsN perms lsum map frL]. symmetry. apply Rplus_0_r.
  - rewrite flags_S by auto. rewrite perms_first; [|apply NoDup_free|intros E0; rewrite E0 in Hl; discriminate]. apply lsum_ext. intros i Hi.
    rewrite IH; [|lia|now apply free_length].
    replace (filter (fun j => negb (j =? i)%Z) (free D u)) with (free D (upd u i true)).
    + apply lsum_ext. intros s _. cbn [map frL]. f_equal. f_equal. lia.
    + unfold free. rewrite filter_filter'. apply filter_ext. intros j. unfold upd. destruct (Z.eqb_spec j i); cbn; [now rewrite andb_false_r|now rewrite andb_true_r].
Qed.
End G.

(** ** the flags of a polytope *)
Section P.
Context (D n nf nh : Z) (f bk h : Z -> Z -> Z) (fd : Z -> Z -> Z -> Z).
Hypothesis HD : (1 <= D)%Z.
Hypothesis C : cells D (upto n) nf nh f bk h fd.
Notation U := (upto n).
Notation I i := (0 <= i < D)%Z.
Notation dot := (dotR D).
Notation lin c x := (linN D 0 c x).
Notation flag := (Z * list Z)%type.
Definition slot (v g : Z) : Z := match find (fun i => (h v i =? g)%Z) (zrange D) with Some i => i | None => 0%Z end.
Lemma slot_h v i : U v -> I i -> slot v (h v i) = i.
Proof.
  intros Hv Hi. unfold slot. destruct (find _ _) eqn:F.
  - apply find_some in F as (F1 & F2). apply in_zrange in F1. apply Z.eqb_eq in F2. apply (ce_hinj _ _ _ _ _ _ _ _ C v); auto.
  - pose proof (find_none _ _ F i (proj2 (in_zrange D i) Hi)) as X. cbv beta in X. rewrite Z.eqb_refl in X. discriminate.
Qed.
(** flags: a vertex and its facets in some order *)
Definition fl : list flag := flat_map (fun v => map (fun s => (v, map (h v) s)) (perms (zrange D))) (zrange n).
Lemma map_h_inj v s s' : U v -> Permutation s (zrange D) -> Permutation s' (zrange D) -> map (h v) s = map (h v) s' -> s = s'.
Proof.
  intros Hv P P'. assert (A : forall a, In a s -> I a) by (intros a Ha; apply in_zrange; now rewrite <- P). assert (A' : forall a, In a s' -> I a) by (intros a Ha; apply in_zrange; now rewrite <- P').
  clear P P'. revert s' A'. induction s as [|a s IH]; intros [|a' s'] A' E; try discriminate; auto. injection E as E1 E2.
  f_equal; [apply (ce_hinj _ _ _ _ _ _ _ _ C v); auto; [apply A|apply A']; now left|]. apply IH; auto; intros; [apply A|apply A']; now right.
Qed.
Lemma NoDup_fl : NoDup fl.
Proof.
  apply NoDup_flat_map.
  - apply NoDup_zrange.
  - intros v Hv. apply in_zrange in Hv. apply NoDup_map_inj; [|apply NoDup_perms, NoDup_zrange]. intros s s' Hs Hs' E. apply in_perms in Hs, Hs'.
    injection E as E. now apply (map_h_inj v).
  - intros v w y _ _ H1 H2. apply in_map_iff in H1 as (s & <- & _). apply in_map_iff in H2 as (s' & E & _). congruence.
Qed.
Lemma in_fl v g : In (v, g) fl <-> U v /\ Permutation g (map (h v) (zrange D)).
Proof.
  unfold fl. rewrite in_flat_map. split.
  - intros (w & Hw & H). apply in_map_iff in H as (s & E & Hs). injection E as -> <-. apply in_zrange in Hw. split; auto. apply Permutation_map. now apply in_perms.
  - intros (Hv & P). exists v. split; [now apply in_zrange|]. apply in_map_iff. apply Permutation_map_inv in P as (s & -> & P).
    exists s. split; auto. apply in_perms. now symmetry.
Qed.
Section F1.
Context (v : Z) (g : list Z).
Hypothesis H : In (v, g) fl.
Lemma fl_v : U v. Proof. now apply in_fl in H. Qed.
Lemma fl_len : length g = Z.to_nat D.
Proof. apply in_fl in H as (_ & P). rewrite (Permutation_length P), map_length. apply length_zrange_nat. Qed.
Lemma fl_nd : NoDup g.
Proof.
  apply in_fl in H as (Hv & P). rewrite P. apply NoDup_map_inj; [|apply NoDup_zrange]. intros a b Ha Hb. apply in_zrange in Ha, Hb. now apply (ce_hinj _ _ _ _ _ _ _ _ C v).
Qed.
Lemma fl_in a : In a g <-> exists i, I i /\ h v i = a.
Proof.
  pose proof H as X. apply in_fl in X as (_ & P). split.
  - intros Ha. rewrite P in Ha. apply in_map_iff in Ha as (i & E & Hi). apply in_zrange in Hi. eauto.
  - intros (i & Hi & E). rewrite P. apply in_map_iff. exists i. split; auto. now apply in_zrange.
Qed.
Lemma fl_nth k : (k < Z.to_nat D)%nat -> exists i, I i /\ h v i = nth k g 0%Z /\ slot v (nth k g 0%Z) = i.
Proof.
  intros Hk. assert (A : In (nth k g 0%Z) g) by (apply nth_In; now rewrite fl_len). apply fl_in in A as (i & Hi & E). exists i. split; auto. split; auto.
  rewrite <- E. apply slot_h; auto. apply fl_v.
Qed.
Lemma fl_nth_inj j k : (j < Z.to_nat D)%nat -> (k < Z.to_nat D)%nat -> nth j g 0%Z = nth k g 0%Z -> j = k.
Proof. intros Hj Hk. apply NoDup_nth; [apply fl_nd| |]; now rewrite fl_len. Qed.
End F1.

Definition TT (j : nat) (a : flag) : flag :=
  match j with
  | O => match snd a with [] => a | g0 :: r => let i := slot (fst a) g0 in (f (fst a) i, h (f (fst a) i) (bk (fst a) i) :: r) end
  | S j' => (fst a, swp j' (snd a))
  end.
(** the facets after going along the edge that leaves [g0] *)
Lemma TT0 v g0 r : In (v, g0 :: r) fl -> exists i, I i /\ h v i = g0 /\ TT 0 (v, g0 :: r) = (f v i, h (f v i) (bk v i) :: r) /\ In (f v i, h (f v i) (bk v i) :: r) fl.
Proof.
  intros H. pose proof (fl_v _ _ H) as Hv. destruct (fl_nth _ _ H 0%nat ltac:(lia)) as (i & Hi & E1 & E2). cbn [nth] in E1, E2. exists i. split; auto. split; auto.
  cbn [TT fst snd]. cbv zeta. rewrite E2. split; auto.
  destruct (ce_f _ _ _ _ _ _ _ _ C v i Hv Hi) as (Hw & _). destruct (ce_bk _ _ _ _ _ _ _ _ C v i Hv Hi) as (Hb & _ & _).
  assert (R : forall a, In a r -> exists j', I j' /\ j' <> bk v i /\ h (f v i) j' = a).
  { intros a Ha. destruct (proj1 (fl_in _ _ H a) (or_intror Ha)) as (j & Hj & Ej).
    assert (N : j <> i). { intros ->. pose proof (fl_nd _ _ H) as X. apply NoDup_cons_iff in X as (NI & _). apply NI. now rewrite <- E1, Ej. }
    destruct (ce_edge _ _ _ _ _ _ _ _ C v i j Hv Hi Hj N) as (j' & A1 & A2 & A3 & _). exists j'. split; auto. split; auto. congruence. }
  apply in_fl. split; auto. apply NoDup_Permutation_bis.
  - pose proof (fl_nd _ _ H) as X. inversion X. constructor; auto. intros Ha. destruct (R _ Ha) as (j' & A1 & A2 & A3). apply A2.
    apply (ce_hinj _ _ _ _ _ _ _ _ C (f v i)); auto.
  - rewrite map_length, length_zrange_nat. pose proof (fl_len _ _ H) as X. cbn [length] in *. lia.
  - intros a [<-|Ha]; apply in_map_iff; [exists (bk v i); split; auto; now apply in_zrange|]. destruct (R _ Ha) as (j' & A1 & _ & A3). exists j'. split; auto. now apply in_zrange.
Qed.
Lemma fl_cons v g : In (v, g) fl -> exists g0 r, g = g0 :: r.
Proof. intros H. pose proof (fl_len _ _ H). destruct g; [cbn in *; lia|eauto]. Qed.
Lemma TT_in j a : In a fl -> In (TT j a) fl.
Proof.
  destruct a as (v, g). intros H. destruct j as [|j].
  - destruct (fl_cons _ _ H) as (g0 & r & ->). destruct (TT0 v g0 r H) as (i & _ & _ & -> & X). exact X.
  - cbn [TT fst snd]. apply in_fl in H as (Hv & P). apply in_fl. split; auto. rewrite <- P. apply swp_perm.
Qed.
Lemma TT_inv j a : In a fl -> TT j (TT j a) = a.
Proof.
  destruct a as (v, g). intros H. destruct j as [|j]; [|cbn [TT fst snd]; now rewrite swp_inv].
  destruct (fl_cons _ _ H) as (g0 & r & ->). destruct (TT0 v g0 r H) as (i & Hi & E & -> & X). pose proof (fl_v _ _ H) as Hv.
  destruct (ce_f _ _ _ _ _ _ _ _ C v i Hv Hi) as (Hw & _). destruct (ce_bk _ _ _ _ _ _ _ _ C v i Hv Hi) as (Hb & B1 & B2).
  cbn [TT fst snd]. cbv zeta. rewrite slot_h by auto. rewrite B1, B2, E. reflexivity.
Qed.

Context (p : Z -> Z -> R) (l0 : Z -> R) (l : Z -> Z -> R).
Hypothesis Q : realized D n nh h p l0 l.
Notation L g x := (linN D (l0 g) (l g) x).
Definition frame (k : nat) (a : flag) : Z -> R :=
  frL D (map (fun g => edgeN RN p f (fst a) (slot (fst a) g)) (snd a)) (fun _ _ => 0) 0 (Z.of_nat k).
Definition at_v (a : flag) : Z -> R := p (fst a).

Lemma frame_isU v g k : In (v, g) fl -> (k < Z.to_nat D)%nat -> isU D l (nth k g 0%Z) (skipn (S k) g) (frame k (v, g)).
Proof.
  intros H Hk. pose proof (fl_v _ _ H) as Hv. pose proof (fl_len _ _ H) as HL.
  set (c := fun k : Z => l (nth (Z.to_nat k) g 0%Z)). set (e := fun k : Z => edgeN RN p f v (slot v (nth (Z.to_nat k) g 0%Z))).
  set (F := frL D (map (fun g => edgeN RN p f v (slot v g)) g) (fun _ _ => 0) 0).
  assert (C1 : forall k, I k -> lin (c k) (e k) < 0).
  { intros j Hj. destruct (fl_nth _ _ H (Z.to_nat j) ltac:(lia)) as (i & Hi & E1 & E2). unfold c, e. rewrite E2, <- E1. eapply form_neg; eauto. }
  assert (C0 : forall j k, I j -> I k -> j <> k -> lin (c j) (e k) = 0).
  { intros j j' Hj Hj' N. destruct (fl_nth _ _ H (Z.to_nat j) ltac:(lia)) as (i & Hi & E1 & E2). destruct (fl_nth _ _ H (Z.to_nat j') ltac:(lia)) as (i' & Hi' & E1' & E2').
    unfold c, e. rewrite E2', <- E1. eapply form_zero; eauto. intros ->. rewrite E1 in E1'. apply (fl_nth_inj _ _ H) in E1'; lia. }
  assert (CN : forall y, (forall k, I k -> lin (c k) y = 0) -> forall k, I k -> y k = 0).
  { intros y Hy. apply (re_nd _ _ _ _ _ _ _ Q v); auto. intros i Hi. assert (A : In (h v i) g) by (apply (fl_in _ _ H); eauto).
    apply (In_nth _ _ 0%Z) in A as (j & Hj & E). rewrite <- E. specialize (Hy (Z.of_nat j)). unfold c in Hy. rewrite Nat2Z.id in Hy. apply Hy. lia. }
  assert (HF : forall k, I k -> eqv RN D (F k) (unitN RN D (orthN RN D F k (e k)))).
  { intros j Hj. unfold F at 1. rewrite frL_new by (rewrite map_length; lia). fold F. rewrite Z.sub_0_r. unfold e.
    rewrite (nth_indep _ _ ((fun g => edgeN RN p f v (slot v g)) 0%Z)) by (rewrite map_length; lia). rewrite (map_nth (fun g => edgeN RN p f v (slot v g)) g 0%Z).
    intros x Hx. reflexivity. }
  destruct (gs_all D c e F C1 C0 HF D ltac:(lia) ltac:(lia)) as (O & S).
  destruct (S (Z.of_nat k) ltac:(lia)) as (S1 & S2). unfold c in S1. rewrite Nat2Z.id in S1.
  change (frame k (v, g)) with (F (Z.of_nat k)). constructor; auto.
  - rewrite O by lia. now rewrite Z.eqb_refl.
  - intros a Ha. apply (in_skipn 0%Z) in Ha as (j & Hj & <-). specialize (S2 (Z.of_nat j)). unfold c in S2. rewrite Nat2Z.id in S2. apply S2. lia.
  - intros y Y1 Y2. apply (gs_span D c e F C1 C0 CN HF (Z.of_nat k)); try lia.
    + intros j Hj. unfold c. destruct (Z.eq_dec j (Z.of_nat k)) as [->|N]; [now rewrite Nat2Z.id|]. apply Y2. apply (in_skipn 0%Z). exists (Z.to_nat j). split; auto. lia.
    + intros i Hi. rewrite O by lia. destruct (Z.eqb_spec (Z.of_nat k) i); [lia|auto].
Qed.
Notation M := (Z.to_nat D).
Lemma dot_eqv u u' y : eqv RN D u u' -> dot u y = dot u' y.
Proof. intros E. apply dotR_ext; auto. apply eqv_refl. Qed.
Lemma frame_U j k a y : (j < M)%nat -> (k < M)%nat -> In a fl -> k <> j -> S k <> j -> dot (frame k (TT j a)) y = dot (frame k a) y.
Proof.
  destruct a as (v, g). intros Hj Hk H N1 N2. apply dot_eqv. pose proof (TT_in j _ H) as H'. pose proof (frame_isU _ _ k H Hk) as X.
  destruct j as [|j].
  - destruct (fl_cons _ _ H) as (g0 & r & ->). destruct (TT0 v g0 r H) as (i & Hi & E & E' & I'). rewrite E' in *.
    destruct k as [|k]; [lia|]. pose proof (frame_isU _ _ (S k) I' Hk) as Y. eapply isU_unique; [exact Y|exact X|]. intros a. reflexivity.
  - cbn [TT fst snd] in *. pose proof (frame_isU _ _ k H' Hk) as Y. rewrite swp_nth in Y by lia. eapply isU_unique; [exact Y|exact X|].
    intros a. split; apply Permutation_in; [|symmetry]; apply swp_skipn; lia.
Qed.
Lemma frame_0 a y : In a fl -> dot (frame 0 (TT 0 a)) y = - dot (frame 0 a) y.
Proof.
  destruct a as (v, g). intros H. destruct (fl_cons _ _ H) as (g0 & r & ->). destruct (TT0 v g0 r H) as (i & Hi & E & -> & I'). pose proof (fl_v _ _ H) as Hv.
  pose proof (frame_isU _ _ 0%nat H ltac:(lia)) as X. pose proof (frame_isU _ _ 0%nat I' ltac:(lia)) as Y. cbn [nth skipn] in X, Y.
  destruct (ce_f _ _ _ _ _ _ _ _ C v i Hv Hi) as (Hw & _). destruct (ce_bk _ _ _ _ _ _ _ _ C v i Hv Hi) as (Hb & B1 & B2).
  set (u := frame 0 (v, g0 :: r)) in *. set (w := frame 0 _) in *. set (e := edgeN RN p f v i).
  (* [u] is along the edge *)
  assert (Eu : dot u e = lin (l g0) e / lin (l g0) u).
  { apply (isU_height D l g0 r); auto. intros a Ha. destruct (proj1 (fl_in _ _ H a) (or_intror Ha)) as (j & Hj & <-). eapply form_zero; eauto.
    intros ->. pose proof (fl_nd _ _ H) as Z. apply NoDup_cons_iff in Z as (NI & _). apply NI. now rewrite <- E. }
  assert (Ne : lin (l g0) e < 0) by (rewrite <- E; eapply form_neg; eauto). pose proof (is_out _ _ _ _ _ X) as Nu.
  assert (Z : eqv RN D u (fun k => / dot u e * e k)).
  { intros k Hk. apply Rminus_diag_uniq. apply (re_nd _ _ _ _ _ _ _ Q v (fun k => u k - / dot u e * e k) Hv); auto. intros j Hj. rewrite lin_sub, lin_scal.
    destruct (Z.eq_dec j i) as [->|N]; [rewrite E, Eu; field; lra|]. pose proof (form_zero D n nf nh f bk h fd C p l0 l Q v i j Hv Hi Hj N) as FZ. fold e in FZ. rewrite FZ, (is_in _ _ _ _ _ X); [ring|].
    assert (A : In (h v j) (g0 :: r)) by (apply (fl_in _ _ H); eauto). destruct A as [A|A]; auto. exfalso. apply N. apply (ce_hinj _ _ _ _ _ _ _ _ C v); auto; congruence. }
  assert (De : 0 < / dot u e).
  { apply Rinv_0_lt_compat. rewrite Eu. replace (lin (l g0) e / lin (l g0) u) with ((- lin (l g0) e) / (- lin (l g0) u)) by (field; lra). apply Rdiv_lt_0_compat; lra. }
  assert (V : isU D l (h (f v i) (bk v i)) r (fun k => -1 * u k)).
  { constructor.
    - rewrite dotR_scal, dotR_comm, dotR_scal, (is_unit _ _ _ _ _ X). ring.
    - intros a Ha. rewrite lin_scal, (is_in _ _ _ _ _ X) by auto. ring.
    - rewrite lin_scal, (lin_ext D _ _ _ Z), lin_scal. set (g1 := h (f v i) (bk v i)).
      assert (P : 0 < lin (l g1) e).
      { unfold e. change (edgeN RN p f v i) with (fun k => p v k - p (f v i) k). rewrite lin_sub.
        pose proof (edge_pos D n nf nh f bk h fd p l0 l C Q (f v i) (bk v i) Hw Hb) as P. rewrite B1 in P. pose proof (re_on _ _ _ _ _ _ _ Q (f v i) (bk v i) Hw Hb) as O.
        fold g1 in P, O. rewrite (linN_split D (l0 g1)) in P, O. lra. }
      nra.
    - intros y' Y1 Y2. rewrite dotR_comm, dotR_scal, dotR_comm. replace (dot u y') with 0; [ring|]. symmetry.
      assert (Z0 : eqv RN D y' (fun _ => 0)).
      { intros k Hk. apply (re_nd _ _ _ _ _ _ _ Q (f v i) y' Hw); auto. intros j Hj. assert (A : In (h (f v i) j) (h (f v i) (bk v i) :: r)) by (apply (fl_in _ _ I'); eauto).
        destruct A as [<-|A]; auto. }
      rewrite (dotR_ext D u u y' _ (eqv_refl D u) Z0). unfold dotR. apply lsum_0. intros; ring. }
  rewrite (dot_eqv _ _ y (isU_unique D l _ _ _ _ _ Y V ltac:(intros; reflexivity))). rewrite dotR_comm, dotR_scal, dotR_comm. ring.
Qed.
Lemma frame_W j a y t : (S j < M)%nat -> In a fl ->
  dot (frame j (TT (S j) a)) y * dot (frame (S j) (TT (S j) a)) t - dot (frame (S j) (TT (S j) a)) y * dot (frame j (TT (S j) a)) t
  = - (dot (frame j a) y * dot (frame (S j) a) t - dot (frame (S j) a) y * dot (frame j a) t).
Proof.
  destruct a as (v, g). intros Hj H. pose proof (TT_in (S j) _ H) as H'. cbn [TT fst snd] in *. pose proof (fl_len _ _ H) as HL. pose proof (fl_len _ _ H') as HL'.
  pose proof (frame_isU _ _ j H ltac:(lia)) as A1. pose proof (frame_isU _ _ (S j) H ltac:(lia)) as A2.
  pose proof (frame_isU _ _ j H' ltac:(lia)) as B1. pose proof (frame_isU _ _ (S j) H' ltac:(lia)) as B2.
  rewrite (skipn_nth 0%Z (S j)) in A1, B1 by lia. destruct (swp_nth1 0%Z j g ltac:(lia)) as (E1 & E2). rewrite E1, E2 in *. rewrite swp_skipn_eq in B1, B2 by lia.
  eapply isU_wedge; eauto.
Qed.
Lemma at_0 k a : (0 < k < M)%nat -> In a fl -> dot (frame k a) (at_v (TT 0 a)) = dot (frame k a) (at_v a).
Proof.
  destruct a as (v, g). intros Hk H. destruct (fl_cons _ _ H) as (g0 & r & ->). destruct (TT0 v g0 r H) as (i & Hi & E & -> & I'). pose proof (fl_v _ _ H) as Hv.
  unfold at_v. cbn [fst]. apply Rminus_diag_uniq. rewrite <- dotR_sub. pose proof (frame_isU _ _ k H ltac:(lia)) as X. pose proof (fl_len _ _ H) as HL.
  assert (A : forall a, In a r -> lin (l a) (fun k => p (f v i) k - p v k) = 0).
  { intros a Ha. rewrite lin_sub. destruct (proj1 (fl_in _ _ H a) (or_intror Ha)) as (j & Hj & <-).
    assert (N : j <> i). { intros ->. pose proof (fl_nd _ _ H) as Z. apply NoDup_cons_iff in Z as (NI & _). apply NI. now rewrite <- E. }
    pose proof (form_zero D n nf nh f bk h fd C p l0 l Q v i j Hv Hi Hj N) as F. change (edgeN RN p f v i) with (fun k => p v k - p (f v i) k) in F. rewrite lin_sub in F. lra. }
  destruct k as [|k]; [lia|]. apply (is_orth _ _ _ _ _ X); cbn [nth skipn].
  - apply A. apply nth_In. cbn [length] in HL. lia.
  - intros a Ha. apply A. cbn [skipn] in Ha. rewrite <- (firstn_skipn (S k) r). apply in_or_app. now right.
Qed.

(** ** the sum over the flags *)
Definition kD : R := lprod (zrange D) (fun dd => / IZR (dd + 1)).
Lemma lprod_pos l' (F : Z -> R) : (forall a, In a l' -> 0 < F a) -> 0 < lprod l' F.
Proof. induction l' as [|a l' IH]; intros H; cbn; [lra|]. apply Rmult_lt_0_compat; [apply H; now left|]. apply IH. intros; apply H; now right. Qed.
Lemma kD_pos : 0 < kD.
Proof. apply lprod_pos. intros a Ha. apply in_zrange in Ha. apply Rinv_0_lt_compat, IZR_lt. lia. Qed.
Lemma pr_lprod (u : nat -> flag -> Z -> R) m y a : pr D u m y a = lprod (zrange (Z.of_nat m)) (fun k => dot (u (Z.to_nat k) a) (y a)).
Proof.
  induction m as [|m IH]; [reflexivity|]. cbn [pr]. rewrite Nat2Z.inj_succ, <- Z.add_1_r, zrange_succ, lprod_app by lia. rewrite IH. cbn [lprod]. rewrite Nat2Z.id. ring.
Qed.
Lemma flags_fl x : lsum (zrange n) (fun v => vertexN RN D (x v) (edgeN RN p f v)) = kD * lsum fl (pr D frame M (fun a => x (fst a))).
Proof.
  unfold fl. rewrite lsum_flat_map, <- lsum_scal. apply lsum_ext. intros v Hv. apply in_zrange in Hv. rewrite lsum_map. unfold vertexN.
  rewrite flags_lists by (try apply length_free_all; lia). rewrite free_all, <- lsum_scal. apply lsum_ext. intros s Hs. apply in_perms in Hs.
  rewrite term_R by lia. rewrite pr_lprod, Z2Nat.id by lia. unfold kD. rewrite <- lprod_mul. apply lprod_ext. intros dd Hd. apply in_zrange in Hd.
  unfold frame. cbn [fst snd]. rewrite !Z2Nat.id by lia. rewrite Z.sub_diag. unfold Rdiv. rewrite Rmult_comm. f_equal. rewrite dotN_dot. f_equal.
  rewrite map_map. f_equal. apply map_ext_in. intros i Hi. rewrite slot_h; auto. apply in_zrange. now rewrite <- Hs.
Qed.
Definition face_of (S : list Z) (w : Z) : bool := forallb (fun a => existsb (fun i => (h w i =? a)%Z) (zrange D)) S.
Definition orig (k : nat) (a : flag) : Z -> R := match find (face_of (skipn (S k) (snd a))) (zrange n) with Some w => p w | None => fun _ => 0 end.
Lemma face_of_spec S w : face_of S w = true <-> forall a, In a S -> exists i, I i /\ h w i = a.
Proof.
  unfold face_of. rewrite forallb_forall. split; intros H a Ha; specialize (H a Ha).
  - apply existsb_exists in H as (i & Hi & E). apply in_zrange in Hi. apply Z.eqb_eq in E. eauto.
  - destruct H as (i & Hi & E). apply existsb_exists. exists i. split; [now apply in_zrange|now apply Z.eqb_eq].
Qed.
Lemma orig_inv k : (k < M)%nat -> inv fl TT (S k) (orig k).
Proof.
  intros Hk j (v, g) Hj H. unfold orig. replace (skipn (S k) (snd (TT j (v, g)))) with (skipn (S k) g); [reflexivity|]. destruct j as [|j].
  - destruct (fl_cons _ _ H) as (g0 & r & ->). reflexivity.
  - cbn [TT fst snd]. now rewrite swp_skipn_eq by lia.
Qed.
Lemma orig_pos k a : (k < M)%nat -> In a fl -> 0 <= dot (frame k a) (fun i => at_v a i - orig k a i).
Proof.
  destruct a as (v, g). intros Hk H. pose proof (fl_v _ _ H) as Hv. pose proof (fl_len _ _ H) as HL. unfold orig, at_v. cbn [fst snd].
  destruct (find (face_of (skipn (S k) g)) (zrange n)) as [w|] eqn:F.
  2:{ exfalso. pose proof (find_none _ _ F v (proj2 (in_zrange n v) Hv)) as X. rewrite (proj2 (face_of_spec _ _)) in X; [discriminate|]. intros a Ha.
      apply (fl_in _ _ H). rewrite <- (firstn_skipn (S k) g). apply in_or_app. now right. }
  apply find_some in F as (Hw & F). apply in_zrange in Hw. pose proof (proj1 (face_of_spec _ _) F) as F'. pose proof (frame_isU _ _ k H Hk) as X.
  assert (V : forall a, In a g -> L a (p v) = 0) by (intros a Ha; apply (fl_in _ _ H) in Ha as (i & Hi & <-); now apply (re_on _ _ _ _ _ _ _ Q)).
  assert (Vk : In (nth k g 0%Z) g) by (apply nth_In; lia).
  rewrite (isU_height D l _ _ _ _ X).
  - pose proof (is_out _ _ _ _ _ X) as Nu. rewrite lin_sub. set (gk := nth k g 0%Z) in *. pose proof (V _ Vk) as A.
    assert (B : 0 <= L gk (p w)).
    { apply (fl_in _ _ H) in Vk as (i & Hi & Ei). eapply facet_nonneg; eauto. rewrite <- Ei. now apply (ce_h _ _ _ _ _ _ _ _ C). }
    rewrite (linN_split D (l0 gk)) in A, B.
    replace ((lin (l gk) (p v) - lin (l gk) (p w)) / lin (l gk) (frame k (v, g))) with ((lin (l gk) (p w) - lin (l gk) (p v)) / - lin (l gk) (frame k (v, g))) by (field; lra).
    apply Rmult_le_pos; [lra|]. left. apply Rinv_0_lt_compat. lra.
  - intros a Ha. rewrite lin_sub. destruct (F' a Ha) as (i & Hi & Ei). assert (Ag : In a g) by (rewrite <- (firstn_skipn (S k) g); apply in_or_app; now right).
    pose proof (V a Ag) as A. pose proof (re_on _ _ _ _ _ _ _ Q w i Hw Hi) as B. rewrite Ei in B. rewrite (linN_split D (l0 a)) in A, B. lra.
Qed.

Theorem flag_sum_nonneg : 0 <= lsum (zrange n) (fun v => vertexN RN D (p v) (edgeN RN p f v)).
Proof.
  rewrite flags_fl. change (fun a : flag => p (fst a)) with at_v. apply Rmult_le_pos; [left; apply kD_pos|].
  rewrite (lsum_ext _ _ (fun a => 1 * pr D frame M at_v a)) by (intros; ring).
  apply (pr_nonneg fl D TT frame at_v M NoDup_fl (fun j a _ => TT_in j a) (fun j a _ => TT_inv j a) frame_U frame_0 frame_W
    ltac:(intros j (v, g) _ _; reflexivity) at_0 orig M (fun _ => 1)); auto; try lia.
  - intros j a _ _. reflexivity.
  - intros; lra.
  - apply orig_inv.
  - apply orig_pos.
Qed.
Theorem flag_sum_shift (t : Z -> R) : lsum (zrange n) (fun v => vertexN RN D (fun k => p v k - t k) (edgeN RN p f v))
  = lsum (zrange n) (fun v => vertexN RN D (p v) (edgeN RN p f v)).
Proof.
  rewrite (flags_fl p), (flags_fl (fun v k => p v k - t k)). f_equal. change (fun a : flag => p (fst a)) with at_v.
  rewrite (lsum_ext _ (pr D frame M at_v) (fun a => 1 * pr D frame M at_v a)) by (intros; ring).
  rewrite <- (pr_shift fl D TT frame at_v M NoDup_fl (fun j a _ => TT_in j a) (fun j a _ => TT_inv j a) frame_U frame_0 frame_W
    ltac:(intros j (v, g) _ _; reflexivity) at_0 M (fun _ => 1) (fun _ => t)); auto; try (intros j a _ _; reflexivity).
  apply lsum_ext. intros a _. symmetry. apply Rmult_1_l.
Qed.
End P.
