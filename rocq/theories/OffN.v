(** * OffN: a simple polytope whose facets are moved a little. *)
From Coq Require Import Reals ZArith List Bool Lia Lra Permutation.
From Verif Require Import Base Lib SumR ModelCommon ModelN ModelNC SpecNP RealNum SpecN SpecNC SpecNR RedN PolyN FlagR FlagX PermsN FrameN NearN BoxVolN FlagN FlagF SplitN UniqN.
Import ListNotations.
Open Scope R_scope.

(** ** continuity at 0 of functions of the offsets *)
Section C.
Context (nh : Z).
Definition cont (F : (Z -> R) -> R) : Prop :=
  forall e, 0 < e -> exists t, 0 < t /\ forall d, (forall g, (0 <= g < nh)%Z -> Rabs (d g) <= t) -> Rabs (F d - F (fun _ => 0)) <= e.
Lemma cont_const c : cont (fun _ => c).
Proof. intros e He. exists 1. split; [lra|]. intros d _. rewrite Rminus_eq_0, Rabs_R0. lra. Qed.
Lemma cont_coord g : (0 <= g < nh)%Z -> cont (fun d => d g).
Proof. intros Hg e He. exists e. split; auto. intros d H. rewrite Rminus_0_r. auto. Qed.
Lemma cont_add F G : cont F -> cont G -> cont (fun d => F d + G d).
Proof.
  intros HF HG e He. destruct (HF (e / 2)) as (t1 & T1 & H1); [lra|]. destruct (HG (e / 2)) as (t2 & T2 & H2); [lra|].
  exists (Rmin t1 t2). split; [now apply Rmin_glb_lt|]. intros d Hd.
  assert (A : Rabs (F d - F (fun _ => 0)) <= e / 2) by (apply H1; intros g Hg; eapply Rle_trans; [now apply Hd|apply Rmin_l]).
  assert (B : Rabs (G d - G (fun _ => 0)) <= e / 2) by (apply H2; intros g Hg; eapply Rle_trans; [now apply Hd|apply Rmin_r]).
  replace (F d + G d - (F (fun _ => 0) + G (fun _ => 0))) with ((F d - F (fun _ => 0)) + (G d - G (fun _ => 0))) by ring.
  eapply Rle_trans; [apply Rabs_triang|]. lra.
Qed.
Lemma cont_mul F G : cont F -> cont G -> cont (fun d => F d * G d).
Proof.
  intros HF HG e He. set (a := F (fun _ => 0)). set (b := G (fun _ => 0)). set (K := Rabs a + Rabs b + 1).
  assert (HK : 1 <= K) by (unfold K; pose proof (Rabs_pos a); pose proof (Rabs_pos b); lra).
  set (e' := Rmin 1 (e / K)). assert (E1 : 0 < e') by (unfold e'; apply Rmin_glb_lt; [lra|apply Rdiv_lt_0_compat; lra]).
  assert (E2 : e' <= 1) by apply Rmin_l. assert (E3 : e' * K <= e).
  { apply Rle_trans with (e / K * K); [apply Rmult_le_compat_r; [lra|apply Rmin_r]|]. right. field. lra. }
  destruct (HF e' E1) as (t1 & T1 & H1). destruct (HG e' E1) as (t2 & T2 & H2).
  exists (Rmin t1 t2). split; [now apply Rmin_glb_lt|]. intros d Hd. fold a b.
  assert (A : Rabs (F d - a) <= e') by (apply H1; intros g Hg; eapply Rle_trans; [now apply Hd|apply Rmin_l]).
  assert (B : Rabs (G d - b) <= e') by (apply H2; intros g Hg; eapply Rle_trans; [now apply Hd|apply Rmin_r]).
  replace (F d * G d - a * b) with ((F d - a) * b + ((G d - b) * a + (F d - a) * (G d - b))) by ring.
  eapply Rle_trans; [apply Rabs_triang|]. pose proof (Rabs_triang ((G d - b) * a) ((F d - a) * (G d - b))) as T. rewrite !Rabs_mult in *.
  pose proof (Rabs_pos a). pose proof (Rabs_pos b). pose proof (Rabs_pos (F d - a)). pose proof (Rabs_pos (G d - b)).
  assert (Rabs (F d - a) * Rabs b <= e' * Rabs b) by (apply Rmult_le_compat_r; auto).
  assert (Rabs (G d - b) * Rabs a <= e' * Rabs a) by (apply Rmult_le_compat_r; auto).
  assert (Rabs (F d - a) * Rabs (G d - b) <= e' * 1) by (apply Rmult_le_compat; auto; lra).
  unfold K in E3. nra.
Qed.
Lemma cont_lsum {A} (l : list A) F : (forall a, In a l -> cont (F a)) -> cont (fun d => lsum l (fun a => F a d)).
Proof.
  induction l as [|a l IH]; intros H; [apply (cont_const 0)|]. cbn [lsum]. apply (cont_add (F a) (fun d => lsum l (fun a => F a d))); [apply H; now left|].
  apply IH. intros; apply H; now right.
Qed.
Lemma cont_ext F G : (forall d, F d = G d) -> cont F -> cont G.
Proof. intros E H e He. destruct (H e He) as (t & Ht & X). exists t. split; auto. intros d Hd. rewrite <- !E. auto. Qed.
Lemma cont_list {A} (l : list A) F e : 0 < e -> (forall a, In a l -> cont (F a)) ->
  exists t, 0 < t /\ forall d a, (forall g, (0 <= g < nh)%Z -> Rabs (d g) <= t) -> In a l -> Rabs (F a d - F a (fun _ => 0)) <= e.
Proof.
  intros He. induction l as [|a l IH]; intros H; [exists 1; split; [lra|intros ? ? ? []]|].
  destruct IH as (t1 & T1 & H1); [intros; apply H; now right|]. destruct (H a (or_introl eq_refl) e He) as (t2 & T2 & H2).
  exists (Rmin t1 t2). split; [now apply Rmin_glb_lt|]. intros d b Hd [<-|Hb].
  - apply H2. intros g Hg. eapply Rle_trans; [now apply Hd|apply Rmin_r].
  - apply H1; auto. intros g Hg. eapply Rle_trans; [now apply Hd|apply Rmin_l].
Qed.
End C.

Section O.
Context (D n nf nh : Z) (f bk h : Z -> Z -> Z) (fd : Z -> Z -> Z -> Z).
Hypothesis HD : (1 <= D)%Z.
Hypothesis C : cells D (upto n) nf nh f bk h fd.
Notation U := (upto n).
Notation I i := (0 <= i < D)%Z.
Notation lin c x := (linN D 0 c x).
Context (p : Z -> Z -> R) (l0 : Z -> R) (l : Z -> Z -> R).
Hypothesis Q : realized D n nh h p l0 l.
Notation L g x := (linN D (l0 g) (l g) x).

(** the point at heights [d] over the facets of [v] *)
Definition offp (d : Z -> R) (v k : Z) : R := p v k + lsum (zrange D) (fun i => d (h v i) / L (h v i) (p (f v i)) * (p (f v i) k - p v k)).
Lemma off_on d v i : U v -> I i -> L (h v i) (offp d v) = d (h v i).
Proof.
  intros Hv Hi. unfold offp. rewrite linN_split, lin_add, lin_lsum. rewrite (lsum_single _ _ i (NoDup_zrange _) (proj2 (in_zrange _ _) Hi)).
  - rewrite lin_scal, lin_sub. pose proof (edge_pos D n nf nh f bk h fd p l0 l C Q v i Hv Hi) as X. pose proof (re_on _ _ _ _ _ _ _ Q v i Hv Hi) as Y.
    rewrite (linN_split D (l0 (h v i))) in X, Y |- *.
    replace (lin (l (h v i)) (p (f v i)) - lin (l (h v i)) (p v)) with (l0 (h v i) + lin (l (h v i)) (p (f v i))) by lra.
    replace (lin (l (h v i)) (p v)) with (- l0 (h v i)) by lra. field. lra.
  - intros j Hj N. apply in_zrange in Hj. rewrite lin_scal. replace (lin (l (h v i)) (fun k => p (f v j) k - p v k)) with 0; [ring|].
    pose proof (form_zero D n nf nh f bk h fd C p l0 l Q v j i Hv Hj Hi (not_eq_sym N)) as X. change (edgeN RN p f v j) with (fun k => p v k - p (f v j) k) in X.
    rewrite lin_sub in X |- *. lra.
Qed.
Lemma off_0 v k : offp (fun _ => 0) v k = p v k.
Proof. unfold offp. rewrite lsum_0; [ring|]. intros. unfold Rdiv. ring. Qed.
Lemma off_realized d : (forall v g, U v -> (0 <= g < nh)%Z -> (forall i, I i -> h v i <> g) -> d g < L g (offp d v)) ->
  realized D n nh h (offp d) (fun g => l0 g - d g) l.
Proof.
  intros P. assert (E : forall g x, linN D (l0 g - d g) (l g) x = L g x - d g) by (intros; unfold linN; lra). constructor.
  - intros v i Hv Hi. rewrite E, off_on by auto. lra.
  - intros v g Hv Hg N. rewrite E. specialize (P v g Hv Hg N). lra.
  - apply (re_nd _ _ _ _ _ _ _ Q).
  - intros v w Hv Hw X. apply (re_inj _ _ _ _ _ _ _ Q); auto. intros k Hk. apply Rminus_diag_uniq.
    apply (re_nd _ _ _ _ _ _ _ Q w (fun k => p v k - p w k) Hw); auto. intros i Hi. rewrite lin_sub.
    assert (A : L (h w i) (p v) = 0).
    { destruct (label_dec D h v (h w i)) as [(j & Hj & Ej)|N]; [rewrite <- Ej; now apply (re_on _ _ _ _ _ _ _ Q)|].
      specialize (P v (h w i) Hv (ce_h _ _ _ _ _ _ _ _ C w i Hw Hi) N). rewrite (linN_ext D _ _ (offp d v) (offp d w)) in P by auto. rewrite off_on in P by auto. lra. }
    pose proof (re_on _ _ _ _ _ _ _ Q w i Hw Hi) as B. rewrite (linN_split D (l0 (h w i))) in A, B. lra.
Qed.
Lemma cont_off v k : U v -> cont nh (fun d => offp d v k).
Proof.
  intros Hv. unfold offp. apply cont_add; [apply cont_const|]. apply (cont_lsum nh (zrange D) (fun i d => d (h v i) / L (h v i) (p (f v i)) * (p (f v i) k - p v k))).
  intros i Hi. apply in_zrange in Hi. apply (cont_mul nh (fun d => d (h v i) / L (h v i) (p (f v i)))); [|apply cont_const].
  apply (cont_mul nh (fun d => d (h v i))); [|apply cont_const]. apply cont_coord. now apply (ce_h _ _ _ _ _ _ _ _ C).
Qed.
Lemma cont_lin c0 c v : U v -> cont nh (fun d => linN D c0 c (offp d v)).
Proof.
  intros Hv. unfold linN. apply cont_add; [apply cont_const|]. apply (cont_lsum nh (zrange D) (fun k d => c k * offp d v k)). intros k _.
  apply cont_mul; [apply cont_const|]. now apply cont_off.
Qed.
(** facets that miss a vertex stay away from it *)
Lemma off_small : exists t, 0 < t /\ forall d, (forall g, (0 <= g < nh)%Z -> Rabs (d g) <= t) -> realized D n nh h (offp d) (fun g => l0 g - d g) l.
Proof.
  set (gap := fun (a : Z * Z) => L (snd a) (p (fst a))).
  set (pairs := flat_map (fun v => map (pair v) (zrange nh)) (zrange n)).
  assert (IP : forall v g, In (v, g) pairs <-> U v /\ (0 <= g < nh)%Z).
  { intros v g. unfold pairs. rewrite in_flat_map. split.
    - intros (w & Hw & X). apply in_map_iff in X as (g' & X & Hg). injection X as -> ->. apply in_zrange in Hw, Hg. auto.
    - intros (Hv & Hg). exists v. split; [now apply in_zrange|]. apply in_map_iff. exists g. split; auto. now apply in_zrange. }
  assert (G : exists e, 0 < e /\ forall v g, U v -> (0 <= g < nh)%Z -> (forall i, I i -> h v i <> g) -> e <= L g (p v)).
  { assert (G : forall l', (forall a, In a l' -> In a pairs) -> exists e, 0 < e /\ forall v g, In (v, g) l' -> (forall i, I i -> h v i <> g) -> e <= L g (p v)).
    { induction l' as [|(v, g) l' IH]; intros H; [exists 1; split; [lra|intros ? ? []]|]. destruct IH as (e & He & X); [intros; apply H; now right|].
      destruct (label_dec D h v g) as [(i & Hi & Ei)|N].
      - exists e. split; auto. intros v' g' [Y|Y] N; [injection Y as -> ->; exfalso; now apply (N i)|auto].
      - assert (Y : In (v, g) pairs) by (apply H; now left). apply IP in Y as (Hv & Hg). exists (Rmin e (L g (p v))). split.
        + apply Rmin_glb_lt; auto. apply (re_off _ _ _ _ _ _ _ Q); auto.
        + intros v' g' [Y|Y] N'; [injection Y as <- <-; apply Rmin_r|]. eapply Rle_trans; [apply Rmin_l|auto]. }
    destruct (G pairs) as (e & He & X); auto. exists e. split; auto. intros v g Hv Hg. apply X. apply IP. auto. }
  destruct G as (e & He & G).
  destruct (cont_list nh pairs (fun a d => L (snd a) (offp d (fst a))) (e / 3)) as (t & Ht & X); [lra| |].
  { intros (v, g) Hp. apply IP in Hp as (Hv & Hg). cbn [fst snd]. now apply cont_lin. }
  exists (Rmin t (e / 3)). split; [apply Rmin_glb_lt; lra|]. intros d Hd. apply off_realized. intros v g Hv Hg N.
  assert (A := X d (v, g)). cbn [fst snd] in A. rewrite (linN_ext D _ _ (offp (fun _ => 0) v) (p v)) in A by (intros; apply off_0).
  specialize (A ltac:(intros g' Hg'; eapply Rle_trans; [now apply Hd|apply Rmin_l]) ltac:(apply IP; auto)).
  specialize (G v g Hv Hg N). pose proof (Hd g Hg) as B. pose proof (Rmin_r t (e / 3)). apply Rabs_le_inv in A. assert (B' : Rabs (d g) <= e / 3) by lra. apply Rabs_le_inv in B'. lra.
Qed.
Notation Vs p := (lsum (zrange n) (fun v => vertexN RN D (p v) (edgeN RN p f v))).
Lemma off_frame d a k y : realized D n nh h (offp d) (fun g => l0 g - d g) l -> In a (fl D n h) -> (k < Z.to_nat D)%nat ->
  dotR D (frame D f h (offp d) k a) y = dotR D (frame D f h p k a) y.
Proof.
  destruct a as (v, g). intros Q' H Hk. apply (dot_eqv D).
  eapply isU_unique; [eapply (frame_isU D n nf nh f bk h fd HD C (offp d)); eauto|eapply (frame_isU D n nf nh f bk h fd HD C p); eauto|]. reflexivity.
Qed.
Lemma off_sum d : realized D n nh h (offp d) (fun g => l0 g - d g) l ->
  Vs (offp d) = kD D * lsum (fl D n h) (pr D (frame D f h p) (Z.to_nat D) (fun a => offp d (fst a))).
Proof.
  intros Q'. rewrite (flags_fl D n nf nh f bk h fd HD C (offp d) (offp d)). f_equal. apply lsum_ext. intros a Ha.
  assert (G : forall m, (m <= Z.to_nat D)%nat -> pr D (frame D f h (offp d)) m (fun a => offp d (fst a)) a = pr D (frame D f h p) m (fun a => offp d (fst a)) a); [|apply G; lia].
  induction m as [|m IH]; intros Hm; cbn [pr]; auto. rewrite IH by lia. rewrite off_frame by (auto; lia). reflexivity.
Qed.
Theorem off_near e : 0 < e -> exists t, 0 < t /\ forall d, (forall g, (0 <= g < nh)%Z -> Rabs (d g) <= t) ->
  realized D n nh h (offp d) (fun g => l0 g - d g) l /\ Rabs (Vs (offp d) - Vs p) <= e.
Proof.
  intros He. destruct off_small as (t0 & T0 & S).
  assert (CF : cont nh (fun d => kD D * lsum (fl D n h) (fun a => pr D (frame D f h p) (Z.to_nat D) (fun a => offp d (fst a)) a))).
  { apply cont_mul; [apply cont_const|]. apply (cont_lsum nh (fl D n h) (fun a d => pr D (frame D f h p) (Z.to_nat D) (fun a => offp d (fst a)) a)).
    intros (v, g) Ha. pose proof (fl_v _ _ _ _ _ Ha) as Hv. induction (Z.to_nat D) as [|m IH]; cbn [pr]; [apply cont_const|]. apply cont_mul; auto.
    unfold dotR. apply (cont_lsum nh (zrange D) (fun j d => frame D f h p m (v, g) j * offp d (fst (v, g)) j)). intros j _. apply cont_mul; [apply cont_const|]. now apply cont_off. }
  destruct (CF e He) as (t1 & T1 & X). exists (Rmin t0 t1). split; [now apply Rmin_glb_lt|]. intros d Hd.
  assert (Q' : realized D n nh h (offp d) (fun g => l0 g - d g) l) by (apply S; intros g Hg; eapply Rle_trans; [now apply Hd|apply Rmin_l]).
  split; auto. rewrite (off_sum d Q'). specialize (X d ltac:(intros g Hg; eapply Rle_trans; [now apply Hd|apply Rmin_r])).
  rewrite (flags_fl D n nf nh f bk h fd HD C p p). replace (lsum (fl D n h) (pr D (frame D f h p) (Z.to_nat D) (fun a => p (fst a))))
    with (lsum (fl D n h) (fun a => pr D (frame D f h p) (Z.to_nat D) (fun a => offp (fun _ => 0) (fst a)) a)); [exact X|].
  apply lsum_ext. intros a _. clear. induction (Z.to_nat D) as [|m IH]; cbn [pr]; auto. rewrite IH. f_equal. apply dotR_ext; [apply eqv_refl|]. intros k _. apply off_0.
Qed.
End O.

(** ** for polytopes in a buffer *)
Theorem solid_off D (p : polyN RN) : (1 <= D)%Z -> (0 < nvN RN p)%Z -> solidN D p ->
  exists nh l0 l, (forall x, hullP D p x <-> forall g, (0 <= g < nh)%Z -> 0 <= linN D (l0 g) (l g) x)
  /\ forall e, 0 < e -> exists t, 0 < t /\ forall d, (forall g, (0 <= g < nh)%Z -> Rabs (d g) <= t) ->
     exists p', nvN RN p' = nvN RN p /\ solidN D p' /\ (forall x, hullP D p' x <-> forall g, (0 <= g < nh)%Z -> d g <= linN D (l0 g) (l g) x)
       /\ Rabs (volN D p' - volN D p) <= e.
Proof.
  intros HD Hn (Hnf & nh & bk & h & l0 & l & C & Q). exists nh, l0, l. split.
  - intros x. eapply hull_facets; eauto.
  - intros e He. destruct (off_near D _ _ nh _ bk h _ HD C _ l0 l Q e He) as (t & Ht & X). exists t. split; auto. intros d Hd. destruct (X d Hd) as (Q' & V).
    exists (PN RN (VB (nb (vbN RN p)) (offp D (nb (vbN RN p)) h (ps (vbN RN p)) l0 l d)) (fdN RN p) (nvN RN p) (nfN RN p)).
    cbn [nvN]. split; auto. split; [|split].
    + split; auto. exists nh, bk, h, (fun g => l0 g - d g), l. split; auto.
    + intros x. unfold hullP. cbn [nvN vbN ps]. rewrite (hull_facets D _ _ nh _ bk h _ _ _ _ C Q' x Hn).
      split; intros Y g Hg; specialize (Y g Hg); unfold linN in *; lra.
    + unfold volN. cbn [nvN vbN ps nb]. rewrite !flag_sum_R. exact V.
Qed.
