(** * DisN: a polytope is divided by planes across the axes into small pieces. *)
From Coq Require Import Reals ZArith List Bool Lia Lra Psatz.
From Verif Require Import Base Lib SumR ModelCommon ModelN ModelNC SpecN SpecNC SpecNP SpecNJ RealNum PolyN NearN SplitN UniqN OffN MonoN.
Import ListNotations.
Open Scope R_scope.

Section D.
Context (D : Z).
Hypothesis HD : (3 <= D)%Z.
Notation I i := (0 <= i < D)%Z.
Notation piece := (boxR * polyN RN)%type.
Notation good := (good D).
Notation hullP := (hullP D).
Notation volN := (volN D).
Definition wid (b : boxR) (i : Z) : R := snd b i - fst b i.
Definition sub_box (c b : boxR) : Prop := forall i, I i -> fst b i <= fst c i /\ snd c i <= snd b i.
Lemma sub_in c b x : sub_box c b -> inb D c x -> inb D b x.
Proof. intros S H i Hi. specialize (S i Hi). specialize (H i Hi). lra. Qed.
Lemma sub_apart c c' b b' : sub_box c b -> sub_box c' b' -> apart D b b' -> apart D c c'.
Proof.
  intros S S' A x H H'. apply (A x); intros i Hi; [specialize (S i Hi); specialize (H i Hi)|specialize (S' i Hi); specialize (H' i Hi)]; lra.
Qed.

(** [l] divides the piece [a] *)
Record dis (a : piece) (l : list piece) : Prop := {
  di_each : forall c, In c l -> real_box D (fst c) /\ good (snd c) /\ sub_box (fst c) (fst a) /\ forall x, hullP (snd c) x <-> hullP (snd a) x /\ inb D (fst c) x;
  di_cover : forall x, inb D (fst a) x -> exists c, In c l /\ inb D (fst c) x;
  di_sum : lsum l (fun c => volN (snd c)) = volN (snd a);
  di_apart : ForallOrdPairs (apart D) (map fst l) }.
Definition ready (a : piece) : Prop := real_box D (fst a) /\ good (snd a) /\ forall x, hullP (snd a) x -> inb D (fst a) x.
Lemma dis_ready a l c : dis a l -> In c l -> ready c.
Proof. intros X Hc. destruct (di_each _ _ X c Hc) as (A & B & _ & E). split; auto. split; auto. intros x Hx. now apply E. Qed.
Lemma dis_self a : ready a -> dis a [a].
Proof.
  intros (A & B & E). constructor.
  - intros c [<-|[]]. split; auto. split; auto. split; [intros i _; lra|]. intros x. split; [|tauto]. auto.
  - intros x Hx. exists a. split; auto. now left.
  - cbn. ring.
  - cbn. constructor; constructor.
Qed.

Lemma FOP_app {A} (P : A -> A -> Prop) l l' : ForallOrdPairs P l -> ForallOrdPairs P l' -> (forall a b, In a l -> In b l' -> P a b) -> ForallOrdPairs P (l ++ l').
Proof.
  intros H H' X. induction H as [|a l F H IH]; auto. cbn. constructor.
  - apply Forall_app. split; auto. apply Forall_forall. intros b Hb. apply X; auto. now left.
  - apply IH. intros; apply X; auto. now right.
Qed.
Lemma dis_list (P : piece -> piece -> Prop) l : (forall c, In c l -> exists lc, dis c lc /\ forall e, In e lc -> P c e) ->
  exists L, (forall e, In e L -> exists c lc, In c l /\ dis c lc /\ In e lc /\ P c e)
    /\ (forall c x, In c l -> inb D (fst c) x -> exists e, In e L /\ inb D (fst e) x)
    /\ lsum L (fun c => volN (snd c)) = lsum l (fun c => volN (snd c))
    /\ (ForallOrdPairs (apart D) (map fst l) -> ForallOrdPairs (apart D) (map fst L)).
Proof.
  induction l as [|a l IH]; intros H.
  - exists []. split; [intros ? []|]. split; [intros ? ? []|]. split; auto.
  - destruct IH as (L & A1 & A2 & A3 & A4); [intros; apply H; now right|]. destruct (H a (or_introl eq_refl)) as (la & Da & Pa).
    exists (la ++ L). split; [|split; [|split]].
    + intros e He. apply in_app_or in He as [He|He].
      * exists a, la. split; [now left|]. auto.
      * destruct (A1 e He) as (c & lc & B1 & B). exists c, lc. split; [now right|auto].
    + intros c x [<-|Hc] Hx.
      * destruct (di_cover _ _ Da x Hx) as (e & He & Ex). exists e. split; auto. apply in_or_app. now left.
      * destruct (A2 c x Hc Hx) as (e & He & Ex). exists e. split; auto. apply in_or_app. now right.
    + rewrite lsum_app, A3. cbn [lsum]. rewrite (di_sum _ _ Da). reflexivity.
    + intros F. cbn in F. inversion F as [|? ? F1 F2]; subst. rewrite map_app. apply FOP_app; auto; [apply (di_apart _ _ Da)|].
      intros b b' Hb Hb'. apply in_map_iff in Hb as (e & <- & He). apply in_map_iff in Hb' as (e' & <- & He').
      destruct (A1 e' He') as (c & lc & B1 & B2 & B3 & _). eapply sub_apart; [apply (di_each _ _ Da e He)|apply (di_each _ _ B2 e' B3)|].
      rewrite Forall_forall in F1. apply F1. now apply in_map.
Qed.
Lemma dis_bind a l (P : piece -> piece -> Prop) : dis a l -> (forall c, In c l -> exists lc, dis c lc /\ forall e, In e lc -> P c e) ->
  exists L, dis a L /\ forall e, In e L -> exists c, In c l /\ P c e.
Proof.
  intros X H. destruct (dis_list P l H) as (L & A1 & A2 & A3 & A4). exists L. split.
  - constructor.
    + intros e He. destruct (A1 e He) as (c & lc & B1 & B2 & B3 & _). destruct (di_each _ _ X c B1) as (C1 & C2 & C3 & C4). destruct (di_each _ _ B2 e B3) as (E1 & E2 & E3 & E4).
      split; auto. split; auto. split; [intros i Hi; specialize (C3 i Hi); specialize (E3 i Hi); lra|]. intros x. rewrite E4, C4.
      split; [tauto|]. intros (H1 & H2). split; auto. split; auto. eapply sub_in; eauto.
    + intros x Hx. destruct (di_cover _ _ X x Hx) as (c & Hc & Cx). eauto.
    + rewrite A3. apply (di_sum _ _ X).
    + apply A4, (di_apart _ _ X).
  - intros e He. destruct (A1 e He) as (c & lc & B1 & _ & _ & B4). eauto.
Qed.

Lemma one_cut a j : ready a -> I j -> exists l, dis a l /\ forall e, In e l -> (forall i, I i -> wid (fst e) i <= wid (fst a) i) /\ wid (fst e) j <= 3 / 4 * wid (fst a) j.
Proof.
  destruct a as ((lo, hi), p). intros (RB & G & HB) Hj. cbn [fst snd] in *. pose proof (RB j Hj) as Wj. cbn [fst snd] in Wj.
  set (w := hi j - lo j). destruct (avoid (map (fun v => ps (vbN RN p) v j) (zrange (nvN RN p))) (lo j + w / 4) (hi j - w / 4)) as (s & Hs & NI); [unfold w; lra|].
  set (pl := PLN RN (fun k => if (k =? j)%Z then 1 else 0) (- s) : planeN RN).
  assert (SP : forall x, Spl D pl x = x j - s).
  { intros x. unfold Spl, linN. cbn [dN nN pl]. rewrite (lsum_single _ _ j (NoDup_zrange _) (proj2 (in_zrange _ _) Hj)).
    - rewrite Z.eqb_refl. lra.
    - intros k _ N. destruct (Z.eqb_spec k j); [contradiction|]. ring. }
  destruct (cut D HD p pl G) as (p0 & p1 & G0 & G1 & V & H0 & H1).
  { intros v Hv E. rewrite SP in E. apply NI. apply in_map_iff. exists v. split; [|now apply in_zrange]. change (@eq R (ps (vbN RN p) v j) s). lra. }
  assert (S : lo j + w / 4 < s < hi j - w / 4) by exact Hs. assert (W : w = hi j - lo j) by reflexivity. assert (w0 : 0 < w) by (unfold w; lra).
  exists [(((fun i => if (i =? j)%Z then s else lo i), hi), p0); ((lo, (fun i => if (i =? j)%Z then s else hi i)), p1)]. split.
  - constructor.
    + intros c [<-|[<-|[]]]; cbn [fst snd].
      * split; [|split; [auto|split]].
        -- intros i Hi. cbn [fst snd]. specialize (RB i Hi). cbn [fst snd] in RB. destruct (Z.eqb_spec i j) as [->|]; lra.
        -- intros i Hi. cbn [fst snd]. destruct (Z.eqb_spec i j) as [->|]; lra.
        -- intros x. rewrite H0, SP. split; intros (A & B); split; auto.
           ++ intros i Hi. cbn [fst snd]. specialize (HB x A i Hi). cbn [fst snd] in HB. destruct (Z.eqb_spec i j) as [->|]; lra.
           ++ specialize (B j Hj). cbn [fst snd] in B. rewrite Z.eqb_refl in B. lra.
      * split; [|split; [auto|split]].
        -- intros i Hi. cbn [fst snd]. specialize (RB i Hi). cbn [fst snd] in RB. destruct (Z.eqb_spec i j) as [->|]; lra.
        -- intros i Hi. cbn [fst snd]. destruct (Z.eqb_spec i j) as [->|]; lra.
        -- intros x. rewrite H1, SP. split; intros (A & B); split; auto.
           ++ intros i Hi. cbn [fst snd]. specialize (HB x A i Hi). cbn [fst snd] in HB. destruct (Z.eqb_spec i j) as [->|]; lra.
           ++ specialize (B j Hj). cbn [fst snd] in B. rewrite Z.eqb_refl in B. lra.
    + intros x Hx. cbn [fst snd] in Hx. destruct (Rle_dec s (x j)) as [L|L].
      * eexists. split; [now left|]. intros i Hi. cbn [fst snd]. specialize (Hx i Hi). cbn [fst snd] in Hx. destruct (Z.eqb_spec i j) as [->|]; lra.
      * eexists. split; [right; now left|]. intros i Hi. cbn [fst snd]. specialize (Hx i Hi). cbn [fst snd] in Hx. destruct (Z.eqb_spec i j) as [->|]; lra.
    + cbn [lsum snd]. lra.
    + cbn [map fst]. constructor; [constructor; [|constructor]|constructor; [constructor|constructor]].
      intros x A B. specialize (A j Hj). specialize (B j Hj). cbn [fst snd] in A, B. rewrite Z.eqb_refl in A, B. lra.
  - intros e [<-|[<-|[]]]; unfold wid; cbn [fst snd]; (split; [intros i Hi; destruct (Z.eqb_spec i j) as [->|]; lra|rewrite Z.eqb_refl; lra]).
Qed.
Lemma one_round js : forall a, ready a -> (forall j, In j js -> I j) -> exists l, dis a l /\ forall e, In e l ->
  (forall i, I i -> wid (fst e) i <= wid (fst a) i) /\ forall j, In j js -> wid (fst e) j <= 3 / 4 * wid (fst a) j.
Proof.
  induction js as [|j js IH]; intros a Ra Hj.
  - exists [a]. split; [now apply dis_self|]. intros e [<-|[]]. split; [intros; lra|intros ? []].
  - destruct (one_cut a j Ra) as (l & X & Wl); [apply Hj; now left|].
    destruct (dis_bind a l (fun c e => (forall i, I i -> wid (fst e) i <= wid (fst c) i) /\ forall j, In j js -> wid (fst e) j <= 3 / 4 * wid (fst c) j) X) as (L & XL & WL).
    { intros c Hc. apply IH; [eapply dis_ready; eauto|]. intros; apply Hj; now right. }
    exists L. split; auto. intros e He. destruct (WL e He) as (c & Hc & A & B). destruct (Wl c Hc) as (A' & B'). split.
    + intros i Hi. specialize (A i Hi). specialize (A' i Hi). lra.
    + intros i [<-|Hi]; [specialize (A j (Hj j (or_introl eq_refl))); lra|]. specialize (B i Hi). specialize (A' i (Hj i (or_intror Hi))). lra.
Qed.
Lemma rounds N : forall a, ready a -> exists l, dis a l /\ forall e, In e l -> forall i, I i -> wid (fst e) i <= (3 / 4) ^ N * wid (fst a) i.
Proof.
  induction N as [|N IH]; intros a Ra.
  - exists [a]. split; [now apply dis_self|]. intros e [<-|[]] i _. cbn. lra.
  - destruct (one_round (zrange D) a Ra) as (l & X & Wl); [intros j; apply in_zrange|].
    destruct (dis_bind a l (fun c e => forall i, I i -> wid (fst e) i <= (3 / 4) ^ N * wid (fst c) i) X) as (L & XL & WL).
    { intros c Hc. apply IH. eapply dis_ready; eauto. }
    exists L. split; auto. intros e He i Hi. destruct (WL e He) as (c & Hc & A). destruct (Wl c Hc) as (_ & B). specialize (A i Hi). specialize (B i (proj2 (in_zrange D i) Hi)).
    assert (0 < (3 / 4) ^ N) by (apply pow_lt; lra). cbn [pow]. nra.
Qed.
Theorem dissect a mu : ready a -> 0 < mu -> exists l, dis a l /\ forall e, In e l -> forall i, I i -> wid (fst e) i <= mu.
Proof.
  intros Ra Hm. assert (B : exists B, 0 < B /\ forall i, I i -> wid (fst a) i <= B).
  { exists (1 + lsum (zrange D) (fun i => Rabs (wid (fst a) i))). split.
    - assert (0 <= lsum (zrange D) (fun i => Rabs (wid (fst a) i))) by (apply lsum_nonneg; intros; apply Rabs_pos). lra.
    - intros i Hi. apply (proj2 (in_zrange D i)) in Hi. induction (zrange D) as [|k l IH]; [destruct Hi|]. cbn [lsum].
      pose proof (Rabs_pos (wid (fst a) k)). assert (0 <= lsum l (fun i => Rabs (wid (fst a) i))) by (apply lsum_nonneg; intros; apply Rabs_pos).
      destruct Hi as [->|Hi]; [pose proof (Rle_abs (wid (fst a) i)); lra|]. specialize (IH Hi). lra. }
  destruct B as (B & HB & WB). destruct (pow_lt_1_zero (3 / 4) ltac:(rewrite Rabs_right; lra) (mu / B)) as (N & HN); [now apply Rdiv_lt_0_compat|].
  specialize (HN N (le_n _)). assert (P : 0 < (3 / 4) ^ N) by (apply pow_lt; lra). rewrite Rabs_right in HN by lra.
  destruct (rounds N a Ra) as (l & X & W). exists l. split; auto. intros e He i Hi. specialize (W e He i Hi). specialize (WB i Hi).
  assert ((3 / 4) ^ N * B <= mu); [|nra]. apply Rle_trans with (mu / B * B); [nra|]. right. field. lra.
Qed.
End D.
