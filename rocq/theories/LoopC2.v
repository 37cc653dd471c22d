(** * LoopC2: the boundary of a polygon as a list, and what a cut makes of it. *)
From Coq Require Import Reals ZArith List Bool Lia Lra.
From Verif Require Import Base Lib ModelCommon CommonFacts Model2 Spec2 Struct2 Clip2 HPoly HShift HInt
  RealNum SumR Reduce2 Spec2R Mom2 Cons2 Convex2 SpecC2.
Import ListNotations.

(** ** Triangles of a list *)
Section C.
Open Scope R_scope.
Lemma turn_rot a b c : turn a b c = turn b c a. Proof. unfold turn. ring. Qed.
Lemma FOP_snoc {A} (P : A -> A -> Prop) s a : ForallOrdPairs P (s ++ [a]) <-> ForallOrdPairs P s /\ Forall (fun b => P b a) s.
Proof.
  induction s as [|b s IH]; cbn; [split; [intros; split; constructor|intros; constructor; constructor]|].
  split.
  - intros H. inversion H as [|? ? F1 F2]; subst. apply Forall_app in F1 as (F1 & F3). apply IH in F2 as (F2 & F4).
    inversion F3; subst. split; constructor; auto.
  - intros (H & F). inversion H as [|? ? F1 F2]; subst. inversion F; subst. constructor; [apply Forall_app; split; auto|]. apply IH. auto.
Qed.
Lemma FOP_weaken {A} (P Q : A -> A -> Prop) s : (forall a b, P a b -> Q a b) -> ForallOrdPairs P s -> ForallOrdPairs Q s.
Proof. intros H X. induction X; constructor; auto. eapply Forall_impl; [|eassumption]. auto. Qed.
Lemma ccw_snoc s a : ccw (s ++ [a]) <-> ccw s /\ ForallOrdPairs (fun b c => 0 <= turn b c a) s.
Proof.
  induction s as [|b s IH]; cbn [app ccw].
  - split; [intros _; split; [exact I|constructor]|]. intros _. split; [constructor|exact I].
  - rewrite IH, FOP_snoc. split.
    + intros ((A & B) & C & D). split; [split; auto|]. constructor; auto.
    + intros ((A & B) & C). inversion C; subst. auto.
Qed.
Lemma ccw_rot1 a s : ccw (a :: s) -> ccw (s ++ [a]).
Proof. intros (A & B). apply ccw_snoc. split; auto. eapply FOP_weaken; [|exact A]. intros b c H. cbv beta in *. rewrite <- turn_rot. exact H. Qed.
Lemma ccw_rot l r : ccw (l ++ r) -> ccw (r ++ l).
Proof.
  revert r. induction l as [|a l IH]; intros r H; [now rewrite app_nil_r|].
  cbn [app] in H. apply ccw_rot1 in H. rewrite <- app_assoc in H. apply IH in H. now rewrite <- app_assoc in H.
Qed.
Lemma ccw_nil : ccw []. Proof. exact I. Qed.
(** three entries in order *)
Lemma ccw_in3 s l a m b r c t : ccw s -> s = l ++ a :: m ++ b :: r ++ c :: t -> 0 <= turn a b c.
Proof.
  intros H ->. induction l as [|x l IH]; cbn [app ccw] in H; [|apply IH, H].
  destruct H as (H & _). induction m as [|y m IH]; cbn [app] in H; inversion H as [|? ? F1 F2]; subst; [|apply IH; auto].
  rewrite Forall_forall in F1. apply F1. apply in_or_app. right. now left.
Qed.
Lemma ccw_all s : (forall l a m b r c t, s = l ++ a :: m ++ b :: r ++ c :: t -> 0 <= turn a b c) -> ccw s.
Proof.
  induction s as [|x s IH]; intros H; cbn; [exact I|]. split.
  - assert (G : forall m b r c t, s = m ++ b :: r ++ c :: t -> 0 <= turn x b c) by (intros m b r c t E; apply (H [] x m b r c t); cbn; now rewrite E).
    clear - G. induction s as [|b s IH]; constructor.
    + apply Forall_forall. intros c Hc. apply in_split in Hc as (r & t & E). apply (G [] b r c t). cbn. now rewrite E.
    + apply IH. intros m b' r c t E. apply (G (b :: m) b' r c t). cbn. now rewrite E.
  - apply IH. intros l a m b r c t E. apply (H (x :: l) a m b r c t). cbn. now rewrite E.
Qed.
End C.

(** ** Rotating the loop *)
Open Scope Z_scope.
Lemma loop_rot1 f n a s : loop f n (a :: s) -> loop f n (s ++ [a]).
Proof.
  intros (ND & I & S & L). destruct s as [|b s]; [exact (conj ND (conj I (conj S L)))|].
  split; [|split; [|split]].
  - apply NoDup_cons_iff in ND as (N1 & N2). rewrite NoDup_count_occ with (decA := Z.eq_dec) in *. intros x. specialize (N2 x).
    rewrite count_occ_app. cbn [count_occ] in *. destruct (Z.eq_dec a x) as [->|]; [|lia].
    apply (count_occ_not_In Z.eq_dec) in N1. cbn [count_occ] in N1. lia.
  - intros v. rewrite <- I. rewrite in_app_iff. cbn. tauto.
  - intros l c e r E. destruct (exists_last (l := e :: r)) as (r' & z & E'); [discriminate|].
    rewrite E' in E. change (l ++ c :: r' ++ [z]) with (l ++ (c :: r') ++ [z]) in E. rewrite app_assoc in E. apply app_inj_tail in E as (E1 & <-).
    destruct r' as [|e' r'].
    + cbn in E'. injection E' as -> ->. specialize (L a (b :: s) eq_refl). rewrite E1 in L.
      replace (last (a :: l ++ [c]) a) with c in L; auto. symmetry. change (a :: l ++ [c]) with ((a :: l) ++ [c]). apply last_last.
    + cbn in E'. injection E' as <- ->. apply (S (a :: l) c e r'). cbn. now rewrite E1.
  - intros x r E. rewrite last_last. destruct s as [|c s]; cbn in E; injection E as <- _; apply (S [] a b _ eq_refl).
Qed.
Lemma loop_rot f n l r : loop f n (l ++ r) -> loop f n (r ++ l).
Proof.
  revert r. induction l as [|a l IH]; intros r H; [now rewrite app_nil_r|].
  cbn [app] in H. apply loop_rot1 in H. rewrite <- app_assoc in H. apply IH in H. now rewrite <- app_assoc in H.
Qed.

(** ** One exit *)
Lemma run (K : Z -> bool) s : exists A r, s = A ++ r /\ (forall v, In v A -> K v = true) /\ (r = [] \/ exists v r', r = v :: r' /\ K v = false).
Proof.
  induction s as [|a s IH]; [exists [], []; repeat split; auto; intros v []|].
  destruct (K a) eqn:E.
  - destruct IH as (A & r & -> & HA & Hr). exists (a :: A), r. split; auto. split; auto. intros v [<-|Hv]; auto.
  - exists [], (a :: s). split; auto. split; [intros v []|]. right. eauto.
Qed.
Lemma arcs f n (K : Z -> bool) s : loop f n s -> (exists v, 0 <= v < n /\ K v = true) -> (exists v, 0 <= v < n /\ K v = false) ->
  (forall u v, 0 <= u < n -> 0 <= v < n -> K u = true -> K v = true -> K (f u) = false -> K (f v) = false -> u = v) ->
  exists A B, (forall Q : list Z -> Prop, (forall l r, Q (l ++ r) -> Q (r ++ l)) -> Q s -> Q (A ++ B))
    /\ A <> [] /\ B <> [] /\ (forall v, In v A -> K v = true) /\ (forall v, In v B -> K v = false).
Proof.
  intros LP (a & Ha & Ka) (b & Hb & Kb) U. pose proof LP as (ND & I & S & L).
  apply I in Ha. apply in_split in Ha as (l1 & l2 & ->).
  assert (LP2 : loop f n ((a :: l2) ++ l1)) by (apply loop_rot; auto). set (t := (a :: l2) ++ l1) in *.
  destruct LP2 as (ND2 & I2 & S2 & _).
  destruct (run K t) as (A & r & E & HA & [->|(d & r' & -> & Kd)]).
  { exfalso. rewrite app_nil_r in E. apply I2 in Hb. rewrite E in Hb. apply HA in Hb. congruence. }
  destruct A as [|a' A]. { exfalso. unfold t in E. cbn in E. injection E as -> _. congruence. }
  destruct (exists_last (l := a' :: A)) as (A' & u & EA); [discriminate|]. rewrite EA in *. clear EA a' A. rewrite <- app_assoc in E. cbn [app] in E.
  assert (Fu : f u = d) by (apply (S2 A' u d r'); auto).
  assert (Ku : K u = true) by (apply HA, in_or_app; right; now left).
  destruct (run (fun v => negb (K v)) r') as (D & q & -> & HD & Hq).
  assert (HQ : forall v, In v q -> K v = true).
  { destruct Hq as [->|(c & q' & -> & Kc)]; [intros v []|]. apply negb_false_iff in Kc.
    destruct (run K (c :: q')) as (C & z & E2 & HC & [->|(y & z' & -> & Ky)]); [rewrite app_nil_r in E2; now rewrite E2|]. exfalso.
    destruct C as [|c' C]; [cbn in E2; injection E2 as -> _; congruence|].
    destruct (exists_last (l := c' :: C)) as (C' & x & EC); [discriminate|]. rewrite EC in *. rewrite <- app_assoc in E2. cbn [app] in E2. rewrite E2 in E.
    assert (Fx : f x = y). { apply (S2 (A' ++ u :: d :: D ++ C') x y z'). rewrite E. rewrite <- !app_assoc. cbn. now rewrite <- !app_assoc. }
    assert (Kx : K x = true) by (apply HC, in_or_app; right; now left).
    assert (u = x). { apply U; auto; try (apply I2; rewrite E; apply in_or_app; right). - now left. - right. right. apply in_or_app. right. apply in_or_app. right. now left. - congruence. - congruence. }
    subst x. rewrite E in ND2. apply NoDup_remove_2 in ND2. apply ND2. apply in_or_app. right. right. apply in_or_app. right. apply in_or_app. right. now left. }
  exists (q ++ A' ++ [u]), (d :: D). split; [|split; [|split; [discriminate|split]]].
  - intros Q HQr HQs. apply HQr in HQs. fold t in HQs. rewrite E in HQs.
    replace (A' ++ u :: d :: D ++ q) with ((A' ++ u :: d :: D) ++ q) in HQs by (rewrite <- app_assoc; reflexivity).
    apply HQr in HQs. rewrite <- !app_assoc. exact HQs.
  - intros X. apply app_eq_nil in X as (_ & X). apply app_eq_nil in X as (_ & X). discriminate.
  - intros v Hv. apply in_app_or in Hv as [Hv|Hv]; auto.
  - intros v [<-|Hv]; auto. apply HD in Hv. now apply negb_true_iff in Hv.
Qed.

(** ** The loop after a cut *)
Lemma last_in {A} (l : list A) d : l <> [] -> In (last l d) l.
Proof. intros H. destruct (exists_last H) as (l' & a & ->). rewrite last_last. apply in_or_app. right. now left. Qed.
Lemma cut_loop {V} (b0 b' : vbuf V) n N K newpos (p : poly V) A B : linked (nb b0) n -> cut2 b0 n N K newpos b' -> compressed 2 K N b' p ->
  loop (fun v => nb b0 v 0) n (A ++ B) -> A <> [] -> B <> [] -> (forall v, In v A -> K v = true) -> (forall v, In v B -> K v = false) ->
  exists s, loop (fun v => nb (vb p) v 0) (nv p) s /\ map (ps (vb p)) s = map (ps b0) A ++ [newpos (last A 0) 0; newpos (hd 0 A) 1].
Proof.
  intros HL C (PN & PC) (ND & I & S & L) NA NB HA HB.
  set (a1 := hd 0 A). set (am := last A 0).
  assert (I1 : In a1 A) by (unfold a1; destruct A; [congruence|now left]).
  assert (Im : In am A) by (apply last_in; auto).
  assert (RA : forall v, In v A -> 0 <= v < n) by (intros v Hv; apply I, in_or_app; auto).
  assert (RB : forall v, In v B -> 0 <= v < n) by (intros v Hv; apply I, in_or_app; auto).
  assert (Fm : K (nb b0 am 0) = false).
  { destruct (exists_last NA) as (A' & x & EA). unfold am. rewrite EA, last_last. destruct B as [|b B]; [congruence|].
    rewrite (S A' x b B); [apply HB; now left|]. rewrite EA, <- app_assoc. reflexivity. }
  assert (F1 : K (nb b0 a1 1) = false).
  { unfold a1. destruct A as [|x A]; [congruence|]. cbn [hd]. destruct (exists_last NB) as (B' & y & EB).
    pose proof (L x (A ++ B) eq_refl) as X. rewrite EB in X. change ((x :: A) ++ B' ++ [y]) with (x :: A ++ B' ++ [y]) in X.
    replace (last (x :: A ++ B' ++ [y]) x) with y in X by (symmetry; rewrite !app_comm_cons, app_assoc; apply last_last).
    assert (Hy : In y B) by (rewrite EB; apply in_or_app; right; now left).
    destruct (HL y (RB y Hy)) as (_ & _ & Y & _). rewrite X in Y. rewrite Y. auto. }
  destruct (c_new _ _ _ _ _ _ C am 0 (RA _ Im) ltac:(lia) (HA _ Im) Fm) as (W1 & P1).
  destruct (c_new _ _ _ _ _ _ C a1 1 (RA _ I1) ltac:(lia) (HA _ I1) F1) as (W2 & P2).
  pose proof (c_n _ _ _ _ _ _ C) as HN.
  destruct (c_mut _ _ _ _ _ _ C am 0 ltac:(pose proof (RA _ Im); lia) ltac:(lia) (HA _ Im)) as (_ & K1 & M1).
  destruct (c_mut _ _ _ _ _ _ C a1 1 ltac:(pose proof (RA _ I1); lia) ltac:(lia) (HA _ I1)) as (_ & K2 & M2).
  set (w1 := nb b' am 0) in *. set (w2 := nb b' a1 1) in *. change (1 - 0) with 1 in M1. change (1 - 1) with 0 in M2.
  pose proof (RA _ Im) as Rm. pose proof (RA _ I1) as R1.
  assert (NEW : forall w, n <= w < N -> K w = true -> w = w1 \/ w = w2).
  { intros w Hw Kw. destruct (c_src _ _ _ _ _ _ C w Hw Kw) as (v & q & Hv & Hq & Kv & Kf & E1 & _).
    assert (Iv : In v A). { apply I in Hv. apply in_app_or in Hv as [Hv|Hv]; auto. apply HB in Hv. congruence. }
    destruct (slot2 q Hq); subst q.
    - left. apply in_split in Iv as (A1 & A2 & EA). destruct A2 as [|x A2].
      + unfold w1, am. rewrite EA, last_last. auto.
      + exfalso. rewrite (S A1 v x (A2 ++ B)) in Kf; [|rewrite EA, <- app_assoc; reflexivity].
        rewrite HA in Kf; [discriminate|]. rewrite EA. apply in_or_app. right. right. now left.
    - right. apply in_split in Iv as (A1 & A2 & EA). destruct A1 as [|x A1] using rev_ind.
      + unfold w2, a1. rewrite EA. cbn. auto.
      + exfalso. clear IHA1. assert (X : nb b0 x 0 = v). { apply (S A1 x v (A2 ++ B)). rewrite EA, <- !app_assoc. reflexivity. }
        assert (Ix : In x A) by (rewrite EA; apply in_or_app; left; apply in_or_app; right; now left).
        destruct (HL x (RA x Ix)) as (_ & _ & Y & _). rewrite X in Y. rewrite Y in Kf. specialize (HA x Ix). congruence. }
  assert (NW : w1 <> w2).
  { intros E. destruct (c_src _ _ _ _ _ _ C w1 W1 K1) as (v & q & Hv & Hq & Kv & Kf & E1 & E2 & E3). rewrite <- E in M2.
    destruct (slot2 q Hq); subst q; [rewrite M2 in E3|rewrite M1 in E3]; lia. }
  assert (N12 : nb b' w1 0 = w2).
  { destruct (c_src _ _ _ _ _ _ C w1 W1 K1) as (v & q & Hv & Hq & Kv & Kf & E1 & E2 & E3).
    destruct (slot2 q Hq); subst q; [|rewrite M1 in E3; lia].
    destruct (c_mut _ _ _ _ _ _ C w1 0 ltac:(lia) ltac:(lia) K1) as (_ & Kx & Mx).
    destruct (NEW (nb b' w1 0) E3 Kx) as [E|E]; auto. exfalso. rewrite E in Mx. change (1 - 0) with 1 in Mx. lia. }
  set (t := A ++ [w1; w2]).
  assert (TI : forall v, In v t <-> 0 <= v < N /\ K v = true).
  { intros v. unfold t. rewrite in_app_iff. cbn. split.
    - intros [Hv|[<-|[<-|[]]]]; [|split; auto; lia|split; auto; lia]. split; auto. pose proof (RA v Hv). lia.
    - intros (Hv & Kv). destruct (Z_lt_le_dec v n) as [Lt|Ge].
      + left. assert (X : In v (A ++ B)) by (apply I; lia). apply in_app_or in X as [X|X]; auto. apply HB in X. congruence.
      + destruct (NEW v ltac:(lia) Kv); auto. }
  assert (TD : NoDup t).
  { unfold t. rewrite NoDup_count_occ with (decA := Z.eq_dec) in *. intros x. specialize (ND x). rewrite count_occ_app in *. cbn [count_occ].
    assert (forall w, n <= w -> count_occ Z.eq_dec A w = O) by (intros w Hw; apply count_occ_not_In; intros X; apply RA in X; lia).
    destruct (Z.eq_dec w1 x), (Z.eq_dec w2 x); subst; try congruence; try lia; rewrite H by lia; lia. }
  assert (TS : forall l a b r, t = l ++ a :: b :: r -> nb b' a 0 = b).
  { intros l a b r E. unfold t in E. destruct r as [|c r] using rev_ind.
    - replace (A ++ [w1; w2]) with ((A ++ [w1]) ++ [w2]) in E by (rewrite <- app_assoc; reflexivity).
      replace (l ++ [a; b]) with ((l ++ [a]) ++ [b]) in E by (rewrite <- app_assoc; reflexivity).
      apply app_inj_tail in E as (E & <-). apply app_inj_tail in E as (_ & <-). auto.
    - clear IHr. destruct r as [|e r] using rev_ind.
      + replace (A ++ [w1; w2]) with ((A ++ [w1]) ++ [w2]) in E by (rewrite <- app_assoc; reflexivity).
        replace (l ++ a :: b :: [] ++ [c]) with (((l ++ [a]) ++ [b]) ++ [c]) in E by (rewrite <- !app_assoc; reflexivity).
        apply app_inj_tail in E as (E & _). apply app_inj_tail in E as (E & <-). unfold w1, am. now rewrite E, last_last.
      + clear IHr. replace (A ++ [w1; w2]) with ((A ++ [w1]) ++ [w2]) in E by (rewrite <- app_assoc; reflexivity).
        replace (l ++ a :: b :: (r ++ [e]) ++ [c]) with (((l ++ a :: b :: r) ++ [e]) ++ [c]) in E by (rewrite <- !app_assoc; reflexivity).
        apply app_inj_tail in E as (E & _). apply app_inj_tail in E as (E & _).
        assert (X : nb b0 a 0 = b) by (apply (S l a b (r ++ B)); rewrite E, <- app_assoc; reflexivity).
        rewrite (c_keep _ _ _ _ _ _ C); auto; try lia.
        * apply RA. rewrite E. apply in_or_app. right. now left.
        * apply HA. rewrite E. apply in_or_app. right. now left.
        * rewrite X. apply HA. rewrite E. apply in_or_app. right. right. now left. }
  assert (CI : forall u v, In u t -> In v t -> cnt K u = cnt K v -> u = v).
  { intros u v Hu Hv E. apply TI in Hu as (Hu & Ku). apply TI in Hv as (Hv & Kv). apply (cnt_inj K); auto; lia. }
  exists (map (cnt K) t). split; [split; [|split; [|split]]|].
  - apply NoDup_map_in; auto.
  - intros v. rewrite PN, in_map_iff. split.
    + intros (u & <- & Hu). apply TI in Hu as (Hu & Ku). split; [apply cnt_nonneg|apply cnt_lt; auto; lia].
    + intros Hv. destruct (cnt_surj K N v) as (u & Hu & Ku & E); [lia|lia|]. exists u. split; auto. apply TI. auto.
  - intros l a b r E. apply map_eq_app in E as (l' & x & E & <- & E2). destruct x as [|a' [|c' r']]; try discriminate.
    cbn in E2. injection E2 as <- <- <-.
    assert (Ha : In a' t) by (rewrite E; apply in_or_app; right; now left). apply TI in Ha as (Ha & Ka).
    destruct (PC a' Ha Ka) as (_ & X). rewrite X by lia. f_equal. eapply TS; eauto.
  - intros a r E. destruct A as [|x A]; [congruence|]. unfold t in E. cbn [app map] in E. injection E as <- _.
    unfold t. replace (map (cnt K) ((x :: A) ++ [w1; w2])) with (map (cnt K) ((x :: A) ++ [w1]) ++ [cnt K w2]) by (rewrite !map_app, <- app_assoc; reflexivity).
    rewrite last_last. destruct (PC w2 ltac:(lia) K2) as (_ & X). rewrite X by lia. rewrite M2. reflexivity.
  - rewrite map_map. unfold t. rewrite map_app. cbn [map]. f_equal.
    + apply map_ext_in. intros a Ha. destruct (PC a ltac:(pose proof (RA a Ha); lia) (HA a Ha)) as (-> & _). apply (c_ps _ _ _ _ _ _ C). auto.
    + destruct (PC w1 ltac:(lia) K1) as (-> & _). destruct (PC w2 ltac:(lia) K2) as (-> & _). now rewrite P1, P2.
Qed.
