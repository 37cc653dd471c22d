(** * ClipC2: clipping and splitting convex polygons, as sets of points *)
From Coq Require Import Reals ZArith List Bool Lia Lra Psatz.
From Verif Require Import Base Lib ModelCommon CommonFacts Model2 Spec2 Struct2 Clip2 HPoly HShift HInt
  RealNum SumR Reduce2 Spec2R Mom2 Cons2 Convex2 SpecC2 LoopC2 HullC2.
Import ListNotations.
Open Scope R_scope.

Definition ccw_loop (p : pol2) : Prop := exists s, loop (fun v => nb (vb p) v 0%Z) (nv p) s /\ ccw (map (ps (vb p)) s).

Lemma cnt_two2 K n u v : (0 <= u < n)%Z -> (0 <= v < n)%Z -> u <> v -> K u = true -> K v = true -> (2 <= cnt K n)%Z.
Proof.
  intros Hu Hv D Ku Kv. unfold cnt. apply (Nat2Z.inj_le 2). change 2%nat with (length [u; v]). apply NoDup_incl_length.
  - repeat constructor; cbn; intuition.
  - intros x [<-|[<-|[]]]; apply filter_In; split; auto; apply in_zrange; auto.
Qed.
Lemma exit_unique K (p : pol2) : wf2 p -> (exits 2 K (nb (vb p)) (nv p) <= 2)%Z ->
  forall u v, (0 <= u < nv p)%Z -> (0 <= v < nv p)%Z -> K u = true -> K v = true -> K (nb (vb p) u 0%Z) = false -> K (nb (vb p) v 0%Z) = false -> u = v.
Proof.
  intros (Hn & HL) HE u v Hu Hv Ku Kv Fu Fv. rewrite exits_even in HE by auto.
  destruct (Z.eq_dec u v) as [|D]; auto. exfalso.
  pose proof (cnt_two2 (fun w => K w && negb (K (nb (vb p) w 0%Z))) (nv p) u v Hu Hv D) as H. cbv beta in H. rewrite Ku, Kv, Fu, Fv in H. specialize (H eq_refl eq_refl). lia.
Qed.
Lemma twice_convex (p : pol2) : wf2 p -> (twice_crossed p <-> convex2 p).
Proof.
  intros Hw. pose proof Hw as (Hn & HL). split.
  - intros H g. unfold crossings. rewrite exits_even by auto.
    enough (cnt (fun v => Rleb 0 (sdist g (ps (vb p) v)) && negb (Rleb 0 (sdist g (ps (vb p) (nb (vb p) v 0%Z))))) (nv p) <= 1)%Z by lia.
    unfold cnt. set (L := filter _ _).
    assert (U : forall u v, In u L -> In v L -> u = v).
    { intros u v Hu Hv. unfold L in *. apply filter_In in Hu as (Hu & Ku), Hv as (Hv & Kv). apply in_zrange in Hu, Hv.
      apply andb_true_iff in Ku as (K1 & K2), Kv as (K3 & K4). apply negb_true_iff in K2, K4. apply Rleb_true in K1, K3. apply Rleb_false in K2, K4.
      apply (H g u v); auto; lra. }
    assert (ND : NoDup L) by (apply NoDup_filter, NoDup_zrange).
    destruct L as [|a [|b L]]; [cbn; lia|cbn; lia|]. exfalso. inversion ND; subst. apply H2. left. apply U; [right; now left|now left].
  - intros H g u v. cbn zeta. intros Hu Hv Ku Kv Fu Fv.
    apply (exit_unique (fun w => Rleb 0 (sdist g (ps (vb p) w))) p Hw (H g)); auto; try (apply Rleb_true; auto); apply Rleb_false; lra.
Qed.
Lemma convex_ccw_iff (p : pol2) : convex_ccw p <-> wf2 p /\ convex2 p /\ ccw_loop p.
Proof. unfold convex_ccw. split; intros (A & B & C); split; auto; split; auto; now apply twice_convex. Qed.

Lemma last_map {A B} (f : A -> B) l d e : l <> [] -> last (map f l) e = f (last l d).
Proof. intros H. destruct (exists_last H) as (l' & a & ->). rewrite map_app, last_last. cbn. now rewrite last_last. Qed.
Lemma hd_map {A B} (f : A -> B) l d e : l <> [] -> hd e (map f l) = f (hd d l).
Proof. destruct l; [congruence|reflexivity]. Qed.

Lemma cut_side pl (p p' : pol2) N b' K np : wf2 p -> ccw_loop p ->
  cut2 (vb p) (nv p) N K np b' -> compressed 2 K N b' p' -> (exits 2 K (nb (vb p)) (nv p) <= 2)%Z ->
  (exists v, (0 <= v < nv p)%Z /\ K v = true) -> (exists v, (0 <= v < nv p)%Z /\ K v = false) ->
  (forall v, (0 <= v < nv p)%Z -> K v = true -> 0 <= sdist pl (ps (vb p) v)) ->
  (forall v, (0 <= v < nv p)%Z -> K v = false -> sdist pl (ps (vb p) v) <= 0) ->
  (forall v q, (0 <= v < nv p)%Z -> (0 <= q < 2)%Z -> K v = true -> K (nb (vb p) v q) = false ->
     sdist pl (ps (vb p) (nb (vb p) v q)) < sdist pl (ps (vb p) v) /\ between (ps (vb p) v) (ps (vb p) (nb (vb p) v q)) (np v q) /\ sdist pl (np v q) = 0) ->
  ccw_loop p' /\ forall x, hull2 p' x <-> hull2 p x /\ 0 <= sdist pl x.
Proof.
  intros Hw (s & LP & CC) C CP HE XT XF KT KF NP. pose proof Hw as (Hn & HL).
  destruct (arcs _ (nv p) K s LP XT XF) as (A & B & Q & NA & NB & HA & HB).
  { apply exit_unique; auto. }
  assert (LP' := Q _ (loop_rot _ _) LP).
  assert (CC' : ccw (map (ps (vb p)) (A ++ B))) by (apply (Q (fun l => ccw (map (ps (vb p)) l))); auto; intros l r X; rewrite map_app in *; now apply ccw_rot).
  destruct (cut_loop _ _ _ _ _ _ p' A B HL C CP LP' NA NB HA HB) as (s' & LS & MS).
  pose proof LP' as (ND & I & S & L). pose proof LS as (_ & I' & _).
  assert (RA : forall v, In v A -> (0 <= v < nv p)%Z) by (intros v Hv; apply I, in_or_app; auto).
  assert (RB : forall v, In v B -> (0 <= v < nv p)%Z) by (intros v Hv; apply I, in_or_app; auto).
  set (am := last A 0%Z) in *. set (a1 := hd 0%Z A) in *. set (d1 := hd 0%Z B). set (dk := last B 0%Z).
  assert (Im : In am A) by (apply last_in; auto). assert (I1 : In a1 A) by (unfold a1; destruct A; [congruence|now left]).
  assert (Id : In d1 B) by (unfold d1; destruct B; [congruence|now left]). assert (Ik : In dk B) by (apply last_in; auto).
  assert (N0 : nb (vb p) am 0%Z = d1).
  { destruct (exists_last NA) as (A' & x & EA). unfold am, d1. rewrite EA, last_last. destruct B as [|b B]; [congruence|]. apply (S A' x b B). rewrite EA, <- app_assoc. reflexivity. }
  assert (N1 : nb (vb p) a1 1%Z = dk).
  { assert (E0 : nb (vb p) dk 0%Z = a1).
    { unfold a1, dk. destruct A as [|a A]; [congruence|]. cbn [hd]. rewrite <- (L a (A ++ B) eq_refl). f_equal.
      destruct (exists_last NB) as (B' & y & EB). rewrite EB, app_assoc, !last_last. reflexivity. }
    destruct (HL dk (RB _ Ik)) as (_ & _ & X & _). rewrite E0 in X. exact X. }
  destruct (NP am 0%Z (RA _ Im) ltac:(lia) (HA _ Im)) as (S1 & B1 & Z1); [rewrite N0; auto|].
  destruct (NP a1 1%Z (RA _ I1) ltac:(lia) (HA _ I1)) as (S2 & B2 & Z2); [rewrite N1; auto|].
  rewrite N0 in S1, B1. rewrite N1 in S2, B2.
  rewrite map_app in CC'. set (PA := map (ps (vb p)) A) in *. set (PB := map (ps (vb p)) B) in *.
  assert (NPA : PA <> []) by (unfold PA; destruct A; cbn; congruence). assert (NPB : PB <> []) by (unfold PB; destruct B; cbn; congruence).
  assert (EL : last PA o2 = ps (vb p) am) by (apply last_map; auto). assert (EH : hd o2 PA = ps (vb p) a1) by (apply hd_map; auto).
  assert (FL : last PB o2 = ps (vb p) dk) by (apply last_map; auto). assert (FH : hd o2 PB = ps (vb p) d1) by (apply hd_map; auto).
  rewrite <- EL, <- FH in S1, B1. rewrite <- EH, <- FL in S2, B2.
  split.
  - exists s'. split; auto. rewrite MS. apply (ccw_cut PA PB); auto.
  - intros x. pose proof (hull_cut pl PA PB (np am 0%Z) (np a1 1%Z) x NPA NPB CC') as HC.
    assert (V' : forall h, (forall y, In y (PA ++ [np am 0%Z; np a1 1%Z]) -> 0 <= sdist h y) <-> (forall v, (0 <= v < nv p')%Z -> 0 <= sdist h (ps (vb p') v))).
    { intros h. rewrite <- MS. split.
      - intros X v Hv. apply X, in_map, I', Hv.
      - intros X y Hy. apply in_map_iff in Hy as (v & <- & Hv). apply X, I', Hv. }
    assert (V : forall h, (forall y, In y (PA ++ PB) -> 0 <= sdist h y) <-> (forall v, (0 <= v < nv p)%Z -> 0 <= sdist h (ps (vb p) v))).
    { intros h. unfold PA, PB. rewrite <- map_app. split.
      - intros X v Hv. apply X, in_map, I, Hv.
      - intros X y Hy. apply in_map_iff in Hy as (v & <- & Hv). apply X, I, Hv. }
    unfold hull2. transitivity (forall h, (forall y, In y (PA ++ [np am 0%Z; np a1 1%Z]) -> 0 <= sdist h y) -> 0 <= sdist h x).
    { split; intros X h Hh; apply X; now apply V'. }
    rewrite HC; auto.
    + split; intros (X & Y); split; auto; intros h Hh; apply X; now apply V.
    + intros a Ha. apply in_map_iff in Ha as (v & <- & Hv). auto.
    + intros a Ha. apply in_map_iff in Ha as (v & <- & Hv). auto.
Qed.

(** ** The new vertices *)
Lemma between_meet pl a b : 0 <= sdist pl a -> sdist pl b <= 0 -> sdist pl b < sdist pl a -> between a b (meet pl a b) /\ sdist pl (meet pl a b) = 0.
Proof.
  intros A B D. split; [|apply meet_on; lra]. exists (- sdist pl b / (sdist pl a - sdist pl b)). split; [split|split].
  - apply Rmult_le_pos; [lra|]. left. apply Rinv_0_lt_compat. lra.
  - apply (Rmult_le_reg_r (sdist pl a - sdist pl b)); [lra|]. unfold Rdiv. rewrite Rmult_assoc, Rinv_l by lra. lra.
  - unfold meet, wav2. cbn. field. lra.
  - unfold meet, wav2. cbn. field. lra.
Qed.
Lemma between_sym a b w : between a b w -> between b a w.
Proof. intros (t & H & X & Y). exists (1 - t). split; [lra|]. rewrite X, Y. split; ring. Qed.

Lemma cutR_hull pl (p p' : pol2) : wf2 p -> convex2 p -> ccw_loop p -> cutR pl p p' ->
  (exists v, (0 <= v < nv p)%Z /\ sdist pl (ps (vb p) v) < 0) -> (exists v, (0 <= v < nv p)%Z /\ 0 < sdist pl (ps (vb p) v)) ->
  ccw_loop p' /\ forall x, hull2 p' x <-> hull2 p x /\ 0 <= sdist pl x.
Proof.
  intros Hw Hc HC (N & b' & K & HK1 & HK2 & C & P) (u & Hu & Su) (v & Hv & Sv). pose proof Hw as (Hn & HL).
  apply (cut_side pl p p' N b' K _ Hw HC C P).
  - pose proof (Hc pl) as X. unfold crossings in X. rewrite (exits_ext K _ _ _ HL HK1). exact X.
  - exists v. split; auto. rewrite HK1 by auto. apply Rleb_true. lra.
  - exists u. split; auto. rewrite HK1 by auto. apply Rleb_false. lra.
  - intros w Hw' Kw. rewrite HK1 in Kw by auto. now apply Rleb_true.
  - intros w Hw' Kw. rewrite HK1 in Kw by auto. apply Rleb_false in Kw. lra.
  - intros w q Hw' Hq Kw Kx. destruct (cut_lnk (vb p) (nv p) HL w q Hw' Hq) as (Lk & _). rewrite HK1 in Kw, Kx by auto.
    apply Rleb_true in Kw. apply Rleb_false in Kx. split; [lra|]. apply between_meet; lra.
Qed.

(** [r2d_clip] of a convex polygon: the intersection, unless it is flat or empty. *)
Lemma empty_ccw (b : vbuf (rvec2 R)) : convex_ccw (PY b 0%Z).
Proof.
  apply convex_ccw_iff. split; [split; [cbn; lia|intros v Hv; cbn in Hv; lia]|]. split; [apply convex2_empty|].
  exists []. split; [|exact I]. split; [constructor|]. split; [intros v; cbn; split; [intros []|lia]|]. split; [intros [|] ? ? ? X; discriminate|intros ? ? X; discriminate].
Qed.
Lemma clip_hull MX (planes : list (plane2 R)) : forall p p' : pol2, convex_ccw p -> (nv p <= MX)%Z -> clip_planes RN MX planes p = OK p' ->
  convex_ccw p' /\ ((forall x, hull2 p' x <-> hull2 p x /\ holds2 planes x)
      \/ (nv p' = 0%Z /\ exists pl, In pl planes /\ forall x, hull2 p x -> holds2 planes x -> sdist pl x = 0)).
Proof.
  induction planes as [|pl rest IH]; intros p p' Hp HM E.
  { cbn in E. injection E as <-. split; auto. left. intros x. split; [|tauto]. intros H. split; auto. intros q []. }
  apply convex_ccw_iff in Hp as (Hw & Hc & HC).
  assert (HO : forall x, holds2 (pl :: rest) x <-> 0 <= sdist pl x /\ holds2 rest x).
  { intros x. unfold holds2. split; [intros H; split; [apply H; now left|intros q Hq; apply H; now right]|intros (A & B) q [<-|Hq]; auto]. }
  destruct (clip_step_R MX pl rest p Hw HM) as [(A & E')|[(A & B & E')|(A & B & [(q & C & W & M & R & E')|(E' & C)])]]; rn; rewrite E' in E.
  - destruct (IH p p') as (C & X); [apply convex_ccw_iff; auto|lia|auto|]. split; auto.
    assert (AX : forall x, hull2 p x -> 0 <= sdist pl x) by (intros x Hx; apply Hx; auto).
    destruct X as [X|(X & g & Hg & Y)].
    + left. intros x. rewrite X, HO. split; [|tauto]. intros (U & V). auto.
    + right. split; auto. exists g. split; [now right|]. intros x Hx Hh. apply HO in Hh. apply Y; tauto.
  - injection E as <-. split; [apply empty_ccw|].
    right. split; auto. exists pl. split; [now left|]. intros x Hx Hh. apply HO in Hh as (U & _).
    assert (0 <= sdist (flip pl) x) by (apply Hx; intros v Hv; rewrite sdist_flip; specialize (A v Hv); lra). rewrite sdist_flip in H. lra.
  - destruct (cutR_convex pl p q Hw C Hc) as (Cq & _). destruct (cutR_hull pl p q Hw Hc HC C A B) as (Lq & Hq).
    destruct (IH q p') as (C' & X); [apply convex_ccw_iff; auto|lia|auto|]. split; auto.
    destruct X as [X|(X & g & Hg & Y)].
    + left. intros x. rewrite X, HO, Hq. tauto.
    + right. split; auto. exists g. split; [now right|]. intros x Hx Hh. apply HO in Hh. apply Y; [apply Hq|]; tauto.
  - discriminate.
Qed.
Theorem r2d_clip_hull MX (p p' : pol2) (planes : list (plane2 R)) : convex_ccw p -> (nv p <= MX)%Z -> r2d_clip RN MX p planes = OK p' ->
  convex_ccw p' /\ ((forall x, hull2 p' x <-> hull2 p x /\ holds2 planes x)
      \/ (nv p' = 0%Z /\ exists pl, In pl planes /\ forall x, hull2 p x -> holds2 planes x -> sdist pl x = 0)).
Proof.
  intros Hp HM E. unfold r2d_clip in E. rn. destruct (Z.leb_spec (nv p) 0) as [L|L]; [|apply (clip_hull MX planes p p' Hp HM E)].
  injection E as <-. split; auto. left. intros x. split; [|tauto]. intros H. exfalso.
  specialize (H (PL2 (V2 0 0) (-1))). unfold sdist in H. cbn in H. assert (0 <= -1 + (0 * vx x + 0 * vy x)) by (apply H; intros; lia). lra.
Qed.
Theorem r2d_clip_room MX (p : pol2) (planes : list (plane2 R)) : convex_ccw p -> (nv p + Z.of_nat (length planes) + 1 <= MX)%Z ->
  exists p', r2d_clip RN MX p planes = OK p' /\ (nv p' <= nv p + Z.of_nat (length planes))%Z.
Proof.
  intros Hp HM. apply convex_ccw_iff in Hp as (Hw & Hc & _). unfold r2d_clip. rn. destruct (Z.leb_spec (nv p) 0).
  - exists p. split; auto. lia.
  - destruct (clip_convex MX planes p Hw Hc HM) as (p' & E & W & C & L). exists p'. auto.
Qed.

(** ** Splits *)
Lemma exits_swap (p : pol2) (Ka Kb : Z -> bool) right : wf2 p -> (forall v, (0 <= v < nv p)%Z -> Ka v = negb (right v) /\ Kb v = right v) ->
  exits 2 Kb (nb (vb p)) (nv p) = exits 2 Ka (nb (vb p)) (nv p).
Proof.
  intros (Hn & HL) HK. rewrite (exits_slots Kb), (exits_slots Ka) by auto.
  pose proof (exits_even Ka (nb (vb p)) (nv p) Hn HL) as X. pose proof (exits_even Kb (nb (vb p)) (nv p) Hn HL) as Y.
  rewrite exits_slots in X, Y by auto.
  enough (cnt (fun v => Kb v && negb (Kb (nb (vb p) v 0%Z))) (nv p) = cnt (fun v => Ka v && negb (Ka (nb (vb p) v 1%Z))) (nv p)) by lia.
  apply eq_IZR. rewrite !cnt_lsum by auto.
  rewrite <- (lsum_next' (nb (vb p)) (nv p) (fun v => if Ka v && negb (Ka (nb (vb p) v 1%Z)) then 1 else 0) HL).
  apply lsum_ext. intros v Hv. apply in_zrange in Hv. destruct (HL v Hv) as (A & _ & -> & _).
  destruct (HK v Hv) as (-> & ->). destruct (HK _ A) as (-> & ->). destruct (right v), (right (nb (vb p) v 0%Z)); reflexivity.
Qed.

Lemma split_hull MX pl (p o0 o1 : pol2) sd right c :
  wf2 p -> c <> 0 -> (forall v, (0 <= v < nv p)%Z -> sd v = c * sdist pl (ps (vb p) v)) ->
  (forall v, (0 <= v < nv p)%Z -> right v = true -> 0 < sdist pl (ps (vb p) v)) ->
  (forall v, (0 <= v < nv p)%Z -> right v = false -> sdist pl (ps (vb p) v) <= 0) ->
  (exists u, (0 <= u < nv p)%Z /\ right u = false) -> (exists u, (0 <= u < nv p)%Z /\ right u = true) ->
  split_result RN MX p sd right o0 o1 -> convex_ccw p ->
  convex_ccw o0 /\ convex_ccw o1 /\ (forall x, hull2 o0 x <-> hull2 p x /\ sdist pl x <= 0) /\ (forall x, hull2 o1 x <-> hull2 p x /\ 0 <= sdist pl x)
  /\ (nv o0 <= nv p + 1)%Z /\ (nv o1 <= nv p + 1)%Z.
Proof.
  intros Hw Hc0 Hsd RT RF X0 X1 HS Hp. apply convex_ccw_iff in Hp as (_ & Hc & HC).
  destruct (split_result_wf RN MX p sd right o0 o1 Hw HS) as (W0 & W1 & _).
  destruct (split_convex MX pl p o0 o1 sd right c Hw Hc0 Hsd RT RF X0 X1 HS Hc) as (C0 & C1 & S0 & S1).
  assert (HR : forall u v, (0 <= u < nv p)%Z -> (0 <= v < nv p)%Z -> right u = false -> right v = true -> sdist pl (ps (vb p) u) <> sdist pl (ps (vb p) v)).
  { intros a b Ha Hb Ra Rb. apply RF in Ra; auto. apply RT in Rb; auto. lra. }
  assert (POS : forall u v q, (0 <= u < nv p)%Z -> (0 <= v < nv p)%Z -> nb (vb p) u q = v ->
     right u = false -> right v = true -> newpos2 RN (vb p) sd u q = meet pl (ps (vb p) u) (ps (vb p) v)).
  { intros. eapply split_newpos; eauto. }
  destruct X0 as (u0 & Hu0 & R0), X1 as (u1 & Hu1 & R1). destruct HS as (N & b' & Ka & Kb & EN & EM & HK & HK2 & D0 & P0 & D1 & P1). rn.
  pose proof Hw as (Hn & HL).
  assert (EA : (exits 2 Ka (nb (vb p)) (nv p) <= 2)%Z).
  { pose proof (Hc (flip pl)) as Z. unfold crossings in Z. erewrite exits_ext; [exact Z|auto|]. intros v Hv. destruct (HK v Hv) as (-> & _). rewrite sdist_flip.
    destruct (right v) eqn:E; symmetry; cbn [negb].
    - apply Rleb_false. apply RT in E; auto. lra.
    - apply Rleb_true. apply RF in E; auto. lra. }
  assert (EB := exits_swap p Ka Kb right Hw HK).
  assert (NA : forall v, (0 <= v < nv p)%Z -> Ka v = true -> right v = false) by (intros v Hv; destruct (HK v Hv) as (-> & _); now destruct (right v)).
  assert (FA : forall v, (0 <= v < nv p)%Z -> Ka v = false -> right v = true) by (intros v Hv; destruct (HK v Hv) as (-> & _); now destruct (right v)).
  assert (NB : forall v, (0 <= v < nv p)%Z -> Kb v = right v) by (intros v Hv; now destruct (HK v Hv) as (_ & ->)).
  destruct (cut_side (flip pl) p o0 N b' Ka _ Hw HC D0 P0 EA) as (L0 & H0).
  - exists u0. split; auto. destruct (HK u0 Hu0) as (-> & _). now rewrite R0.
  - exists u1. split; auto. destruct (HK u1 Hu1) as (-> & _). now rewrite R1.
  - intros v Hv Kv. rewrite sdist_flip. pose proof (RF v Hv (NA v Hv Kv)). lra.
  - intros v Hv Kv. rewrite sdist_flip. pose proof (RT v Hv (FA v Hv Kv)). lra.
  - intros v q Hv Hq Kv Kx. destruct (cut_lnk (vb p) (nv p) HL v q Hv Hq) as (Lk & _). rewrite !sdist_flip.
    pose proof (NA v Hv Kv) as Y1. pose proof (FA _ Lk Kx) as Y2. pose proof (RF v Hv Y1) as Z1. pose proof (RT _ Lk Y2) as Z2. split; [lra|].
    rewrite (POS v _ q Hv Lk eq_refl Y1 Y2). rewrite <- (meet_flip pl) by lra. rewrite <- sdist_flip. apply between_meet; rewrite ?sdist_flip; lra.
  - destruct (cut_side pl p o1 N b' Kb _ Hw HC D1 P1 ltac:(lia)) as (L1 & H1).
    + exists u1. split; auto. rewrite NB; auto.
    + exists u0. split; auto. rewrite NB; auto.
    + intros v Hv Kv. rewrite NB in Kv by auto. pose proof (RT v Hv Kv). lra.
    + intros v Hv Kv. rewrite NB in Kv by auto. auto.
    + intros v q Hv Hq Kv Kx. destruct (cut_lnk (vb p) (nv p) HL v q Hv Hq) as (Lk & Lk'). rewrite NB in Kv, Kx by auto.
      pose proof (RT v Hv Kv) as Z1. pose proof (RF _ Lk Kx) as Z2. split; [lra|]. unfold newpos2'. rn.
      rewrite (POS _ v (1 - q)%Z Lk Hv Lk' Kx Kv). rewrite meet_comm by lra. apply between_meet; lra.
    + assert (FL : forall x, hull2 o0 x <-> hull2 p x /\ sdist pl x <= 0) by (intros x; rewrite H0, sdist_flip; split; intros (Y & Z); split; auto; lra).
      split; [apply convex_ccw_iff; auto|]. split; [apply convex_ccw_iff; auto|]. auto.
Qed.

Lemma hull2_0 (p : pol2) x : (nv p <= 0)%Z -> ~ hull2 p x.
Proof.
  intros L H. specialize (H (PL2 (V2 0 0) (-1))). unfold sdist in H. cbn in H. assert (0 <= -1 + (0 * vx x + 0 * vy x)) by (apply H; intros; lia). lra.
Qed.
Lemma whole_side (p : pol2) pl : convex_ccw p -> (forall v, (0 <= v < nv p)%Z -> 0 <= sdist pl (ps (vb p) v)) -> side_of2 p pl p.
Proof. intros Hp H. split; auto. left. intros x. split; [|tauto]. intros X. split; auto. Qed.
Lemma no_side (p : pol2) pl b : (forall v, (0 <= v < nv p)%Z -> sdist pl (ps (vb p) v) <= 0) -> side_of2 p pl (PY b 0%Z).
Proof.
  intros H. split; [apply empty_ccw|]. right. split; auto. intros x Hx.
  assert (0 <= sdist (flip pl) x) by (apply Hx; intros v Hv; rewrite sdist_flip; specialize (H v Hv); lra). rewrite sdist_flip in H0. lra.
Qed.

(** the first output is on the outer side (C08) *)
Lemma split1_hull MX pl (p op on q o0 o1 : pol2) : convex_ccw p -> (nv p <= MX)%Z -> r2d_split1 RN MX pl p op on = OK (q, (o0, o1)) ->
  side_of2 p (flip pl) o0 /\ side_of2 p pl o1.
Proof.
  intros Hp HM E. pose proof Hp as (Hw & _).
  assert (SD : forall v, @eq R (sidesd RN pl (vb p) v) (-1 * sdist pl (ps (vb p) v))).
  { intros v. unfold sidesd. rewrite sdf_sdist. cbn. ring. }
  assert (RT : forall v, rightv RN pl (vb p) v = true -> 0 < sdist pl (ps (vb p) v)).
  { intros v. unfold rightv. rewrite SD. cbn. intros X. apply Rltb_true in X. lra. }
  assert (RF : forall v, rightv RN pl (vb p) v = false -> sdist pl (ps (vb p) v) <= 0).
  { intros v. unfold rightv. rewrite SD. cbn. intros X. apply Rltb_false in X. lra. }
  destruct (split1_spec RN MX pl p op on Hw HM) as [(H0 & E')|[(H0 & A & E')|[(H0 & A & E')|(u & v & Hu & Hv & Ru & Rv & [(q' & o0' & o1' & E' & S)|(E' & _)])]]];
    rn; rewrite E' in E; inversion E; subst.
  - split; apply no_side; intros; lia.
  - split; [apply whole_side|apply no_side]; auto. intros v Hv. rewrite sdist_flip. specialize (RF v (A v Hv)). lra.
  - split; [apply no_side|apply whole_side]; auto; intros v Hv; rewrite ?sdist_flip; specialize (RT v (A v Hv)); lra.
  - destruct (split_hull MX pl p o0 o1 (sidesd RN pl (vb p)) (rightv RN pl (vb p)) (-1) Hw) as (C0 & C1 & S0 & S1 & _);
      [lra|intros; apply SD|auto|auto|eauto|eauto|exact S|exact Hp|].
    split; (split; auto); left; auto. intros x. rewrite S0, sdist_flip. split; intros (X & Y); split; auto; lra.
Qed.
Lemma split_coord_hull MX (p o q0 q1 : pol2) coord ax : convex_ccw p -> (0 < nv p <= MX)%Z -> (0 <= ax < 2)%Z ->
  r2d_split_coord RN MX p o coord ax = OK (q0, q1) -> side_of2 p (flip (axis_plane ax coord)) q0 /\ side_of2 p (axis_plane ax coord) q1.
Proof.
  intros Hp HM Hax E. set (pl := axis_plane ax coord). pose proof Hp as (Hw & _).
  assert (SD : forall v, @eq R (csd RN coord ax (vb p) v) (1 * sdist pl (ps (vb p) v))).
  { intros v. unfold csd, pl. rewrite axis_sdist. unfold coordv, coordR. cbn. ring. }
  assert (RT : forall v, cright RN coord ax (vb p) v = true -> 0 < sdist pl (ps (vb p) v)).
  { intros v. unfold cright. rewrite SD. cbn. intros X. apply Rltb_true in X. lra. }
  assert (RF : forall v, cright RN coord ax (vb p) v = false -> sdist pl (ps (vb p) v) <= 0).
  { intros v. unfold cright. rewrite SD. cbn. intros X. apply Rltb_false in X. lra. }
  destruct (split_coord_spec RN MX p o coord ax Hw (proj2 HM) Hax) as [(H0 & E')|[(H0 & A & E')|[(H0 & A & E')|(u & v & Hu & Hv & Ru & Rv & [(q' & o1' & E' & S)|(E' & _)])]]];
    rn; rewrite E' in E; inversion E; subst; try lia.
  - split; [apply whole_side|apply no_side]; auto. intros v Hv. rewrite sdist_flip. specialize (RF v (A v Hv)). lra.
  - split; [apply no_side|apply whole_side]; auto; intros v Hv; rewrite ?sdist_flip; specialize (RT v (A v Hv)); lra.
  - destruct (split_hull MX pl p q0 q1 (csd RN coord ax (vb p)) (cright RN coord ax (vb p)) 1 Hw) as (C0 & C1 & S0 & S1 & _);
      [lra|intros; apply SD|auto|auto|eauto|eauto|exact S|exact Hp|].
    split; (split; auto); left; auto. intros x. rewrite S0, sdist_flip. split; intros (X & Y); split; auto; lra.
Qed.
