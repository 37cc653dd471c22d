(** * HullC2: cutting a convex polygon gives its intersection with the half-plane. *)
From Coq Require Import Reals ZArith List Bool Lia Lra Psatz.
From Verif Require Import Base Lib ModelCommon CommonFacts Model2 Spec2 Struct2 Clip2 HPoly HShift HInt
  RealNum SumR Reduce2 Spec2R Mom2 Cons2 Convex2 SpecC2 LoopC2.
Import ListNotations.
Open Scope R_scope.

Notation o2 := (V2 0 0).
(** ** Three entries of a list in weak order *)
Lemma ccw_nth s : ccw s <-> forall i j k, (i <= j <= k)%nat -> (k < length s)%nat -> 0 <= turn (nth i s o2) (nth j s o2) (nth k s o2).
Proof.
  split.
  - intros H i j k Hij Hk. destruct (Nat.eq_dec i j) as [->|N1]; [unfold turn; right; ring|]. destruct (Nat.eq_dec j k) as [->|N2]; [unfold turn; right; ring|].
    destruct (nth_split s o2 Hk) as (l1 & r1 & E1 & L1). set (c := nth k s o2) in *.
    assert (Hj : (j < length l1)%nat) by lia. assert (Ej : nth j s o2 = nth j l1 o2) by (rewrite E1, app_nth1 by lia; reflexivity).
    destruct (nth_split l1 o2 Hj) as (l2 & r2 & E2 & L2). set (b := nth j l1 o2) in *.
    assert (Hi : (i < length l2)%nat) by lia. assert (Ei : nth i s o2 = nth i l2 o2) by (rewrite E1, E2, <- app_assoc, app_nth1 by lia; reflexivity).
    destruct (nth_split l2 o2 Hi) as (l3 & r3 & E3 & L3). set (a := nth i l2 o2) in *.
    rewrite Ej, Ei. apply (ccw_in3 s l3 a r3 b r2 c r1 H). rewrite E1, E2, E3. repeat (rewrite <- app_assoc; cbn [app]). reflexivity.
  - intros H. apply ccw_all. intros l a m b r c t ->.
    assert (X : forall u x v, nth (length u) (u ++ x :: v) o2 = x) by (intros u x v; rewrite app_nth2, Nat.sub_diag by lia; reflexivity).
    set (s := l ++ a :: m ++ b :: r ++ c :: t) in *.
    assert (Ea : nth (length l) s o2 = a) by apply X.
    assert (Eb : nth (length (l ++ a :: m)) s o2 = b) by (unfold s; replace (l ++ a :: m ++ b :: r ++ c :: t) with ((l ++ a :: m) ++ b :: r ++ c :: t) by (rewrite <- app_assoc; reflexivity); apply X).
    assert (Ec : nth (length (l ++ a :: m ++ b :: r)) s o2 = c) by (unfold s; replace (l ++ a :: m ++ b :: r ++ c :: t) with ((l ++ a :: m ++ b :: r) ++ c :: t) by (rewrite <- app_assoc; cbn; rewrite <- app_assoc; reflexivity); apply X).
    rewrite <- Ea, <- Eb, <- Ec. apply H.
    + rewrite !app_length. cbn. rewrite app_length. cbn. lia.
    + unfold s. rewrite !app_length. cbn. rewrite !app_length. cbn. rewrite !app_length. cbn. lia.
Qed.

(** [w] lies on the segment from [a] to [b] *)
Definition between (a b w : rvec2 R) : Prop := exists t, 0 <= t <= 1 /\ vx w = t * vx a + (1 - t) * vx b /\ vy w = t * vy a + (1 - t) * vy b.
Lemma between_sdist a b w : between a b w -> exists t, 0 <= t <= 1 /\ forall g, sdist g w = t * sdist g a + (1 - t) * sdist g b.
Proof. intros (t & Ht & X & Y). exists t. split; auto. intros g. unfold sdist. rewrite X, Y. ring. Qed.
Lemma between_turn u v a b w : between a b w -> 0 <= turn u v a -> 0 <= turn u v b -> 0 <= turn u v w.
Proof.
  intros (t & Ht & X & Y) A B. replace (turn u v w) with (t * turn u v a + (1 - t) * turn u v b) by (unfold turn; rewrite X, Y; ring). nra.
Qed.

Lemma ccw_cut PA PB w1 w2 : PA <> [] -> PB <> [] -> ccw (PA ++ PB) ->
  between (last PA o2) (hd o2 PB) w1 -> between (hd o2 PA) (last PB o2) w2 -> ccw (PA ++ [w1; w2]).
Proof.
  intros NA NB H B1 B2. rewrite ccw_nth in H.
  set (m := length PA) in *. set (k := length PB) in *.
  assert (Hm : (0 < m)%nat) by (unfold m; destruct PA; [congruence|cbn; lia]). assert (Hk : (0 < k)%nat) by (unfold k; destruct PB; [congruence|cbn; lia]).
  assert (LS : length (PA ++ PB) = (m + k)%nat) by (rewrite app_length; reflexivity).
  set (s := PA ++ PB) in *. set (S := fun i => nth i s o2). fold S in H.
  assert (EA : forall i, (i < m)%nat -> nth i (PA ++ [w1; w2]) o2 = S i) by (intros i Hi; unfold S, s; rewrite !app_nth1 by auto; reflexivity).
  assert (E1 : nth m (PA ++ [w1; w2]) o2 = w1) by (rewrite app_nth2 by (unfold m; lia); unfold m; rewrite Nat.sub_diag; reflexivity).
  assert (E2 : nth (Datatypes.S m) (PA ++ [w1; w2]) o2 = w2) by (rewrite app_nth2 by (unfold m; lia); unfold m; replace (Datatypes.S (length PA) - length PA)%nat with 1%nat by lia; reflexivity).
  assert (Lm : last PA o2 = S (m - 1)%nat).
  { destruct (exists_last NA) as (P & x & E). unfold S, s, m. rewrite E, last_last, app_length. cbn. replace (length P + 1 - 1)%nat with (length P) by lia.
    rewrite <- app_assoc, app_nth2, Nat.sub_diag by lia. reflexivity. }
  assert (L1 : hd o2 PA = S 0%nat) by (unfold S, s; destruct PA; [congruence|reflexivity]).
  assert (D1 : hd o2 PB = S m) by (unfold S, s, m; rewrite app_nth2, Nat.sub_diag by lia; destruct PB; [congruence|reflexivity]).
  assert (Dk : last PB o2 = S (m + k - 1)%nat).
  { destruct (exists_last NB) as (P & x & E). unfold S, s, m, k. rewrite E, last_last, app_length. cbn. rewrite app_nth2 by lia.
    replace (length PA + (length P + 1) - 1 - length PA)%nat with (length P) by lia. rewrite app_nth2, Nat.sub_diag by lia. reflexivity. }
  rewrite Lm, D1 in B1. rewrite L1, Dk in B2.
  assert (T : forall i j l, (i <= j <= l)%nat -> (l < m + k)%nat -> 0 <= turn (S i) (S j) (S l)) by (intros i j l Q1 Q2; apply H; auto; lia).
  assert (R : forall i j l, (i <= j <= l)%nat -> (l < m + k)%nat -> 0 <= turn (S j) (S l) (S i)) by (intros i j l Q1 Q2; rewrite <- turn_rot; auto).
  apply ccw_nth. intros i j l Hij Hl. rewrite app_length in Hl. fold m in Hl. cbn in Hl.
  assert (Cl : (l < m \/ l = m \/ l = Datatypes.S m)%nat) by lia. destruct Cl as [Cl|[-> | ->]].
  - rewrite !EA by lia. apply T; lia.
  - rewrite E1. assert (Cj : (j < m \/ j = m)%nat) by lia. destruct Cj as [Cj| ->].
    + rewrite !EA by lia. eapply between_turn; [exact B1| |]; apply T; lia.
    + rewrite E1. unfold turn. right. ring.
  - rewrite E2. assert (Cj : (j < m \/ j = m \/ j = Datatypes.S m)%nat) by lia. destruct Cj as [Cj|[-> | ->]].
    + rewrite !EA by lia. eapply between_turn; [exact B2|apply R; lia|apply T; lia].
    + rewrite E1. assert (Ci : (i < m \/ i = m)%nat) by lia. destruct Ci as [Ci| ->].
      * rewrite !EA by lia. eapply between_turn; [exact B2| |].
        -- rewrite <- turn_rot. eapply between_turn; [exact B1| |]; apply T; lia.
        -- rewrite (turn_rot (S i)), (turn_rot w1). eapply between_turn; [exact B1| |]; rewrite (turn_rot _ (S i)); apply T; lia.
      * rewrite E1. unfold turn. right. ring.
    + rewrite E2. unfold turn. right. ring.
Qed.

(** every vertex is to the left of the edge from [PA] to [PB] and of the edge back *)
Lemma ccw_edges PA PB x : PA <> [] -> PB <> [] -> ccw (PA ++ PB) -> In x (PA ++ PB) ->
  0 <= turn (last PA o2) (hd o2 PB) x /\ 0 <= turn (last PB o2) (hd o2 PA) x.
Proof.
  intros NA NB H Hx. split.
  - destruct (exists_last NA) as (P & a & ->). destruct PB as [|b Q]; [congruence|]. rewrite last_last. cbn [hd].
    rewrite <- app_assoc in H, Hx. cbn [app] in H, Hx. apply in_app_or in Hx as [Hx|[<-|[<-|Hx]]]; [|unfold turn; right; ring|unfold turn; right; ring|].
    + apply in_split in Hx as (l & r & ->). rewrite <- turn_rot. rewrite <- app_assoc in H. apply (ccw_in3 _ l x r a [] b Q H). reflexivity.
    + apply in_split in Hx as (l & r & ->). apply (ccw_in3 _ P a [] b l x r H). reflexivity.
  - destruct PA as [|a P]; [congruence|]. destruct (exists_last NB) as (Q & b & ->). rewrite last_last. cbn [hd].
    rewrite app_assoc in H, Hx. cbn [app] in H, Hx. rewrite turn_rot.
    destruct Hx as [<-|Hx]; [unfold turn; right; ring|]. apply in_app_or in Hx as [Hx|[<-|[]]]; [|unfold turn; right; ring].
    apply in_split in Hx as (l & r & E). apply (ccw_in3 _ [] a l x r b [] H). cbn. rewrite E, <- app_assoc. reflexivity.
Qed.

(** a point of the line to the left of both edges lies between the new vertices *)
Lemma on_chord pl am d1 a1 dk w1 w2 c h : sdist pl d1 < sdist pl am -> sdist pl dk < sdist pl a1 ->
  between am d1 w1 -> between a1 dk w2 -> sdist pl w1 = 0 -> sdist pl w2 = 0 -> sdist pl c = 0 ->
  0 <= turn am d1 c -> 0 <= turn dk a1 c -> 0 <= sdist h w1 -> 0 <= sdist h w2 -> 0 <= sdist h c.
Proof.
  intros S1 S2 (t & Ht & X1 & Y1) (r & Hr & X2 & Y2) Z1 Z2 Zc T1 T2 H1 H2.
  set (nx := vx (pn pl)) in *. set (ny := vy (pn pl)) in *.
  assert (NN : 0 < nx * nx + ny * ny).
  { assert (nx * nx + ny * ny <> 0); [|nra]. intros E. assert (nx = 0) by nra. assert (ny = 0) by nra. unfold sdist in S1. fold nx ny in S1. nra. }
  assert (LN : forall w, sdist pl w = 0 -> exists al, vx c = vx w + al * - ny /\ vy c = vy w + al * nx).
  { intros w Zw. exists ((nx * (vy c - vy w) - ny * (vx c - vx w)) / (nx * nx + ny * ny)).
    assert (E : nx * (vx c - vx w) + ny * (vy c - vy w) = 0) by (unfold sdist in Zw, Zc; fold nx ny in Zw, Zc; lra).
    split; apply (Rmult_eq_reg_r (nx * nx + ny * ny)); try lra.
    - transitivity (vx w * (nx * nx + ny * ny) + (nx * (vy c - vy w) - ny * (vx c - vx w)) * - ny); [|field; lra].
      transitivity (vx w * (nx * nx + ny * ny) + (nx * (vy c - vy w) - ny * (vx c - vx w)) * - ny + nx * (nx * (vx c - vx w) + ny * (vy c - vy w))); [ring|rewrite E; ring].
    - transitivity (vy w * (nx * nx + ny * ny) + (nx * (vy c - vy w) - ny * (vx c - vx w)) * nx); [|field; lra].
      transitivity (vy w * (nx * nx + ny * ny) + (nx * (vy c - vy w) - ny * (vx c - vx w)) * nx + ny * (nx * (vx c - vx w) + ny * (vy c - vy w))); [ring|rewrite E; ring]. }
  destruct (LN w1 Z1) as (al & A1 & A2). destruct (LN w2 Z2) as (be & B1 & B2).
  assert (T1' : turn am d1 c = al * (sdist pl d1 - sdist pl am)) by (unfold turn, sdist; fold nx ny; rewrite A1, A2, X1, Y1; ring).
  assert (T2' : turn dk a1 c = be * (sdist pl a1 - sdist pl dk)) by (unfold turn, sdist; fold nx ny; rewrite B1, B2, X2, Y2; ring).
  assert (al <= 0) by nra. assert (0 <= be) by nra.
  set (u := vx (pn h) * - ny + vy (pn h) * nx).
  assert (C1 : sdist h c = sdist h w1 + al * u) by (unfold sdist, u; rewrite A1, A2; ring).
  assert (C2 : sdist h c = sdist h w2 + be * u) by (unfold sdist, u; rewrite B1, B2; ring).
  destruct (Rle_dec 0 u); nra.
Qed.

(** ** The multiplier *)
Lemma multiplier {A} (l : list A) (h s : A -> R) : (forall a, In a l -> 0 <= s a -> 0 <= h a) ->
  (forall a b, In a l -> In b l -> 0 < s a -> s b < 0 -> 0 <= s a * h b - s b * h a) ->
  exists t, 0 <= t /\ forall a, In a l -> 0 <= h a - t * s a.
Proof.
  intros H1 H2.
  assert (M : exists t, 0 <= t /\ (forall b, In b l -> s b < 0 -> t * s b <= h b) /\ forall a, In a l -> 0 < s a -> t * s a <= h a).
  { assert (G : forall l', incl l' l -> exists t, 0 <= t /\ (forall b, In b l' -> s b < 0 -> t * s b <= h b) /\ forall a, In a l -> 0 < s a -> t * s a <= h a).
    { induction l' as [|b l' IH]; intros I.
      - exists 0. split; [lra|]. split; [intros b []|]. intros a Ha Sa. specialize (H1 a Ha ltac:(lra)). lra.
      - destruct IH as (t & T1 & T2 & T3); [intros x Hx; apply I; now right|].
        destruct (Rlt_dec (s b) 0) as [Sb|Sb]; [|exists t; split; auto; split; auto; intros b' [<-|Hb] S'; [lra|auto]].
        destruct (Rle_dec (t * s b) (h b)) as [C|C]; [exists t; split; auto; split; auto; intros b' [<-|Hb] S'; auto|].
        apply Rnot_le_gt in C. exists (h b / s b).
        assert (E : h b / s b * s b = h b) by (field; lra).
        assert (TL : t < h b / s b) by (apply (Rmult_lt_reg_r (- s b)); lra).
        split; [lra|]. split.
        + intros b' [<-|Hb] S'; [lra|]. specialize (T2 b' Hb S'). nra.
        + intros a Ha Sa. specialize (H2 a b Ha (I b (or_introl eq_refl)) Sa Sb).
          apply (Rmult_le_reg_r (- s b)); [lra|]. replace (h b / s b * s a * - s b) with (- (h b / s b * s b) * s a) by ring. rewrite E. lra. }
    apply (G l). intros x Hx. exact Hx. }
  destruct M as (t & T1 & T2 & T3). exists t. split; auto. intros a Ha.
  destruct (Rtotal_order (s a) 0) as [S|[S|S]].
  - specialize (T2 a Ha S). lra.
  - rewrite S. specialize (H1 a Ha ltac:(lra)). lra.
  - specialize (T3 a Ha S). lra.
Qed.

(** the part of a hull on one side *)
Lemma hull_cut pl PA PB w1 w2 x : PA <> [] -> PB <> [] -> ccw (PA ++ PB) ->
  (forall a, In a PA -> 0 <= sdist pl a) -> (forall b, In b PB -> sdist pl b <= 0) ->
  sdist pl (hd o2 PB) < sdist pl (last PA o2) -> sdist pl (last PB o2) < sdist pl (hd o2 PA) ->
  between (last PA o2) (hd o2 PB) w1 -> between (hd o2 PA) (last PB o2) w2 -> sdist pl w1 = 0 -> sdist pl w2 = 0 ->
  ((forall h, (forall y, In y (PA ++ [w1; w2]) -> 0 <= sdist h y) -> 0 <= sdist h x)
   <-> (forall h, (forall y, In y (PA ++ PB) -> 0 <= sdist h y) -> 0 <= sdist h x) /\ 0 <= sdist pl x).
Proof.
  intros NA NB H SA SB S1 S2 B1 B2 Z1 Z2.
  assert (IL : In (last PA o2) (PA ++ PB)) by (apply in_or_app; left; now apply last_in).
  assert (IH : In (hd o2 PA) (PA ++ PB)) by (apply in_or_app; left; destruct PA; [congruence|now left]).
  assert (JL : In (last PB o2) (PA ++ PB)) by (apply in_or_app; right; now apply last_in).
  assert (JH : In (hd o2 PB) (PA ++ PB)) by (apply in_or_app; right; destruct PB; [congruence|now left]).
  split.
  - intros X. split.
    + intros h Hh. apply X. intros y Hy. apply in_app_or in Hy as [Hy|[<-|[<-|[]]]].
      * apply Hh, in_or_app. auto.
      * destruct (between_sdist _ _ _ B1) as (t & Ht & ->). pose proof (Hh _ IL). pose proof (Hh _ JH). nra.
      * destruct (between_sdist _ _ _ B2) as (t & Ht & ->). pose proof (Hh _ IH). pose proof (Hh _ JL). nra.
    + apply X. intros y Hy. apply in_app_or in Hy as [Hy|[<-|[<-|[]]]]; auto; lra.
  - intros (X & Sx) h Hh.
    assert (CH : forall c, sdist pl c = 0 -> 0 <= turn (last PA o2) (hd o2 PB) c -> 0 <= turn (last PB o2) (hd o2 PA) c -> 0 <= sdist h c).
    { intros c Zc T1 T2. apply (on_chord pl (last PA o2) (hd o2 PB) (hd o2 PA) (last PB o2) w1 w2 c h); auto; apply Hh, in_or_app; right; [now left|right; now left]. }
    destruct (multiplier (PA ++ PB) (sdist h) (sdist pl)) as (t & Ht & M).
    + intros a Ha Sa. apply in_app_or in Ha as [Ha|Ha]; [apply Hh, in_or_app; auto|].
      destruct (ccw_edges PA PB a NA NB H) as (T1 & T2); [apply in_or_app; auto|]. apply CH; auto. pose proof (SB a Ha). lra.
    + intros a b Ha Hb Sa Sb. destruct (ccw_edges PA PB a NA NB H Ha) as (T1 & T2). destruct (ccw_edges PA PB b NA NB H Hb) as (U1 & U2).
      set (k := / (sdist pl a - sdist pl b)). assert (0 < k) by (apply Rinv_0_lt_compat; lra). assert (EK : k * (sdist pl a - sdist pl b) = 1) by (unfold k; field; lra).
      set (r := - k * sdist pl b). assert (ER : 1 - r = k * sdist pl a) by (unfold r; lra). assert (0 <= r <= 1) by (unfold r in *; nra).
      set (c := V2 (r * vx a + (1 - r) * vx b) (r * vy a + (1 - r) * vy b)). assert (BC : between a b c) by (exists r; auto).
      assert (SC : forall g, sdist g c = r * sdist g a + (1 - r) * sdist g b) by (intros g; unfold sdist, c; cbn; ring).
      assert (0 <= sdist h c). { apply CH; [rewrite SC, ER; unfold r; ring| |]; eapply between_turn; eauto. }
      rewrite SC, ER in H2. unfold r in H2. nra.
    + set (g := PL2 (V2 (vx (pn h) - t * vx (pn pl)) (vy (pn h) - t * vy (pn pl))) (pd h - t * pd pl)).
      assert (G : forall y, sdist g y = sdist h y - t * sdist pl y) by (intros y; unfold sdist, g; cbn; ring).
      assert (0 <= sdist g x) by (apply X; intros y Hy; rewrite G; auto). rewrite G in H0. nra.
Qed.
