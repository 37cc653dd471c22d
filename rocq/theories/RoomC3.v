(** * RoomC3: the vertices of a convex polyhedron are fewer than twice its facets, so that
    cuts of convex polyhedra need little room. *)
From Coq Require Import Reals ZArith List Bool Lia Lra Psatz.
From Verif Require Import Base Lib SumR ModelCommon CommonFacts Model3 ModelN RealNum SpecN SpecNC SpecNR SpecF3
  Spec3 Orb3 Cut3 Struct3 Face3 Clip3 Spec3R Cons3 SpecC3 Conv3 HullC3 FlagC3 VolC3 LimC3.
Import ListNotations.
Open Scope R_scope.

(** ** An order of the points: by [x], then [y], then [z] *)
Definition lexp (a : vec) : Prop := 0 < a 0%Z \/ (a 0%Z = 0 /\ (0 < a 1%Z \/ (a 1%Z = 0 /\ 0 < a 2%Z))).
Definition zero3 (a : vec) : Prop := a 0%Z = 0 /\ a 1%Z = 0 /\ a 2%Z = 0.
Definition lexb (a : vec) : bool :=
  if Rlt_dec 0 (a 0%Z) then true else if Req_EM_T (a 0%Z) 0 then if Rlt_dec 0 (a 1%Z) then true else if Req_EM_T (a 1%Z) 0 then if Rlt_dec 0 (a 2%Z) then true else false else false else false.
Lemma lexb_true a : lexb a = true <-> lexp a.
Proof. unfold lexb, lexp. destruct (Rlt_dec 0 (a 0%Z)), (Req_EM_T (a 0%Z) 0), (Rlt_dec 0 (a 1%Z)), (Req_EM_T (a 1%Z) 0), (Rlt_dec 0 (a 2%Z)); split; intros; try discriminate; try tauto; try lra. Qed.
Lemma lexb_opp a b : ~ zero3 a -> (forall k, (0 <= k < 3)%Z -> b k = - a k) -> lexb b = negb (lexb a).
Proof.
  intros N H. pose proof (H 0%Z ltac:(lia)). pose proof (H 1%Z ltac:(lia)). pose proof (H 2%Z ltac:(lia)). unfold zero3 in N.
  destruct (lexb a) eqn:Ea; cbn.
  - apply lexb_true in Ea. destruct (lexb b) eqn:Eb; auto. apply lexb_true in Eb. unfold lexp in *. lra.
  - destruct (lexb b) eqn:Eb; auto. assert (~ lexp a) by (rewrite <- lexb_true; congruence). assert (~ lexp b) by (rewrite <- lexb_true; congruence). exfalso. unfold lexp in *.
    destruct (Rtotal_order (a 0%Z) 0) as [|[|]]; [lra| |lra]. destruct (Rtotal_order (a 1%Z) 0) as [|[|]]; [lra| |lra]. destruct (Rtotal_order (a 2%Z) 0) as [|[|]]; [lra| |lra]. tauto.
Qed.
(** combinations of positive vectors *)
Definition lex0 (a : vec) : Prop := lexp a \/ zero3 a.
Lemma lex0_comb (a b y : vec) s t : 0 <= s -> 0 <= t -> lexp a -> lexp b -> (forall k, (0 <= k < 3)%Z -> y k = s * a k + t * b k) -> lex0 y.
Proof.
  intros Hs Ht A B H. unfold lex0, zero3. pose proof (H 0%Z ltac:(lia)) as H0. pose proof (H 1%Z ltac:(lia)) as H1. pose proof (H 2%Z ltac:(lia)) as H2.
  destruct Hs as [Hs|<-], Ht as [Ht|<-].
  - left. unfold lexp in *. destruct A as [A|(A0 & [A|(A1 & A)])], B as [B|(B0 & [B|(B1 & B)])]; rewrite ?H0, ?H1, ?H2, ?A0, ?A1, ?B0, ?B1, ?Rmult_0_r, ?Rplus_0_l, ?Rplus_0_r; nra.
  - left. unfold lexp in *. rewrite H0, H1, H2, !Rmult_0_l, !Rplus_0_r. destruct A as [A|(A0 & [A|(A1 & A)])]; rewrite ?A0, ?A1; nra.
  - left. unfold lexp in *. rewrite H0, H1, H2, !Rmult_0_l, !Rplus_0_l. destruct B as [B|(B0 & [B|(B1 & B)])]; rewrite ?B0, ?B1; nra.
  - right. rewrite H0, H1, H2. lra.
Qed.
Lemma lex0_anti (a b : vec) : (forall k, (0 <= k < 3)%Z -> b k = - a k) -> lex0 a -> lex0 b -> zero3 a.
Proof.
  intros H A B. pose proof (H 0%Z ltac:(lia)). pose proof (H 1%Z ltac:(lia)). pose proof (H 2%Z ltac:(lia)). unfold lex0, lexp, zero3 in *. lra.
Qed.
Lemma lex0_add (a b y : vec) : lex0 a -> lex0 b -> (forall k, (0 <= k < 3)%Z -> y k = a k + b k) -> lex0 y.
Proof.
  intros A B H. pose proof (H 0%Z ltac:(lia)). pose proof (H 1%Z ltac:(lia)). pose proof (H 2%Z ltac:(lia)). unfold lex0, lexp, zero3 in *. 
  destruct A as [[A|(A0 & [A|(A1 & A)])]|(A0 & A1 & A2)], B as [[B|(B0 & [B|(B1 & B)])]|(B0 & B1 & B2)]; lra.
Qed.
Lemma lex_min (x : Z -> vec) l : l <> [] -> exists m, In m l /\ forall w, In w l -> lex0 (fun k => x w k - x m k).
Proof.
  induction l as [|a l IH]; intros N; [congruence|]. destruct l as [|b l']; [|destruct IH as (m & Im & Hm); [discriminate|]].
  - exists a. split; [now left|]. intros w [<-|[]]. right. unfold zero3. lra.
  - destruct (lexb (fun k => x a k - x m k)) eqn:Eb.
    + exists m. split; [now right|]. intros w [<-|Iw]; auto. left. now apply lexb_true.
    + assert (Ha : lex0 (fun k => x m k - x a k)).
      { assert (Nl : ~ lexp (fun k => x a k - x m k)) by (rewrite <- lexb_true; congruence). unfold lex0, lexp, zero3 in *.
        destruct (Rtotal_order (x a 0%Z) (x m 0%Z)) as [|[|]]; [lra| |lra]. destruct (Rtotal_order (x a 1%Z) (x m 1%Z)) as [|[|]]; [lra| |lra]. lra. }
      exists a. split; [now left|]. intros w [<-|Iw]. * right. unfold zero3. lra.
      * apply (lex0_add _ _ _ (Hm w Iw) Ha). intros. lra.
Qed.
Lemma NoDup_map_on {A B} (g : A -> B) l : NoDup l -> (forall x y, In x l -> In y l -> g x = g y -> x = y) -> NoDup (map g l).
Proof.
  induction 1 as [|a l Na Nd IH]; intros H; cbn; constructor.
  - intros I. apply in_map_iff in I as (y & E & Iy). apply Na. rewrite (H a y); auto; [now left|now right].
  - apply IH. intros x y Ix Iy. apply H; now right.
Qed.

(** ** The count *)
Section S.
Variables (p : pol3) (nh : Z) (lab : dart -> Z) (l0 : Z -> R) (l : Z -> Z -> R).
Hypothesis W : wf3 p.
Hypothesis LA : labels (nb (vb p)) (nv p) nh lab.
Hypothesis Q : realized 3 (nv p) nh (facet lab) (at3 p) l0 l.
Hypothesis TU : turned (nv p) (facet lab) l.
Notation n := (nv p).
Notation f := (nb (vb p)).
Notation h := (facet lab).
Let step (v i : Z) : vec := fun k => at3 p (f v i) k - at3 p v k.
Lemma step_zero v i j : (0 <= v < n)%Z -> (0 <= i < 3)%Z -> (0 <= j < 3)%Z -> j <> i -> dt (l (h v j)) (step v i) = 0.
Proof.
  intros Hv Hi Hj N. pose proof (E_zero p nh lab l0 l W LA Q v i j Hv Hi Hj N) as X. transitivity (- dt (l (h v j)) (edgeN RN (at3 p) f v i)); [|rewrite X; ring].
  unfold dt, step, edgeN. cbn [nsub RN]. ring.
Qed.
Lemma step_pos v i : (0 <= v < n)%Z -> (0 <= i < 3)%Z -> 0 < dt (l (h v i)) (step v i).
Proof.
  intros Hv Hi. pose proof (E_neg p nh lab l0 l W LA Q v i Hv Hi) as X. replace (dt (l (h v i)) (step v i)) with (- dt (l (h v i)) (edgeN RN (at3 p) f v i)); [lra|].
  unfold dt, step, edgeN. cbn [nsub RN]. ring.
Qed.
Lemma inside g x : (0 <= g < nh)%Z -> (0 <= x < n)%Z -> 0 <= l0 g + dt (l g) (at3 p x).
Proof.
  intros Hg Hx. destruct (Classical_Prop.classic (exists k, (0 <= k < 3)%Z /\ h x k = g)) as [(k & Hk & <-)|N].
  - rewrite (on_face p nh lab l0 l Q x k Hx Hk). lra.
  - pose proof (re_off _ _ _ _ _ _ _ Q x g Hx Hg) as Y. rewrite lin3 in Y. unfold dt. specialize (Y (fun k Hk E0 => N (ex_intro _ k (conj Hk E0)))). change (T RN) with R in *. lra.
Qed.
Lemma facet_rng v k : (0 <= v < n)%Z -> (0 <= k < 3)%Z -> (0 <= h v k < nh)%Z.
Proof. intros Hv Hk. unfold facet. apply (la_rng _ _ _ _ LA). split; [exact Hv|]. cbn. apply Z.mod_pos_bound; lia. Qed.
(** seen from [v] every vertex is a combination of the edges of [v], without the edge that leaves a common facet *)
Lemma cone v w i : (0 <= v < n)%Z -> (0 <= w < n)%Z -> (0 <= i < 3)%Z -> (exists j, (0 <= j < 3)%Z /\ h v i = h w j) ->
  exists s t, 0 <= s /\ 0 <= t /\ forall k, (0 <= k < 3)%Z -> at3 p w k - at3 p v k = s * step v ((i + 1) mod 3) k + t * step v ((i + 2) mod 3) k.
Proof.
  intros Hv Hw Hi (j & Hj & EG). set (i1 := ((i + 1) mod 3)%Z). set (i2 := ((i + 2) mod 3)%Z).
  assert (H1 : (0 <= i1 < 3)%Z) by (apply Z.mod_pos_bound; lia). assert (H2 : (0 <= i2 < 3)%Z) by (apply Z.mod_pos_bound; lia).
  assert (NE : i1 <> i /\ i2 <> i /\ i1 <> i2) by (unfold i1, i2; destruct (slot3 i Hi) as [->|[->| ->]]; cbn; lia). destruct NE as (N1 & N2 & N3).
  set (y := (fun k => at3 p w k - at3 p v k) : vec).
  assert (Y : forall a, (0 <= a < 3)%Z -> dt (l (h v a)) y = l0 (h v a) + dt (l (h v a)) (at3 p w)).
  { intros a Ha. pose proof (on_face p nh lab l0 l Q v a Hv Ha) as O. unfold y. transitivity (dt (l (h v a)) (at3 p w) - dt (l (h v a)) (at3 p v)); [unfold dt; ring|lra]. }
  pose proof (step_pos v i1 Hv H1) as P1. pose proof (step_pos v i2 Hv H2) as P2.
  set (s := dt (l (h v i1)) y / dt (l (h v i1)) (step v i1)). set (t := dt (l (h v i2)) y / dt (l (h v i2)) (step v i2)).
  assert (Y1 : 0 <= dt (l (h v i1)) y) by (rewrite Y by auto; apply inside; auto; now apply facet_rng).
  assert (Y2 : 0 <= dt (l (h v i2)) y) by (rewrite Y by auto; apply inside; auto; now apply facet_rng).
  assert (Y0 : dt (l (h v i)) y = 0) by (rewrite Y by auto; rewrite EG; now apply (on_face p nh lab l0 l Q)).
  exists s, t. split; [apply Rle_mult_inv_pos; auto|]. split; [apply Rle_mult_inv_pos; auto|].
  assert (ZZ : forall k, (0 <= k < 3)%Z -> y k - (s * step v i1 k + t * step v i2 k) = 0).
  { apply (re_nd _ _ _ _ _ _ _ Q v (fun k => y k - (s * step v i1 k + t * step v i2 k))); auto. intros a Ha. rewrite lin_dt.
    transitivity (dt (l (h v a)) y - (s * dt (l (h v a)) (step v i1) + t * dt (l (h v a)) (step v i2))); [unfold dt; ring|].
    assert (D : a = i \/ a = i1 \/ a = i2) by (unfold i1, i2; destruct (slot3 i Hi) as [->|[->| ->]], (slot3 a Ha) as [->|[->| ->]]; cbn; lia).
    destruct D as [->|[->| ->]].
    - rewrite Y0, !step_zero by auto. ring.
    - rewrite (step_zero v i2 i1) by auto. unfold s. field. lra.
    - rewrite (step_zero v i1 i2) by auto. unfold t. field. lra. }
  intros k Hk. specialize (ZZ k Hk). unfold y in ZZ. lra.
Qed.
(** a facet has one lowest and one highest vertex *)
Lemma extreme_unique sg v w i j : (0 <= v < n)%Z -> (0 <= w < n)%Z -> (0 <= i < 3)%Z -> (0 <= j < 3)%Z -> h v i = h w j ->
  (forall a, (0 <= a < 3)%Z -> a <> i -> lexp (fun k => sg * step v a k)) -> (forall a, (0 <= a < 3)%Z -> a <> j -> lexp (fun k => sg * step w a k)) -> (v, i) = (w, j).
Proof.
  intros Hv Hw Hi Hj EG A B. assert (NM : forall i, (0 <= i < 3)%Z -> (0 <= (i + 1) mod 3 < 3 /\ (i + 1) mod 3 <> i)%Z /\ (0 <= (i + 2) mod 3 < 3 /\ (i + 2) mod 3 <> i)%Z).
  { intros a Ha. destruct (slot3 a Ha) as [->|[->| ->]]; cbn; lia. }
  assert (EV : v = w).
  { destruct (cone v w i Hv Hw Hi (ex_intro _ j (conj Hj EG))) as (s & t & Hs & Ht & X). destruct (cone w v j Hw Hv Hj (ex_intro _ i (conj Hi (eq_sym EG)))) as (s' & t' & Hs' & Ht' & X').
    destruct (NM i Hi) as ((R1 & N1) & (R2 & N2)). destruct (NM j Hj) as ((R3 & N3) & (R4 & N4)).
    assert (Z0 : zero3 (fun k => sg * (at3 p w k - at3 p v k))).
    { apply (lex0_anti _ (fun k => sg * (at3 p v k - at3 p w k))); [intros; ring| |].
      - apply (lex0_comb _ _ _ s t Hs Ht (A _ R1 N1) (A _ R2 N2)). intros k Hk. cbv beta. rewrite X by auto. ring.
      - apply (lex0_comb _ _ _ s' t' Hs' Ht' (B _ R3 N3) (B _ R4 N4)). intros k Hk. cbv beta. rewrite X' by auto. ring. }
    assert (SG : sg <> 0). { intros ->. specialize (A _ R1 N1). unfold lexp in A. lra. }
    apply (re_inj _ _ _ _ _ _ _ Q); auto. destruct Z0 as (Z0 & Z1 & Z2). intros k Hk.
    assert (sg * (at3 p w k - at3 p v k) = 0) by (destruct (slot3 k Hk) as [->|[->| ->]]; auto). apply Rmult_integral in H. change (T RN) with R. lra. }
  subst w. f_equal. unfold facet in EG. apply (la_inj _ _ _ _ LA) in EG; auto; try (apply Z.mod_pos_bound; lia).
  destruct (slot3 i Hi) as [->|[->| ->]], (slot3 j Hj) as [->|[->| ->]]; cbn in EG; lia.
Qed.
Let up (v i : Z) : bool := lexb (step v i).
Let low (d : dart) : bool := up (fst d) ((snd d + 1) mod 3) && up (fst d) ((snd d + 2) mod 3).
Let high (d : dart) : bool := negb (up (fst d) ((snd d + 1) mod 3)) && negb (up (fst d) ((snd d + 2) mod 3)).
Let ext (v : Z) : bool := (up v 0 && up v 1 && up v 2) || (negb (up v 0) && negb (up v 1) && negb (up v 2)).
Lemma step_nz v i : (0 <= v < n)%Z -> (0 <= i < 3)%Z -> ~ zero3 (step v i).
Proof. intros Hv Hi (A & B & C). pose proof (step_pos v i Hv Hi) as X. unfold dt in X. rewrite A, B, C in X. lra. Qed.
Lemma up_sign v i (b : bool) : (0 <= v < n)%Z -> (0 <= i < 3)%Z -> up v i = b -> lexp (fun k => (if b then 1 else -1) * step v i k).
Proof.
  intros Hv Hi E. apply lexb_true. destruct b.
  - unfold up in E. apply lexb_true in E. apply lexb_true. unfold lexp in *. rewrite !Rmult_1_l. exact E.
  - rewrite (lexb_opp (step v i)); [unfold up in E; now rewrite E|now apply step_nz|]. intros; ring.
Qed.
Lemma others i a : (0 <= i < 3)%Z -> (0 <= a < 3)%Z -> a <> i -> a = ((i + 1) mod 3)%Z \/ a = ((i + 2) mod 3)%Z.
Proof. intros. now apply slot_cases. Qed.
Lemma extremes_le (b : bool) (P : dart -> bool) : (forall d, isd (below n) d -> P d = true -> up (fst d) ((snd d + 1) mod 3) = b /\ up (fst d) ((snd d + 2) mod 3) = b) ->
  (0 <= n)%Z -> (Z.of_nat (length (filter P (darts 3 n))) <= nh)%Z \/ n = 0%Z.
Proof.
  intros HP Hn. destruct (Z.eq_dec n 0) as [|Nn]; auto. left.
  assert (H0 : (0 <= nh)%Z) by (pose proof (facet_rng 0 0 ltac:(lia) ltac:(lia)); lia).
  rewrite <- (map_length (fun d : dart => h (fst d) (snd d))).
  assert (LE : (length (map (fun d : dart => h (fst d) (snd d)) (filter P (darts 3 n))) <= length (zrange nh))%nat).
  { apply NoDup_incl_length.
    - apply NoDup_map_on; [apply NoDup_filter, NoDup_darts; lia|]. intros [v i] [w j] Ix Iy EG. apply filter_In in Ix as (Ix & Px). apply filter_In in Iy as (Iy & Py).
      assert (Dx : isd (below n) (v, i)) by (now apply (isd_in n)). assert (Dy : isd (below n) (w, j)) by (now apply (isd_in n)).
      destruct (HP _ Dx Px) as (X1 & X2). destruct (HP _ Dy Py) as (Y1 & Y2). destruct Dx as (Hv & Hi), Dy as (Hw & Hj). cbn [fst snd] in *. unfold below in *.
      apply (extreme_unique (if b then 1 else -1) v w i j); auto.
      + intros a Ha Na. apply up_sign; auto. destruct (others i a Hi Ha Na) as [->| ->]; auto.
      + intros a Ha Na. apply up_sign; auto. destruct (others j a Hj Ha Na) as [->| ->]; auto.
    - intros g Ig. apply in_map_iff in Ig as ([v i] & <- & Ix). apply filter_In in Ix as (Ix & _). apply (isd_in n) in Ix as (Hv & Hi). apply in_zrange. now apply facet_rng. }
  rewrite length_zrange_nat in LE. lia.
Qed.
Lemma per_vertex vs : (Z.of_nat (length (filter low (flat_map (fun u => map (pair u) (zrange 3)) vs))) + Z.of_nat (length (filter high (flat_map (fun u => map (pair u) (zrange 3)) vs)))
  = Z.of_nat (length vs) + 2 * Z.of_nat (length (filter ext vs)))%Z.
Proof.
  induction vs as [|v vs IH]; [reflexivity|]. cbn [flat_map]. rewrite !filter_app, !app_length. change (zrange 3) with [0; 1; 2]%Z in *. cbn [map length] in *. rewrite !Nat2Z.inj_add.
  assert (X : (Z.of_nat (length (filter low [(v, 0%Z); (v, 1%Z); (v, 2%Z)])) + Z.of_nat (length (filter high [(v, 0%Z); (v, 1%Z); (v, 2%Z)])) = 1 + if ext v then 2 else 0)%Z).
  { unfold low, high, ext. cbn [filter fst snd]. change ((0 + 1) mod 3)%Z with 1%Z. change ((0 + 2) mod 3)%Z with 2%Z. change ((1 + 1) mod 3)%Z with 2%Z. change ((1 + 2) mod 3)%Z with 0%Z. change ((2 + 1) mod 3)%Z with 0%Z. change ((2 + 2) mod 3)%Z with 1%Z.
    destruct (up v 0), (up v 1), (up v 2); reflexivity. }
  change (filter ext (v :: vs)) with (if ext v then v :: filter ext vs else filter ext vs). destruct (ext v); cbn [length]; lia.
Qed.
Theorem vertices_facets : (0 < n)%Z -> (n + 4 <= 2 * nh)%Z.
Proof.
  intros Hn. pose proof W as (Hn0 & L & _). pose proof (per_vertex (zrange n)) as C. rewrite length_zrange_nat in C.
  destruct (extremes_le true low) as [A|A]; [|auto| |lia].
  { intros d _ X. unfold low in X. now apply andb_true_iff in X. }
  destruct (extremes_le false high) as [B|B]; [|auto| |lia].
  { intros d _ X. unfold high in X. apply andb_true_iff in X as (X1 & X2). split; now apply negb_true_iff. }
  assert (NE : zrange n <> []). { intros E. assert (I : In 0%Z (zrange n)) by (apply in_zrange; lia). rewrite E in I. destruct I. }
  destruct (lex_min (at3 p) (zrange n) NE) as (m & Im & Hm). destruct (lex_min (fun v k => - at3 p v k) (zrange n) NE) as (M & IM & HM).
  apply in_zrange in Im, IM.
  assert (U1 : forall i, (0 <= i < 3)%Z -> up m i = true).
  { intros i Hi. apply lexb_true. destruct (Hm (f m i)) as [X|X]; [apply in_zrange; now apply (l_rng _ _ L)|exact X|]. destruct (step_nz m i Im Hi). exact X. }
  assert (U2 : forall i, (0 <= i < 3)%Z -> up M i = false).
  { intros i Hi. assert (X : lex0 (fun k => - step M i k)).
    { pose proof (HM (f M i) (proj2 (in_zrange _ _) (l_rng _ _ L M i IM Hi))) as X. apply (lex0_add _ (fun _ => 0) _ X); [right; split; [reflexivity|split; reflexivity]|]. intros k Hk. unfold step. ring. }
    destruct X as [X|(X0 & X1 & X2)]; [|destruct (step_nz M i IM Hi); unfold zero3; lra].
    destruct (up M i) eqn:E; auto. unfold up in E. apply lexb_true in E. unfold lexp in *. lra. }
  assert (NM : m <> M). { intros ->. specialize (U1 0%Z ltac:(lia)). specialize (U2 0%Z ltac:(lia)). congruence. }
  assert (T2 : (2 <= length (filter ext (zrange n)))%nat).
  { change 2%nat with (length [m; M]). apply NoDup_incl_length.
    - constructor; [intros [X|[]]; congruence|]. constructor; [intros []|constructor].
    - intros x [<-|[<-|[]]]; apply filter_In; (split; [now apply in_zrange|]); unfold ext; rewrite ?U1, ?U2 by lia; reflexivity. }
  unfold darts in A, B. lia.
Qed.
End S.
