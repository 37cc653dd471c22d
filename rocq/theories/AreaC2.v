(** * AreaC2: areas of trapezoids, triangles and convex polygons. *)
From Coq Require Import Reals ZArith List Bool Lia Lra Psatz.
From Verif Require Import Base Lib SumR ModelCommon Model2 RealNum SpecNP NearN PolyN SpecNV SpecNJ ContN UniqJ VoxJ JordJ Spec2 Spec2R SpecC2 LoopC2 HullC2.
Import ListNotations.
Open Scope R_scope.

Definition mk2 (a b : R) : Z -> R := fun i => if (i =? 0)%Z then a else b.
Definition bx2 (a b c d : R) : boxR := (mk2 a c, mk2 b d).
Lemma inb2 b (x : Z -> R) : inb 2 b x <-> fst b 0%Z <= x 0%Z <= snd b 0%Z /\ fst b 1%Z <= x 1%Z <= snd b 1%Z.
Proof.
  unfold inb, in_box. split; [intros H; split; apply H; lia|]. intros (A & B) i Hi. assert (C : i = 0%Z \/ i = 1%Z) by lia. destruct C as [->| ->]; auto.
Qed.
Lemma insideb2 b (x : Z -> R) : insideb 2 b x <-> fst b 0%Z < x 0%Z < snd b 0%Z /\ fst b 1%Z < x 1%Z < snd b 1%Z.
Proof.
  unfold insideb. split; [intros H; split; apply H; lia|]. intros (A & B) i Hi. assert (C : i = 0%Z \/ i = 1%Z) by lia. destruct C as [->| ->]; auto.
Qed.
Lemma real2 b : real_box 2 b <-> fst b 0%Z < snd b 0%Z /\ fst b 1%Z < snd b 1%Z.
Proof.
  unfold real_box. split; [intros H; split; apply H; lia|]. intros (A & B) i Hi. assert (C : i = 0%Z \/ i = 1%Z) by lia. destruct C as [->| ->]; auto.
Qed.
Lemma vol2 b : box_vol 2 b = (snd b 0%Z - fst b 0%Z) * (snd b 1%Z - fst b 1%Z).
Proof. unfold box_vol. change (zrange 2) with [0; 1]%Z. cbn [fold_right]. ring. Qed.

Lemma sum_mid n A B : (0 <= n)%Z -> lsum (zrange n) (fun i => A + B * (IZR i + 1 / 2)) = IZR n * A + B * (IZR n * IZR n) / 2.
Proof.
  revert n. apply zrange_ind; [cbn; lra|]. intros n Hn IH. rewrite zrange_succ, lsum_app, IH by auto. cbn [lsum]. rewrite plus_IZR. field.
Qed.
Lemma filter_sum {A} (l : list A) t f : (forall a, In a l -> t a = false -> f a <= 0) -> lsum l f <= lsum (filter t l) f.
Proof.
  induction l as [|a l IH]; intros H; cbn [lsum filter]; [lra|]. assert (lsum l f <= lsum (filter t l) f) by (apply IH; intros; apply H; auto; now right).
  destruct (t a) eqn:E; cbn [lsum]; [lra|]. specialize (H a (or_introl eq_refl) E). lra.
Qed.

Lemma lsum_const_Z n c : (0 <= n)%Z -> lsum (zrange n) (fun _ => c) = IZR n * c.
Proof. revert n. apply zrange_ind; [cbn; lra|]. intros n Hn IH. rewrite zrange_succ, lsum_app, IH by auto. cbn [lsum]. rewrite plus_IZR. lra. Qed.

(** ** Between two lines *)
Section Trap.
Context (a b al be ga et : R).
Hypothesis Hab : a < b.
Notation g x := (al * x + be).
Notation h x := (ga * x + et).
Hypothesis Ha : g a <= h a.
Hypothesis Hb : g b <= h b.
Definition trap (x : Z -> R) : Prop := a <= x 0%Z <= b /\ g (x 0%Z) <= x 1%Z <= h (x 0%Z).
Definition trap_area : R := (b - a) * ((h a - g a) + (h b - g b)) / 2.

Section W.
Context (n : Z).
Hypothesis Hn : (0 < n)%Z.
Notation w := ((b - a) / IZR n).
Lemma nw : IZR n * w = b - a. Proof. assert (0 < IZR n) by (apply (IZR_lt 0); lia). field. lra. Qed.
Lemma w_pos : 0 < w. Proof. assert (0 < IZR n) by (apply (IZR_lt 0); lia). apply Rdiv_lt_0_compat; lra. Qed.
Notation xi i := (a + IZR i * w).
Notation mid i := (a + (IZR i + 1 / 2) * w).
Definition inn2 (i : Z) : boxR := bx2 (xi i) (xi i + w) (g (mid i) + Rabs al * w / 2) (h (mid i) - Rabs ga * w / 2).
Definition out2 (i : Z) : boxR := bx2 (xi i) (xi i + w) (g (mid i) - Rabs al * w / 2 - w) (h (mid i) + Rabs ga * w / 2 + w).
Lemma gh x : a <= x <= b -> g x <= h x.
Proof. intros Hx. nra. Qed.
Lemma mid_in i : (0 <= i < n)%Z -> a <= xi i /\ xi i + w <= b /\ a <= mid i <= b.
Proof.
  intros Hi. pose proof w_pos. assert (0 <= IZR i) by (apply (IZR_le 0); lia). assert (IZR i + 1 <= IZR n) by (rewrite <- plus_IZR; apply IZR_le; lia). pose proof nw. nra.
Qed.
Lemma slope k x y : Rabs (x - y) <= w / 2 -> Rabs (k * x - k * y) <= Rabs k * w / 2.
Proof. intros H. replace (k * x - k * y) with (k * (x - y)) by ring. rewrite Rabs_mult. pose proof (Rabs_pos k). nra. Qed.
Lemma near2 i x : xi i <= x <= xi i + w -> Rabs (x - mid i) <= w / 2.
Proof. intros H. apply Rabs_le. lra. Qed.
Lemma area_sum : lsum (zrange n) (fun i => w * (h (mid i) - g (mid i))) = trap_area.
Proof.
  rewrite (lsum_ext _ _ (fun i => w * (h a - g a) + w * (ga - al) * w * (IZR i + 1 / 2))) by (intros; ring).
  rewrite sum_mid by lia. pose proof nw as E. unfold trap_area.
  transitivity ((IZR n * w) * (h a - g a) + (IZR n * w) * (IZR n * w) * (ga - al) / 2); [field; apply not_0_IZR; lia|]. rewrite E. field.
Qed.
Lemma cell_of x : a <= x <= b -> exists i, (0 <= i < n)%Z /\ xi i <= x <= xi i + w.
Proof.
  intros Hx. pose proof w_pos as Hw. pose proof nw as E. pose proof (Rfloor_spec ((x - a) / w)) as (F1 & F2). set (k := Rfloor ((x - a) / w)) in *.
  assert (Y : forall v, 0 < v -> x - a = (x - a) / v * v) by (intros; field; lra). specialize (Y _ Hw).
  assert (G1 : IZR k * w <= x - a) by (rewrite Y; apply Rmult_le_compat_r; lra).
  assert (G2 : x - a <= (IZR k + 1) * w) by (rewrite Y at 1; apply Rmult_le_compat_r; lra).
  assert (A0 : (0 <= k)%Z).
  { apply Z.lt_succ_r, lt_IZR. rewrite succ_IZR. destruct (Rle_lt_dec (IZR k + 1) 0) as [B|B]; [|lra].
    assert (0 <= (x - a) / w) by (apply Rle_mult_inv_pos; lra). lra. }
  destruct (Z_lt_le_dec k n) as [L|L].
  - exists k. split; [lia|]. lra.
  - exists (n - 1)%Z. split; [lia|]. rewrite minus_IZR. apply IZR_le in L. assert (IZR n * w <= IZR k * w) by (apply Rmult_le_compat_r; lra). lra.
Qed.
Definition slack : R := (b - a) * (((Rabs al + Rabs ga) / 2 + 2) * w).
Lemma trap_inner : exists l, packed 2 trap l /\ trap_area - slack <= lsum l (box_vol 2).
Proof.
  pose proof w_pos as W. set (t := fun i => if Rlt_dec (g (mid i) + Rabs al * w / 2) (h (mid i) - Rabs ga * w / 2) then true else false).
  assert (RT : forall i, t i = true -> g (mid i) + Rabs al * w / 2 < h (mid i) - Rabs ga * w / 2) by (intros i; unfold t; destruct (Rlt_dec _ _); [auto|discriminate]).
  exists (map inn2 (filter t (zrange n))). split; [split|].
  - intros c Hc. apply in_map_iff in Hc as (i & <- & Hi). apply filter_In in Hi as (Hi & Ti). apply in_zrange in Hi. apply RT in Ti.
    split; [apply real2; cbn; split; [lra|auto]|]. intros x Hx. apply inb2 in Hx. cbn in Hx. destruct Hx as (X & Y). destruct (mid_in i Hi) as (M1 & M2 & _).
    pose proof (near2 i _ X) as N. pose proof (slope al _ _ N) as S1. pose proof (slope ga _ _ N) as S2.
    apply NearN.Rabs_le_inv in S1. apply NearN.Rabs_le_inv in S2. unfold trap. lra.
  - apply FOP_map_filter. assert (F : ForallOrdPairs (fun i j => apart 2 (inn2 i) (inn2 j)) (zrange n)).
    { apply FOP_NoDup; [apply NoDup_zrange|]. intros i j _ _ D x A B. apply insideb2 in A, B. cbn in A, B. destruct A as (A & _), B as (B & _).
      assert (C : (i + 1 <= j \/ j + 1 <= i)%Z) by lia. destruct C as [C|C]; apply IZR_le in C; rewrite plus_IZR in C; nra. }
    induction F; cbn; [apply FOP_nil|apply FOP_cons]; auto. now rewrite Forall_map.
  - rewrite lsum_map. set (f := fun i => box_vol 2 (inn2 i)).
    assert (E : forall i, f i = w * (h (mid i) - g (mid i)) - w * ((Rabs al + Rabs ga) / 2 * w)) by (intros i; unfold f; rewrite vol2; cbn; field; apply not_0_IZR; lia).
    apply Rle_trans with (lsum (zrange n) f).
    + rewrite (lsum_ext _ _ _ (fun i _ => E i)). rewrite lsum_sub, area_sum. rewrite lsum_const_Z by lia. unfold slack. pose proof nw as NW.
      replace (IZR n * (w * ((Rabs al + Rabs ga) / 2 * w))) with ((IZR n * w) * ((Rabs al + Rabs ga) / 2 * w)) by ring. rewrite NW. nra.
    + apply filter_sum. intros i _ T. rewrite E. unfold t in T. destruct (Rlt_dec _ _) as [|C]; [discriminate|]. apply Rnot_lt_le in C. nra.
Qed.
Lemma trap_outer : exists l, covered 2 trap l /\ lsum l (box_vol 2) <= trap_area + slack.
Proof.
  pose proof w_pos as W. pose proof (Rabs_pos al) as P1. pose proof (Rabs_pos ga) as P2. exists (map out2 (zrange n)). split; [split|].
  - intros c Hc. apply in_map_iff in Hc as (i & <- & Hi). apply in_zrange in Hi. apply real2. cbn. split; [lra|]. destruct (mid_in i Hi) as (_ & _ & M). pose proof (gh _ M). nra.
  - intros x (X & Y). destruct (cell_of (x 0%Z) X) as (i & Hi & C). exists (out2 i). split; [apply in_map, in_zrange; auto|]. apply inb2. cbn. split; [auto|].
    pose proof (near2 i _ C) as N. pose proof (slope al _ _ N) as S1. pose proof (slope ga _ _ N) as S2. apply NearN.Rabs_le_inv in S1. apply NearN.Rabs_le_inv in S2. lra.
  - rewrite lsum_map. rewrite (lsum_ext _ _ (fun i => w * (h (mid i) - g (mid i)) + w * (((Rabs al + Rabs ga) / 2 + 2) * w))) by (intros i _; rewrite vol2; cbn; field; apply not_0_IZR; lia).
    rewrite lsum_add, area_sum. rewrite lsum_const_Z by lia. unfold slack. pose proof nw as NW.
    replace (IZR n * (w * (((Rabs al + Rabs ga) / 2 + 2) * w))) with ((IZR n * w) * (((Rabs al + Rabs ga) / 2 + 2) * w)) by ring. rewrite NW. lra.
Qed.
End W.
Theorem trap_content : content 2 trap trap_area.
Proof.
  intros e He. set (k := (b - a) * (((Rabs al + Rabs ga) / 2 + 2) * (b - a))).
  assert (K0 : 0 < k) by (unfold k; pose proof (Rabs_pos al); pose proof (Rabs_pos ga); apply Rmult_lt_0_compat; [lra|apply Rmult_lt_0_compat; lra]).
  destruct (archimed (k / e)) as (U & _). set (n := up (k / e)) in *.
  assert (Pk : 0 < k / e) by (apply Rdiv_lt_0_compat; lra). assert (Hn : (0 < n)%Z) by (apply lt_IZR; lra). assert (0 < IZR n) by lra.
  assert (SL : slack n <= e).
  { unfold slack. replace ((b - a) * (((Rabs al + Rabs ga) / 2 + 2) * ((b - a) / IZR n))) with (k / IZR n) by (unfold k; field; lra).
    apply (Rmult_le_reg_r (IZR n)); auto. unfold Rdiv. rewrite Rmult_assoc, Rinv_l, Rmult_1_r by lra.
    replace k with (k / e * e) by (field; lra). rewrite (Rmult_comm e). apply Rmult_le_compat_r; lra. }
  destruct (trap_inner n Hn) as (l & P & S). destruct (trap_outer n Hn) as (l' & C & S'). split; [exists l|exists l']; split; auto; lra.
Qed.
End Trap.

(** ** Sets on a line, and sets on two sides of a line *)
Lemma content2_ext (K K' : rvec2 R -> Prop) t : (forall x, K x <-> K' x) -> content2 K t -> content2 K' t.
Proof. intros E. apply content_ext. intros. apply E. Qed.
Lemma content2_unique (K : rvec2 R -> Prop) t s : content2 K t -> content2 K s -> t = s.
Proof. apply content_unique. lia. Qed.
Lemma flat2 (K : rvec2 R -> Prop) pl M : proper2 pl -> (forall x, K x -> sdist pl x = 0 /\ - M <= vx x <= M /\ - M <= vy x <= M) -> content2 K 0.
Proof.
  intros Pp H. destruct (Req_dec (vy (pn pl)) 0) as [Z0|Z0].
  - destruct Pp as [Pp|Pp]; [|congruence]. set (c := - pd pl / vx (pn pl)).
    destruct (Rle_lt_dec M (-1)) as [C|C].
    { apply content_none. intros x Hx. apply H in Hx. cbn in Hx. lra. }
    intros e He. split; [exists []; split; [split; [intros ? []|apply FOP_nil]|cbn; lra]|].
    set (r := e / (4 * (M + 2))). assert (0 < r) by (apply Rdiv_lt_0_compat; lra).
    exists [bx2 (c - r) (c + r) (- M - 1) (M + 1)]. split; [split|].
    + intros b [<-|[]]. apply real2. cbn. lra.
    + intros x Hx. exists (bx2 (c - r) (c + r) (- M - 1) (M + 1)). split; [now left|]. apply inb2. apply H in Hx. cbn in *. destruct Hx as (E & X & Y).
      assert (x 0%Z = c) by (unfold c, sdist in *; cbn in *; rewrite Z0 in E; apply (Rmult_eq_reg_r (vx (pn pl))); auto; field_simplify; lra). lra.
    + cbn [lsum]. rewrite vol2. cbn. assert (E : r * (4 * (M + 2)) = e) by (unfold r; field; lra). nra.
  - destruct (Rle_lt_dec M (-1)) as [C|C].
    { apply content_none. intros x Hx. apply H in Hx. cbn in Hx. lra. }
    set (al := - vx (pn pl) / vy (pn pl)). set (be := - pd pl / vy (pn pl)).
    apply (content_zero_sub 2 _ (trap (- M - 1) (M + 1) al be al be)).
    + intros x Hx. apply H in Hx. cbn in Hx. destruct Hx as (E & X & Y). split; [lra|].
      assert (x 1%Z = al * x 0%Z + be) by (unfold al, be, sdist in *; cbn in *; apply (Rmult_eq_reg_r (vy (pn pl))); auto; field_simplify; lra). lra.
    + replace 0 with (trap_area (- M - 1) (M + 1) al be al be) by (unfold trap_area; field). apply trap_content; lra.
Qed.
Lemma parted_line pl (K K' : rvec2 R -> Prop) : proper2 pl -> (forall x, K x -> 0 <= sdist pl x) -> (forall x, K' x -> sdist pl x <= 0) ->
  parted 2 (fun x => K (V2 (x 0%Z) (x 1%Z))) (fun x => K' (V2 (x 0%Z) (x 1%Z))).
Proof.
  intros Pp H1 H2 b c _ _ B C x Ib Ic. apply insideb2 in Ib, Ic.
  set (X := x 0%Z) in *. set (Y := x 1%Z) in *.
  assert (RR : forall p q : R, 0 < p -> 0 < q -> exists r, 0 < r /\ r <= p /\ r <= q) by (intros p q Hp Hq; exists (Rmin p q); split; [now apply Rmin_glb_lt|split; [apply Rmin_l|apply Rmin_r]]).
  assert (R1 : exists r, 0 < r /\ r <= X - fst b 0%Z /\ r <= snd b 0%Z - X /\ r <= Y - fst b 1%Z /\ r <= snd b 1%Z - Y /\ r <= X - fst c 0%Z /\ r <= snd c 0%Z - X /\ r <= Y - fst c 1%Z /\ r <= snd c 1%Z - Y).
  { destruct (RR (X - fst b 0%Z) (snd b 0%Z - X)) as (r1 & ?); [lra|lra|]. destruct (RR (Y - fst b 1%Z) (snd b 1%Z - Y)) as (r2 & ?); [lra|lra|].
    destruct (RR (X - fst c 0%Z) (snd c 0%Z - X)) as (r3 & ?); [lra|lra|]. destruct (RR (Y - fst c 1%Z) (snd c 1%Z - Y)) as (r4 & ?); [lra|lra|].
    destruct (RR r1 r2) as (r5 & ?); [lra|lra|]. destruct (RR r3 r4) as (r6 & ?); [lra|lra|]. destruct (RR r5 r6) as (r & ?); [lra|lra|]. exists r. repeat split; lra. }
  destruct R1 as (r & R0 & RL).
  assert (Q : forall u v, - r <= u <= r -> - r <= v <= r -> sdist pl (V2 (X + u) (Y + v)) = 0).
  { intros u v Hu Hv. assert (A1 := B (mk2 (X + u) (Y + v))). assert (A2 := C (mk2 (X + u) (Y + v))). rewrite inb2 in A1, A2. cbn in A1, A2.
    specialize (A1 ltac:(lra)). specialize (A2 ltac:(lra)). apply H1 in A1. apply H2 in A2. lra. }
  pose proof (Q 0 0 ltac:(lra) ltac:(lra)) as Q0. pose proof (Q r 0 ltac:(lra) ltac:(lra)) as Q1. pose proof (Q 0 r ltac:(lra) ltac:(lra)) as Q2.
  unfold sdist in *. cbn in *. destruct Pp as [Pp|Pp]; apply Pp; nra.
Qed.


(** ** Triangles *)
Definition tri (a b c x : rvec2 R) : Prop := 0 <= turn a b x /\ 0 <= turn b c x /\ 0 <= turn c a x.
Lemma tri_rot a b c x : tri a b c x <-> tri b c a x.
Proof. unfold tri. tauto. Qed.
Lemma bary a b c x : turn b c x + turn c a x + turn a b x = turn a b c /\ turn b c x * vx a + turn c a x * vx b + turn a b x * vx c = turn a b c * vx x.
Proof. unfold turn. split; ring. Qed.
(** the line through two points as a slope *)
Definition sl (a b : rvec2 R) : R := (vy b - vy a) / (vx b - vx a).
Definition ic (a b : rvec2 R) : R := vy a - sl a b * vx a.
Lemma sl_turn a b x : vx a <> vx b -> turn a b x = (vx b - vx a) * (vy x - (sl a b * vx x + ic a b)).
Proof. intros H. unfold turn, ic, sl. field. lra. Qed.
Lemma above a b x : vx a < vx b -> (0 <= turn a b x <-> sl a b * vx x + ic a b <= vy x).
Proof. intros H. rewrite sl_turn by lra. split; intros; nra. Qed.
Lemma under a b x : vx b < vx a -> (0 <= turn a b x <-> vy x <= sl a b * vx x + ic a b).
Proof. intros H. rewrite sl_turn by lra. split; intros; nra. Qed.

Lemma content2_add pl (K1 K2 K : rvec2 R -> Prop) t1 t2 : proper2 pl -> (forall x, K1 x -> 0 <= sdist pl x) -> (forall x, K2 x -> sdist pl x <= 0) ->
  (forall x, K x <-> K1 x \/ K2 x) -> content2 K1 t1 -> content2 K2 t2 -> content2 K (t1 + t2).
Proof.
  intros Pp H1 H2 S C1 C2. unfold content2. apply (content_add 2 (fun x => K1 (V2 (x 0%Z) (x 1%Z))) (fun x => K2 (V2 (x 0%Z) (x 1%Z)))); auto.
  apply (parted_line pl); auto.
Qed.
(** the part of a triangle between two vertical lines, below one side and above another *)
Lemma slab_content (K : rvec2 R -> Prop) u v (lo1 lo2 up1 up2 : rvec2 R) : u < v -> vx lo1 <> vx lo2 -> vx up1 <> vx up2 ->
  (forall x, K x <-> u <= vx x <= v /\ sl lo1 lo2 * vx x + ic lo1 lo2 <= vy x <= sl up1 up2 * vx x + ic up1 up2) ->
  sl lo1 lo2 * u + ic lo1 lo2 <= sl up1 up2 * u + ic up1 up2 -> sl lo1 lo2 * v + ic lo1 lo2 <= sl up1 up2 * v + ic up1 up2 ->
  content2 K ((v - u) * ((sl up1 up2 * u + ic up1 up2 - (sl lo1 lo2 * u + ic lo1 lo2)) + (sl up1 up2 * v + ic up1 up2 - (sl lo1 lo2 * v + ic lo1 lo2))) / 2).
Proof.
  intros Huv _ _ HK A B. unfold content2. eapply content_ext; [|apply (trap_content u v (sl lo1 lo2) (ic lo1 lo2) (sl up1 up2) (ic up1 up2)); auto].
  intros x. rewrite HK. cbn. unfold trap. reflexivity.
Qed.

Lemma tri_first a b c : 0 < turn a b c -> vx a <= vx b -> vx a <= vx c -> content2 (tri a b c) (turn a b c / 2).
Proof.
  intros T B C. destruct (Rle_lt_dec (vx b) (vx c)) as [BC|BC].
  - assert (AC : vx a < vx c). { destruct C as [C|C]; auto. exfalso. unfold turn in T. replace (vx b - vx a) with 0 in T by lra. replace (vx c - vx a) with 0 in T by lra. lra. }
    set (Lx := fun x => vx a <= vx x <= vx b /\ 0 <= turn a b x /\ 0 <= turn c a x).
    set (Rx := fun x => vx b <= vx x <= vx c /\ 0 <= turn b c x /\ 0 <= turn c a x).
    assert (EQ : forall x, tri a b c x -> vx a <= vx x <= vx c).
    { intros x (U & V & W). destruct (bary a b c x) as (E1 & E2). split; nra. }
    assert (EL : vx a < vx b -> forall x, Lx x -> tri a b c x).
    { intros AB x ((X1 & X2) & U & V). destruct (bary a b c x) as (E1 & E2). unfold tri. split; auto. split; auto. apply Rnot_lt_le. intros Q. nra. }
    assert (ER : vx b < vx c -> forall x, Rx x -> tri a b c x).
    { intros BC' x ((X1 & X2) & U & V). destruct (bary a b c x) as (E1 & E2). unfold tri. split; auto. apply Rnot_lt_le. intros Q. nra. }
    set (h := turn a b c / (vx c - vx a)). assert (H0 : 0 < h) by (apply Rdiv_lt_0_compat; lra).
    assert (Hh : h * (vx c - vx a) = turn a b c) by (unfold h; field; lra).
    assert (Uca : sl c a * vx b + ic c a - vy b = h) by (unfold h, ic, sl, turn; field; lra).
    assert (CL : vx a < vx b -> content2 Lx ((vx b - vx a) * h / 2)).
    { intros AB. replace ((vx b - vx a) * h / 2) with ((vx b - vx a) * ((sl c a * vx a + ic c a - (sl a b * vx a + ic a b)) + (sl c a * vx b + ic c a - (sl a b * vx b + ic a b))) / 2).
      - apply slab_content; try lra.
        + intros x. unfold Lx. rewrite above, under by lra. tauto.
        + right. unfold ic, sl. field. lra.
        + replace (sl a b * vx b + ic a b) with (vy b) by (unfold ic, sl; field; lra). lra.
      - f_equal. f_equal. replace (sl a b * vx b + ic a b) with (vy b) by (unfold ic, sl; field; lra). rewrite Uca. unfold ic, sl. field. lra. }
    assert (CR : vx b < vx c -> content2 Rx ((vx c - vx b) * h / 2)).
    { intros BC'. replace ((vx c - vx b) * h / 2) with ((vx c - vx b) * ((sl c a * vx b + ic c a - (sl b c * vx b + ic b c)) + (sl c a * vx c + ic c a - (sl b c * vx c + ic b c))) / 2).
      - apply slab_content; try lra.
        + intros x. unfold Rx. rewrite above, under by lra. tauto.
        + replace (sl b c * vx b + ic b c) with (vy b) by (unfold ic, sl; field; lra). lra.
        + right. unfold ic, sl. field. lra.
      - f_equal. f_equal. replace (sl b c * vx b + ic b c) with (vy b) by (unfold ic, sl; field; lra). rewrite Uca. unfold ic, sl. field. lra. }
    destruct B as [B|B]; [destruct BC as [BC|BC]|].
    + replace (turn a b c / 2) with ((vx c - vx b) * h / 2 + (vx b - vx a) * h / 2) by (rewrite <- Hh; field).
      apply (content2_add (PL2 (V2 1 0) (- vx b)) Rx Lx); auto.
      * left. cbn. lra.
      * intros x ((X & _) & _). unfold sdist. cbn. lra.
      * intros x ((_ & X) & _). unfold sdist. cbn. lra.
      * intros x. split; [|intros [X|X]; auto]. intros X. pose proof (EQ x X). destruct X as (U & V & W). destruct (Rle_lt_dec (vx b) (vx x)); [left|right]; unfold Rx, Lx; repeat split; auto; lra.
    + replace (turn a b c / 2) with ((vx b - vx a) * h / 2) by (rewrite <- Hh, BC; field). apply (content2_ext Lx); auto. intros x. split; auto.
      intros X. pose proof (EQ x X). destruct X as (U & V & W). unfold Lx. repeat split; auto; lra.
    + assert (BC' : vx b < vx c) by lra. replace (turn a b c / 2) with ((vx c - vx b) * h / 2) by (rewrite <- Hh, B; field). apply (content2_ext Rx); auto. intros x. split; auto.
      intros X. pose proof (EQ x X). destruct X as (U & V & W). unfold Rx. repeat split; auto; lra.
  - assert (AB : vx a < vx b) by lra.
    set (Lx := fun x => vx a <= vx x <= vx c /\ 0 <= turn a b x /\ 0 <= turn c a x).
    set (Rx := fun x => vx c <= vx x <= vx b /\ 0 <= turn a b x /\ 0 <= turn b c x).
    assert (EQ : forall x, tri a b c x -> vx a <= vx x <= vx b).
    { intros x (U & V & W). destruct (bary a b c x) as (E1 & E2). split; nra. }
    assert (EL : vx a < vx c -> forall x, Lx x -> tri a b c x).
    { intros AC x ((X1 & X2) & U & V). destruct (bary a b c x) as (E1 & E2). unfold tri. split; auto. split; auto. apply Rnot_lt_le. intros Q. nra. }
    assert (ER : forall x, Rx x -> tri a b c x).
    { intros x ((X1 & X2) & U & V). destruct (bary a b c x) as (E1 & E2). unfold tri. split; auto. split; auto. apply Rnot_lt_le. intros Q. nra. }
    set (h := turn a b c / (vx b - vx a)). assert (H0 : 0 < h) by (apply Rdiv_lt_0_compat; lra).
    assert (Hh : h * (vx b - vx a) = turn a b c) by (unfold h; field; lra).
    assert (Uca : vy c - (sl a b * vx c + ic a b) = h) by (unfold h, ic, sl, turn; field; lra).
    assert (CL : vx a < vx c -> content2 Lx ((vx c - vx a) * h / 2)).
    { intros AC. replace ((vx c - vx a) * h / 2) with ((vx c - vx a) * ((sl c a * vx a + ic c a - (sl a b * vx a + ic a b)) + (sl c a * vx c + ic c a - (sl a b * vx c + ic a b))) / 2).
      - apply slab_content; try lra.
        + intros x. unfold Lx. rewrite above, under by lra. tauto.
        + right. unfold ic, sl. field. lra.
        + replace (sl c a * vx c + ic c a) with (vy c) by (unfold ic, sl; field; lra). lra.
      - f_equal. f_equal. replace (sl c a * vx c + ic c a) with (vy c) by (unfold ic, sl; field; lra). rewrite Uca. unfold ic, sl. field. lra. }
    assert (CR : content2 Rx ((vx b - vx c) * h / 2)).
    { replace ((vx b - vx c) * h / 2) with ((vx b - vx c) * ((sl b c * vx c + ic b c - (sl a b * vx c + ic a b)) + (sl b c * vx b + ic b c - (sl a b * vx b + ic a b))) / 2).
      - apply slab_content; try lra.
        + intros x. unfold Rx. rewrite above, under by lra. tauto.
        + replace (sl b c * vx c + ic b c) with (vy c) by (unfold ic, sl; field; lra). lra.
        + right. unfold ic, sl. field. lra.
      - f_equal. f_equal. replace (sl b c * vx c + ic b c) with (vy c) by (unfold ic, sl; field; lra). rewrite Uca. unfold ic, sl. field. lra. }
    destruct C as [C|C].
    + replace (turn a b c / 2) with ((vx b - vx c) * h / 2 + (vx c - vx a) * h / 2) by (rewrite <- Hh; field).
      apply (content2_add (PL2 (V2 1 0) (- vx c)) Rx Lx); auto.
      * left. cbn. lra.
      * intros x ((X & _) & _). unfold sdist. cbn. lra.
      * intros x ((_ & X) & _). unfold sdist. cbn. lra.
      * intros x. split; [|intros [X|X]; auto]. intros X. pose proof (EQ x X). destruct X as (U & V & W). destruct (Rle_lt_dec (vx c) (vx x)); [left|right]; unfold Rx, Lx; repeat split; auto; lra.
    + replace (turn a b c / 2) with ((vx b - vx c) * h / 2) by (rewrite <- Hh, C; field). apply (content2_ext Rx); auto. intros x. split; auto.
      intros X. pose proof (EQ x X). destruct X as (U & V & W). unfold Rx. repeat split; auto; lra.
Qed.
Theorem tri_content a b c : 0 < turn a b c -> content2 (tri a b c) (turn a b c / 2).
Proof.
  intros T. assert (T' : 0 < turn b c a) by (rewrite <- turn_rot; auto). assert (T'' : 0 < turn c a b) by (rewrite turn_rot; auto).
  assert (C : vx a <= vx b /\ vx a <= vx c \/ vx b <= vx c /\ vx b <= vx a \/ vx c <= vx a /\ vx c <= vx b) by lra.
  destruct C as [(X & Y)|[(X & Y)|(X & Y)]].
  - now apply tri_first.
  - apply (content2_ext (tri b c a)); [intros; symmetry; apply tri_rot|]. rewrite turn_rot. now apply tri_first.
  - apply (content2_ext (tri c a b)); [intros; apply tri_rot|]. rewrite <- turn_rot. now apply tri_first.
Qed.

(** ** Convex polygons as lists of points *)
Definition hullL (s : list (rvec2 R)) (x : rvec2 R) : Prop := forall h, (forall y, In y s -> 0 <= sdist h y) -> 0 <= sdist h x.
Lemma hull_tri a b c x : 0 < turn a b c -> (hullL [a; b; c] x <-> tri a b c x).
Proof.
  intros T. split.
  - intros H. assert (E : forall p q, (forall y, In y [a; b; c] -> 0 <= turn p q y) -> 0 <= turn p q x).
    { intros p q Hy. assert (S : forall y, sdist (PL2 (V2 (- (vy q - vy p)) (vx q - vx p)) ((vy q - vy p) * vx p - (vx q - vx p) * vy p)) y = turn p q y) by (intros; unfold sdist, turn; cbn; ring).
      rewrite <- S. apply H. intros y Iy. rewrite S. auto. }
    repeat split; apply E; intros y [<-|[<-|[<-|[]]]]; unfold turn in *; lra.
  - intros (U & V & W) h Hh. pose proof (Hh a ltac:(now left)). pose proof (Hh b ltac:(right; now left)). pose proof (Hh c ltac:(right; right; now left)).
    assert (E : turn b c x * sdist h a + turn c a x * sdist h b + turn a b x * sdist h c = turn a b c * sdist h x) by (unfold turn, sdist; ring). nra.
Qed.
Lemma quad_id g a b c d : turn b c d * sdist g a + turn a b d * sdist g c = turn a c d * sdist g b + turn a b c * sdist g d.
Proof. unfold turn, sdist. ring. Qed.
Definition chord (a c : rvec2 R) : plane2 R := PL2 (V2 (- (vy c - vy a)) (vx c - vx a)) ((vy c - vy a) * vx a - (vx c - vx a) * vy a).
Lemma chord_turn a c y : sdist (chord a c) y = turn a c y.
Proof. unfold sdist, turn, chord. cbn. ring. Qed.
Lemma chord_proper a c : a <> c -> proper2 (chord a c).
Proof.
  intros H. unfold proper2, chord. cbn. destruct (Req_dec (vx c) (vx a)) as [X|X]; [|right; lra]. left. intros Y. apply H. destruct a, c; cbn in *. f_equal; lra.
Qed.
Definition scomb (h : plane2 R) (t : R) (g : plane2 R) : plane2 R := PL2 (V2 (vx (pn h) - t * vx (pn g)) (vy (pn h) - t * vy (pn g))) (pd h - t * pd g).
Lemma scomb_sdist h t g y : sdist (scomb h t g) y = sdist h y - t * sdist g y.
Proof. unfold sdist, scomb. cbn. ring. Qed.

(** cutting off the corner [b] *)
Lemma ear a b c r x : ccw (a :: b :: c :: r) -> 0 < turn a b c ->
  (hullL (a :: b :: c :: r) x <-> (hullL (a :: c :: r) x /\ 0 <= turn a c x) \/ (hullL [a; b; c] x /\ turn a c x <= 0)).
Proof.
  intros HC T.
  assert (TD : forall d, In d r -> 0 <= turn a b d /\ 0 <= turn a c d /\ 0 <= turn b c d).
  { intros d Hd. apply in_split in Hd as (l & m & ->). repeat split.
    - apply (ccw_in3 _ [] a [] b (c :: l) d m HC). reflexivity.
    - apply (ccw_in3 _ [] a [b] c l d m HC). reflexivity.
    - apply (ccw_in3 _ [a] b [] c l d m HC). reflexivity. }
  assert (Tb : turn a c b < 0) by (replace (turn a c b) with (- turn a b c) by (unfold turn; ring); lra).
  assert (Za : turn a c a = 0) by (unfold turn; ring). assert (Zc : turn a c c = 0) by (unfold turn; ring).
  split.
  - intros X. destruct (Rle_lt_dec 0 (turn a c x)) as [S|S]; [left|right]; (split; [|lra]); intros h Hh.
    + destruct (multiplier (a :: b :: c :: r) (sdist h) (turn a c)) as (t & Ht & M).
      * intros y [<-|[<-|[<-|Hy]]] Sy; try (apply Hh; now left); try lra; apply Hh; right; [now left|now right].
      * intros p q Hp Hq Sp Sq.
        assert (q = b). { destruct Hq as [<-|[<-|[<-|Hq]]]; auto; try lra. destruct (TD q Hq) as (_ & ? & _). lra. } subst q.
        assert (In p r). { destruct Hp as [<-|[<-|[<-|Hp]]]; auto; lra. } destruct (TD p H) as (A & B & C).
        pose proof (quad_id h a b c p) as Q. pose proof (Hh a ltac:(now left)). pose proof (Hh c ltac:(right; now left)).
        replace (turn a c b) with (- turn a b c) by (unfold turn; ring). nra.
      * specialize (X (scomb h t (chord a c))). rewrite scomb_sdist, chord_turn in X. assert (0 <= sdist h x - t * turn a c x) by (apply X; intros y Hy; rewrite scomb_sdist, chord_turn; auto). nra.
    + destruct (multiplier (a :: b :: c :: r) (sdist h) (fun y => - turn a c y)) as (t & Ht & M).
      * intros y [<-|[<-|[<-|Hy]]] Sy; try (apply Hh; cbn; tauto).
        destruct (TD y Hy) as (A & B & C). pose proof (quad_id h a b c y) as Q. pose proof (Hh a ltac:(now left)). pose proof (Hh c ltac:(right; right; now left)).
        assert (turn a c y = 0) by lra. rewrite H1 in Q. nra.
      * intros p q Hp Hq Sp Sq.
        assert (p = b). { destruct Hp as [<-|[<-|[<-|Hp]]]; auto; try lra. destruct (TD p Hp) as (_ & ? & _). lra. } subst p.
        assert (In q r). { destruct Hq as [<-|[<-|[<-|Hq]]]; auto; lra. } destruct (TD q H) as (A & B & C).
        pose proof (quad_id h a b c q) as Q. pose proof (Hh a ltac:(now left)). pose proof (Hh c ltac:(right; right; now left)).
        replace (turn a c b) with (- turn a b c) by (unfold turn; ring). nra.
      * specialize (X (scomb h (- t) (chord a c))). rewrite scomb_sdist, chord_turn in X.
        assert (0 <= sdist h x - - t * turn a c x) by (apply X; intros y Hy; rewrite scomb_sdist, chord_turn; specialize (M y Hy); lra). nra.
  - intros [(X & _)|(X & _)] h Hh; apply X; intros y Hy; apply Hh.
    + destruct Hy as [<-|Hy]; [now left|right; now right].
    + destruct Hy as [<-|[<-|[<-|[]]]]; cbn; tauto.
Qed.
Lemma flat_ear a b c r d x : ccw (a :: b :: c :: r) -> turn a b c = 0 -> In d r -> 0 < turn a c d -> (hullL (a :: b :: c :: r) x <-> hullL (a :: c :: r) x).
Proof.
  intros HC T Hd S. split; intros X h Hh; apply X.
  - intros y [<-|[<-|Hy]]; [apply Hh; now left| |apply Hh; now right].
    pose proof (quad_id h a b c d) as Q. rewrite T in Q. pose proof (Hh a ltac:(now left)). pose proof (Hh c ltac:(right; now left)).
    assert (0 <= turn b c d /\ 0 <= turn a b d). { apply in_split in Hd as (l & m & ->). split; [apply (ccw_in3 _ [a] b [] c l d m HC)|apply (ccw_in3 _ [] a [] b (c :: l) d m HC)]; reflexivity. }
    nra.
  - intros y Hy. apply Hh. destruct Hy as [<-|Hy]; [now left|right; now right].
Qed.

Lemma list_bound (s : list (rvec2 R)) : exists M, forall y, In y s -> - M <= vx y <= M /\ - M <= vy y <= M.
Proof.
  induction s as [|a s (M & H)]; [exists 0; intros ? []|]. exists (Rmax M (Rmax (Rabs (vx a)) (Rabs (vy a)))).
  pose proof (Rmax_l M (Rmax (Rabs (vx a)) (Rabs (vy a)))) as A. pose proof (Rmax_r M (Rmax (Rabs (vx a)) (Rabs (vy a)))) as B.
  pose proof (Rmax_l (Rabs (vx a)) (Rabs (vy a))) as C. pose proof (Rmax_r (Rabs (vx a)) (Rabs (vy a))) as D.
  intros y [<-|Hy].
  - split; apply NearN.Rabs_le_inv; lra.
  - specialize (H y Hy). lra.
Qed.
Lemma hull_bound2 (s : list (rvec2 R)) : exists M, forall y, hullL s y -> - M <= vx y <= M /\ - M <= vy y <= M.
Proof.
  destruct (list_bound s) as (M & H). exists M. intros y Hy.
  pose proof (Hy (PL2 (V2 1 0) M)) as A. pose proof (Hy (PL2 (V2 (-1) 0) M)) as B. pose proof (Hy (PL2 (V2 0 1) M)) as C. pose proof (Hy (PL2 (V2 0 (-1)) M)) as D.
  unfold sdist in *. cbn in *.
  assert (0 <= M + (1 * vx y + 0 * vy y)) by (apply A; intros z Hz; specialize (H z Hz); lra).
  assert (0 <= M + (-1 * vx y + 0 * vy y)) by (apply B; intros z Hz; specialize (H z Hz); lra).
  assert (0 <= M + (0 * vx y + 1 * vy y)) by (apply C; intros z Hz; specialize (H z Hz); lra).
  assert (0 <= M + (0 * vx y + -1 * vy y)) by (apply D; intros z Hz; specialize (H z Hz); lra). lra.
Qed.
Lemma flat_list (s : list (rvec2 R)) pl : proper2 pl -> (forall y, In y s -> sdist pl y = 0) -> content2 (hullL s) 0.
Proof.
  intros Pp H. destruct (hull_bound2 s) as (M & HM). apply (flat2 _ pl M); auto. intros x Hx. split; auto.
  pose proof (Hx pl) as A. pose proof (Hx (flip pl)) as B. rewrite Cons2.sdist_flip in B.
  assert (0 <= sdist pl x) by (apply A; intros y Hy; rewrite (H y Hy); lra).
  assert (0 <= - sdist pl x) by (apply B; intros y Hy; rewrite Cons2.sdist_flip, (H y Hy); lra). lra.
Qed.
(** twice the areas of the triangles with the corner [a] *)
Fixpoint fan (a : rvec2 R) (s : list (rvec2 R)) : R := match s with b :: ((c :: _) as r) => turn a b c + fan a r | _ => 0 end.
Lemma fan_flat a s : (forall b c, In b s -> In c s -> turn a b c = 0) -> fan a s = 0.
Proof.
  induction s as [|b s IH]; intros H; auto. destruct s as [|c s]; auto. change (fan a (b :: c :: s)) with (turn a b c + fan a (c :: s)).
  rewrite IH by (intros; apply H; now right). rewrite H; [lra|now left|right; now left].
Qed.
Lemma pts_dec (a b : rvec2 R) : a = b \/ a <> b.
Proof.
  destruct (Req_dec (vx a) (vx b)) as [X|X]; [|right; congruence]. destruct (Req_dec (vy a) (vy b)) as [Y|Y]; [|right; congruence]. left. destruct a, b; cbn in *; congruence.
Qed.
Lemma line_turn a c p q : a <> c -> turn a c p = 0 -> turn a c q = 0 -> turn a p q = 0.
Proof.
  intros N P Q. apply chord_proper in N. unfold proper2, chord in N. cbn in N. unfold turn in *.
  assert (E1 : (vx c - vx a) * ((vx p - vx a) * (vy q - vy a) - (vy p - vy a) * (vx q - vx a)) = 0).
  { transitivity ((vx p - vx a) * ((vx c - vx a) * (vy q - vy a) - (vy c - vy a) * (vx q - vx a)) - (vx q - vx a) * ((vx c - vx a) * (vy p - vy a) - (vy c - vy a) * (vx p - vx a))); [ring|rewrite P, Q; ring]. }
  assert (E2 : (vy c - vy a) * ((vx p - vx a) * (vy q - vy a) - (vy p - vy a) * (vx q - vx a)) = 0).
  { transitivity ((vy p - vy a) * ((vx c - vx a) * (vy q - vy a) - (vy c - vy a) * (vx q - vx a)) - (vy q - vy a) * ((vx c - vx a) * (vy p - vy a) - (vy c - vy a) * (vx p - vx a))); [ring|rewrite P, Q; ring]. }
  destruct N as [N|N]; [apply Rmult_integral in E2 as [E|E]|apply Rmult_integral in E1 as [E|E]]; lra.
Qed.
Lemma hull_pair (a b : rvec2 R) : content2 (hullL [a; b]) 0.
Proof.
  destruct (pts_dec a b) as [E|N].
  - subst b. apply (flat_list _ (PL2 (V2 1 0) (- vx a))); [left; cbn; lra|]. intros y [<-|[<-|[]]]; unfold sdist; cbn; lra.
  - apply (flat_list _ (chord a b)); [now apply chord_proper|]. intros y [<-|[<-|[]]]; rewrite chord_turn; unfold turn; ring.
Qed.

Theorem fan_content a r : ccw (a :: r) -> content2 (hullL (a :: r)) (fan a r / 2).
Proof.
  revert a. induction r as [|b r IH]; intros a HC.
  { replace (fan a [] / 2) with 0 by (cbn; field). apply (content2_ext (hullL [a; a])); [|apply hull_pair]. intros x. split; intros X h Hh; apply X; intros y Hy; apply Hh; cbn in *; tauto. }
  destruct r as [|c r]. { replace (fan a [b] / 2) with 0 by (cbn; field). apply hull_pair. }
  change (fan a (b :: c :: r)) with (turn a b c + fan a (c :: r)).
  assert (HC' : ccw (a :: c :: r)).
  { destruct HC as (F & _ & HC). split; auto. inversion F; auto. }
  specialize (IH a HC').
  assert (T : 0 <= turn a b c) by (apply (ccw_in3 _ [] a [] b [] c r HC); reflexivity).
  destruct T as [T|T].
  - assert (N : a <> c) by (intros ->; unfold turn in T; lra).
    replace ((turn a b c + fan a (c :: r)) / 2) with (fan a (c :: r) / 2 + turn a b c / 2) by field.
    apply (content2_add (chord a c) (fun x => hullL (a :: c :: r) x /\ 0 <= turn a c x) (fun x => hullL [a; b; c] x /\ turn a c x <= 0)).
    + now apply chord_proper.
    + intros x (_ & S). now rewrite chord_turn.
    + intros x (_ & S). now rewrite chord_turn.
    + intros x. now apply ear.
    + apply (content2_ext (hullL (a :: c :: r))); auto. intros x. split; [|tauto]. intros X. split; auto. rewrite <- chord_turn. apply X. intros y Hy. rewrite chord_turn.
      destruct Hy as [<-|[<-|Hy]]; try (unfold turn; right; ring). apply in_split in Hy as (l & m & ->). apply (ccw_in3 _ [] a [b] c l y m HC). reflexivity.
    + apply (content2_ext (tri a b c)); [|now apply tri_content]. intros x. rewrite <- hull_tri by auto. split; [|tauto]. intros X. split; auto.
      assert (0 <= sdist (flip (chord a c)) x). { apply X. intros y Hy. rewrite Cons2.sdist_flip, chord_turn. destruct Hy as [<-|[<-|[<-|[]]]]; unfold turn in *; lra. }
      rewrite Cons2.sdist_flip, chord_turn in H. lra.
  - symmetry in T. destruct (Classical_Prop.classic (exists d, In d r /\ 0 < turn a c d)) as [(d & Hd & S)|NE].
    + rewrite T. replace ((0 + fan a (c :: r)) / 2) with (fan a (c :: r) / 2) by field. apply (content2_ext (hullL (a :: c :: r))); auto. intros x. symmetry. now apply (flat_ear a b c r d).
    + assert (Z : forall d, In d r -> turn a c d = 0).
      { intros d Hd. assert (0 <= turn a c d) by (apply in_split in Hd as (l & m & ->); apply (ccw_in3 _ [] a [b] c l d m HC); reflexivity).
        destruct (Rle_lt_or_eq_dec 0 (turn a c d)); auto. exfalso. apply NE. eauto. }
      rewrite T. destruct (pts_dec a c) as [E|N].
      * subst c. destruct (pts_dec a b) as [E|N].
        -- subst b. replace ((0 + fan a (a :: r)) / 2) with (fan a (a :: r) / 2) by field. apply (content2_ext (hullL (a :: a :: r))); auto. intros x. split; intros X h Hh; apply X; intros y Hy; apply Hh; cbn in *; tauto.
        -- assert (ZB : forall d, In d r -> turn a b d = 0).
           { intros d Hd. apply in_split in Hd as (l & m & ->). assert (0 <= turn a b d) by (apply (ccw_in3 _ [] a [] b (a :: l) d m HC); reflexivity).
             assert (0 <= turn b a d) by (apply (ccw_in3 _ [a] b [] a l d m HC); reflexivity). unfold turn in *. lra. }
           rewrite fan_flat; [replace ((0 + 0) / 2) with 0 by field|].
           ++ apply (flat_list _ (chord a b)); [now apply chord_proper|]. intros y Hy. rewrite chord_turn. destruct Hy as [<-|[<-|[<-|Hy]]]; auto; unfold turn; ring.
           ++ assert (ZA : forall d, In d (a :: r) -> turn a b d = 0) by (intros d [<-|Hd]; auto; unfold turn; ring). intros p q Hp Hq. apply (line_turn a b); auto.
      * assert (ZA : forall d, In d (c :: r) -> turn a c d = 0) by (intros d [<-|Hd]; auto; unfold turn; ring).
        rewrite fan_flat; [replace ((0 + 0) / 2) with 0 by field|intros p q Hp Hq; apply (line_turn a c); auto].
        apply (flat_list _ (chord a c)); [now apply chord_proper|]. intros y Hy. rewrite chord_turn. destruct Hy as [<-|[<-|Hy]]; auto; unfold turn in *; lra.
Qed.
