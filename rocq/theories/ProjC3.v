(** * ProjC3: the transforms of [src/r3d.c] applied to convex polyhedra. *)
From Coq Require Import Reals ZArith List Bool Lia Lra Psatz.
From Verif Require Import Base Lib SumR ModelCommon Model3 ModelV SpecN SpecNC Spec3 Spec3R SpecC3 SpecF3 SpecP3 RealNum Conv3 ProjJ ProjN.
Import ListNotations.
Open Scope R_scope.

Lemma lin_3 c0 c x : linN 3 c0 c x = c0 + (c 0%Z * x 0%Z + c 1%Z * x 1%Z + c 2%Z * x 2%Z).
Proof. unfold linN. change (zrange 3) with [0; 1; 2]%Z. cbn [lsum]. ring. Qed.

(** quotients of affine functions *)
Lemma quot_cont a b e : 0 < b -> 0 < e -> exists d, 0 < d /\ forall a' b', Rabs (a' - a) < d -> Rabs (b' - b) < d -> 0 < b' /\ Rabs (a' / b' - a / b) < e.
Proof.
  intros Hb He. set (c := Rabs (a / b)). assert (0 <= c) by apply Rabs_pos.
  assert (P : 0 < e * b / (4 * (1 + c))) by (apply Rdiv_lt_0_compat; nra).
  exists (Rmin (b / 2) (e * b / (4 * (1 + c)))). split; [apply Rmin_pos; lra|]. intros a' b' Ha Hb'.
  assert (B1 : b / 2 < b') by (pose proof (Rmin_l (b / 2) (e * b / (4 * (1 + c)))); destruct (Rabs_def2 _ _ Hb'); lra).
  split; [lra|].
  replace (a' / b' - a / b) with (((a' - a) - a / b * (b' - b)) / b') by (field; lra).
  unfold Rdiv at 1. rewrite Rabs_mult, (Rabs_pos_eq (/ b')) by (left; apply Rinv_0_lt_compat; lra).
  apply Rmult_lt_reg_r with b'; [lra|]. rewrite Rmult_assoc, Rinv_l, Rmult_1_r by lra.
  set (d := e * b / (4 * (1 + c))) in *.
  assert (A1 : Rabs (a' - a) <= d) by (left; eapply Rlt_le_trans; [exact Ha|apply Rmin_r]).
  assert (A2 : Rabs (b' - b) <= d) by (left; eapply Rlt_le_trans; [exact Hb'|apply Rmin_r]).
  assert (A3 : Rabs (a' - a - a / b * (b' - b)) <= d * (1 + c)).
  { unfold Rminus at 1. eapply Rle_trans; [apply Rabs_triang|]. rewrite Rabs_Ropp, Rabs_mult. fold c. nra. }
  assert (A4 : d * (1 + c) = e * b / 4) by (unfold d; field; lra). nra.
Qed.

Definition hrow (m : Z -> Z -> R) (r : Z) (a b c d : R) : R := m r 0%Z * a + m r 1%Z * b + m r 2%Z * c + m r 3%Z * d.
(** cofactors *)
Definition mn (m : Z -> Z -> R) (r0 r1 r2 a b c : Z) : R :=
  m r0 a * (m r1 b * m r2 c - m r1 c * m r2 b) - m r0 b * (m r1 a * m r2 c - m r1 c * m r2 a) + m r0 c * (m r1 a * m r2 b - m r1 b * m r2 a).
Definition sk (k : Z) : Z * (Z * Z) := if (k =? 0)%Z then (1, (2, 3))%Z else if (k =? 1)%Z then (0, (2, 3))%Z else if (k =? 2)%Z then (0, (1, 3))%Z else (0, (1, 2))%Z.
Definition adj (m : Z -> Z -> R) (r c : Z) : R :=
  let '(a, (b, d)) := sk c in let '(x, (y, z)) := sk r in (if Z.even (r + c) then 1 else -1) * mn m a b d x y z.

Section Inv.
Context (m : Z -> Z -> R).
Ltac ex := intros; unfold hrow, adj, sk, mn, det4; cbn -[IZR]; ring.
Lemma madj0 a b c d : hrow m 0 (hrow (adj m) 0 a b c d) (hrow (adj m) 1 a b c d) (hrow (adj m) 2 a b c d) (hrow (adj m) 3 a b c d) = det4 m * a. Proof. ex. Qed.
Lemma madj1 a b c d : hrow m 1 (hrow (adj m) 0 a b c d) (hrow (adj m) 1 a b c d) (hrow (adj m) 2 a b c d) (hrow (adj m) 3 a b c d) = det4 m * b. Proof. ex. Qed.
Lemma madj2 a b c d : hrow m 2 (hrow (adj m) 0 a b c d) (hrow (adj m) 1 a b c d) (hrow (adj m) 2 a b c d) (hrow (adj m) 3 a b c d) = det4 m * c. Proof. ex. Qed.
Lemma madj3 a b c d : hrow m 3 (hrow (adj m) 0 a b c d) (hrow (adj m) 1 a b c d) (hrow (adj m) 2 a b c d) (hrow (adj m) 3 a b c d) = det4 m * d. Proof. ex. Qed.
Lemma adjm0 a b c d : hrow (adj m) 0 (hrow m 0 a b c d) (hrow m 1 a b c d) (hrow m 2 a b c d) (hrow m 3 a b c d) = det4 m * a. Proof. ex. Qed.
Lemma adjm1 a b c d : hrow (adj m) 1 (hrow m 0 a b c d) (hrow m 1 a b c d) (hrow m 2 a b c d) (hrow m 3 a b c d) = det4 m * b. Proof. ex. Qed.
Lemma adjm2 a b c d : hrow (adj m) 2 (hrow m 0 a b c d) (hrow m 1 a b c d) (hrow m 2 a b c d) (hrow m 3 a b c d) = det4 m * c. Proof. ex. Qed.
Lemma adjm3 a b c d : hrow (adj m) 3 (hrow m 0 a b c d) (hrow m 1 a b c d) (hrow m 2 a b c d) (hrow m 3 a b c d) = det4 m * d. Proof. ex. Qed.
End Inv.

Definition vec (x : Z -> R) : rvec3 R := V3 (x 0%Z) (x 1%Z) (x 2%Z).
Definition g4 (m : Z -> Z -> R) (x : Z -> R) : Z -> R := co3 (proj4 m (vec x)).
Definition col4 (m : Z -> Z -> R) (l0 : R) (l : Z -> R) (k : Z) : R := l 0%Z * m 0%Z k + l 1%Z * m 1%Z k + l 2%Z * m 2%Z k + l0 * m 3%Z k.
Lemma row4_hrow m r q : row4 m r q = hrow m r (x3 q) (y3 q) (z3 q) 1.
Proof. unfold row4, hrow. ring. Qed.
Lemma w_hrow m x : linN 3 (m 3%Z 3%Z) (m 3%Z) x = hrow m 3 (x 0%Z) (x 1%Z) (x 2%Z) 1.
Proof. rewrite lin_3. unfold hrow. ring. Qed.
Lemma w_row4 m x : linN 3 (m 3%Z 3%Z) (m 3%Z) x = row4 m 3 (vec x).
Proof. rewrite w_hrow, row4_hrow. reflexivity. Qed.
Lemma hrow_div m r a b c d w : w <> 0 -> hrow m r (a / w) (b / w) (c / w) (d / w) = hrow m r a b c d / w.
Proof. intros. unfold hrow. field. auto. Qed.
Lemma g4_0 m x : g4 m x 0%Z = row4 m 0 (vec x) / row4 m 3 (vec x). Proof. reflexivity. Qed.
Lemma g4_1 m x : g4 m x 1%Z = row4 m 1 (vec x) / row4 m 3 (vec x). Proof. reflexivity. Qed.
Lemma g4_2 m x : g4 m x 2%Z = row4 m 2 (vec x) / row4 m 3 (vec x). Proof. reflexivity. Qed.
Lemma case3 (P : Z -> Prop) k : (0 <= k < 3)%Z -> P 0%Z -> P 1%Z -> P 2%Z -> P k.
Proof. intros H A B C. assert (k = 0 \/ k = 1 \/ k = 2)%Z as [->|[->| ->]] by lia; auto. Qed.
(** rows of [n] at the image under [m] *)
Lemma row_image n m x r : row4 m 3 (vec x) <> 0 ->
  hrow n r (g4 m x 0%Z) (g4 m x 1%Z) (g4 m x 2%Z) 1
  = hrow n r (row4 m 0 (vec x)) (row4 m 1 (vec x)) (row4 m 2 (vec x)) (row4 m 3 (vec x)) / row4 m 3 (vec x).
Proof. intros H. rewrite g4_0, g4_1, g4_2. unfold hrow. field. auto. Qed.

Lemma chart4 m : 0 < det4 m -> chart 3 (g4 m) (g4 (adj m)) (m 3%Z 3%Z) (m 3%Z) (adj m 3%Z 3%Z) (adj m 3%Z)
  (fun l0 l => col4 (adj m) l0 l 3 / det4 m) (fun l0 l k => col4 (adj m) l0 l k / det4 m)
  (fun l0 l => col4 m l0 l 3) (fun l0 l k => col4 m l0 l k).
Proof.
  intros Hd. split.
  - intros x. rewrite w_row4, w_hrow. intros Hx. rewrite row_image by lra. rewrite !row4_hrow. rewrite adjm3. rewrite <- row4_hrow.
    apply Rdiv_lt_0_compat; lra.
  - intros z. rewrite w_row4, w_hrow. intros Hz.
    assert (E : forall r, hrow m r (g4 (adj m) z 0%Z) (g4 (adj m) z 1%Z) (g4 (adj m) z 2%Z) 1
       = hrow m r (row4 (adj m) 0 (vec z)) (row4 (adj m) 1 (vec z)) (row4 (adj m) 2 (vec z)) (row4 (adj m) 3 (vec z)) / row4 (adj m) 3 (vec z))
      by (intros; apply row_image; lra).
    assert (P : 0 < det4 m / row4 (adj m) 3 (vec z)) by (apply Rdiv_lt_0_compat; lra).
    assert (E3 := E 3%Z). rewrite !row4_hrow in E3. rewrite madj3 in E3. rewrite <- row4_hrow in E3. split; [rewrite E3; lra|].
    assert (E0 := E 0%Z). rewrite !row4_hrow in E0. rewrite madj0 in E0. rewrite <- row4_hrow in E0.
    assert (E1 := E 1%Z). rewrite !row4_hrow in E1. rewrite madj1 in E1. rewrite <- row4_hrow in E1.
    assert (E2 := E 2%Z). rewrite !row4_hrow in E2. rewrite madj2 in E2. rewrite <- row4_hrow in E2.
    assert (V : forall r, row4 m r (vec (g4 (adj m) z)) = hrow m r (g4 (adj m) z 0%Z) (g4 (adj m) z 1%Z) (g4 (adj m) z 2%Z) 1) by (intros; apply row4_hrow).
    set (s := row4 (adj m) 3 (vec z)) in *. cbn [vec x3 y3 z3] in E0, E1, E2.
    intros k Hk. revert k Hk. intros k Hk. pattern k. apply case3; auto; rewrite ?g4_0, ?g4_1, ?g4_2, !V, E3, ?E0, ?E1, ?E2; field; lra.
  - intros l0 l x. rewrite w_row4. intros Hx. rewrite !lin_3. set (w := row4 m 3 (vec x)) in *.
    assert (A0 := adjm0 m (x 0%Z) (x 1%Z) (x 2%Z) 1). assert (A1 := adjm1 m (x 0%Z) (x 1%Z) (x 2%Z) 1).
    assert (A2 := adjm2 m (x 0%Z) (x 1%Z) (x 2%Z) 1). assert (A3 := adjm3 m (x 0%Z) (x 1%Z) (x 2%Z) 1).
    rewrite g4_0, g4_1, g4_2. fold w. unfold col4.
    change (hrow m 3 (x 0%Z) (x 1%Z) (x 2%Z) 1) with (hrow m 3 (x3 (vec x)) (y3 (vec x)) (z3 (vec x)) 1) in A0, A1, A2, A3.
    change (hrow m 2 (x 0%Z) (x 1%Z) (x 2%Z) 1) with (hrow m 2 (x3 (vec x)) (y3 (vec x)) (z3 (vec x)) 1) in A0, A1, A2, A3.
    change (hrow m 1 (x 0%Z) (x 1%Z) (x 2%Z) 1) with (hrow m 1 (x3 (vec x)) (y3 (vec x)) (z3 (vec x)) 1) in A0, A1, A2, A3.
    change (hrow m 0 (x 0%Z) (x 1%Z) (x 2%Z) 1) with (hrow m 0 (x3 (vec x)) (y3 (vec x)) (z3 (vec x)) 1) in A0, A1, A2, A3.
    rewrite <- !row4_hrow in A0, A1, A2, A3. fold w in A0, A1, A2, A3. unfold hrow in A0, A1, A2, A3.
    set (a := adj m) in *. set (D := det4 m) in *. set (u0 := row4 m 0 (vec x)) in *. set (u1 := row4 m 1 (vec x)) in *. set (u2 := row4 m 2 (vec x)) in *.
    transitivity ((l 0%Z * (D * x 0%Z) + l 1%Z * (D * x 1%Z) + l 2%Z * (D * x 2%Z) + l0 * (D * 1)) / D); [|field; lra].
    rewrite <- A0, <- A1, <- A2, <- A3. field. lra.
  - intros l0 l x. rewrite w_row4. intros Hx. rewrite !lin_3. rewrite g4_0, g4_1, g4_2. unfold col4.
    set (w := row4 m 3 (vec x)) in *.
    transitivity (l0 * w + (l 0%Z * row4 m 0 (vec x) + l 1%Z * row4 m 1 (vec x) + l 2%Z * row4 m 2 (vec x))); [|field; lra].
    unfold w, row4, vec. cbn [x3 y3 z3]. ring.
  - intros x y E k _. unfold g4. replace (vec y) with (vec x); auto. unfold vec. rewrite !(E 0%Z), !(E 1%Z), !(E 2%Z) by lia. auto.
  - intros x Hx e He. rewrite w_row4 in Hx.
    destruct (quot_cont (row4 m 0 (vec x)) _ e Hx He) as (d0 & Hd0 & H0). destruct (quot_cont (row4 m 1 (vec x)) _ e Hx He) as (d1 & Hd1 & H1).
    destruct (quot_cont (row4 m 2 (vec x)) _ e Hx He) as (d2 & Hd2 & H2).
    set (d := Rmin d0 (Rmin d1 d2)). assert (Pd : 0 < d) by (unfold d; repeat apply Rmin_pos; auto).
    assert (d <= d0 /\ d <= d1 /\ d <= d2) as (L0 & L1 & L2).
    { unfold d. pose proof (Rmin_l d0 (Rmin d1 d2)). pose proof (Rmin_r d0 (Rmin d1 d2)). pose proof (Rmin_l d1 d2). pose proof (Rmin_r d1 d2). lra. }
    destruct (aff_cont_all 3 (fun r => m r 3%Z) m [0; 1; 2; 3]%Z x d Pd) as (t & Ht & HT). exists t. split; auto. intros y Hy. specialize (HT y Hy).
    assert (Q : forall r z, linN 3 (m r 3%Z) (m r) z = row4 m r (vec z)) by (intros; rewrite lin_3; unfold row4, vec; cbn [x3 y3 z3]; ring).
    assert (T : forall r, In r [0; 1; 2; 3]%Z -> Rabs (row4 m r (vec y) - row4 m r (vec x)) < d) by (intros r Hr; rewrite <- !Q; now apply HT).
    assert (T0 := T 0%Z ltac:(cbn; tauto)). assert (T1 := T 1%Z ltac:(cbn; tauto)). assert (T2 := T 2%Z ltac:(cbn; tauto)). assert (T3 := T 3%Z ltac:(cbn; tauto)).
    rewrite w_row4. split; [apply (H0 (row4 m 0 (vec y)) (row4 m 3 (vec y))); lra|].
    intros k Hk. pattern k. apply case3; auto; rewrite ?g4_0, ?g4_1, ?g4_2; [apply H0|apply H1|apply H2]; lra.
Qed.

(** orientation *)
Lemma turn_image m (a b c : Z -> R) (a0 b0 c0 : R) x : 0 < det4 m -> linN 3 a0 a x = 0 -> linN 3 b0 b x = 0 -> linN 3 c0 c x = 0 ->
  let f l0 l k := col4 (adj m) l0 l k / det4 m in
  det4 m * det3 (f a0 a) (f b0 b) (f c0 c) = row4 m 3 (vec x) * det3 a b c.
Proof.
  intros Hd A B C f.
  assert (I : forall l0 l, let q := f l0 l in let q0 := col4 (adj m) l0 l 3 / det4 m in forall k, (0 <= k < 4)%Z ->
     q 0%Z * m 0%Z k + q 1%Z * m 1%Z k + q 2%Z * m 2%Z k + q0 * m 3%Z k = if (k =? 3)%Z then l0 else l k).
  { intros l0 l q q0 k Hk. unfold q, q0, f.
    transitivity ((col4 (adj m) l0 l 0 * m 0%Z k + col4 (adj m) l0 l 1 * m 1%Z k + col4 (adj m) l0 l 2 * m 2%Z k + col4 (adj m) l0 l 3 * m 3%Z k) / det4 m); [field; lra|].
    transitivity ((det4 m * (if (k =? 3)%Z then l0 else l k)) / det4 m); [|field; lra]. f_equal.
    unfold col4. assert (k = 0 \/ k = 1 \/ k = 2 \/ k = 3)%Z as [->|[->|[->| ->]]] by lia; cbn [Z.eqb Pos.eqb]; unfold adj, sk, mn, det4; cbn -[IZR]; ring. }
  pose proof (I a0 a) as Ia. pose proof (I b0 b) as Ib. pose proof (I c0 c) as Ic. cbv zeta in Ia, Ib, Ic.
  set (p := f a0 a) in *. set (q := f b0 b) in *. set (r := f c0 c) in *.
  set (p0 := col4 (adj m) a0 a 3 / det4 m) in *. set (q0 := col4 (adj m) b0 b 3 / det4 m) in *. set (r0 := col4 (adj m) c0 c 3 / det4 m) in *.
  assert (a0 = - (a 0%Z * x 0%Z + a 1%Z * x 1%Z + a 2%Z * x 2%Z)) as Ea by (rewrite lin_3 in A; lra).
  assert (b0 = - (b 0%Z * x 0%Z + b 1%Z * x 1%Z + b 2%Z * x 2%Z)) as Eb by (rewrite lin_3 in B; lra).
  assert (c0 = - (c 0%Z * x 0%Z + c 1%Z * x 1%Z + c 2%Z * x 2%Z)) as Ec by (rewrite lin_3 in C; lra).
  set (M := fun i k : Z => if (i =? 0)%Z then (if (k =? 3)%Z then a0 else a k) else if (i =? 1)%Z then (if (k =? 3)%Z then b0 else b k)
    else if (i =? 2)%Z then (if (k =? 3)%Z then c0 else c k) else m 3%Z k).
  transitivity (det4 M).
  - unfold det4 at 2, M. cbn [Z.eqb Pos.eqb].
    pose proof (Ia 0%Z ltac:(lia)) as a_0. pose proof (Ia 1%Z ltac:(lia)) as a_1. pose proof (Ia 2%Z ltac:(lia)) as a_2. pose proof (Ia 3%Z ltac:(lia)) as a_3.
    pose proof (Ib 0%Z ltac:(lia)) as b_0. pose proof (Ib 1%Z ltac:(lia)) as b_1. pose proof (Ib 2%Z ltac:(lia)) as b_2. pose proof (Ib 3%Z ltac:(lia)) as b_3.
    pose proof (Ic 0%Z ltac:(lia)) as c_0. pose proof (Ic 1%Z ltac:(lia)) as c_1. pose proof (Ic 2%Z ltac:(lia)) as c_2. pose proof (Ic 3%Z ltac:(lia)) as c_3.
    cbn [Z.eqb Pos.eqb] in a_0, a_1, a_2, a_3, b_0, b_1, b_2, b_3, c_0, c_1, c_2, c_3.
    rewrite <- a_0, <- a_1, <- a_2, <- a_3, <- b_0, <- b_1, <- b_2, <- b_3, <- c_0, <- c_1, <- c_2, <- c_3.
    clearbody p q r p0 q0 r0. clear. unfold det4, det3. ring.
  - unfold det4, M. cbn [Z.eqb Pos.eqb]. unfold det3, row4, vec. cbn [x3 y3 z3]. rewrite Ea, Eb, Ec. ring.
Qed.

Lemma vec_co3 q : vec (co3 q) = q.
Proof. destruct q. reflexivity. Qed.
Section Img.
Context (m : Z -> Z -> R) (p p' : pol3).
Hypothesis Hd : 0 < det4 m.
Hypothesis HW : forall v, (0 <= v < nv p)%Z -> 0 < row4 m 3 (ps (vb p) v).
Hypothesis W' : wf3 p'.
Hypothesis Hn : nv p' = nv p.
Hypothesis Hb : nb (vb p') = nb (vb p).
Hypothesis Hp : forall v, (0 <= v < nv p)%Z -> ps (vb p') v = proj4 m (ps (vb p) v).

Lemma at_w v : upto (nv p) v -> 0 < linN 3 (m 3%Z 3%Z) (m 3%Z) (at3 p v).
Proof. intros Hv. rewrite w_row4. unfold at3. change (vec (fun k => co3 (ps (vb p) v) k)) with (vec (co3 (ps (vb p) v))). rewrite vec_co3. now apply HW. Qed.
Lemma at_img v : upto (nv p) v -> same 3 (g4 m (at3 p v)) (at3 p' v).
Proof. intros Hv k _. unfold g4, at3. rewrite (Hp v Hv). change (vec (fun k => co3 (ps (vb p) v) k)) with (vec (co3 (ps (vb p) v))). now rewrite vec_co3. Qed.

Lemma turned_img nh h q l0 l : realized 3 (nv p) nh h q l0 l -> (forall v, upto (nv p) v -> 0 < linN 3 (m 3%Z 3%Z) (m 3%Z) (q v)) -> turned (nv p) h l ->
  turned (nv p) h (fun a k => col4 (adj m) (l0 a) (l a) k / det4 m).
Proof.
  intros RE PW T v Hv. specialize (T v Hv). specialize (PW v Hv). rewrite w_row4 in PW.
  pose proof (turn_image m (l (h v 0%Z)) (l (h v 1%Z)) (l (h v 2%Z)) (l0 (h v 0%Z)) (l0 (h v 1%Z)) (l0 (h v 2%Z)) (q v) Hd
    (re_on _ _ _ _ _ _ _ RE v 0%Z Hv ltac:(lia)) (re_on _ _ _ _ _ _ _ RE v 1%Z Hv ltac:(lia)) (re_on _ _ _ _ _ _ _ RE v 2%Z Hv ltac:(lia))) as E.
  cbv zeta in E. match goal with |- ?u < 0 => set (t := u) in * end. nra.
Qed.
Lemma near_img nh lab : (forall e, 0 < e -> exists q l0 l, realized 3 (nv p) nh (facet lab) q l0 l /\ turned (nv p) (facet lab) l
         /\ forall v k, (0 <= v < nv p)%Z -> (0 <= k < 3)%Z -> Rabs (q v k - at3 p v k) < e) ->
  forall e, 0 < e -> exists q l0 l, realized 3 (nv p') nh (facet lab) q l0 l /\ turned (nv p') (facet lab) l
         /\ forall v k, (0 <= v < nv p')%Z -> (0 <= k < 3)%Z -> Rabs (q v k - at3 p' v k) < e.
Proof.
  intros P e He. rewrite Hn.
  destruct (near_all _ _ _ _ _ _ _ _ _ _ _ (chart4 m Hd) (nv p) (at3 p) at_w e He) as (d & Hdd & H). destruct (P d Hdd) as (q & l0 & l & RE & T & NE).
  exists (fun v => g4 m (q v)), (fun a => col4 (adj m) (l0 a) (l a) 3 / det4 m), (fun a k => col4 (adj m) (l0 a) (l a) k / det4 m). split; [|split].
  - apply (realized_map _ _ _ _ _ _ _ _ _ _ _ (chart4 m Hd)); auto. intros v Hv. apply (H q NE v Hv).
  - apply (turned_img nh _ q l0 l); auto. intros v Hv. apply (H q NE v Hv).
  - intros v k Hv Hk. rewrite <- (at_img v Hv k Hk). apply (H q NE v Hv); auto.
Qed.
Lemma image_proj : convex3 p -> image3 (proj4 m) p p'.
Proof.
  intros (Wp & nh & lab & La & P). split; [|split; [|split]].
  - split; [exact W'|]. exists nh, lab. split; [rewrite Hb, Hn; exact La|]. now apply near_img.
  - intros k (_ & nh' & lab' & R' & La' & P'). split; [exact W'|]. exists nh', lab'. split; auto. split; [rewrite Hb, Hn; exact La'|]. now apply near_img.
  - intros (_ & nh' & lab' & l0 & l & La' & RE & T). split; [exact W'|].
    exists nh', lab', (fun a => col4 (adj m) (l0 a) (l a) 3 / det4 m), (fun a k => col4 (adj m) (l0 a) (l a) k / det4 m).
    rewrite Hb, Hn. split; [exact La'|]. split.
    + apply (realized_same _ _ _ _ (fun v => g4 m (at3 p v))); [intros v Hv; now apply at_img|].
      apply (realized_map _ _ _ _ _ _ _ _ _ _ _ (chart4 m Hd)); auto. apply at_w.
    + apply (turned_img nh' _ (at3 p) l0 l); auto. apply at_w.
  - intros y. rewrite hull3_hullN, Hn.
    assert (E : hullN 3 (nv p) (at3 p') (co3 y) <-> hullN 3 (nv p) (fun v => g4 m (at3 p v)) (co3 y)).
    { split; apply hull_same_pts; intros v Hv k Hk; [symmetry|]; now apply at_img. }
    rewrite E, (hull_image _ _ _ _ _ _ _ _ _ _ _ _ _ (co3 y) (chart4 m Hd) at_w). split.
    + intros (x & H & S). exists (vec x). split.
      * apply hull3_hullN. revert H. apply hull_same. intros k Hk. pattern k. apply case3; auto.
      * destruct y as [y0 y1 y2]. pose proof (S 0%Z ltac:(lia)) as S0. pose proof (S 1%Z ltac:(lia)) as S1. pose proof (S 2%Z ltac:(lia)) as S2.
        rewrite g4_0 in S0. rewrite g4_1 in S1. rewrite g4_2 in S2. cbn in S0, S1, S2. unfold proj4. congruence.
    + intros (x & H & ->). exists (co3 x). split; [now apply hull3_hullN|]. intros k _. unfold g4. now rewrite vec_co3.
Qed.
End Img.
