(** * VolC3: the zeroth moment of a convex polyhedron is the volume of its hull. *)
From Coq Require Import Reals ZArith List Bool Lia Lra.
From Verif Require Import Base Lib SumR ModelCommon CommonFacts Model3 ModelN RealNum SpecN SpecNC SpecNP SpecNR SpecNJ PolyN TruncN NearN FlagR BoxVolN FlagN SplitN MonoN ContN VoxJ
  HPoly HShift HInt Spec3 Orb3 Cut3 Struct3 FaceSpec3 Face3 Clip3 Spec3R Mom3 Geo3 Cons3 SpecC3 Conv3 HullC3 FlagC3.
Import ListNotations.
Open Scope R_scope.
Notation det3 := SpecC3.det3.

Lemma tet3_0 a b c : tet3 0 0 0 a b c = det3 (co3 a) (co3 b) (co3 c) / 6.
Proof.
  unfold tet3. rewrite tet_int_Hn. replace (INR (fact 0) * INR (fact 0) * INR (fact 0) * Hn 3 [pt3 a; pt3 b; pt3 c] 0%nat 0%nat 0%nat) with (/ 6).
  - unfold HPoly.det3, pt3, SpecC3.det3, co3. cbn. field.
  - unfold Hn. cbn. field.
Qed.

(** ** The pair of flags at the two ends of an edge *)
Lemma par3 (c l : vec) : dt l l <> 0 -> (forall k, (0 <= k < 3)%Z -> cr c l k = 0) -> exists g, forall k, (0 <= k < 3)%Z -> c k = g * l k.
Proof.
  intros N H. exists (dt c l / dt l l). intros k Hk. pose proof (H 0%Z ltac:(lia)) as A. pose proof (H 1%Z ltac:(lia)) as B. pose proof (H 2%Z ltac:(lia)) as C.
  unfold cr in A, B, C. cbn [Z.eqb Pos.eqb] in A, B, C. apply (Rmult_eq_reg_r (dt l l)); auto.
  replace (dt c l / dt l l * l k * dt l l) with (dt c l * l k) by (field; auto). unfold dt.
  assert (E : k = 0%Z \/ k = 1%Z \/ k = 2%Z) by lia. destruct E as [->|[->| ->]].
  - transitivity ((c 0%Z * l 0%Z + c 1%Z * l 1%Z + c 2%Z * l 2%Z) * l 0%Z + l 1%Z * (c 0%Z * l 1%Z - c 1%Z * l 0%Z) - l 2%Z * (c 2%Z * l 0%Z - c 0%Z * l 2%Z)); [ring|]. rewrite B, C. ring.
  - transitivity ((c 0%Z * l 0%Z + c 1%Z * l 1%Z + c 2%Z * l 2%Z) * l 1%Z + l 2%Z * (c 1%Z * l 2%Z - c 2%Z * l 1%Z) - l 0%Z * (c 0%Z * l 1%Z - c 1%Z * l 0%Z)); [ring|]. rewrite A, C. ring.
  - transitivity ((c 0%Z * l 0%Z + c 1%Z * l 1%Z + c 2%Z * l 2%Z) * l 2%Z + l 0%Z * (c 2%Z * l 0%Z - c 0%Z * l 2%Z) - l 1%Z * (c 1%Z * l 2%Z - c 2%Z * l 1%Z)); [ring|]. rewrite A, B. ring.
Qed.
Lemma F3_plane (x e1 e2 l : vec) s : dt l l <> 0 -> dt e1 e1 <> 0 -> dt (cr e1 e2) (cr e1 e2) <> 0 -> dt l e1 = 0 -> dt l e2 = 0 ->
  F3 x e1 e2 s = - s * (dt e1 x * dt l (cr x e1) * dt l x) / (dt e1 e1 * dt l l).
Proof.
  intros Nl N1 Nc H1 H2.
  destruct (par3 (cr e1 e2) l Nl) as (g & Hg).
  { intros k Hk. unfold dt in H1, H2. unfold cr at 1. assert (E : k = 0%Z \/ k = 1%Z \/ k = 2%Z) by lia. destruct E as [->|[->| ->]]; cbn [Z.eqb Pos.eqb]; unfold cr; cbn [Z.eqb Pos.eqb].
    - transitivity (e2 0%Z * (l 0%Z * e1 0%Z + l 1%Z * e1 1%Z + l 2%Z * e1 2%Z) - e1 0%Z * (l 0%Z * e2 0%Z + l 1%Z * e2 1%Z + l 2%Z * e2 2%Z)); [ring|]. rewrite H1, H2. ring.
    - transitivity (e2 1%Z * (l 0%Z * e1 0%Z + l 1%Z * e1 1%Z + l 2%Z * e1 2%Z) - e1 1%Z * (l 0%Z * e2 0%Z + l 1%Z * e2 1%Z + l 2%Z * e2 2%Z)); [ring|]. rewrite H1, H2. ring.
    - transitivity (e2 2%Z * (l 0%Z * e1 0%Z + l 1%Z * e1 1%Z + l 2%Z * e1 2%Z) - e1 2%Z * (l 0%Z * e2 0%Z + l 1%Z * e2 1%Z + l 2%Z * e2 2%Z)); [ring|]. rewrite H1, H2. ring. }
  assert (D1 : dt (cr e1 e2) x = g * dt l x) by (unfold dt; rewrite !Hg by lia; ring).
  assert (D2 : dt (cr e1 e2) (cr e1 e2) = g * g * dt l l) by (unfold dt; rewrite !Hg by lia; ring).
  assert (D3 : dt e2 x * dt e1 e1 - dt e1 e2 * dt e1 x = - g * dt l (cr x e1)).
  { transitivity (- dt (cr e1 e2) (cr x e1)); [unfold dt, cr; cbn [Z.eqb Pos.eqb]; ring|]. unfold dt at 1. rewrite !Hg by lia. unfold dt. ring. }
  unfold F3. rewrite D1, D3, D2. assert (g <> 0) by (intros ->; apply Nc; rewrite D2; ring). field. auto.
Qed.
Lemma flag_pair (x e1 e2 x' e1' e2' l : vec) (l0 : R) (a : vec) : dt l l <> 0 -> dt e1 e1 <> 0 -> dt (cr e1 e2) (cr e1 e2) <> 0 -> dt (cr e1' e2') (cr e1' e2') <> 0 ->
  dt l e1 = 0 -> dt l e2 = 0 -> dt l e2' = 0 -> l0 + dt l x = 0 ->
  (forall k, (0 <= k < 3)%Z -> x' k = x k - e1 k /\ e1' k = - e1 k /\ a k = - l0 / dt l l * l k) ->
  F3 x e1 e2 (-1) + F3 x' e1' e2' 1 = det3 a x' x.
Proof.
  intros Nl N1 Nc Nc' H1 H2 H2' H0 HK.
  destruct (HK 0%Z ltac:(lia)) as (X0 & E0 & A0). destruct (HK 1%Z ltac:(lia)) as (X1 & E1 & A1). destruct (HK 2%Z ltac:(lia)) as (X2 & E2 & A2).
  assert (D1 : dt e1' e1' = dt e1 e1) by (unfold dt; rewrite E0, E1, E2; ring).
  assert (D2 : dt l e1' = 0) by (unfold dt in *; rewrite E0, E1, E2; lra).
  rewrite (F3_plane x e1 e2 l), (F3_plane x' e1' e2' l) by (auto; rewrite D1; auto). rewrite D1.
  assert (D3 : dt e1' x' = dt e1 e1 - dt e1 x) by (unfold dt; rewrite E0, E1, E2, X0, X1, X2; ring).
  assert (D4 : dt l x' = dt l x) by (transitivity (dt l x - dt l e1); [unfold dt; rewrite X0, X1, X2; ring|rewrite H1; ring]).
  assert (D5 : dt l (cr x' e1') = - dt l (cr x e1)) by (unfold dt, cr; cbn [Z.eqb Pos.eqb]; rewrite E0, E1, E2, X0, X1, X2; ring).
  rewrite D3, D4, D5.
  assert (D6 : det3 a x' x = - l0 / dt l l * dt l (cr x e1)).
  { set (t := - l0 / dt l l) in *. unfold SpecC3.det3. rewrite A0, A1, A2, X0, X1, X2. unfold dt, cr; cbn [Z.eqb Pos.eqb]. ring. }
  rewrite D6. replace (- l0) with (dt l x) by lra. field. auto.
Qed.

(** ** The sum over flags is the sum over tetrahedra *)
Section S.
Context (p : pol3) (nh : Z) (lab : dart -> Z) (l0 : Z -> R) (l : Z -> Z -> R).
Hypothesis W : wf3 p.
Hypothesis LA : labels (nb (vb p)) (nv p) nh lab.
Hypothesis Q : realized 3 (nv p) nh (facet lab) (at3 p) l0 l.
Hypothesis TU : turned (nv p) (facet lab) l.
Notation n := (nv p). Notation f := (nb (vb p)). Notation pos := (ps (vb p)).
Notation h := (facet lab).
Notation E v i := (edgeN RN (at3 p) f v i).
Let L : links f (below n). Proof. destruct W as (_ & X & _). exact X. Qed.
Let C : SpecNC.cells 3 (upto n) nh nh f (bk3 f) h (fd3 lab). Proof. apply cells3; auto. Qed.

Lemma lin_dt (a b : vec) : linN 3 0 a b = dt a b. Proof. rewrite lin3. unfold dt. ring. Qed.
Lemma E_zero v i j : (0 <= v < n)%Z -> (0 <= i < 3)%Z -> (0 <= j < 3)%Z -> j <> i -> dt (l (h v j)) (E v i) = 0.
Proof. intros. rewrite <- lin_dt. apply (form_zero 3 n nh nh f (bk3 f) h (fd3 lab) C (at3 p) l0 l Q); auto. Qed.
Lemma E_neg v i : (0 <= v < n)%Z -> (0 <= i < 3)%Z -> dt (l (h v i)) (E v i) < 0.
Proof. intros. rewrite <- lin_dt. apply (form_neg 3 n nh nh f (bk3 f) h (fd3 lab) C (at3 p) l0 l Q); auto. Qed.
Lemma E_det v : (0 <= v < n)%Z -> 0 < det3 (E v 0) (E v 1) (E v 2).
Proof.
  intros Hv. pose proof (TU v Hv) as TT.
  assert (X : det3 (l (h v 0%Z)) (l (h v 1%Z)) (l (h v 2%Z)) * det3 (E v 0) (E v 1) (E v 2)
     = dt (l (h v 0%Z)) (E v 0%Z) * (dt (l (h v 1%Z)) (E v 1%Z) * dt (l (h v 2%Z)) (E v 2%Z))).
  { pose proof (E_zero v 1 0 Hv ltac:(lia) ltac:(lia) ltac:(lia)) as Z10. pose proof (E_zero v 2 0 Hv ltac:(lia) ltac:(lia) ltac:(lia)) as Z20.
    pose proof (E_zero v 0 1 Hv ltac:(lia) ltac:(lia) ltac:(lia)) as Z01. pose proof (E_zero v 2 1 Hv ltac:(lia) ltac:(lia) ltac:(lia)) as Z21.
    pose proof (E_zero v 0 2 Hv ltac:(lia) ltac:(lia) ltac:(lia)) as Z02. pose proof (E_zero v 1 2 Hv ltac:(lia) ltac:(lia) ltac:(lia)) as Z12.
    set (a := l (h v 0%Z)) in *. set (b := l (h v 1%Z)) in *. set (c := l (h v 2%Z)) in *. set (A := E v 0) in *. set (B := E v 1) in *. set (G := E v 2) in *. clearbody a b c A B G.
    transitivity (dt a A * (dt b B * dt c G - dt b G * dt c B) - dt a B * (dt b A * dt c G - dt b G * dt c A) + dt a G * (dt b A * dt c B - dt b B * dt c A)).
    - unfold SpecC3.det3, dt. change (T RN) with R in *. ring.
    - rewrite Z10, Z20, Z21, Z12. ring. }
  pose proof (E_neg v 0 Hv ltac:(lia)) as A0. pose proof (E_neg v 1 Hv ltac:(lia)) as A1. pose proof (E_neg v 2 Hv ltac:(lia)) as A2.
  assert (P : forall a b c d e : R, d < 0 -> a < 0 -> b < 0 -> c < 0 -> d * e = a * (b * c) -> 0 < e).
  { intros a b c d e Hd Ha Hb Hc Y. assert (0 < b * c) by nra. assert (a * (b * c) < 0) by nra. nra. }
  exact (P _ _ _ _ _ TT A0 A1 A2 X).
Qed.
Lemma l_nz g v i : (0 <= v < n)%Z -> (0 <= i < 3)%Z -> g = h v i -> dt (l g) (l g) <> 0.
Proof.
  intros Hv Hi -> Z0. pose proof (E_neg v i Hv Hi) as X. unfold dt in Z0.
  assert (l (h v i) 0%Z = 0 /\ l (h v i) 1%Z = 0 /\ l (h v i) 2%Z = 0) as (A & B & G) by (repeat split; nra).
  unfold dt in X. rewrite A, B, G in X. lra.
Qed.
(** independent edge vectors *)
Lemma cr_nz v i j : (0 <= v < n)%Z -> (0 <= i < 3)%Z -> (0 <= j < 3)%Z -> i <> j -> dt (E v i) (E v i) <> 0 /\ dt (cr (E v i) (E v j)) (cr (E v i) (E v j)) <> 0.
Proof.
  intros Hv Hi Hj Nij. pose proof (E_det v Hv) as X.
  assert (CZ : forall c : vec, dt c c = 0 -> c 0%Z = 0 /\ c 1%Z = 0 /\ c 2%Z = 0) by (intros c Z0; unfold dt in Z0; repeat split; nra).
  assert (K : i = 0%Z \/ i = 1%Z \/ i = 2%Z) by lia. assert (K' : j = 0%Z \/ j = 1%Z \/ j = 2%Z) by lia.
  set (A := E v 0) in *. set (B := E v 1) in *. set (G := E v 2) in *.
  assert (D1 : det3 A B G = dt (cr A B) G) by (unfold SpecC3.det3, dt, cr; cbn [Z.eqb Pos.eqb]; change (T RN) with R in *; ring).
  assert (D2 : det3 A B G = dt (cr B G) A) by (unfold SpecC3.det3, dt, cr; cbn [Z.eqb Pos.eqb]; change (T RN) with R in *; ring).
  assert (D3 : det3 A B G = dt (cr G A) B) by (unfold SpecC3.det3, dt, cr; cbn [Z.eqb Pos.eqb]; change (T RN) with R in *; ring).
  split.
  - intros Z0. apply CZ in Z0 as (Z1 & Z2 & Z3). revert X. destruct K as [->|[->| ->]]; fold A in Z1, Z2, Z3; fold B in Z1, Z2, Z3; fold G in Z1, Z2, Z3; unfold SpecC3.det3; rewrite Z1, Z2, Z3; lra.
  - intros Z0. apply CZ in Z0 as (Z1 & Z2 & Z3). revert X.
    assert (SW : forall a b : vec, dt (cr a b) = dt (fun k => - cr b a k)) by (intros a b; apply FunctionalExtensionality.functional_extensionality; intros y; unfold dt, cr; cbn [Z.eqb Pos.eqb]; ring).
    assert (ND : forall c y : vec, c 0%Z = 0 -> c 1%Z = 0 -> c 2%Z = 0 -> dt c y = 0) by (intros c y Y1 Y2 Y3; unfold dt; rewrite Y1, Y2, Y3; ring).
    assert (NS : forall a b y : vec, cr a b 0%Z = 0 -> cr a b 1%Z = 0 -> cr a b 2%Z = 0 -> dt (cr b a) y = 0).
    { intros a b y Y1 Y2 Y3. rewrite SW. apply ND; cbv beta; rewrite ?Y1, ?Y2, ?Y3; ring. }
    destruct K as [->|[->| ->]], K' as [->|[->| ->]]; try lia; fold A in Z1, Z2, Z3; fold B in Z1, Z2, Z3; fold G in Z1, Z2, Z3.
    + rewrite D1, ND by auto. lra.
    + rewrite D3, (NS A G) by auto. lra.
    + rewrite D1, (NS B A) by auto. lra.
    + rewrite D2, ND by auto. lra.
    + rewrite D3, ND by auto. lra.
    + rewrite D2, (NS G B) by auto. lra.
Qed.

Definition foot (d : dart) : rvec3 R :=
  let g := lab d in let c := - l0 g / dt (l g) (l g) in V3 (c * l g 0%Z) (c * l g 1%Z) (c * l g 2%Z).
Lemma foot_co d k : (0 <= k < 3)%Z -> co3 (foot d) k = - l0 (lab d) / dt (l (lab d)) (l (lab d)) * l (lab d) k.
Proof. intros Hk. unfold foot, co3. assert (E0 : k = 0%Z \/ k = 1%Z \/ k = 2%Z) by lia. destruct E0 as [->|[->| ->]]; reflexivity. Qed.
Definition Aterm (d : dart) : R := F3 (at3 p (fst d)) (E (fst d) (snd d)) (E (fst d) ((snd d + 1) mod 3)%Z) 1.
Definition Bterm (d : dart) : R := F3 (at3 p (fst d)) (E (fst d) (snd d)) (E (fst d) ((snd d + 2) mod 3)%Z) (-1).
Lemma on_face v i : (0 <= v < n)%Z -> (0 <= i < 3)%Z -> l0 (h v i) + dt (l (h v i)) (at3 p v) = 0.
Proof. intros Hv Hi. pose proof (re_on _ _ _ _ _ _ _ Q v i Hv Hi) as X. rewrite lin3 in X. unfold dt. lra. Qed.

Lemma pair_tet d : isd (below n) d -> Bterm d + Aterm (dopp f d) = det3 (co3 (foot d)) (co3 (pos (dtgt f d))) (co3 (pos (fst d))).
Proof.
  destruct d as (v & i). intros Hd. pose proof Hd as (Hv & Hi). cbn [fst snd] in Hv, Hi. unfold below in Hv.
  change (dopp f (v, i)) with (f v i, bk3 f v i). set (w := f v i). set (b := bk3 f v i).
  destruct (ce_f _ _ _ _ _ _ _ _ C v i Hv Hi) as (Hw & _). destruct (ce_bk _ _ _ _ _ _ _ _ C v i Hv Hi) as (Hb & Fb & _). fold w b in Hw, Hb, Fb. unfold upto in Hw.
  destruct (edge_labels f n nh lab L LA v i Hv Hi) as (L1 & _). fold w b in L1.
  assert (LG : lab (v, i) = h v ((i + 1) mod 3)) by (apply (lab_dart n lab); auto).
  assert (M : forall j k, (0 <= (j + k) mod 3 < 3)%Z) by (intros; apply Z.mod_pos_bound; lia).
  assert (N1 : forall j, (0 <= j < 3)%Z -> ((j + 1) mod 3 <> j /\ (j + 2) mod 3 <> j /\ (j + 1) mod 3 <> (j + 2) mod 3)%Z).
  { intros j Hj. assert (E0 : j = 0%Z \/ j = 1%Z \/ j = 2%Z) by lia. destruct E0 as [->|[->| ->]]; cbn; lia. }
  destruct (N1 i Hi) as (Ni1 & Ni2 & Ni3). destruct (N1 b Hb) as (Nb1 & Nb2 & Nb3).
  unfold Bterm, Aterm. cbn [fst snd].
  apply (flag_pair _ _ _ _ _ _ (l (lab (v, i))) (l0 (lab (v, i)))).
  - rewrite LG. eapply (l_nz _ v ((i + 1) mod 3)); auto.
  - apply (cr_nz v i ((i + 2) mod 3)); auto.
  - apply cr_nz; auto.
  - apply cr_nz; auto.
  - rewrite LG. apply E_zero; auto.
  - rewrite LG. apply E_zero; auto.
  - rewrite LG, L1. apply E_zero; auto.
  - rewrite LG. apply on_face; auto.
  - intros k Hk. split; [|split].
    + unfold edgeN. fold w. cbn. unfold at3. ring.
    + unfold edgeN. fold w. rewrite Fb. cbn. unfold at3. ring.
    + apply foot_co. auto.
Qed.

Lemma flags_tets : lsum (zrange n) (fun v => vertexN RN 3 (at3 p v) (edgeN RN (at3 p) f v)) = lsum (darts 3 n) (fun d => tet3 0 0 0 (foot d) (pos (dtgt f d)) (pos (fst d))).
Proof.
  destruct W as (Hn & _ & _).
  rewrite (lsum_ext _ _ (fun v => lsum (zrange 3) (fun i => (Aterm (v, i) + Bterm (v, i)) / 6))).
  - rewrite (lsum_ext (darts 3 n) (fun d => tet3 0 0 0 (foot d) (pos (dtgt f d)) (pos (fst d))) (fun d => (Bterm d + Aterm (dopp f d)) / 6)).
    + rewrite (lsum_ext (darts 3 n) _ (fun d => Bterm d / 6 + Aterm (dopp f d) / 6)) by (intros; lra). rewrite lsum_add.
      rewrite (sum_opp f (below n) (darts 3 n) L (NoDup_darts 3 n Hn) (fun d => iff_sym (isd_in n d)) (fun d => Aterm d / 6)).
      rewrite <- lsum_add. unfold darts. rewrite lsum_flat_map. apply lsum_ext. intros v _. rewrite lsum_map. apply lsum_ext. intros i _. cbn. lra.
    + intros d Hd. apply (isd_in n) in Hd. rewrite tet3_0, pair_tet; auto.
  - intros v Hv. apply in_zrange in Hv. rewrite vertex3 by (apply E_det; auto). change (zrange 3) with [0; 1; 2]%Z. cbn [lsum]. unfold V3f, Aterm, Bterm. cbn [fst snd]. lra.
Qed.
Lemma foot_on v i : (0 <= v < n)%Z -> (0 <= i < 3)%Z -> let g := lab (v, i) in sdist3 (PL3 (V3 (l g 0%Z) (l g 1%Z) (l g 2%Z)) (l0 g)) (foot (v, i)) = 0.
Proof.
  intros Hv Hi g. unfold sdist3, foot. cbn -[dt]. fold g. assert (N : dt (l g) (l g) <> 0).
  { apply (l_nz g v ((i + 1) mod 3)); auto. - apply Z.mod_pos_bound; lia. - apply (lab_dart n lab); auto. }
  unfold dt in *. field. auto.
Qed.
Theorem flags_moment : lsum (zrange n) (fun v => vertexN RN 3 (at3 p v) (edgeN RN (at3 p) f v)) = moment3 p 0 0 0.
Proof.
  rewrite flags_tets. destruct W as (Hn & _ & _). unfold moment3.
  apply (apex_change f (below n) n (darts 3 n) L (below_b n) (NoDup_darts 3 n Hn) (fun d => iff_sym (isd_in n d)) 0 0 0 pos
    (fun d => pos (fst (lead f n d))) foot).
  - intros d Hd. do 2 f_equal. symmetry. apply (lead_sf f n Hn L); auto. apply sf_step.
  - intros d Hd. unfold foot. now rewrite (la_face _ _ _ _ LA d Hd).
  - intros d Hd. set (g := lab d). set (pl := PL3 (V3 (l g 0%Z) (l g 1%Z) (l g 2%Z)) (l0 g)).
    assert (ON : forall e, same_face f d e -> sdist3 pl (pos (fst e)) = 0).
    { intros e SF. assert (He : isd (below n) e) by (destruct SF as (k & ->); apply (isd_iter f _ L); auto). pose proof (lab_sf f n nh lab L LA d e Hd SF) as X. destruct e as (v & i). destruct He as (Hv & Hi). cbn [fst snd] in *. unfold below in Hv.
      unfold pl. rewrite <- lin_sdist3. unfold g. rewrite <- X. rewrite (lab_dart n lab) by auto. apply (re_on _ _ _ _ _ _ _ Q); auto. apply Z.mod_pos_bound; lia. }
    apply (plane_vol6 pl).
    + assert (N : dt (l g) (l g) <> 0).
      { destruct d as (v & i). destruct Hd as (Hv & Hi). apply (l_nz g v ((i + 1) mod 3)); auto. - apply Z.mod_pos_bound; lia. - apply (lab_dart n lab); auto. }
      unfold proper, pl. cbn. destruct (Req_dec (l g 0%Z) 0) as [A|A]; [|auto]. destruct (Req_dec (l g 1%Z) 0) as [B|B]; [|auto]. right. right. intros G. apply N. unfold dt. rewrite A, B, G. ring.
    + apply ON, (lead_ok f n Hn L d Hd).
    + destruct d as (v & i). destruct Hd as (Hv & Hi). apply foot_on; auto.
    + rewrite <- (fst_fnext f d). apply ON, sf_step.
    + apply ON, sf_refl.
Qed.
End S.
