(** * SqzC3: the volume of the hull of any convex polyhedron is its moment of order zero. *)
From Coq Require Import Reals ZArith List Bool Lia Lra Psatz Classical.
From Verif Require Import Base Lib SumR ModelCommon CommonFacts Model3 ModelN RealNum SpecN SpecNP SpecNJ NearN UniqJ VoxJ Faces3
  HPoly Spec3 Spec3R Mom3 Geo3 Cons3 GlueV3 SpecC3 Conv3 HullC3 FlagC3 VolC3 LimC3.
Import ListNotations.
Open Scope R_scope.
Notation det3 := SpecC3.det3.

(** ** Pieces of a plane have no volume *)
Lemma grid_cell M w m x : (0 < m)%Z -> 0 < w -> IZR m * w = 2 * M -> - M <= x <= M ->
  exists a, In a (zrange m) /\ - M + IZR a * w <= x <= - M + IZR a * w + w.
Proof.
  intros Hm Hw E Hx. pose proof (Rfloor_spec ((x + M) / w)) as (F1 & F2). set (a := Rfloor ((x + M) / w)) in *.
  assert (Y : x + M = (x + M) / w * w) by (field; lra).
  assert (G1 : IZR a * w <= x + M) by (rewrite Y; apply Rmult_le_compat_r; lra).
  assert (G2 : x + M <= (IZR a + 1) * w) by (rewrite Y at 1; apply Rmult_le_compat_r; lra).
  assert (A0 : (0 <= a)%Z). { apply Z.lt_succ_r, lt_IZR. rewrite succ_IZR. apply Rmult_lt_reg_r with w; auto. destruct (Rle_lt_dec (IZR a + 1) 0) as [B|B]; [|nra].
    assert (0 <= (x + M) / w) by (apply Rle_mult_inv_pos; lra). lra. }
  destruct (Z_lt_le_dec a m) as [L|L].
  - exists a. split; [apply in_zrange; lia|]. lra.
  - exists (m - 1)%Z. split; [apply in_zrange; lia|]. rewrite minus_IZR. apply IZR_le in L. assert (IZR m * w <= IZR a * w) by (apply Rmult_le_compat_r; lra). nra.
Qed.
Lemma flat_axis (K : vec -> Prop) (nn : vec) d M k i1 i2 : (k = 0 /\ i1 = 1 /\ i2 = 2 \/ k = 1 /\ i1 = 2 /\ i2 = 0 \/ k = 2 /\ i1 = 0 /\ i2 = 1)%Z -> nn k <> 0 -> 0 < M ->
  (forall x, K x -> d + dt nn x = 0 /\ forall i, (0 <= i < 3)%Z -> - M <= x i <= M) -> content 3 K 0.
Proof.
  intros P N HM H e He. split. { exists []. split; [|cbn; lra]. split; [intros ? []|constructor]. }
  set (C := (Rabs (nn i1) + Rabs (nn i2)) / Rabs (nn k) + 1).
  assert (NK : 0 < Rabs (nn k)) by (now apply Rabs_pos_lt).
  assert (C1 : 1 <= C). { unfold C. assert (0 <= (Rabs (nn i1) + Rabs (nn i2)) / Rabs (nn k)) by (apply Rle_mult_inv_pos; auto; pose proof (Rabs_pos (nn i1)); pose proof (Rabs_pos (nn i2)); lra). lra. }
  set (V := 2 * C * (2 * M) * (2 * M) * (2 * M)). assert (HV : 0 < V) by (unfold V; repeat apply Rmult_lt_0_compat; lra).
  set (m := Z.max 1 (up (V / e))). assert (Hm : (1 <= m)%Z) by lia. assert (Hm' : V / e <= IZR m). { apply Rle_trans with (IZR (up (V / e))); [left; apply archimed|]. apply IZR_le. lia. }
  assert (Rm : 1 <= IZR m) by (apply (IZR_le 1); lia).
  set (w := 2 * M / IZR m). assert (Hw : 0 < w) by (apply Rdiv_lt_0_compat; lra). assert (Em : IZR m * w = 2 * M) by (unfold w; field; lra).
  set (lo := fun a : Z => - M + IZR a * w).
  set (ph := fun a b => - (d + nn i1 * lo a + nn i2 * lo b) / nn k).
  set (bx := fun a b : Z => (fun i : Z => if (i =? i1)%Z then lo a else if (i =? i2)%Z then lo b else ph a b - C * w,
                             fun i : Z => if (i =? i1)%Z then lo a + w else if (i =? i2)%Z then lo b + w else ph a b + C * w) : boxR).
  assert (CW : 0 < C * w) by (apply Rmult_lt_0_compat; lra).
  exists (flat_map (fun a => map (bx a) (zrange m)) (zrange m)). split.
  - split.
    + intros b Hb. apply in_flat_map in Hb as (a & _ & Hb). apply in_map_iff in Hb as (b' & <- & _). intros i Hi. unfold bx. cbn [fst snd]. destruct (i =? i1)%Z; [lra|]. destruct (i =? i2)%Z; lra.
    + intros x Hx. destruct (H x Hx) as (Ex & Bx).
      destruct (grid_cell M w m (x i1) ltac:(lia) Hw Em (Bx i1 ltac:(lia))) as (a & Ia & Ha). destruct (grid_cell M w m (x i2) ltac:(lia) Hw Em (Bx i2 ltac:(lia))) as (b & Ib & Hb).
      exists (bx a b). split. { apply in_flat_map. exists a. split; auto. now apply in_map. }
      assert (D3 : dt nn x = nn k * x k + nn i1 * x i1 + nn i2 * x i2) by (unfold dt; destruct P as [(-> & -> & ->)|[(-> & -> & ->)|(-> & -> & ->)]]; ring).
      assert (XK : Rabs (x k - ph a b) <= C * w).
      { replace (x k - ph a b) with (- ((nn i1 * (x i1 - lo a) + nn i2 * (x i2 - lo b)) / nn k)).
        2: { unfold ph. apply Rmult_eq_reg_l with (nn k); auto. field_simplify; auto. rewrite D3 in Ex. lra. }
        rewrite Rabs_Ropp. unfold Rdiv. rewrite Rabs_mult, Rabs_inv.
        apply Rle_trans with ((Rabs (nn i1) * w + Rabs (nn i2) * w) * / Rabs (nn k)).
        - apply Rmult_le_compat_r; [left; now apply Rinv_0_lt_compat|]. eapply Rle_trans; [apply Rabs_triang|]. rewrite !Rabs_mult. unfold lo.
          apply Rplus_le_compat; apply Rmult_le_compat_l; try apply Rabs_pos; apply Rabs_le; lra.
        - unfold C. unfold Rdiv. assert (0 <= w) by lra. nra. }
      apply Rabs_le_inv in XK. intros i Hi. unfold bx. cbn [fst snd]. fold (lo a) in Ha. fold (lo b) in Hb.
      assert (I : i = i1 \/ i = i2 \/ i = k) by lia. destruct I as [->|[->| ->]].
      * rewrite Z.eqb_refl. lra.
      * destruct (Z.eqb_spec i2 i1); [lia|]. rewrite Z.eqb_refl. lra.
      * destruct (Z.eqb_spec k i1); [lia|]. destruct (Z.eqb_spec k i2); [lia|]. lra.
  - rewrite lsum_flat_map. rewrite (lsum_ext _ _ (fun _ => IZR m * (w * w * (2 * (C * w))))).
    2: { intros a _. rewrite lsum_map. rewrite (lsum_ext _ _ (fun _ => w * w * (2 * (C * w)))).
         - rewrite lsum_const. f_equal. rewrite INR_IZR_INZ, length_zrange by lia. reflexivity.
         - intros b _. unfold box_vol, bx. change (zrange 3) with [0; 1; 2]%Z. cbn [fold_right fst snd]. destruct P as [(-> & -> & ->)|[(-> & -> & ->)|(-> & -> & ->)]]; cbn [Z.eqb Pos.eqb]; ring. }
    rewrite lsum_const, INR_IZR_INZ, length_zrange by lia.
    replace (IZR m * (IZR m * (w * w * (2 * (C * w))))) with ((IZR m * w) * (IZR m * w) * (2 * C) * w) by ring. rewrite Em.
    replace (2 * M * (2 * M) * (2 * C) * w) with (V / IZR m) by (unfold V, w; field; lra).
    rewrite Rplus_0_l. apply Rmult_le_reg_r with (IZR m); [lra|]. replace (V / IZR m * IZR m) with V by (field; lra).
    apply Rmult_le_compat_l with (r := e) in Hm'; [|lra]. replace (e * (V / e)) with V in Hm' by (field; lra). auto.
Qed.
Theorem flat_content (K : vec -> Prop) (nn : vec) d M : dt nn nn <> 0 -> 0 < M ->
  (forall x, K x -> d + dt nn x = 0 /\ forall i, (0 <= i < 3)%Z -> - M <= x i <= M) -> content 3 K 0.
Proof.
  intros N HM H. destruct (Req_dec (nn 0%Z) 0) as [A|A]; [|apply (flat_axis K nn d M 0 1 2); auto; lia]. destruct (Req_dec (nn 1%Z) 0) as [B|B]; [|apply (flat_axis K nn d M 1 2 0); auto; lia].
  destruct (Req_dec (nn 2%Z) 0) as [G|G]; [|apply (flat_axis K nn d M 2 0 1); auto; lia]. exfalso. apply N. unfold dt. rewrite A, B, G. ring.
Qed.

(** the hull is bounded *)
Lemma finite_bound n (g : Z -> Z -> R) : (0 <= n)%Z -> exists M, 0 < M /\ forall v k, (0 <= v < n)%Z -> (0 <= k < 3)%Z -> - M <= g v k <= M.
Proof.
  revert n. apply zrange_ind. { exists 1. split; [lra|]. intros; lia. }
  intros n Hn (M & HM & H). exists (M + Rabs (g n 0%Z) + Rabs (g n 1%Z) + Rabs (g n 2%Z)).
  pose proof (Rabs_pos (g n 0%Z)). pose proof (Rabs_pos (g n 1%Z)). pose proof (Rabs_pos (g n 2%Z)). split; [lra|]. intros v k Hv Hk. destruct (Z.eq_dec v n) as [->|].
  - assert (K : k = 0%Z \/ k = 1%Z \/ k = 2%Z) by lia. destruct K as [->|[->| ->]]; match goal with |- _ <= ?x <= _ => pose proof (Rle_abs x); pose proof (Rle_abs (- x)) as X; rewrite Rabs_Ropp in X end; lra.
  - specialize (H v k ltac:(lia) Hk). lra.
Qed.
Lemma hull_bound (p : pol3) : (0 <= nv p)%Z -> exists M, 0 < M /\ forall x, hull3 p x -> forall i, (0 <= i < 3)%Z -> - M <= co3 x i <= M.
Proof.
  intros Hn. destruct (finite_bound (nv p) (at3 p) Hn) as (M & HM & B). exists M. split; auto. intros x Hx i Hi.
  assert (I : i = 0%Z \/ i = 1%Z \/ i = 2%Z) by lia.
  destruct I as [->|[->| ->]]; [pose proof (Hx (PL3 (V3 1 0 0) M)) as A; pose proof (Hx (PL3 (V3 (-1) 0 0) M)) as A'|pose proof (Hx (PL3 (V3 0 1 0) M)) as A; pose proof (Hx (PL3 (V3 0 (-1) 0) M)) as A'|pose proof (Hx (PL3 (V3 0 0 1) M)) as A; pose proof (Hx (PL3 (V3 0 0 (-1)) M)) as A'];
    unfold sdist3 in A, A'; cbn in A, A'; unfold co3; cbn [Z.eqb Pos.eqb];
    (split; [match type of A with ?P -> _ => assert P as Y end; [|specialize (A Y); lra]|match type of A' with ?P -> _ => assert P as Y end; [|specialize (A' Y); lra]]);
    intros v Hv; [pose proof (B v 0%Z Hv ltac:(lia)) as Z|pose proof (B v 0%Z Hv ltac:(lia)) as Z|pose proof (B v 1%Z Hv ltac:(lia)) as Z|pose proof (B v 1%Z Hv ltac:(lia)) as Z|pose proof (B v 2%Z Hv ltac:(lia)) as Z|pose proof (B v 2%Z Hv ltac:(lia)) as Z]; unfold at3, co3 in Z; cbn in Z; lra.
Qed.
(** a part of the hull in a plane has no volume *)
Theorem plane_content (p : pol3) g (K : rvec3 R -> Prop) : (0 <= nv p)%Z -> proper g -> (forall x, K x -> hull3 p x /\ sdist3 g x = 0) -> content3 K 0.
Proof.
  intros Hn Pg H. destruct (hull_bound p Hn) as (M & HM & B). destruct g as [[g0 g1 g2] d]. unfold content3.
  apply (flat_content _ (fun k => if (k =? 0)%Z then g0 else if (k =? 1)%Z then g1 else g2) d M); auto.
  - unfold proper in Pg. cbn in Pg. unfold dt. cbn [Z.eqb Pos.eqb]. nra.
  - intros x Hx. destruct (H _ Hx) as (Hh & Z0). split.
    + unfold sdist3 in Z0. cbn in Z0. unfold dt. cbn [Z.eqb Pos.eqb]. lra.
    + intros i Hi. pose proof (B _ Hh i Hi) as Y. assert (I : i = 0%Z \/ i = 1%Z \/ i = 2%Z) by lia. destruct I as [->|[->| ->]]; exact Y.
Qed.

(** ** A deep point *)
Definition nrm (g : plane3 R) : R := Rabs (x3 (n3 g)) + Rabs (y3 (n3 g)) + Rabs (z3 (n3 g)).
Definition deep (p : pol3) (c : rvec3 R) (r : R) : Prop := forall g, (forall v, (0 <= v < nv p)%Z -> 0 <= sdist3 g (ps (vb p) v)) -> r * nrm g <= sdist3 g c.
Lemma nrm_pos g : 0 <= nrm g.
Proof. unfold nrm. pose proof (Rabs_pos (x3 (n3 g))). pose proof (Rabs_pos (y3 (n3 g))). pose proof (Rabs_pos (z3 (n3 g))). lra. Qed.
Lemma cramer_bound (D n0 a b c u v w S B : R) : D * n0 = a * u + b * v + c * w -> Rabs a <= S -> Rabs b <= S -> Rabs c <= S -> 0 <= S -> Rabs u + Rabs v + Rabs w <= B -> Rabs D * Rabs n0 <= S * B.
Proof.
  intros E A1 A2 A3 HS HB. rewrite <- Rabs_mult, E. eapply Rle_trans; [apply Rabs_triang|]. eapply Rle_trans; [apply Rplus_le_compat_r, Rabs_triang|]. rewrite !Rabs_mult.
  apply Rle_trans with (S * Rabs u + S * Rabs v + S * Rabs w).
  - pose proof (Rabs_pos u). pose proof (Rabs_pos v). pose proof (Rabs_pos w). apply Rplus_le_compat; [apply Rplus_le_compat|]; apply Rmult_le_compat_r; auto.
  - rewrite <- !Rmult_plus_distr_l. apply Rmult_le_compat_l; auto.
Qed.
Lemma deep_point (p : pol3) a b c d : (0 <= a < nv p)%Z -> (0 <= b < nv p)%Z -> (0 <= c < nv p)%Z -> (0 <= d < nv p)%Z ->
  vol6 (ps (vb p) a) (ps (vb p) b) (ps (vb p) c) (ps (vb p) d) <> 0 -> exists z r, 0 < r /\ deep p z r.
Proof.
  intros Ha Hb Hc Hd N. rewrite vol6_det in N.
  set (A := ps (vb p) a) in *. set (B := ps (vb p) b) in *. set (E := ps (vb p) c) in *. set (F := ps (vb p) d) in *.
  set (u := dif A B) in *. set (v := dif A E) in *. set (w := dif A F) in *.
  set (bd := fun k => Rabs (cr v w k) + Rabs (cr w u k) + Rabs (cr u v k)). assert (BP : forall k, 0 <= bd k) by (intros; unfold bd; pose proof (Rabs_pos (cr v w k)); pose proof (Rabs_pos (cr w u k)); pose proof (Rabs_pos (cr u v k)); lra).
  set (T := bd 0%Z + bd 1%Z + bd 2%Z + 1). assert (T1 : 1 <= T) by (unfold T; pose proof (BP 0%Z); pose proof (BP 1%Z); pose proof (BP 2%Z); lra).
  set (D := det3 u v w) in *. assert (DP : 0 < Rabs D) by (now apply Rabs_pos_lt).
  set (z := V3 ((x3 A + x3 B + x3 E + x3 F) / 4) ((y3 A + y3 B + y3 E + y3 F) / 4) ((z3 A + z3 B + z3 E + z3 F) / 4) : rvec3 R).
  exists z, (Rabs D / (4 * T)). split; [apply Rdiv_lt_0_compat; lra|]. intros g Hg.
  pose proof (Hg a Ha) as GA. pose proof (Hg b Hb) as GB. pose proof (Hg c Hc) as GE. pose proof (Hg d Hd) as GF. fold A in GA. fold B in GB. fold E in GE. fold F in GF.
  set (S := sdist3 g A + sdist3 g B + sdist3 g E + sdist3 g F).
  assert (ZS : sdist3 g z = S / 4) by (unfold S, sdist3, z; cbn; field).
  set (nv3 := fun k : Z => if (k =? 0)%Z then x3 (n3 g) else if (k =? 1)%Z then y3 (n3 g) else z3 (n3 g)).
  assert (SU : dt nv3 u = sdist3 g B - sdist3 g A) by (unfold dt, nv3, u, dif, co3, sdist3; cbn; ring).
  assert (SV : dt nv3 v = sdist3 g E - sdist3 g A) by (unfold dt, nv3, v, dif, co3, sdist3; cbn; ring).
  assert (SW : dt nv3 w = sdist3 g F - sdist3 g A) by (unfold dt, nv3, w, dif, co3, sdist3; cbn; ring).
  assert (BU : Rabs (dt nv3 u) <= S) by (rewrite SU; apply Rabs_le; unfold S; lra).
  assert (BV : Rabs (dt nv3 v) <= S) by (rewrite SV; apply Rabs_le; unfold S; lra).
  assert (BW : Rabs (dt nv3 w) <= S) by (rewrite SW; apply Rabs_le; unfold S; lra).
  assert (SP : 0 <= S) by (unfold S; lra).
  assert (CB : forall k, (0 <= k < 3)%Z -> Rabs D * Rabs (nv3 k) <= S * bd k).
  { intros k Hk. apply (cramer_bound D (nv3 k) (dt nv3 u) (dt nv3 v) (dt nv3 w) (cr v w k) (cr w u k) (cr u v k)); auto; [|unfold bd; lra].
    clearbody u v w nv3. unfold D, SpecC3.det3, dt, cr. assert (K : k = 0%Z \/ k = 1%Z \/ k = 2%Z) by lia. destruct K as [->|[->| ->]]; cbn [Z.eqb Pos.eqb]; ring. }
  pose proof (CB 0%Z ltac:(lia)) as C0. pose proof (CB 1%Z ltac:(lia)) as C1. pose proof (CB 2%Z ltac:(lia)) as C2. unfold nv3 in C0, C1, C2. cbn [Z.eqb Pos.eqb] in C0, C1, C2.
  assert (X : Rabs D * nrm g <= S * T). { unfold nrm, T. lra. }
  rewrite ZS. apply Rmult_le_reg_r with (4 * T); [lra|]. replace (Rabs D / (4 * T) * nrm g * (4 * T)) with (Rabs D * nrm g) by (field; lra). lra.
Qed.

(** ** Squeezing the hull between scaled copies of the hull of an approximation *)
Lemma nrm_close g (a b : rvec3 R) t : (forall k, (0 <= k < 3)%Z -> Rabs (co3 a k - co3 b k) <= t) -> sdist3 g b - t * nrm g <= sdist3 g a.
Proof.
  intros H. pose proof (H 0%Z ltac:(lia)) as H0. pose proof (H 1%Z ltac:(lia)) as H1. pose proof (H 2%Z ltac:(lia)) as H2. unfold co3 in H0, H1, H2. cbn [Z.eqb Pos.eqb] in H0, H1, H2.
  assert (X : forall n s, Rabs s <= t -> - (t * Rabs n) <= n * s).
  { intros n s Hs. assert (Rabs (n * s) <= t * Rabs n) by (rewrite Rabs_mult, Rmult_comm; apply Rmult_le_compat_r; auto; apply Rabs_pos). apply Rabs_le_inv in H3. lra. }
  pose proof (X (x3 (n3 g)) _ H0). pose proof (X (y3 (n3 g)) _ H1). pose proof (X (z3 (n3 g)) _ H2). unfold sdist3, nrm. cbn. lra.
Qed.
Definition homo (c : rvec3 R) (s : R) (x : rvec3 R) : rvec3 R := V3 (x3 c + s * (x3 x - x3 c)) (y3 c + s * (y3 x - y3 c)) (z3 c + s * (z3 x - z3 c)).
Lemma sdist3_homo g c s x : sdist3 g (homo c s x) = (1 - s) * sdist3 g c + s * sdist3 g x.
Proof. unfold sdist3, homo. cbn. ring. Qed.
Lemma squeeze (p q : pol3) c r h t : nv q = nv p -> 0 < r -> deep p c r -> 0 < h <= 1 -> 0 < t -> 2 * t <= h * r ->
  (forall v k, (0 <= v < nv p)%Z -> (0 <= k < 3)%Z -> Rabs (at3 q v k - at3 p v k) <= t) ->
  (forall x, hull3 q x -> hull3 p (homo c (/ (1 + h)) x)) /\ (forall x, hull3 p x -> hull3 q (homo c (/ (1 + h)) x)).
Proof.
  intros En Hr DP Hh Ht Htr CL. assert (I : 0 < / (1 + h)) by (apply Rinv_0_lt_compat; lra).
  assert (C1 : 1 - / (1 + h) = h * / (1 + h)) by (field; lra). split; intros x Hx g Hg; rewrite sdist3_homo, C1.
  - assert (X : 0 <= sdist3 (lift3 (t * nrm g) g) x).
    { apply Hx. intros v Hv. rewrite En in Hv. rewrite sdist3_lift. pose proof (nrm_close g (ps (vb q) v) (ps (vb p) v) t (fun k Hk => CL v k Hv Hk)). specialize (Hg v Hv). lra. }
    rewrite sdist3_lift in X. pose proof (DP g Hg) as Y. pose proof (nrm_pos g).
    assert (t * nrm g <= h * sdist3 g c). { apply Rle_trans with (h * (r * nrm g)); [|apply Rmult_le_compat_l; lra]. rewrite <- Rmult_assoc. apply Rmult_le_compat_r; auto. lra. }
    replace (h * / (1 + h) * sdist3 g c + / (1 + h) * sdist3 g x) with (/ (1 + h) * (h * sdist3 g c + sdist3 g x)) by ring. apply Rmult_le_pos; lra.
  - assert (X : forall v, (0 <= v < nv p)%Z -> 0 <= sdist3 (lift3 (t * nrm g) g) (ps (vb p) v)).
    { intros v Hv. rewrite sdist3_lift. pose proof (nrm_close g (ps (vb p) v) (ps (vb q) v) t) as Y. rewrite <- En in Hv. specialize (Hg v Hv).
      assert (sdist3 g (ps (vb q) v) - t * nrm g <= sdist3 g (ps (vb p) v)) by (apply Y; intros k Hk; rewrite Rabs_minus_sym; rewrite En in Hv; apply (CL v k Hv Hk)). lra. }
    pose proof (Hx _ X) as A. pose proof (DP _ X) as B. rewrite sdist3_lift in A, B. change (nrm (lift3 (t * nrm g) g)) with (nrm g) in B. pose proof (nrm_pos g).
    replace (h * / (1 + h) * sdist3 g c + / (1 + h) * sdist3 g x) with (/ (1 + h) * (h * sdist3 g c + sdist3 g x)) by ring. apply Rmult_le_pos; [lra|].
    assert ((r - t) * nrm g <= sdist3 g c) by lra. assert (h * ((r - t) * nrm g) <= h * sdist3 g c) by (apply Rmult_le_compat_l; lra).
    assert (0 <= (h * (r - t) - t) * nrm g) by (apply Rmult_le_pos; auto; nra). lra.
Qed.

Definition scb (c : vec) (s : R) (b : boxR) : boxR := (fun i => c i + s * (fst b i - c i), fun i => c i + s * (snd b i - c i)).
Lemma scb_vol c s b : box_vol 3 (scb c s b) = s * s * s * box_vol 3 b.
Proof. unfold box_vol, scb. change (zrange 3) with [0; 1; 2]%Z. cbn [fold_right fst snd]. ring. Qed.
Lemma scb_real c s b : 0 < s -> real_box 3 b -> real_box 3 (scb c s b).
Proof. intros Hs H i Hi. specialize (H i Hi). unfold scb. cbn [fst snd]. apply Rplus_lt_compat_l, Rmult_lt_compat_l; lra. Qed.
Lemma scb_coord c s a x : 0 < s -> (c + s * (a - c) <= x <-> a <= c + / s * (x - c)) /\ (x <= c + s * (a - c) <-> c + / s * (x - c) <= a) /\ (c + s * (a - c) < x <-> a < c + / s * (x - c)) /\ (x < c + s * (a - c) <-> c + / s * (x - c) < a).
Proof.
  intros Hs. set (y := c + / s * (x - c)). assert (E : x = c + s * (y - c)) by (unfold y; field; lra). rewrite E. clearbody y. clear E. repeat split; intros; nra.
Qed.
Lemma scb_in c s b x : 0 < s -> (inb 3 (scb c s b) x <-> inb 3 b (fun i => c i + / s * (x i - c i))).
Proof. intros Hs. unfold inb, in_box, scb. cbn [fst snd]. split; intros H i Hi; specialize (H i Hi); destruct (scb_coord (c i) s (fst b i) (x i) Hs) as (A & _); destruct (scb_coord (c i) s (snd b i) (x i) Hs) as (_ & B & _); tauto. Qed.
Lemma scb_inside c s b x : 0 < s -> (insideb 3 (scb c s b) x <-> insideb 3 b (fun i => c i + / s * (x i - c i))).
Proof. intros Hs. unfold insideb, scb. cbn [fst snd]. split; intros H i Hi; specialize (H i Hi); destruct (scb_coord (c i) s (fst b i) (x i) Hs) as (_ & _ & A & _); destruct (scb_coord (c i) s (snd b i) (x i) Hs) as (_ & _ & _ & B); tauto. Qed.
Lemma FOP_map {A B} (f : A -> B) (P : A -> A -> Prop) (Q : B -> B -> Prop) l : (forall a b, P a b -> Q (f a) (f b)) -> ForallOrdPairs P l -> ForallOrdPairs Q (map f l).
Proof. intros H. induction 1 as [|a l F _ IH]; cbn; constructor; auto. rewrite Forall_map. eapply Forall_impl; [|exact F]. auto. Qed.
Lemma scb_sum c s l : lsum (map (scb c s) l) (box_vol 3) = s * s * s * lsum l (box_vol 3).
Proof. rewrite lsum_map, <- lsum_scal. apply lsum_ext. intros. apply scb_vol. Qed.

Lemma cube_bound h : 0 < h <= 1 -> 1 <= (1 + h) * (1 + h) * (1 + h) <= 1 + 7 * h.
Proof. intros. nra. Qed.
Theorem squeeze_content (p : pol3) c (m : R) :
  (forall e h, 0 < e -> 0 < h <= 1 -> exists q s, content3 (hull3 q) s /\ Rabs (s - m) < e
     /\ (forall x, hull3 q x -> hull3 p (homo c (/ (1 + h)) x)) /\ (forall x, hull3 p x -> hull3 q (homo c (/ (1 + h)) x))) ->
  content3 (hull3 p) m.
Proof.
  intros H e He. set (A := Rabs m + 2). pose proof (Rabs_pos m). assert (A2 : 2 <= A) by (unfold A; lra).
  set (e1 := Rmin 1 (e / 4)). assert (E1 : 0 < e1) by (apply Rmin_glb_lt; lra). assert (e1 <= 1) by apply Rmin_l. assert (e1 <= e / 4) by apply Rmin_r.
  set (h := Rmin 1 (e / (14 * A))). assert (Hh : 0 < h) by (apply Rmin_glb_lt; [lra|apply Rdiv_lt_0_compat; lra]). assert (HH1 : h <= 1) by apply Rmin_l. assert (HH2 : h <= e / (14 * A)) by apply Rmin_r.
  assert (HA : 7 * h * A <= e / 2). { apply Rmult_le_compat_r with (r := 14 * A) in HH2; [|lra]. replace (e / (14 * A) * (14 * A)) with e in HH2 by (field; lra). lra. }
  destruct (H e1 h E1 (conj Hh HH1)) as (q & s & CQ & Sm & Qp & Pq). apply Rabs_def2 in Sm.
  pose proof (cube_bound h (conj Hh HH1)) as (B1 & B2). set (L := (1 + h) * (1 + h) * (1 + h)) in *.
  pose proof (Rle_abs m). pose proof (Rle_abs (- m)) as Nm. rewrite Rabs_Ropp in Nm.
  assert (I : 0 < / (1 + h)) by (apply Rinv_0_lt_compat; lra).
  destruct (CQ e1 E1) as ((li & (P1 & P2) & P3) & (lo & (C1 & C2) & C3)). split.
  - exists (map (scb (co3 c) (/ (1 + h))) li). split; [split|].
    + intros b Hb. apply in_map_iff in Hb as (b0 & <- & Hb). destruct (P1 b0 Hb) as (R1 & R2). split; [now apply scb_real|]. intros x Hx. apply scb_in in Hx; auto. apply R2, Qp in Hx.
      match type of Hx with hull3 _ ?y => replace y with (V3 (x 0%Z) (x 1%Z) (x 2%Z)) in Hx; auto end. unfold homo, co3. cbn. f_equal; field; lra.
    + eapply FOP_map; [|exact P2]. intros b b' Ap x X1 X2. apply scb_inside in X1; auto. apply scb_inside in X2; auto. exact (Ap _ X1 X2).
    + rewrite scb_sum. set (Y := lsum li (box_vol 3)) in *.
      replace (/ (1 + h) * / (1 + h) * / (1 + h)) with (/ L) by (unfold L; field; lra).
      assert (IL : 0 < / L) by (apply Rinv_0_lt_compat; lra). apply Rle_trans with (/ L * (m - 2 * e1)); [|apply Rmult_le_compat_l; lra].
      set (X := m - 2 * e1). assert (BX : - A <= X <= A) by (unfold X, A; lra). apply Rmult_le_reg_l with L; [lra|]. replace (L * (/ L * X)) with X by (field; lra).
      assert (X1 : m - e <= X - e / 2) by (unfold X; lra). apply Rle_trans with (L * (X - e / 2)); [apply Rmult_le_compat_l; lra|].
      assert ((L - 1) * X <= 7 * h * A). { destruct (Rle_lt_dec X 0). - assert (0 <= 7 * h * A) by nra. assert ((L - 1) * X <= 0) by nra. lra. - apply Rmult_le_compat; lra. }
      assert (1 * (e / 2) <= L * (e / 2)) by (apply Rmult_le_compat_r; lra). lra.
  - exists (map (scb (co3 c) (1 + h)) lo). split; [split|].
    + intros b Hb. apply in_map_iff in Hb as (b0 & <- & Hb). apply scb_real; auto. lra.
    + intros x Hx. apply Pq in Hx.
      destruct (C2 (fun i => co3 c i + / (1 + h) * (x i - co3 c i))) as (b & Hb & Ib). { unfold homo in Hx. cbn in Hx. unfold co3. cbn. exact Hx. }
      exists (scb (co3 c) (1 + h) b). split; [now apply in_map|]. apply scb_in; auto. lra.
    + rewrite scb_sum. fold L. set (Y := lsum lo (box_vol 3)) in *. apply Rle_trans with (L * (m + 2 * e1)); [apply Rmult_le_compat_l; lra|].
      set (X := m + 2 * e1). assert (BX : - A <= X <= A) by (unfold X, A; lra). assert (X1 : X + e / 2 <= m + e) by (unfold X; lra).
      assert ((L - 1) * X <= 7 * h * A). { destruct (Rle_lt_dec X 0). - assert (0 <= 7 * h * A) by nra. assert ((L - 1) * X <= 0) by nra. lra. - apply Rmult_le_compat; lra. }
      lra.
Qed.

(** ** The volume of any convex polyhedron *)
Theorem convex_content (p : pol3) : convex3 p -> content3 (hull3 p) (moment3 p 0 0 0).
Proof.
  intros CV. pose proof CV as (W & _). pose proof W as (Hn & _).
  destruct (classic (exists a b c d, (0 <= a < nv p)%Z /\ (0 <= b < nv p)%Z /\ (0 <= c < nv p)%Z /\ (0 <= d < nv p)%Z /\ vol6 (ps (vb p) a) (ps (vb p) b) (ps (vb p) c) (ps (vb p) d) <> 0)) as [(a & b & c & d & Ha & Hb & Hc & Hd & N)|N].
  - destruct (deep_point p a b c d Ha Hb Hc Hd N) as (z & r & Hr & DP). apply (squeeze_content p z). intros e h He Hh.
    destruct (cont_moment p W e He) as (t & Ht & CM). assert (Ht' : 0 < Rmin t (h * r / 2)) by (apply Rmin_glb_lt; auto; assert (0 < h * r) by (apply Rmult_lt_0_compat; lra); lra).
    destruct (convex3_approx p CV _ Ht') as (q & Sq & Cq). exists (with_pos p q), (moment3 (with_pos p q) 0 0 0). split; [now apply solid_content|]. split.
    + rewrite <- (moment_self p). apply CM. eapply close_le; [apply Rmin_l|exact Cq].
    + apply (squeeze p (with_pos p q) z r h (Rmin t (h * r / 2))); auto. * pose proof (Rmin_r t (h * r / 2)). lra.
      * intros v k Hv Hk. rewrite with_pos_at by auto. left. apply Cq; auto.
  - destruct (coplanar (fun x => exists v, (0 <= v < nv p)%Z /\ x = ps (vb p) v)) as (g & Pg & Hg).
    { intros ? ? ? ? (a & Ha & ->) (b & Hb & ->) (c & Hc & ->) (d & Hd & ->). destruct (Req_dec (vol6 (ps (vb p) a) (ps (vb p) b) (ps (vb p) c) (ps (vb p) d)) 0) as [E|E]; auto. exfalso. apply N. exists a, b, c, d. auto. }
    rewrite (nobox_moment p g 0 0 0 Pg W (convex_planar p CV)) by (intros v Hv; apply Hg; eauto).
    apply (plane_content p g); auto. intros x Hx. split; auto. apply Rle_antisym.
    + assert (Y : 0 <= sdist3 (flip3 g) x) by (apply Hx; intros v Hv; rewrite sdist3_flip, (Hg (ps (vb p) v)) by eauto; lra). rewrite sdist3_flip in Y. lra.
    + apply Hx. intros v Hv. rewrite (Hg (ps (vb p) v)) by eauto. lra.
Qed.
