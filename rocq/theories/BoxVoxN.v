(** * BoxVoxN: boxes and simplices are solid; voxelizing a box. *)
From Coq Require Import Reals ZArith List Bool Lia Lra Psatz.
From Verif Require Import Base Lib ModelCommon CommonFacts ModelN ModelV ModelNC ModelNV SumR SpecN SpecNP SpecNR SpecNV RealNum InitN CellsN FlagR BoxVolN ShapesN SplitN VoxN.
From Verif Require SpecNC PolyN.
Import ListNotations.
Open Scope R_scope.

Lemma box_solid MX D (p : polyN RN) lo hi : (1 <= D)%Z -> (2 ^ D <= MX)%Z -> (forall i, (0 <= i < D)%Z -> lo i < hi i) ->
  exists p', rNd_init_box RN MX D p lo hi = OK p' /\ nvN RN p' = (2 ^ D)%Z /\ solidN D p' /\ forall x, hullP D p' x <-> in_box D lo hi x.
Proof.
  intros HD HM HL. destruct (box_cells RN MX D p lo hi ltac:(lia) HM) as (p' & E & En & Hnf & P & L & C & SE).
  exists p'. split; auto. split; auto. split.
  - split; auto. exists (2 * D)%Z, (fun _ i => i), boxh, (bl0 lo hi), bl. rewrite En. split; auto. apply (box_realized D lo); auto; lia.
  - intros x. unfold hullP, in_box. rewrite En. eapply (box_hull D lo hi); eauto; try lia. intros i Hi. left. auto.
Qed.

Lemma simplex_solid MX D (p : polyN RN) verts l0 l : (1 <= D)%Z -> (D + 1 <= MX)%Z -> barycentric D verts l0 l ->
  exists p', rNd_init_simplex RN MX D p verts = OK p' /\ nvN RN p' = (D + 1)%Z /\ solidN D p'
  /\ forall x, hullP D p' x <-> forall g, (0 <= g <= D)%Z -> 0 <= linN D (l0 g) (l g) x.
Proof.
  intros HD HM B. destruct (simplex_convex MX D p verts l0 l HD HM B) as (p2 & E2 & _ & _ & H2).
  destruct (simplex_cells RN MX D p verts HD HM) as (p' & E & En & Hnf & P & L & C & SE). rewrite E in E2. injection E2 as <-.
  exists p'. split; auto. split; auto. split; auto.
  split; auto. exists (D + 1)%Z, (fun v i => sl D (nb (vbN RN p') v i) v), (nb (vbN RN p')), l0, l. rewrite En. split; auto.
  apply simplex_realized; auto.
  - intros v i Hv Hi. apply (SpecNC.ce_f _ _ _ _ _ _ _ _ C); auto.
  - intros v w Hv Hw N. exists (sl D v w). split; [apply sl_rng; auto|]. rewrite L by (auto; apply sl_rng; auto). apply nb_sl; auto.
  - destruct B as (B1 & B2 & B3). split; [|split; auto].
    + intros g w Hg Hw. rewrite (PolyN.linN_ext D _ _ _ (verts w)); [apply B1; auto|]. intros k Hk. apply P; auto. lia.
    + intros x k Hk. rewrite <- (B3 x k Hk). apply lsum_ext. intros g Hg. apply in_zrange in Hg. rewrite P by auto. reflexivity.
Qed.

(** a box none of whose sides lies on a grid plane *)
Lemma box_off_grid D (d : Z -> R) B lo hi K : (forall i, (0 <= i < D)%Z -> 0 < d i) ->
  (forall i m, (0 <= i < D)%Z -> lo i <> d i * IZR m /\ hi i <> d i * IZR m) -> (forall x, K x <-> in_box D lo hi x) -> off_grid D d B K.
Proof.
  intros Hd HN HK b a m x Hb Ha Hm ((Kx & Rx) & Ex) E. apply HK in Kx. specialize (Kx a Ha) as Ka. destruct (HN a m Ha) as (N1 & N2). specialize (Hd a Ha).
  destruct Hm as (M1 & M2). apply IZR_lt in M1, M2.
  set (g1 := x a - lo a). set (g2 := hi a - x a). set (g3 := d a * IZR m - d a * IZR (fst b a)). set (g4 := d a * IZR (snd b a) - d a * IZR m).
  assert (G : 0 < g1 /\ 0 < g2 /\ 0 < g3 /\ 0 < g4) by (unfold g1, g2, g3, g4; repeat split; try nra; lra).
  set (e := Rmin (Rmin g1 g2) (Rmin g3 g4)). assert (He : 0 < e /\ e <= g1 /\ e <= g2 /\ e <= g3 /\ e <= g4).
  { unfold e. unfold Rmin. repeat destruct Rle_dec; lra. }
  assert (S : forall t, - e <= t <= e -> K (upd x a (x a + t)) /\ region D d b (upd x a (x a + t))).
  { intros t Ht. split; [apply HK|]; intros i Hi; unfold upd; destruct (Z.eqb_spec i a) as [->|]; try (now apply Kx); try (now apply Rx);
      unfold g1, g2, g3, g4 in *; lra. }
  pose proof (Ex (upd x a (x a + e)) (upd x a (x a + - e)) (S e ltac:(lra)) (S (- e) ltac:(lra))) as X.
  assert (Y : forall k, (0 <= k < D)%Z -> x k = (upd x a (x a + e) k + upd x a (x a + - e) k) / 2).
  { intros k Hk. unfold upd. destruct (Z.eqb_spec k a) as [->|]; lra. }
  specialize (X Y a Ha). rewrite !upd_eq in X. lra.
Qed.

(** a box inside the grid, with room in the buffer *)
Theorem box_voxelize MX D fuel (p : polyN RN) stk0 mom0 ltd0 lo hi B (gr d : Z -> R) : (3 <= D)%Z -> (Z.to_nat (MX * D * D * D) <= fuel)%nat ->
  (2 ^ D * (D + 1) ^ levels D B <= MX)%Z -> box_okN D B ->
  (forall i, (0 <= i < D)%Z -> 0 < d i /\ d i * IZR (fst B i) <= lo i /\ lo i < hi i /\ hi i <= d i * IZR (snd B i)) ->
  (forall i m, (0 <= i < D)%Z -> lo i <> d i * IZR m /\ hi i <> d i * IZR m) ->
  exists p' gr', rNd_init_box RN MX D p lo hi = OK p' /\ rNd_voxelize RN MX D fuel stk0 mom0 ltd0 p' B gr d = OK gr'
    /\ lsum (zrange (ncells D B)) (fun e => gr' e - gr e) = lprod (zrange D) (fun i => hi i - lo i).
Proof.
  intros HD Hf HM HB Hl HN. assert (P2 : (0 < 2 ^ D)%Z) by (apply Z.pow_pos_nonneg; lia).
  assert (LV : (0 <= levels D B)%Z).
  { unfold levels. induction (zrange D) as [|i l IH]; cbn [fold_right]; [lia|]. pose proof (Z.log2_up_nonneg (snd B i - fst B i)). lia. }
  assert (P1 : (0 < (D + 1) ^ levels D B)%Z) by (apply Z.pow_pos_nonneg; lia).
  assert (HL : forall i, (0 <= i < D)%Z -> lo i < hi i) by (intros; now apply Hl).
  destruct (box_solid MX D p lo hi ltac:(lia) ltac:(nia) HL) as (p' & E & En & S & H).
  destruct (box_reduce MX D p lo hi ltd0 ltac:(lia) ltac:(nia) HL) as (p2 & E2 & R). rewrite E in E2. injection E2 as <-.
  destruct (vox_room MX D fuel HD Hf ltd0 stk0 mom0 p' B gr d) as (gr' & V); auto; [lia|rewrite En; lia|now apply solid_convex|].
  exists p', gr'. split; auto. split; auto.
  destruct (vox_cells MX D fuel HD Hf ltd0 stk0 mom0 p' B gr gr' d) as (l & _ & _ & _ & _ & X); auto.
  - rewrite En. nia.
  - now apply solid_convex.
  - intros i Hi. now apply Hl.
  - intros x Hx i Hi. apply H in Hx. specialize (Hx i Hi). specialize (Hl i Hi). lra.
  - apply X; auto. apply (box_off_grid D d B lo hi); auto. intros i Hi. now apply Hl.
Qed.

(** ** forms used in the property file *)
Lemma split_reduce_run MX D fuel ltd0 (p p0 p1 : polyN RN) c ax : (3 <= D)%Z -> (Z.to_nat (MX * D * D * D) <= fuel)%nat ->
  (0 <= nvN RN p <= MX)%Z -> (0 <= ax < D)%Z -> solidN D p -> (forall v, (0 <= v < nvN RN p)%Z -> ps (vbN RN p) v ax <> c) ->
  rNd_split RN MX D fuel p c ax = OK (p0, p1) ->
  solidN D p0 /\ solidN D p1 /\ exists t t0 t1 : R, rNd_reduce RN MX D ltd0 p = OK t /\ rNd_reduce RN MX D ltd0 p0 = OK t0
    /\ rNd_reduce RN MX D ltd0 p1 = OK t1 /\ t0 + t1 = t.
Proof.
  intros HD Hf Hn Hx S N E. destruct (split_reduce MX D fuel HD Hf p p0 p1 c ax Hn Hx S N E) as (S0 & S1 & V). split; auto. split; auto.
  destruct (split_hull MX D fuel HD Hf p c ax Hn Hx (solid_convex D p S)) as [(q0 & q1 & E' & R0 & R1 & _)|(_ & E')]; rewrite E in E'; [|discriminate].
  injection E' as <- <-. exists (volN D p), (volN D p0), (volN D p1). rewrite !reduce_convex by (auto using solid_convex; lia). auto.
Qed.

Lemma vox_only MX D fuel ltd0 stk0 mom0 (p : polyN RN) B (gr d : Z -> R) :
  (3 <= D)%Z -> (Z.to_nat (MX * D * D * D) <= fuel)%nat -> (0 <= nvN RN p <= MX)%Z -> convexN D p -> box_okN D B ->
  (exists gr', rNd_voxelize RN MX D fuel stk0 mom0 ltd0 p B gr d = OK gr')
  \/ (rNd_voxelize RN MX D fuel stk0 mom0 ltd0 p B gr d = Err OutOfBounds
      /\ exists q c a, (0 < nvN RN q <= MX)%Z /\ convexN D q /\ (forall x, hullP D q x -> hullP D p x) /\ (0 <= a < D)%Z
         /\ rNd_split RN MX D fuel q c a = Err OutOfBounds /\ (MX < nvN RN q * (D + 1))%Z).
Proof.
  intros HD Hf Hn Cv HB. destruct (Z.eq_dec (nvN RN p) 0) as [E|E].
  - left. exists gr. unfold rNd_voxelize. rewrite E. reflexivity.
  - destruct (vox_cases MX D fuel HD Hf ltd0 stk0 mom0 p B gr d ltac:(lia) Cv HB) as [(gr' & l & X & _)|X]; [left; eauto|right; auto].
Qed.

Lemma grid_222_ok : box_okN 3 (fun _ => 0, fun _ => 2)%Z /\ levels 3 (fun _ => 0, fun _ => 2)%Z = 3%Z /\ ncells 3 (fun _ => 0, fun _ => 2)%Z = 8%Z
  /\ forall i m : Z, 1/2 <> 1 * IZR m /\ 3/2 <> 1 * IZR m.
Proof.
  split; [|split; [reflexivity|split; [reflexivity|]]].
  - split; [intros i _; cbn [fst snd]; unfold int_min, int_max; lia|]. change (ncells 3 (fun _ => 0, fun _ => 2)%Z) with 8%Z. unfold int_max. lia.
  - intros _ m. split; intros E.
    + assert (X : IZR (2 * m) = IZR 1) by (rewrite mult_IZR; lra). apply eq_IZR in X. lia.
    + assert (X : IZR (2 * m) = IZR 3) by (rewrite mult_IZR; lra). apply eq_IZR in X. lia.
Qed.
