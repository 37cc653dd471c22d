(** * VoxN: [rNd_voxelize], from the generic traversal and [rNd_split]. *)
From Coq Require Import Reals ZArith List Bool Lia Lra Psatz.
From Verif Require Import Base Lib ModelCommon ModelN ModelV ModelNC ModelNV SumR SpecN SpecNP SpecNR SpecNV RealNum RedN FlagR BoxVolN SplitN VoxFacts.
From Verif Require SpecNC PolyN HullN Vox2.
Import ListNotations.
Open Scope Z_scope.

(** ** products *)
Lemma prodl_app l l' f : prodl (l ++ l') f = prodl l f * prodl l' f.
Proof. induction l; cbn [prodl app]; [lia|]. rewrite IHl. ring. Qed.
Lemma prodl_succ n f : 0 <= n -> prodl (zrange (n + 1)) f = prodl (zrange n) f * f n.
Proof. intros. rewrite zrange_succ, prodl_app by auto. cbn [prodl]. ring. Qed.
Lemma ncells_vol D B : ncells D B = vol D B.
Proof.
  unfold ncells, vol. assert (G : forall l a, fold_left (fun s i => s * (snd B i - fst B i)) l a = a * prodl l (size B)).
  { induction l; intros; cbn [fold_left prodl]; [lia|]. rewrite IHl. unfold size. ring. }
  rewrite G. lia.
Qed.
Lemma levels_depth D B : levels D B = depth D B.
Proof. unfold levels, depth. induction (zrange D); cbn [fold_right suml]; auto. rewrite IHl. reflexivity. Qed.

Section G.
Context (D : Z) (B : box).
Hypothesis HD : 1 <= D.
Hypothesis HB : box_okN D B.
Notation g := (size B).
Notation Q n := (prodl (zrange n) (size B)).
Lemma g_pos i : 0 <= i < D -> 1 <= g i. Proof. intros Hi. destruct (proj1 HB i Hi) as (_ & X & _). unfold size. lia. Qed.
Lemma Q_pos n : 0 <= n <= D -> 1 <= Q n.
Proof. intros Hn. apply prodl_pos. intros i Hi. apply in_zrange in Hi. apply g_pos. lia. Qed.
Lemma Q_mono n m : 0 <= n -> n <= m -> m <= D -> Q n <= Q m.
Proof.
  intros Hn Hm. revert m Hm. apply (Zlt_lower_bound_ind (fun m => m <= D -> Q n <= Q m) n). intros m IH Hm Hd. destruct (Z.eq_dec m n) as [->|]; [lia|].
  specialize (IH (m - 1) ltac:(lia) ltac:(lia)). replace m with (m - 1 + 1) by lia. rewrite prodl_succ by lia. pose proof (g_pos (m - 1) ltac:(lia)). pose proof (Q_pos (m - 1) ltac:(lia)). nia.
Qed.
Lemma QD_max : Q D <= int_max. Proof. destruct HB as (_ & X). rewrite ncells_vol in X. exact X. Qed.

Lemma grid_dims_ok : exists gg, grid_dims D (fst B) (snd B) = OK (Some gg) /\ forall i, 0 <= i < D -> gg i = g i.
Proof.
  unfold grid_dims.
  destruct (for_inv (fun k s => exists gg, s = Some gg /\ forall i, 0 <= i < k -> gg i = g i) 0 D
    (fun i s => match s with None => OK None | Some g0 => let* sz := int32 (snd B i - fst B i) in if sz <=? 0 then OK None else OK (Some (upd g0 i sz)) end) (Some (fun _ : Z => 0)))
    as (s & E & gg & -> & H); [lia|exists (fun _ => 0); split; auto; lia| |exists gg; auto].
  intros k s Hk (gg & -> & H). destruct (proj1 HB k Hk) as (A1 & A2 & A3 & A4). rewrite int32_ok by (unfold int_min in *; lia). cbn [bind].
  destruct (Z.leb_spec (snd B k - fst B k) 0); [lia|]. eexists. split; [reflexivity|]. eexists. split; [reflexivity|].
  intros i Hi. destruct (Z.eq_dec i k) as [->|]; [rewrite upd_eq; reflexivity|]. rewrite upd_neq by auto. apply H. lia.
Qed.
Lemma strides_ok gg : (forall i, 0 <= i < D -> gg i = g i) ->
  exists st, strides D gg = OK (Q D, st) /\ forall i, 0 <= i < D -> 1 <= st i /\ st i * Q (i + 1) = Q D.
Proof.
  intros Hg. unfold strides. pose proof QD_max as QM. assert (IM : int_min <= 0) by (unfold int_min; lia).
  destruct (for_inv (fun k s => fst s = Q k /\ forall i, 0 <= i < k -> 1 <= snd s i /\ snd s i * Q (i + 1) = Q D) 0 D
    (fun i s => let* nc := int32 (fst s * gg i) in let* k := for_ (i + 1) D (fun j k => int32 (k * gg j)) 1 in OK (nc, upd (snd s) i k)) (1, fun _ : Z => 0))
    as (s & E & H1 & H2); [lia|split; [reflexivity|lia]| |].
  2: { rewrite E. destruct s as (nc & st). cbn [fst snd] in *. subst nc. exists st. auto. }
  intros i (nc & st) Hi (H1 & H2). cbn [fst snd] in *. subst nc. rewrite Hg by auto. rewrite <- prodl_succ by lia.
  pose proof (Q_mono (i + 1) D ltac:(lia) ltac:(lia) ltac:(lia)) as M1. pose proof (Q_pos (i + 1) ltac:(lia)) as P1.
  rewrite int32_ok by lia. cbn [bind].
  destruct (for_inv (fun j k => 1 <= k /\ k * Q (i + 1) = Q j) (i + 1) D (fun j k => int32 (k * gg j)) 1) as (k & Ek & K1 & K2); [lia|split; lia| |].
  { intros j k Hj (K1 & K2). rewrite Hg by lia. pose proof (g_pos j ltac:(lia)) as G. pose proof (Q_mono (j + 1) D ltac:(lia) ltac:(lia) ltac:(lia)) as M2.
    rewrite prodl_succ in M2 by lia. assert (KG : k * g j * Q (i + 1) = Q j * g j) by (rewrite <- K2; ring).
    rewrite int32_ok by nia. eexists. split; [reflexivity|]. split; [nia|]. rewrite (prodl_succ j) by lia. exact KG. }
  rewrite Ek. cbn [bind]. eexists. split; [reflexivity|]. cbn [fst snd]. split; auto.
  intros j Hj. destruct (Z.eq_dec j i) as [->|]; [rewrite upd_eq; auto|]. rewrite upd_neq by auto. apply H2. lia.
Qed.

(** ** the index of a cell *)
Definition horner n (c : Z -> Z) : Z := fold_left (fun s i => s * g i + (c i - fst B i)) (zrange n) 0.
Lemma horner_succ n c : 0 <= n -> horner (n + 1) c = horner n c * g n + (c n - fst B n).
Proof. intros. unfold horner. rewrite zrange_succ, fold_left_app by auto. reflexivity. Qed.
Lemma horner_range n c : 0 <= n -> n <= D -> in_cells D B c -> 0 <= horner n c < Q n.
Proof.
  intros Hn Hd Hc. revert n Hn Hd. apply (zrange_ind (fun n => n <= D -> 0 <= horner n c < Q n)); [cbn; lia|].
  intros n Hn IH Hd. rewrite horner_succ, prodl_succ by auto. specialize (IH ltac:(lia)). specialize (Hc n ltac:(lia)). assert (X : g n = snd B n - fst B n) by reflexivity. nia.
Qed.
Lemma horner_inj n c c' : 0 <= n -> n <= D -> in_cells D B c -> in_cells D B c' -> horner n c = horner n c' -> forall i, 0 <= i < n -> c i = c' i.
Proof.
  intros Hn Hd Hc Hc'. revert n Hn Hd. apply (zrange_ind (fun n => n <= D -> horner n c = horner n c' -> forall i, 0 <= i < n -> c i = c' i)); [lia|].
  intros n Hn IH Hd E i Hi. rewrite !horner_succ in E by auto. pose proof (Hc n ltac:(lia)). pose proof (Hc' n ltac:(lia)).
  assert (X : horner n c = horner n c') by (unfold size in E; nia). destruct (Z.eq_dec i n) as [->|]; [rewrite X in E; lia|]. apply IH; auto; lia.
Qed.
Lemma cellN_horner c : cellN D B c = horner D c. Proof. reflexivity. Qed.

Lemma int64_ok z : - 9223372036854775808 <= z <= 9223372036854775807 -> int64 z = OK z.
Proof. unfold int64. intros. destruct (Z.leb_spec (-9223372036854775808) z), (Z.leb_spec z 9223372036854775807); cbn; auto; lia. Qed.

Lemma gindN_ok st c m : (forall i, 0 <= i < D -> 1 <= st i /\ st i * Q (i + 1) = Q D) -> in_cells D B c -> 0 <= m < 1 ->
  gindN D st (fst B) c m = OK (1 * cellN D B c + m).
Proof.
  intros Hst Hc Hm. unfold gindN. pose proof QD_max as QM. pose proof (Q_pos D ltac:(lia)) as QP. assert (IM : int_min <= 0) by (unfold int_min; lia).
  assert (I64 : int_max <= 9223372036854775807) by (unfold int_max; lia).
  destruct (for_inv (fun n s => s * Q n = horner n c * Q D /\ 0 <= s < Q D) 0 D
     (fun i s => let* a := int32 (c i - fst B i) in let* a := int32 (a * st i) in int64 (s + a)) 0) as (s & E & S1 & S2); [lia|split; [reflexivity|lia]| |].
  - intros i s Hi (S1 & S2). destruct (proj1 HB i Hi) as (A1 & A2 & A3 & A4). specialize (Hc i Hi) as Hci. destruct (Hst i Hi) as (T1 & T2).
    set (x := c i - fst B i) in *. assert (Hx : 0 <= x < g i) by (unfold x, size; lia). assert (Hg : g i <= int_max) by (unfold size; lia).
    rewrite (int32_ok x) by lia. cbn [bind].
    pose proof (Q_pos i ltac:(lia)) as QI. rewrite prodl_succ in T2 by lia.
    assert (X0 : st i * g i <= Q D) by (rewrite <- T2; assert (g i <= Q i * g i) by nia; nia).
    assert (X1 : 0 <= x * st i < Q D) by (clear - X0 Hx T1; nia).
    rewrite int32_ok by lia. cbn [bind].
    assert (SU : (s + x * st i) * Q (i + 1) = horner (i + 1) c * Q D).
    { rewrite horner_succ, prodl_succ by lia. fold x. replace ((s + x * st i) * (Q i * g i)) with (s * Q i * g i + x * (st i * (Q i * g i))) by ring. rewrite S1, T2. ring. }
    pose proof (horner_range (i + 1) c ltac:(lia) ltac:(lia) Hc) as HR. pose proof (Q_pos (i + 1) ltac:(lia)) as QI1.
    assert (X2 : s + x * st i < Q D) by nia.
    rewrite int64_ok by lia. eexists. split; [reflexivity|]. split; auto. lia.
  - rewrite E. cbn [bind]. assert (s = cellN D B c) by (rewrite cellN_horner; nia). subst s.
    rewrite int64_ok by lia. cbn [bind]. apply int64_ok. lia.
Qed.

(** the stack is large enough *)
Lemma depth_bound : depth D B <= Z.log2_up (Q D) + D.
Proof.
  unfold depth. assert (G : forall n, 0 <= n -> n <= D -> suml (zrange n) (fun i => Z.log2_up (g i)) <= Z.log2_up (Q n) + n); [|apply G; lia].
  apply (zrange_ind (fun n => n <= D -> suml (zrange n) (fun i => Z.log2_up (g i)) <= Z.log2_up (Q n) + n)); [intros _; change (0 <= Z.log2_up 1 + 0); cbn; lia|].
  intros n Hn IH Hd. rewrite zrange_succ by lia.
  assert (SA : forall l l' f, suml (l ++ l') f = suml l f + suml l' f) by (induction l; intros; cbn [suml app]; [lia|rewrite IHl; lia]).
  rewrite SA. cbn [suml]. rewrite prodl_app. cbn [prodl]. rewrite Z.mul_1_r, Z.add_0_r. pose proof (g_pos n ltac:(lia)) as G. pose proof (Q_pos n ltac:(lia)) as QP.
  pose proof (Z.log2_up_mul_below (Q n) (g n) ltac:(lia) ltac:(lia)). specialize (IH ltac:(lia)). lia.
Qed.
End G.

Open Scope R_scope.
(** the vertices are extreme points *)
Lemma vertex_extreme D (p : polyN RN) v : (1 <= D)%Z -> solidN D p -> (0 <= v < nvN RN p)%Z -> extreme D (hullP D p) (ps (vbN RN p) v).
Proof.
  intros HD (_ & nh & bk & h & l0 & l & C & Q) Hv. split; [intros c0 c H; apply H; exact Hv|].
  intros y z Hy Hz E.
  assert (LZ : forall i, (0 <= i < D)%Z -> linN D (l0 (h v i)) (l (h v i)) y = 0 /\ linN D (l0 (h v i)) (l (h v i)) z = 0).
  { intros i Hi. pose proof (SpecNC.ce_h _ _ _ _ _ _ _ _ C v i Hv Hi) as Hh.
    assert (Y : 0 <= linN D (l0 (h v i)) (l (h v i)) y) by (apply Hy; intros w Hw; exact (PolyN.facet_nonneg _ _ _ _ _ _ _ Q w (h v i) Hw Hh)).
    assert (Z0 : 0 <= linN D (l0 (h v i)) (l (h v i)) z) by (apply Hz; intros w Hw; exact (PolyN.facet_nonneg _ _ _ _ _ _ _ Q w (h v i) Hw Hh)).
    pose proof (SpecNC.re_on _ _ _ _ _ _ _ Q v i Hv Hi) as O.
    rewrite (PolyN.linN_ext D _ _ (ps (vbN RN p) v) (fun k => 1/2 * y k + 1/2 * z k)) in O by (intros k Hk; rewrite E by auto; lra).
    rewrite (PolyN.linN_split D (l0 (h v i))) in O, Y, Z0 |- *. rewrite (PolyN.linN_split D (l0 (h v i)) _ z). rewrite PolyN.lin_add, !PolyN.lin_scal in O. lra. }
  intros k Hk. assert (X : (fun k => y k - z k) k = 0); [|cbv beta in X; lra].
  apply (SpecNC.re_nd _ _ _ _ _ _ _ Q v (fun k => y k - z k) Hv); auto. intros i Hi. destruct (LZ i Hi) as (A1 & A2).
  rewrite (PolyN.linN_split D (l0 (h v i))) in A1, A2. rewrite PolyN.lin_sub. lra.
Qed.

Section R.
Context (MX D : Z) (fuel : nat).
Hypothesis HD : (3 <= D)%Z.
Hypothesis Hf : (Z.to_nat (MX * D * D * D) <= fuel)%nat.
Notation splitN := (fun (p _ : polyN RN) (co : R) (ax : Z) => rNd_split RN MX D fuel p co ax).
Notation vrast := (rast RN D (nvN RN) splitN).

(** ** running the loop *)
Lemma vox_run (Inv : Z -> polyN RN -> Prop) (Bad : polyN RN -> Prop) ltd0 stk0 mom0 (p : polyN RN) B (gr d : Z -> R) :
  (forall k k' q, (k' <= k)%Z -> Inv k q -> Inv k' q) ->
  (forall k q c a, (1 <= k)%Z -> Inv k q -> (0 < nvN RN q)%Z -> (0 <= a < D)%Z ->
     (exists q0 q1, rNd_split RN MX D fuel q c a = OK (q0, q1) /\ Inv (k - 1)%Z q0 /\ Inv (k - 1)%Z q1) \/ (rNd_split RN MX D fuel q c a = Err OutOfBounds /\ Bad q)) ->
  (forall k q, Inv k q -> (0 <= nvN RN q <= MX)%Z /\ convexN D q) ->
  box_okN D B -> Inv (depth D B) p -> (0 < nvN RN p)%Z ->
  (exists gr' l, rNd_voxelize RN MX D fuel stk0 mom0 ltd0 p B gr d = OK gr' /\ vrast d p B l
      /\ NoDup (map (fun x => cellN D B (fst (fst x))) l) /\ gridded RN (reduceN RN MX D ltd0) 1 (cellN D B) l gr gr')
  \/ (rNd_voxelize RN MX D fuel stk0 mom0 ltd0 p B gr d = Err OutOfBounds
      /\ exists k q c a, Inv k q /\ (0 < nvN RN q)%Z /\ (0 <= a < D)%Z /\ rNd_split RN MX D fuel q c a = Err OutOfBounds /\ Bad q).
Proof.
  intros IM IS IC HB HI Hn. unfold rNd_voxelize. destruct (Z.leb_spec (nvN RN p) 0); [lia|].
  destruct (grid_dims_ok D B ltac:(lia) HB) as (gg & Eg & Hg). rewrite Eg. cbn [bind].
  destruct (strides_ok D B ltac:(lia) HB gg Hg) as (st & Es & Hst). rewrite Es. cbn [bind].
  assert (Pr : VoxFacts.proper D B) by (intros i Hi; destruct (proj1 HB i Hi) as (_ & X & _); exact X).
  pose proof (depth_bound D B ltac:(lia) HB) as DB. pose proof (depth_nonneg D B) as DN. pose proof (vol_pos D B Pr) as VP.
  change (prodl (zrange D) (size B)) with (vol D B) in *.
  set (SS := (Z.log2_up (vol D B) + D + 1)%Z). rewrite wr_ok by (unfold SS; lia). cbn [bind].
  assert (CR : forall c, (forall i, (0 <= i < D)%Z -> (fst B i <= c i < snd B i)%Z) -> (0 <= cellN D B c < vol D B)%Z).
  { intros c Hc. rewrite cellN_horner. apply (horner_range D B D c); auto; lia. }
  destruct (run_node RN D ltac:(lia) (nvN RN) splitN (reduceN RN MX D ltd0) 1 ltac:(lia) (gindN D) d Inv Bad IM
     (fun k q o c a => IS k q c a)) with (B := B) (g := st) (cell := cellN D B) (SS := SS) (c := Z.to_nat (vol D B)) (p := p) (b := B) (stk := upd stk0 0%Z (p, B)) (s := 0%Z) (gr := gr) (mom := mom0)
    as [(k & stk' & gr' & mom' & l & K & R & _ & T & A)|(k & K & R & W)]; auto; try lia.
  - intros k q mom X _. destruct (IC k q X) as (Y1 & Y2). unfold reduceN. rewrite (reduce_convex MX D ltd0 q) by (auto; lia). cbn [bind]. rewrite wr_ok by lia. eauto.
  - intros i Hi. destruct (proj1 HB i Hi) as (X1 & X2 & X3 & X4). lia.
  - intros c m Hc Hm. apply (gindN_ok D B ltac:(lia) HB st c m); auto.
  - apply sub_box_refl.
  - left. exists gr', l. change (0 + 1)%Z with 1%Z in R. rewrite Z.mul_1_r in R.
    replace (2 * Z.to_nat (vol D B))%nat with (k + (2 * Z.to_nat (vol D B) - k))%nat by lia. rewrite R.
    assert (E : forall f b, while_ f (fun s : vst RN (polyN RN) => (0 <? v_n RN (polyN RN) s)%Z) b (VS RN (polyN RN) stk' 0 gr' mom') = OK (VS RN (polyN RN) stk' 0 gr' mom')).
    { intros f b. destruct f; reflexivity. }
    rewrite E. cbn [bind v_grid]. split; auto. split; auto.
    assert (ND : NoDup (map (fun x => cellN D B (fst (fst x))) l)).
    { eapply rast_distinct; eauto; [|apply sub_box_refl]. intros c c' Hc Hc' Ec i Hi. rewrite !cellN_horner in Ec.
      apply (horner_inj D B D c c'); auto; lia. }
    split; auto. apply added_gridded; auto. lia.
  - right. change (0 + 1)%Z with 1%Z in R. rewrite Z.mul_1_r in R.
    replace (2 * Z.to_nat (vol D B))%nat with (k + (2 * Z.to_nat (vol D B) - k))%nat by lia. rewrite R. cbn [bind]. split; auto.
    destruct W as (k' & q & o & co & a & W). exists k', q, co, a. exact W.
Qed.

(** ** the pieces *)
Definition inside (d : Z -> R) (b : box) (x : Z -> R) : Prop := forall i, (0 <= i < D)%Z -> d i * IZR (fst b i) < x i < d i * IZR (snd b i).
Definition part (d : Z -> R) (K : (Z -> R) -> Prop) (b : box) (p : polyN RN) : Prop :=
  (nvN RN p = 0%Z /\ forall x, K x -> ~ inside d b x) \/ (forall x, hullP D p x <-> K x /\ region D d b x).

Lemma region_split (d : Z -> R) (b : box) a m x : 0 < d a -> (0 <= a < D)%Z -> (fst b a < m < snd b a)%Z ->
  (region D d (fst b, upd (snd b) a m) x <-> region D d b x /\ x a <= d a * IZR m)
  /\ (region D d (upd (fst b) a m, snd b) x <-> region D d b x /\ d a * IZR m <= x a).
Proof.
  intros Hd Ha Hm. assert (M1 : d a * IZR m <= d a * IZR (snd b a)) by (apply Rmult_le_compat_l; [lra|apply IZR_le; lia]).
  assert (M2 : d a * IZR (fst b a) <= d a * IZR m) by (apply Rmult_le_compat_l; [lra|apply IZR_le; lia]).
  unfold region. cbn [fst snd]. split; split.
  - intros H. split; [|specialize (H a Ha); rewrite upd_eq in H; lra]. intros i Hi. specialize (H i Hi). destruct (Z.eq_dec i a) as [->|]; [rewrite upd_eq in H|rewrite upd_neq in H by auto]; lra.
  - intros (H & Hx) i Hi. specialize (H i Hi). destruct (Z.eq_dec i a) as [->|]; [rewrite upd_eq|rewrite upd_neq by auto]; lra.
  - intros H. split; [|specialize (H a Ha); rewrite upd_eq in H; lra]. intros i Hi. specialize (H i Hi). destruct (Z.eq_dec i a) as [->|]; [rewrite upd_eq in H|rewrite upd_neq in H by auto]; lra.
  - intros (H & Hx) i Hi. specialize (H i Hi). destruct (Z.eq_dec i a) as [->|]; [rewrite upd_eq|rewrite upd_neq by auto]; lra.
Qed.
Lemma inside_region d b x : inside d b x -> region D d b x.
Proof. intros H i Hi. specialize (H i Hi). lra. Qed.

Lemma split_parts (d : Z -> R) K (b : box) a m (p q0 q1 : polyN RN) : 0 < d a -> (0 <= a < D)%Z -> (fst b a < m < snd b a)%Z ->
  (0 < nvN RN p <= MX)%Z -> convexN D p -> part d K b p -> rNd_split RN MX D fuel p (d a * IZR m) a = OK (q0, q1) ->
  (0 <= nvN RN q0 <= MX)%Z /\ (0 <= nvN RN q1 <= MX)%Z /\ convexN D q0 /\ convexN D q1
  /\ part d K (fst b, upd (snd b) a m) q0 /\ part d K (upd (fst b) a m, snd b) q1.
Proof.
  intros Hd Ha Hm Hn Cv [(X & _)|P] E; [lia|].
  destruct (split_hull MX D fuel HD Hf p (d a * IZR m) a ltac:(lia) Ha Cv) as [(p0 & p1 & E' & R0 & R1 & _ & _ & C0 & C1 & H0 & H1)|(_ & E')]; [|rewrite E in E'; discriminate].
  rewrite E in E'. injection E' as <- <-. split; auto. split; auto. split; auto. split; auto. split.
  - destruct H0 as [H0|(Z0 & H0)].
    + right. intros x. rewrite H0, P. destruct (region_split d b a m x Hd Ha Hm) as (S0 & _). rewrite S0. tauto.
    + left. split; auto. intros x Kx Ix. pose proof (inside_region _ _ _ Ix) as Rx. apply (region_split d b a m x Hd Ha Hm) in Rx as (Rx & _).
      assert (Hx : hullP D p x) by (apply P; auto). apply H0 in Hx. specialize (Ix a Ha). cbn [fst snd] in Ix. rewrite upd_eq in Ix. lra.
  - destruct H1 as [H1|(Z0 & H1)].
    + right. intros x. rewrite H1, P. destruct (region_split d b a m x Hd Ha Hm) as (_ & S0). rewrite S0. tauto.
    + left. split; auto. intros x Kx Ix. pose proof (inside_region _ _ _ Ix) as Rx. apply (region_split d b a m x Hd Ha Hm) in Rx as (Rx & _).
      assert (Hx : hullP D p x) by (apply P; auto). apply H1 in Hx. specialize (Ix a Ha). cbn [fst snd] in Ix. rewrite upd_eq in Ix. lra.
Qed.

Lemma rast_parts d K p b l : vrast d p b l -> (forall i, (0 <= i < D)%Z -> 0 < d i) -> (0 <= nvN RN p <= MX)%Z -> convexN D p -> part d K b p ->
  (forall x, In x l -> (0 < nvN RN (snd x) <= MX)%Z /\ convexN D (snd x) /\ forall y, hullP D (snd x) y <-> K y /\ region D d (fst x) y)
  /\ (forall c, in_cells D b c -> (exists x, In x l /\ forall i, (0 <= i < D)%Z -> fst (fst x) i = c i) \/ forall y, K y -> ~ inside_cell D d c y).
Proof.
  intros RA Hd. induction RA as [p b H0|p b H0 H1|p b o a m q0 q1 l0 l1 H0 Ha Hm Hs R0 IH0 R1 IH1]; intros Hn Cv P.
  - split; [intros x []|]. intros c Hc. right. intros y Ky Iy.
    assert (Ib : inside d b y).
    { intros i Hi. specialize (Hc i Hi). specialize (Iy i Hi). pose proof (Hd i Hi).
      assert (d i * IZR (fst b i) <= d i * IZR (c i)) by (apply Rmult_le_compat_l; [lra|apply IZR_le; lia]).
      assert (d i * IZR (c i + 1) <= d i * IZR (snd b i)) by (apply Rmult_le_compat_l; [lra|apply IZR_le; lia]). lra. }
    destruct P as [(_ & P)|P]; [exact (P y Ky Ib)|]. assert (Hy : hullP D p y) by (apply P; split; auto; now apply inside_region).
    unfold hullP in Hy. replace (nvN RN p) with 0%Z in Hy by lia. exact (HullN.hullN_0 _ _ _ Hy).
  - split.
    + intros x [<-|[]]. cbn [fst snd]. split; [lia|]. split; auto. destruct P as [(X & _)|P]; [lia|auto].
    + intros c Hc. left. exists (b, p). split; [now left|]. intros i Hi. cbn [fst]. specialize (Hc i Hi). specialize (H1 i Hi). lia.
  - destruct (split_parts d K b a m p q0 q1 (Hd a Ha) Ha Hm ltac:(lia) Cv P Hs) as (N0 & N1 & C0 & C1 & P0 & P1).
    destruct (IH0 N0 C0 P0) as (A0 & B0). destruct (IH1 N1 C1 P1) as (A1 & B1). split.
    + intros x Hx. apply in_app_or in Hx as [Hx|Hx]; auto.
    + intros c Hc. destruct (Z_lt_le_dec (c a) m) as [L|L].
      * destruct (B0 c) as [(x & Hx & E)|Y]; [|left; exists x; split; auto; apply in_or_app; auto|auto].
        intros i Hi. specialize (Hc i Hi). cbn [fst snd]. destruct (Z.eq_dec i a) as [->|]; [rewrite upd_eq|rewrite upd_neq by auto]; lia.
      * destruct (B1 c) as [(x & Hx & E)|Y]; [|left; exists x; split; auto; apply in_or_app; auto|auto].
        intros i Hi. specialize (Hc i Hi). cbn [fst snd]. destruct (Z.eq_dec i a) as [->|]; [rewrite upd_eq|rewrite upd_neq by auto]; lia.
Qed.

Lemma rast_sum d K B p b l : vrast d p b l -> (forall i, (0 <= i < D)%Z -> 0 < d i) -> off_grid D d B K -> sub_box D b B -> VoxFacts.proper D b ->
  (0 <= nvN RN p <= MX)%Z -> solidN D p -> part d K b p -> lsum l (fun x => volN D (snd x)) = volN D p.
Proof.
  intros RA Hd OG. induction RA as [p b H0|p b H0 H1|p b o a m q0 q1 l0 l1 H0 Ha Hm Hs R0 IH0 R1 IH1]; intros SB PR Hn S P.
  - rewrite volN_0 by lia. reflexivity.
  - cbn [lsum snd]. lra.
  - pose proof (solid_convex D p S) as Cv.
    destruct (split_parts d K b a m p q0 q1 (Hd a Ha) Ha Hm ltac:(lia) Cv P Hs) as (N0 & N1 & C0 & C1 & P0 & P1).
    destruct (split_boxes D b a m PR Ha Hm) as (PR0 & PR1 & SB0 & SB1).
    destruct (split_reduce MX D fuel HD Hf p q0 q1 (d a * IZR m) a ltac:(lia) Ha S) as (S0 & S1 & SU); [|exact Hs|].
    { intros v Hv. apply (OG b a m (ps (vbN RN p) v)); auto. destruct P as [(X & _)|P]; [lia|].
      destruct (vertex_extreme D p v ltac:(lia) S Hv) as (X1 & X2). split; [now apply P|]. intros y z Hy Hz. apply X2; now apply P. }
    rewrite lsum_app, IH0, IH1; auto; try lra; eapply sub_box_trans; eauto.
Qed.

Lemma rast_solid d K B p b l : vrast d p b l -> (forall i, (0 <= i < D)%Z -> 0 < d i) -> off_grid D d B K -> sub_box D b B -> VoxFacts.proper D b ->
  (0 <= nvN RN p <= MX)%Z -> solidN D p -> part d K b p -> forall x, In x l -> solidN D (snd x).
Proof.
  intros RA Hd OG. induction RA as [p b H0|p b H0 H1|p b o a m q0 q1 l0 l1 H0 Ha Hm Hs R0 IH0 R1 IH1]; intros SB PR Hn S P x Hx.
  - destruct Hx.
  - destruct Hx as [<-|[]]. exact S.
  - pose proof (solid_convex D p S) as Cv.
    destruct (split_parts d K b a m p q0 q1 (Hd a Ha) Ha Hm ltac:(lia) Cv P Hs) as (N0 & N1 & C0 & C1 & P0 & P1).
    destruct (split_boxes D b a m PR Ha Hm) as (PR0 & PR1 & SB0 & SB1).
    destruct (split_reduce MX D fuel HD Hf p q0 q1 (d a * IZR m) a ltac:(lia) Ha S) as (S0 & S1 & _); [|exact Hs|].
    { intros v Hv. apply (OG b a m (ps (vbN RN p) v)); auto. destruct P as [(X & _)|P]; [lia|].
      destruct (vertex_extreme D p v ltac:(lia) S Hv) as (X1 & X2). split; [now apply P|]. intros y z Hy Hz. apply X2; now apply P. }
    apply in_app_or in Hx as [Hx|Hx]; [apply IH1|apply IH0]; auto; eapply sub_box_trans; eauto.
Qed.

(** ** [rNd_voxelize] *)
Lemma vox_cases ltd0 stk0 mom0 (p : polyN RN) B (gr d : Z -> R) : (0 < nvN RN p <= MX)%Z -> convexN D p -> box_okN D B ->
  (exists gr' l, rNd_voxelize RN MX D fuel stk0 mom0 ltd0 p B gr d = OK gr' /\ vrast d p B l
      /\ NoDup (map (fun x => cellN D B (fst (fst x))) l) /\ gridded RN (reduceN RN MX D ltd0) 1 (cellN D B) l gr gr')
  \/ (rNd_voxelize RN MX D fuel stk0 mom0 ltd0 p B gr d = Err OutOfBounds
      /\ exists q c a, (0 < nvN RN q <= MX)%Z /\ convexN D q /\ (forall x, hullP D q x -> hullP D p x) /\ (0 <= a < D)%Z
         /\ rNd_split RN MX D fuel q c a = Err OutOfBounds /\ (MX < nvN RN q * (D + 1))%Z).
Proof.
  intros Hn Cv HB.
  destruct (vox_run (fun _ q => (0 <= nvN RN q <= MX)%Z /\ convexN D q /\ forall x, hullP D q x -> hullP D p x) (fun q => (MX < nvN RN q * (D + 1))%Z)
    ltd0 stk0 mom0 p B gr d) as [X|(E & k & q & c & a & (Q1 & Q2 & Q3) & Q4 & Q5 & Q6 & Q7)]; auto.
  - intros k q c a Hk (Q1 & Q2 & Q3) Q4 Ha.
    destruct (split_hull MX D fuel HD Hf q c a Q1 Ha Q2) as [(p0 & p1 & E' & R0 & R1 & _ & _ & C0 & C1 & H0 & H1)|(X & E')]; [left|right; auto].
    exists p0, p1. split; auto. split; (split; [auto|split; [auto|]]).
    + destruct H0 as [H0|(Z0 & H0)]; [intros x X; apply H0 in X; apply Q3; tauto|]. intros x X. exfalso. unfold hullP in X. rewrite Z0 in X. exact (HullN.hullN_0 _ _ _ X).
    + destruct H1 as [H1|(Z0 & H1)]; [intros x X; apply H1 in X; apply Q3; tauto|]. intros x X. exfalso. unfold hullP in X. rewrite Z0 in X. exact (HullN.hullN_0 _ _ _ X).
  - intros k q (Q1 & Q2 & _). auto.
  - split; [lia|]. auto.
  - lia.
  - right. split; auto. exists q, c, a. split; [lia|]. auto 10.
Qed.

Theorem vox_room ltd0 stk0 mom0 (p : polyN RN) B (gr d : Z -> R) : (0 <= nvN RN p)%Z -> (nvN RN p * (D + 1) ^ levels D B <= MX)%Z -> convexN D p -> box_okN D B ->
  exists gr', rNd_voxelize RN MX D fuel stk0 mom0 ltd0 p B gr d = OK gr'.
Proof.
  intros Hn HM Cv HB. rewrite levels_depth in HM. pose proof (depth_nonneg D B) as DN.
  assert (PP : forall k, (0 <= k)%Z -> (1 <= (D + 1) ^ k)%Z) by (intros k Hk; assert (0 < (D + 1) ^ k)%Z by (apply Z.pow_pos_nonneg; lia); lia).
  destruct (Z.eq_dec (nvN RN p) 0) as [E|E]; [exists gr; unfold rNd_voxelize; rewrite E; reflexivity|].
  destruct (vox_run (fun k q => (0 <= nvN RN q <= MX)%Z /\ convexN D q /\ ((0 <= k)%Z -> (nvN RN q * (D + 1) ^ k <= MX)%Z)) (fun q => False)
    ltd0 stk0 mom0 p B gr d) as [(gr' & l & X & _)|(_ & k & q & c & a & (Q1 & Q2 & Q3) & Q4 & Q5 & Q6 & [])]; auto; [| | | |lia|eauto].
  - intros k k' q Hk (Q1 & Q2 & Q3). split; auto. split; auto. intros H0. specialize (Q3 ltac:(lia)).
    assert ((D + 1) ^ k' <= (D + 1) ^ k)%Z by (apply Z.pow_le_mono_r; lia). nia.
  - intros k q c a Hk (Q1 & Q2 & Q3) Q4 Ha. specialize (Q3 ltac:(lia)).
    assert (PK : ((D + 1) ^ k = (D + 1) * (D + 1) ^ (k - 1))%Z) by (rewrite <- Z.pow_succ_r by lia; f_equal; lia).
    pose proof (PP (k - 1)%Z ltac:(lia)) as PK1. rewrite PK in Q3.
    destruct (split_hull MX D fuel HD Hf q c a Q1 Ha Q2) as [(p0 & p1 & E' & R0 & R1 & L0 & L1 & C0 & C1 & _ & _)|(X & E')]; [left|nia].
    exists p0, p1. split; auto. split; (split; [auto|split; [auto|]]); intros _; nia.
  - intros k q (Q1 & Q2 & _). auto.
  - pose proof (PP (depth D B) DN). split; [nia|]. split; auto.
Qed.

Theorem vox_cells ltd0 stk0 mom0 (p : polyN RN) B (gr gr' d : Z -> R) : (0 <= nvN RN p <= MX)%Z -> convexN D p -> box_okN D B ->
  (forall i, (0 <= i < D)%Z -> 0 < d i) -> (forall x, hullP D p x -> region D d B x) ->
  rNd_voxelize RN MX D fuel stk0 mom0 ltd0 p B gr d = OK gr' ->
  exists l : list ((Z -> Z) * polyN RN), NoDup (map (fun x => cellN D B (fst x)) l)
  /\ (forall c q, In (c, q) l -> in_cells D B c /\ (0 < nvN RN q <= MX)%Z /\ convexN D q /\ (solidN D p -> off_grid D d B (hullP D p) -> solidN D q)
        /\ (forall x, hullP D q x <-> hullP D p x /\ in_cell D d c x)
        /\ exists t, rNd_reduce RN MX D ltd0 q = OK t /\ gr' (cellN D B c) = gr (cellN D B c) + t)
  /\ (forall c, in_cells D B c -> (exists c' q, In (c', q) l /\ forall i, (0 <= i < D)%Z -> c' i = c i) \/ forall x, hullP D p x -> ~ inside_cell D d c x)
  /\ (forall e, (forall c q, In (c, q) l -> e <> cellN D B c) -> gr' e = gr e)
  /\ (solidN D p -> off_grid D d B (hullP D p) -> forall t, rNd_reduce RN MX D ltd0 p = OK t ->
        lsum (zrange (ncells D B)) (fun e => gr' e - gr e) = t).
Proof.
  intros Hn Cv HB Hd HR E.
  assert (Pr : VoxFacts.proper D B) by (intros i Hi; destruct (proj1 HB i Hi) as (_ & X & _); exact X).
  destruct (Z.eq_dec (nvN RN p) 0) as [E0|E0].
  { unfold rNd_voxelize in E. rewrite E0 in E. cbn in E. injection E as <-. exists []. split; [constructor|]. split; [intros c q []|]. split.
    - intros c Hc. right. intros x Hx. exfalso. unfold hullP in Hx. rewrite E0 in Hx. exact (HullN.hullN_0 _ _ _ Hx).
    - split; auto. intros S _ t Ht. rewrite (reduce_convex MX D ltd0 p) in Ht by (auto; lia). rewrite volN_0 in Ht by auto. injection Ht as <-.
      apply lsum_0. intros; lra. }
  destruct (vox_cases ltd0 stk0 mom0 p B gr d ltac:(lia) Cv HB) as [(g2 & l & E2 & RA & ND & G1 & G2)|(E2 & _)]; [|rewrite E in E2; discriminate].
  rewrite E in E2. injection E2 as <-.
  assert (P : part d (hullP D p) B p) by (right; intros x; split; [auto|tauto]).
  destruct (rast_parts d (hullP D p) p B l RA Hd Hn Cv P) as (A1 & A2).
  pose proof (rast_leaves RN D (nvN RN) _ _ p B l RA Pr) as Lv. rewrite Forall_forall in Lv.
  assert (GV : forall x, In x l -> gr' (cellN D B (fst (fst x))) = gr (cellN D B (fst (fst x))) + volN D (snd x)).
  { intros x Hx. destruct (A1 x Hx) as (X1 & X2 & X3). destruct (G1 x Hx) as (m0 & mom & Er & Eg). specialize (Eg 0%Z ltac:(lia)).
    rewrite Z.mul_1_l, Z.add_0_r in Eg. unfold reduceN in Er. rewrite (reduce_convex MX D ltd0 (snd x)) in Er by (auto; lia). cbn [bind] in Er. rewrite wr_ok in Er by lia. injection Er as <-.
    rewrite upd_eq in Eg. exact Eg. }
  exists (map (fun x => (fst (fst x), snd x)) l). split; [rewrite map_map; exact ND|]. split; [|split; [|split]].
  - intros c q Hc. apply in_map_iff in Hc as (x & Ex & Hx). injection Ex as <- <-. destruct (A1 x Hx) as (X1 & X2 & X3). destruct (Lv x Hx) as (S & _ & U).
    split; [intros i Hi; specialize (S i Hi); specialize (U i Hi); lia|]. split; auto. split; auto. split; [|split].
    + intros SP OG. exact (rast_solid d (hullP D p) B p B l RA Hd OG (sub_box_refl D B) Pr Hn SP P x Hx).
    + intros y. rewrite X3. unfold region, in_cell. split; intros (Y1 & Y2); split; auto; intros i Hi; specialize (Y2 i Hi); specialize (U i Hi); rewrite U in *; auto.
    + exists (volN D (snd x)). split; [apply reduce_convex; auto; lia|auto].
  - intros c Hc. destruct (A2 c Hc) as [(x & Hx & Ex)|Y]; [left|auto]. exists (fst (fst x)), (snd x). split; auto. apply in_map_iff. exists x. auto.
  - intros e He. apply G2. intros x Hx X. apply (He (fst (fst x)) (snd x)); [apply in_map_iff; exists x; auto|lia].
  - intros S OG t Ht. rewrite (reduce_convex MX D ltd0 p) in Ht by (auto; lia). injection Ht as <-.
    rewrite <- (rast_sum d (hullP D p) B p B l RA Hd OG (sub_box_refl D B) Pr Hn S P). rewrite ncells_vol.
    rewrite (Vox2.lsum_cells l (fun x => cellN D B (fst (fst x))) (vol D B)); auto.
    + apply lsum_ext. intros x Hx. rewrite (GV x Hx). lra.
    + intros x Hx. destruct (Lv x Hx) as (SB & _ & U). rewrite cellN_horner. apply (horner_range D B D); try lia. intros i Hi. specialize (SB i Hi). specialize (U i Hi). lia.
    + intros c Hc Hni. rewrite G2; [lra|]. intros x Hx X. apply Hni. apply in_map_iff. exists x. split; auto. lia.
Qed.
End R.
