(** * VoxJ: [rNd_voxelize] adds to each cell the volume of the part of the polytope in it. *)
From Coq Require Import Reals ZArith List Bool Lia Lra Psatz.
From Verif Require Import Base Lib ModelCommon ModelN ModelV ModelNC ModelNV SumR SpecN SpecNP SpecNR SpecNV SpecNJ RealNum FlagR SplitN VoxFacts VoxN MonoN ContN.
From Verif Require PolyN UniqJ.
Import ListNotations.
Open Scope R_scope.

Lemma content_ext D (K K' : (Z -> R) -> Prop) t : (forall x, K x <-> K' x) -> content D K t -> content D K' t.
Proof.
  intros E H e He. destruct (H e He) as ((l & (P1 & P2) & P3) & (l' & (C1 & C2) & C3)). split; [exists l|exists l']; split; auto.
  - split; auto. intros b Hb. destruct (P1 b Hb) as (X1 & X2). split; auto. intros x Hx. now apply E, X2.
  - split; auto. intros x Hx. apply C2. now apply E.
Qed.

Lemma lprod_one (l : list Z) a i : NoDup l -> In i l -> lprod l (fun j => if (j =? i)%Z then a else 1) = a.
Proof.
  induction l as [|k l IH]; intros N []; inversion N as [|? ? N1 N2]; subst; cbn [lprod].
  - rewrite Z.eqb_refl, lprod_1; [ring|]. intros j Hj. destruct (Z.eqb_spec j i); [subst; contradiction|auto].
  - destruct (Z.eqb_spec k i); [subst; contradiction|]. rewrite IH by auto. ring.
Qed.
Lemma lprod_if (l : list Z) a w i : NoDup l -> In i l -> lprod l (fun j => if (j =? i)%Z then a else w j) = a * lprod l (fun j => if (j =? i)%Z then 1 else w j).
Proof.
  intros N I. transitivity (lprod l (fun j => if (j =? i)%Z then a else 1) * lprod l (fun j => if (j =? i)%Z then 1 else w j)); [|now rewrite lprod_one].
  rewrite <- lprod_mul. apply lprod_ext. intros j _. destruct (Z.eqb_spec j i); ring.
Qed.

(** a set in the boundary of a box *)
Lemma thin D b (K : (Z -> R) -> Prop) : (0 <= D)%Z -> real_box D b -> (forall x, K x -> inb D b x /\ ~ insideb D b x) -> content D K 0.
Proof.
  intros HD RB HK e He. split; [exists []; split; [split; [intros ? []|constructor]|cbn; lra]|].
  set (rest := fun i => lprod (zrange D) (fun j => if (j =? i)%Z then 1 else snd b j - fst b j)).
  assert (RP : forall i, 0 <= rest i).
  { intros i. unfold rest. assert (G : forall l, (forall j, In j l -> (0 <= j < D)%Z) -> 0 <= lprod l (fun j => if (j =? i)%Z then 1 else snd b j - fst b j)).
    { induction l as [|k l IH]; intros Hl; cbn [lprod]; [lra|]. apply Rmult_le_pos; [|apply IH; intros; apply Hl; now right].
      destruct (k =? i)%Z; [lra|]. specialize (RB k (Hl k (or_introl eq_refl))). lra. }
    apply G. intros j Hj. now apply in_zrange. }
  set (S := lsum (zrange D) rest). assert (S0 : 0 <= S) by (apply PolyN.lsum_nonneg; auto).
  set (t := e / (4 * (S + 1))). assert (Ht : 0 < t) by (apply Rdiv_lt_0_compat; lra).
  set (slab := fun i s => (upd (fst b) i (s - t), upd (snd b) i (s + t)) : boxR).
  assert (SV : forall i s, In i (zrange D) -> box_vol D (slab i s) = 2 * t * rest i).
  { intros i s Hi. rewrite box_vol_bvol. unfold bvol, slab. cbn [fst snd]. unfold rest. rewrite <- (lprod_if (zrange D) (2 * t) (fun j => snd b j - fst b j) i (NoDup_zrange D) Hi).
    apply lprod_ext. intros j _. destruct (Z.eqb_spec j i) as [->|]; [rewrite !upd_eq; lra|rewrite !upd_neq by auto; auto]. }
  assert (SR : forall i s, real_box D (slab i s)).
  { intros i s j Hj. unfold slab. cbn [fst snd]. destruct (Z.eq_dec j i) as [->|]; [rewrite !upd_eq; lra|rewrite !upd_neq by auto; auto]. }
  assert (SI : forall i s x, inb D b x -> x i = s -> inb D (slab i s) x).
  { intros i s x Hx E j Hj. unfold slab. cbn [fst snd]. destruct (Z.eq_dec j i) as [->|]; [rewrite !upd_eq; lra|rewrite !upd_neq by auto; auto]. }
  exists (flat_map (fun i => [slab i (fst b i); slab i (snd b i)]) (zrange D)). split; [split|].
  - intros c Hc. apply in_flat_map in Hc as (i & _ & [<-|[<-|[]]]); auto.
  - intros x Hx. destruct (HK x Hx) as (Ib & Nb).
    destruct (existsb (fun i => if Req_EM_T (x i) (fst b i) then true else if Req_EM_T (x i) (snd b i) then true else false) (zrange D)) eqn:E.
    + apply existsb_exists in E as (i & Hi & E). destruct (Req_EM_T (x i) (fst b i)) as [E1|_].
      * exists (slab i (fst b i)). split; auto. apply in_flat_map. exists i. split; auto. now left.
      * destruct (Req_EM_T (x i) (snd b i)) as [E1|_]; [|discriminate]. exists (slab i (snd b i)). split; auto. apply in_flat_map. exists i. split; auto. right. now left.
    + exfalso. apply Nb. intros i Hi. specialize (Ib i Hi). apply Bool.not_true_iff_false in E.
      assert (Q : x i <> fst b i /\ x i <> snd b i); [|lra].
      split; intros Ei; apply E, existsb_exists; exists i; (split; [now apply in_zrange|]); destruct (Req_EM_T (x i) (fst b i)); auto; destruct (Req_EM_T (x i) (snd b i)); auto.
  - rewrite lsum_flat_map. rewrite (lsum_ext _ _ (fun i => 4 * t * rest i)); [|intros i Hi; cbn [lsum]; rewrite !SV by auto; ring].
    rewrite lsum_scal. fold S. unfold t. apply Rle_trans with (4 * (e / (4 * (S + 1))) * (S + 1)); [apply Rmult_le_compat_l; fold t; lra|]. right. field. lra.
Qed.

Theorem vox_content MX D fuel ltd0 stk0 mom0 (p : polyN RN) B (gr gr' d : Z -> R) : (3 <= D)%Z -> (Z.to_nat (MX * D * D * D) <= fuel)%nat ->
  (0 <= nvN RN p <= MX)%Z -> solidN D p -> box_okN D B -> (forall i, (0 <= i < D)%Z -> 0 < d i) -> (forall x, hullP D p x -> region D d B x) ->
  off_grid D d B (hullP D p) -> rNd_voxelize RN MX D fuel stk0 mom0 ltd0 p B gr d = OK gr' ->
  forall c, in_cells D B c -> content D (fun x => hullP D p x /\ in_cell D d c x) (gr' (cellN D B c) - gr (cellN D B c)).
Proof.
  intros HD Hf Hn S HB Hd HR OG E c Hc.
  destruct (vox_cells MX D fuel HD Hf ltd0 stk0 mom0 p B gr gr' d Hn (solid_convex D p S) HB Hd HR E) as (l & ND & A1 & A2 & A3 & _).
  assert (ID : forall c', in_cells D B c' -> cellN D B c' = cellN D B c -> forall i, (0 <= i < D)%Z -> c' i = c i).
  { intros c' Hc' Ec. rewrite !cellN_horner in Ec. apply (horner_inj D B D c' c); auto; lia. }
  assert (CE : forall c', (forall i, (0 <= i < D)%Z -> c' i = c i) -> cellN D B c' = cellN D B c).
  { intros c' H. unfold cellN. assert (G : forall l a, (forall i, In i l -> (0 <= i < D)%Z) ->
      fold_left (fun s i => (s * (snd B i - fst B i) + (c' i - fst B i))%Z) l a = fold_left (fun s i => (s * (snd B i - fst B i) + (c i - fst B i))%Z) l a).
    { induction l0 as [|k l0 IH]; intros a Hl; cbn [fold_left]; auto. rewrite H by (apply Hl; now left). apply IH. intros; apply Hl; now right. }
    apply G. intros i Hi. now apply in_zrange. }
  destruct (A2 c Hc) as [(c' & q & Hq & Ec)|Y].
  - destruct (A1 c' q Hq) as (B1 & B2 & B3 & B4 & B5 & t & T1 & T2). rewrite (CE c' Ec) in T2. rewrite T2.
    rewrite (reduce_convex MX D ltd0 q) in T1 by (auto; lia). injection T1 as <-.
    replace (gr (cellN D B c) + volN D q - gr (cellN D B c)) with (volN D q) by lra.
    apply (content_ext D (hullP D q)); [|apply vol_content; auto; split; [lia|auto]].
    intros x. rewrite B5. assert (in_cell D d c' x <-> in_cell D d c x); [|tauto]. unfold in_cell. split; intros H i Hi; specialize (H i Hi); rewrite Ec in * by auto; auto.
  - assert (Z0 : gr' (cellN D B c) = gr (cellN D B c) \/ exists c' q, In (c', q) l /\ forall i, (0 <= i < D)%Z -> c' i = c i).
    { destruct (in_dec Z.eq_dec (cellN D B c) (map (fun x => cellN D B (fst x)) l)) as [I|I].
      - right. apply in_map_iff in I as ((c' & q) & Ec & Hq). exists c', q. split; auto. apply ID; auto. apply (A1 c' q Hq).
      - left. apply A3. intros c' q Hq X. apply I. apply in_map_iff. exists (c', q). auto. }
    destruct Z0 as [Z0|(c' & q & Hq & Ec)].
    + rewrite Z0. replace (gr (cellN D B c) - gr (cellN D B c)) with 0 by lra.
      apply (thin D (fun i => d i * IZR (c i), fun i => d i * IZR (c i + 1))); [lia| |].
      * intros i Hi. cbn [fst snd]. rewrite plus_IZR. specialize (Hd i Hi). nra.
      * intros x (Hx & Ix). split; [exact Ix|]. intros N. exact (Y x Hx N).
    + destruct (A1 c' q Hq) as (B1 & B2 & B3 & B4 & B5 & t & T1 & T2). rewrite (CE c' Ec) in T2. rewrite T2.
      rewrite (reduce_convex MX D ltd0 q) in T1 by (auto; lia). injection T1 as <-.
      replace (gr (cellN D B c) + volN D q - gr (cellN D B c)) with (volN D q) by lra.
      apply (content_ext D (hullP D q)); [|apply vol_content; auto; split; [lia|auto]].
      intros x. rewrite B5. assert (in_cell D d c' x <-> in_cell D d c x); [|tauto]. unfold in_cell. split; intros H i Hi; specialize (H i Hi); rewrite Ec in * by auto; auto.
Qed.
