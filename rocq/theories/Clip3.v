(** * Clip3: structural facts about [r3d_clip], [r3d_split], [r3d_split_coord]
    for every arithmetic. *)
From Coq Require Import ZArith List Bool Lia.
From Verif Require Import Base Lib ModelCommon CommonFacts Model3 Spec2 Spec3 Orb3 Cut3 Clip2 Struct3.
Import ListNotations.
Open Scope Z_scope.

Section C.
Context (NN : num) (MX : Z).
Notation rv := (rvec3 (T NN)).
Notation buf := (vbuf rv).
Notation pol := (poly rv).
Notation plane := (plane3 (T NN)).
Notation minf := (minf NN). Notation maxf := (maxf NN).

(** signed distance as computed by the code *)
Definition sdf3 (pl : plane) (b : buf) (v : Z) : T NN :=
  nadd NN (d3 pl) (dot3 NN (ps b v) (n3 pl)).

Lemma clip3_sd_spec b n pl : 0 <= n <= MX ->
  exists s, clip3_sd NN MX b n pl = OK s
  /\ (forall v, 0 <= v < n -> sdists3 NN s v = Some (sdf3 pl b v))
  /\ (forall v, 0 <= v < n -> clipped3 NN s v = if nlt NN (sdf3 pl b v) (n0 NN) then 1 else 0)
  /\ (forall v, n <= v -> clipped3 NN s v = 0)
  /\ smin3 NN s = minf (sdf3 pl b) n (nbig NN)
  /\ smax3 NN s = maxf (sdf3 pl b) n (nopp NN (nbig NN)).
Proof.
  intros Hn. unfold clip3_sd.
  destruct (for_inv (fun i s =>
     (forall v, 0 <= v < i -> sdists3 NN s v = Some (sdf3 pl b v))
  /\ (forall v, 0 <= v < i -> clipped3 NN s v = if nlt NN (sdf3 pl b v) (n0 NN) then 1 else 0)
  /\ (forall v, i <= v -> clipped3 NN s v = 0)
  /\ smin3 NN s = minf (sdf3 pl b) i (nbig NN)
  /\ smax3 NN s = maxf (sdf3 pl b) i (nopp NN (nbig NN)))
   0 n (clip3_sd_body NN MX b pl)
   (SD3 NN (fun _ => None) (nbig NN) (nopp NN (nbig NN)) (fun _ => 0))) as (s & E & I);
   try lia; [cbn; repeat split; intros; try reflexivity; lia| |eauto].
  intros i s Hi (H1 & H2 & H3 & H4 & H5). unfold clip3_sd_body.
  rewrite rd_ps_ok by lia. cbn [bind]. rewrite wr_ok by lia. cbn [bind].
  fold (sdf3 pl b i).
  assert (M : minf (sdf3 pl b) (i + 1) (nbig NN)
     = if nlt NN (sdf3 pl b i) (smin3 NN s) then sdf3 pl b i else smin3 NN s).
  { unfold Clip2.minf. rewrite zrange_succ, fold_left_app by lia. cbn [fold_left].
    fold (minf (sdf3 pl b) i (nbig NN)). now rewrite <- H4. }
  assert (M' : maxf (sdf3 pl b) (i + 1) (nopp NN (nbig NN))
     = if nlt NN (smax3 NN s) (sdf3 pl b i) then sdf3 pl b i else smax3 NN s).
  { unfold Clip2.maxf. rewrite zrange_succ, fold_left_app by lia. cbn [fold_left].
    fold (maxf (sdf3 pl b) i (nopp NN (nbig NN))). now rewrite <- H5. }
  destruct (nlt NN (sdf3 pl b i) (n0 NN)) eqn:Eb; cbn [bind]; rewrite ?wr_ok by lia; cbn [bind];
    (eexists; split; [reflexivity|]); cbn [sdists3 clipped3 smin3 smax3]; rewrite M, M';
    (split; [|split; [|split; [|split; reflexivity]]]).
  - intros v Hv. destruct (Z.eq_dec v i); [subst; now rewrite upd_eq|]. rewrite upd_neq by lia. apply H1. lia.
  - intros v Hv. destruct (Z.eq_dec v i); [subst; now rewrite upd_eq, Eb|]. rewrite upd_neq by lia. apply H2. lia.
  - intros v Hv. rewrite upd_neq by lia. apply H3. lia.
  - intros v Hv. destruct (Z.eq_dec v i); [subst; now rewrite upd_eq|]. rewrite upd_neq by lia. apply H1. lia.
  - intros v Hv. destruct (Z.eq_dec v i); [subst; rewrite Eb; apply H3; lia|]. apply H2. lia.
  - intros v Hv. apply H3. lia.
Qed.

(** the vertices kept by one plane *)
Definition keepv3 (pl : plane) (b : buf) (v : Z) : bool := negb (nlt NN (sdf3 pl b v) (n0 NN)).

(** the polyhedron [p'] is the side [K] of [p] *)
Definition cut_of (p : pol) (keep : Z -> bool) (newpos : dart -> rv) (N : Z) (p' : pol) : Prop :=
  exists b' K M, (forall v, 0 <= v < nv p -> K v = keep v)
    /\ cut3 (vb p) (nv p) N K newpos M b' /\ compressed 3 K N b' p'.

Lemma cut_of_wf p keep np N p' : wf3 p -> cut_of p keep np N p' -> wf3 p' /\ nv p' <= N.
Proof.
  intros (Hn & L & P) (b' & K & M & HK & C & Hc). split; [eapply compressed_wf3; eauto|].
  destruct Hc as (-> & _). pose proof (cu_n _ _ _ _ _ _ _ C). apply cnt_le. lia.
Qed.

(** What one plane does when it neither misses nor swallows the polyhedron. *)
Lemma clip3_step_spec (p : pol) pl s : wf3 p -> nv p <= MX ->
  clip3_sd NN MX (vb p) (nv p) pl = OK s ->
  let N := nv p + exits 3 (keepv3 pl (vb p)) (nb (vb p)) (nv p) in
  (exists p', clip3_cut NN MX (vb p) (nv p) (sdists3 NN s) (clipped3 NN s) = OK (p', true)
     /\ N <= MX /\ cut_of p (keepv3 pl (vb p)) (newpos3 NN (vb p) (sdf3 pl (vb p))) N p')
  \/ (exists p', clip3_cut NN MX (vb p) (nv p) (sdists3 NN s) (clipped3 NN s) = OK (p', false)
      /\ MX < N).
Proof.
  intros (Hn & L & P) HM E N.
  destruct (clip3_sd_spec (vb p) (nv p) pl) as (s' & E' & H1 & H2 & H3 & _); [lia|].
  rewrite E in E'. inversion E'; subst s'. clear E'.
  assert (HK : forall v, 0 <= v < nv p -> keep0 (clipped3 NN s) v = keepv3 pl (vb p) v).
  { intros v Hv. unfold keep0, keepv3. rewrite H2 by auto.
    destruct (nlt NN (sdf3 pl (vb p) v) (n0 NN)); reflexivity. }
  pose proof (ncross_exits3 (nb (vb p)) (nv p) _ _ Hn L HK) as HC.
  destruct (clip3_cut_spec NN MX (vb p) (nv p) (sdists3 NN s) (sdf3 pl (vb p)) (clipped3 NN s))
    as [(p' & b' & X1 & X2 & X3 & X4)|(p' & X1 & X2)]; auto.
  - left. unfold ncr in *. rewrite HC in *. exists p'. split; auto. split; auto.
    exists b', (keep0 (clipped3 NN s)), (Mc NN (vb p) (nv p) (clipped3 NN s)). auto.
  - right. unfold ncr in *. rewrite HC in *. eauto.
Qed.

(** [r3d_clip] on a valid polyhedron: no fault; status 1 and a valid polyhedron,
    or status 0 and some plane needs more vertices than the buffer holds. *)
Lemma clip3_planes_struct planes : forall p : pol, wf3 p -> nv p <= MX ->
  (exists p', clip3_planes NN MX planes p = OK (p', 1) /\ wf3 p' /\ nv p' <= MX)
  \/ (exists p', clip3_planes NN MX planes p = OK (p', 0)
      /\ exists pre pl post q, planes = pre ++ pl :: post
         /\ clip3_planes NN MX pre p = OK (q, 1)
         /\ MX < nv q + exits 3 (keepv3 pl (vb q)) (nb (vb q)) (nv q)).
Proof.
  induction planes as [|pl rest IH]; intros p Hw HM.
  { left. exists p. cbn. auto. }
  cbn [clip3_planes]. pose proof Hw as (Hn & L & P).
  destruct (clip3_sd_spec (vb p) (nv p) pl) as (s & E & _); [lia|].
  rewrite E. cbn [bind].
  destruct (nle NN (n0 NN) (smin3 NN s)) eqn:Emin.
  { destruct (IH p Hw HM) as [X|(p' & X & pre & pl' & post & q & -> & Y1 & Y2)]; [left; auto|right].
    exists p'. split; auto. exists (pl :: pre), pl', post, q. split; auto. split; auto.
    cbn [clip3_planes]. rewrite E. cbn [bind]. now rewrite Emin. }
  destruct (nle NN (smax3 NN s) (n0 NN)) eqn:Emax.
  { left. eexists. split; [reflexivity|]. cbn [vb nv]. split; [|lia].
    split; [cbn; lia|]. cbn [vb nv]. split.
    - constructor; unfold below; intros; lia.
    - intros d e (A & _). unfold below in A. lia. }
  destruct (clip3_step_spec p pl s Hw HM E) as [(p' & X1 & X2 & X3)|(p' & X1 & X2)].
  2: { right. rewrite X1. cbn [bind]. exists p'. split; auto. exists [], pl, rest, p. auto. }
  rewrite X1. cbn [bind].
  destruct (cut_of_wf _ _ _ _ _ Hw X3) as (W' & M').
  destruct (IH p' W' ltac:(lia)) as [X|(p'' & X & pre & pl' & post & q & -> & Y1 & Y2)]; [left; auto|right].
  exists p''. split; auto. exists (pl :: pre), pl', post, q. split; auto. split; auto.
  cbn [clip3_planes]. rewrite E. cbn [bind]. rewrite Emin, Emax, X1. cbn [bind]. auto.
Qed.

(** The edges that leave a set are at most 3/2 of the vertices. *)
Lemma exits3_le keep f n : 0 <= n -> links f (below n) -> 2 * exits 3 keep f n <= 3 * n.
Proof.
  intros Hn L. rewrite <- (ncross_exits3 f n keep keep Hn L) by auto.
  set (xs := crosses f n keep).
  assert (HI : forall x, In x xs <-> cross f n keep x) by (intros; apply in_crosses; auto).
  assert (ND : NoDup xs) by (apply NoDup_crosses; auto).
  assert (ND2 : NoDup (xs ++ map (dopp f) xs)).
  { assert (NM : NoDup (map (dopp f) xs)).
    { clear -HI ND L. assert (forall x, In x xs -> cross f n keep x) as H by (intros; now apply HI). clear HI.
      induction xs as [|x l IH]; cbn; constructor.
      - intros I. apply in_map_iff in I as (y & E & Hy). inversion ND; subst.
        apply (opp_inj f _ L) in E; [subst; auto|apply H; cbn; auto|apply H; cbn; auto].
      - inversion ND; subst. apply IH; auto. intros; apply H; cbn; auto. }
    assert (DJ : forall x, In x xs -> In x (map (dopp f) xs) -> False).
    { intros x Hx I. apply in_map_iff in I as (y & E & Hy). apply HI in Hx, Hy. subst x.
      pose proof (cross_opp_src f n keep y Hy). destruct Hx as (_ & X & _). congruence. }
    clear -ND NM DJ. revert DJ. induction xs as [|x l IH]; cbn; auto.
    intros DJ. inversion ND; subst. cbn in NM. inversion NM; subst. constructor.
    - intros I. apply in_app_iff in I as [I|I]; auto. apply (DJ x); auto.
    - assert (G : NoDup (l ++ map (dopp f) l)) by (apply IH; auto; intros; eapply DJ; eauto).
      apply NoDup_Add with (a := dopp f x) (l := l ++ map (dopp f) l).
      + apply Add_app.
      + split; auto. intros I. apply in_app_iff in I as [I|I]; [|auto].
        apply (DJ (dopp f x)); auto. }
  assert (INC : incl (xs ++ map (dopp f) xs) (darts 3 n)).
  { intros x Hx. apply in_app_iff in Hx as [Hx|Hx].
    - destruct x. apply in_darts. apply HI in Hx. apply Hx.
    - apply in_map_iff in Hx as (y & <- & Hy). apply HI in Hy. destruct (dopp f y) eqn:E. apply in_darts.
      assert (D : isd (below n) (dopp f y)) by (apply isd_opp; auto; apply Hy). rewrite E in D. apply D. }
  pose proof (NoDup_incl_length ND2 INC) as LE. rewrite app_length, map_length in LE.
  assert (LD : Z.of_nat (length (darts 3 n)) = 3 * n).
  { clear -Hn. pattern n. apply zrange_ind; auto. intros m Hm IH.
    rewrite darts_succ, app_length, map_length by auto. change (length (zrange 3)) with 3%nat. lia. }
  lia.
Qed.

(** ** split *)
Definition rightv3 (pl : plane) (b : buf) (v : Z) : bool := nlt NN (sdf3 pl b v) (n0 NN).

Lemma side_loop3_spec (body : Z -> sidest3 NN -> res (sidest3 NN)) (sd : Z -> T NN) (right : Z -> bool) n :
  0 <= n <= MX ->
  (forall i s, 0 <= i < n -> body i s =
     OK (if right i then SI3 NN (upd (s3_sd NN s) i (Some (sd i))) (upd (s3_side NN s) i 1) (s3_nright NN s + 1)
         else SI3 NN (upd (s3_sd NN s) i (Some (sd i))) (s3_side NN s) (s3_nright NN s))) ->
  exists s, for_ 0 n body (SI3 NN (fun _ => None) (fun _ => 0) 0) = OK s
  /\ (forall v, 0 <= v < n -> s3_sd NN s v = Some (sd v))
  /\ (forall v, 0 <= v < n -> s3_side NN s v = if right v then 1 else 0)
  /\ (forall v, n <= v -> s3_side NN s v = 0)
  /\ s3_nright NN s = cnt right n.
Proof.
  intros Hn HB.
  destruct (for_inv (fun i s =>
     (forall v, 0 <= v < i -> s3_sd NN s v = Some (sd v))
  /\ (forall v, 0 <= v < i -> s3_side NN s v = if right v then 1 else 0)
  /\ (forall v, i <= v -> s3_side NN s v = 0)
  /\ s3_nright NN s = cnt right i) 0 n body
   (SI3 NN (fun _ => None) (fun _ => 0) 0)) as (s & E & I); try lia;
   [cbn; repeat split; intros; try reflexivity; lia| |eauto].
  intros i s Hi (H1 & H2 & H3 & H4). rewrite HB by auto. eexists. split; [reflexivity|].
  rewrite cnt_succ by lia.
  destruct (right i) eqn:Er; cbn [s3_sd s3_side s3_nright];
    (split; [|split; [|split; [|lia]]]); intros v Hv;
    try (destruct (Z.eq_dec v i); [subst; rewrite ?upd_eq, ?Er; auto; apply H3; lia|]);
    rewrite ?upd_neq by lia; try apply H1; try apply H2; try apply H3; lia.
Qed.

Lemma split3_sd_spec b n pl : 0 <= n <= MX ->
  exists s, for_ 0 n (split3_sd_body NN MX b pl) (SI3 NN (fun _ => None) (fun _ => 0) 0) = OK s
  /\ (forall v, 0 <= v < n -> s3_sd NN s v = Some (sdf3 pl b v))
  /\ (forall v, 0 <= v < n -> s3_side NN s v = if rightv3 pl b v then 1 else 0)
  /\ (forall v, n <= v -> s3_side NN s v = 0)
  /\ s3_nright NN s = cnt (rightv3 pl b) n.
Proof.
  intros Hn. apply side_loop3_spec; auto.
  intros i s Hi. unfold split3_sd_body. rewrite rd_ps_ok by lia. cbn [bind].
  rewrite wr_ok by lia. cbn [bind]. fold (sdf3 pl b i). fold (rightv3 pl b i).
  destruct (rightv3 pl b i); auto. rewrite wr_ok by lia. reflexivity.
Qed.

Definition coordv3 (ax : Z) (q : rv) : T NN :=
  if ax =? 0 then x3 q else if ax =? 1 then y3 q else z3 q.
Definition csd3 (coord : T NN) (ax : Z) (b : buf) (v : Z) : T NN := nsub NN (coordv3 ax (ps b v)) coord.
Definition cright3 (coord : T NN) (ax : Z) (b : buf) (v : Z) : bool := nlt NN (n0 NN) (csd3 coord ax b v).

Lemma split3_coord_sd_spec b n coord ax : 0 <= n <= MX -> 0 <= ax < 3 ->
  exists s, for_ 0 n (split3_coord_sd_body NN MX b coord ax) (SI3 NN (fun _ => None) (fun _ => 0) 0) = OK s
  /\ (forall v, 0 <= v < n -> s3_sd NN s v = Some (csd3 coord ax b v))
  /\ (forall v, 0 <= v < n -> s3_side NN s v = if cright3 coord ax b v then 1 else 0)
  /\ (forall v, n <= v -> s3_side NN s v = 0)
  /\ s3_nright NN s = cnt (cright3 coord ax b) n.
Proof.
  intros Hn Hax. apply side_loop3_spec; auto.
  intros i s Hi. unfold split3_coord_sd_body. rewrite rd_ps_ok by lia. cbn [bind].
  assert (vget3 NN (ps b i) ax = OK (coordv3 ax (ps b i))) as ->.
  { unfold vget3, coordv3. destruct (slot3 ax Hax) as [->|[->| ->]]; reflexivity. }
  cbn [bind]. rewrite wr_ok by lia. cbn [bind]. fold (csd3 coord ax b i). fold (cright3 coord ax b i).
  destruct (cright3 coord ax b i); auto. rewrite wr_ok by lia. reflexivity.
Qed.

(** Result of a split that cuts: both outputs are cuts of the input. *)
Definition split3_result (p : pol) (sd : Z -> T NN) (right : Z -> bool) (o0 o1 : pol) : Prop :=
  let N := nv p + 2 * exits 3 (fun v => negb (right v)) (nb (vb p)) (nv p) in
    N <= MX
    /\ cut_of p (fun v => negb (right v)) (newpos3 NN (vb p) sd) N o0
    /\ cut_of p right (newpos3' NN (vb p) sd) N o1
    /\ nv o0 + nv o1 = N.

Lemma split3_core (chk : bool) (p : pol) (sds : Z -> option (T NN)) sd (side : Z -> Z) (right : Z -> bool)
   (o1 : pol) (o0 : buf -> pol)
   (body : buf -> Z -> (pol * pol) * (Z -> Z) -> res ((pol * pol) * (Z -> Z))) :
  wf3 p -> nv p <= MX ->
  (forall v, 0 <= v < nv p -> sds v = Some (sd v)) ->
  (forall v, 0 <= v < nv p -> side v = if right v then 1 else 0) ->
  (forall v, nv p <= v -> side v = 0) ->
  nv o1 = 0 -> (forall b, nv (o0 b) = 0) ->
  (forall b, (forall i s, body b i s = split_copy_body MX b i s)
     \/ (vb (o0 b) = b /\ forall i s, body b i s = split_copy_body MX (vb (fst (fst s))) i s)) ->
  (exists b sde N b', for_ 0 (nv p) (split3_ins_v NN MX chk sds) (vb p, side, nv p, true) = OK (b, sde, N, true)
     /\ relink3 NN MX (nv p) N b = OK b'
     /\ exists q0 q1 side' b0 b1,
        for_ 0 N (body b') ((o0 b', o1), sde) = OK ((q0, q1), side')
        /\ for_ 0 (nv q0) (reindex_loop MX 3 side') (vb q0) = OK b0
        /\ for_ 0 (nv q1) (reindex_loop MX 3 side') (vb q1) = OK b1
        /\ split3_result p sd right (PY b0 (nv q0)) (PY b1 (nv q1)))
  \/ (MX < nv p + 2 * exits 3 (fun v => negb (right v)) (nb (vb p)) (nv p)
      /\ if chk then exists b sde N, for_ 0 (nv p) (split3_ins_v NN MX chk sds) (vb p, side, nv p, true) = OK (b, sde, N, false)
         else for_ 0 (nv p) (split3_ins_v NN MX chk sds) (vb p, side, nv p, true) = Err OutOfBounds).
Proof.
  intros (Hn & L & P) HM Hsd Hsi Hs0 Ho1 Ho0 Hbody.
  assert (HK : forall v, 0 <= v < nv p -> keep0 side v = negb (right v)).
  { intros v Hv. unfold keep0. rewrite Hsi by auto. destruct (right v); reflexivity. }
  pose proof (ncross_exits3 (nb (vb p)) (nv p) _ _ Hn L HK) as HC.
  assert (H01 : forall v, 0 <= v < nv p -> side v = 0 \/ side v = 1).
  { intros v Hv. rewrite Hsi by auto. destruct (right v); auto. }
  destruct (split3_ins_spec NN MX chk (vb p) (nv p) sds sd side)
    as [(b & sde & N & ok & E & HD)|(E & HQ & HO)]; auto.
  2: { right. rewrite <- HC. split; auto. now rewrite HQ in *. }
  destruct ok.
  2: { right. destruct HD as (_ & _ & _ & CK & HO). rewrite <- HC. split; auto. rewrite CK in *. eauto. }
  destruct (split3_relink_spec NN MX chk (vb p) (nv p) sd side ltac:(lia) L H01 b sde N HD)
    as (b' & E2 & EN & S1 & S2 & C0 & C1).
  left. exists b, sde, N, b'. split; auto. split; auto.
  pose proof (cu_n _ _ _ _ _ _ _ C0) as HnN. destruct HD as (HNM & _).
  destruct (copy_reindex_spec MX 3 b' sde N (o0 b') o1 (body b'))
    as (q0 & q1 & sd' & b0 & b1 & F1 & F2 & F3 & F4 & F5); auto; try lia.
  { eapply cut3_closed; eauto. }
  { eapply cut3_closed; eauto. }
  exists q0, q1, sd', b0, b1. split; auto. split; auto. split; auto.
  unfold split3_result. rewrite <- HC, <- EN. split; auto. split; [|split].
  - eexists b', (K0 sde), _. split; [|split; eauto]. intros v Hv. unfold K0. rewrite S2, Hsi by auto. destruct (right v); auto.
  - eexists b', (K1 sde), _. split; [|split; eauto]. intros v Hv. unfold K1. rewrite S2, Hsi by auto. destruct (right v); auto.
  - destruct F4 as (-> & _), F5 as (-> & _). assert (0 <= N) as HN0 by lia. clear - S1 HN0. revert S1.
    pattern N. apply zrange_ind; auto. intros m Hm IH S1. rewrite !cnt_succ by auto.
    assert (cnt (K0 sde) m + cnt (K1 sde) m = m) by (apply IH; intros; apply S1; lia).
    destruct (S1 m ltac:(lia)) as [E|E].
    + assert (K0 sde m = true /\ K1 sde m = false) as (-> & ->) by (unfold K0, K1; rewrite E; auto). lia.
    + assert (K0 sde m = false /\ K1 sde m = true) as (-> & ->) by (unfold K0, K1; rewrite E; auto). lia.
Qed.

Lemma split3_result_wf p sd right o0 o1 : wf3 p -> split3_result p sd right o0 o1 ->
  wf3 o0 /\ wf3 o1 /\ nv o0 + nv o1 = nv p + 2 * exits 3 (fun v => negb (right v)) (nb (vb p)) (nv p)
  /\ nv o0 + nv o1 <= MX.
Proof.
  intros Hw (HM & C0 & C1 & EN).
  split; [eapply cut_of_wf; eauto|]. split; [eapply cut_of_wf; eauto|]. lia.
Qed.

(** which of the cases applies, from the number of vertices on the right *)
Lemma cnt_neg K n : 0 <= n -> cnt K n + cnt (fun v => negb (K v)) n = n.
Proof.
  intros Hn'. pattern n. apply zrange_ind; auto. intros m Hm IH.
  rewrite !cnt_succ by auto. destruct (K m); cbn; lia.
Qed.
Lemma cnt_none K n : 0 <= n -> cnt K n = 0 -> forall v, 0 <= v < n -> K v = false.
Proof.
  intros Hn C0 v Hv. destruct (K v) eqn:R; auto.
  pose proof (cnt_lt _ v n Hv R). pose proof (cnt_nonneg K v). lia.
Qed.
Lemma cnt_all K n : 0 <= n -> cnt K n = n -> forall v, 0 <= v < n -> K v = true.
Proof.
  intros Hn C1 v Hv. apply negb_false_iff. apply (cnt_none (fun v => negb (K v)) n Hn); auto.
  pose proof (cnt_neg K n Hn). lia.
Qed.
Lemma cnt_some K n : 0 <= n -> cnt K n <> 0 -> cnt K n <> n ->
  exists u v, 0 <= u < n /\ 0 <= v < n /\ K u = false /\ K v = true.
Proof.
  intros Hn C0 C1.
  destruct (cnt_surj K n 0) as (v & Hv & Rv & _); auto.
  { pose proof (cnt_nonneg K n). lia. }
  destruct (cnt_surj (fun v => negb (K v)) n 0) as (u & Hu & Ru & _); auto.
  { pose proof (cnt_le K n Hn). pose proof (cnt_neg K n Hn). lia. }
  apply negb_true_iff in Ru. eauto 8.
Qed.

(** [r3d_split] of one polyhedron. *)
Lemma split31_spec pl (p opos oneg : pol) : wf3 p -> nv p <= MX ->
  let right := rightv3 pl (vb p) in
  (nv p = 0 /\ r3d_split1 NN MX pl p opos oneg = OK ((p, (zero_poly3 NN, zero_poly3 NN)), true))
  \/ (0 < nv p /\ (forall v, 0 <= v < nv p -> right v = false)
      /\ r3d_split1 NN MX pl p opos oneg = OK ((p, (p, zero_poly3 NN)), true))
  \/ (0 < nv p /\ (forall v, 0 <= v < nv p -> right v = true)
      /\ r3d_split1 NN MX pl p opos oneg = OK ((p, (zero_poly3 NN, p)), true))
  \/ (exists u v, 0 <= u < nv p /\ 0 <= v < nv p /\ right u = false /\ right v = true
      /\ ((exists q o0 o1, r3d_split1 NN MX pl p opos oneg = OK ((q, (o0, o1)), true)
            /\ split3_result p (sdf3 pl (vb p)) right o0 o1)
          \/ (exists q, r3d_split1 NN MX pl p opos oneg = OK ((q, (opos, oneg)), false)
              /\ MX < nv p + 2 * exits 3 (fun v => negb (right v)) (nb (vb p)) (nv p)))).
Proof.
  intros Hw HM right. pose proof Hw as (Hn & L & P). unfold r3d_split1.
  destruct (Z.leb_spec (nv p) 0) as [LE|LE]. { left. split; [lia|auto]. }
  right. destruct (split3_sd_spec (vb p) (nv p) pl) as (s & E & H1 & H2 & H3 & H4); [lia|].
  fold right in H2, H4. rewrite E. cbn [bind]. rewrite H4.
  destruct (Z.eqb_spec (cnt right (nv p)) 0) as [C0|C0].
  { left. split; auto. split; auto. apply cnt_none; auto. }
  right. destruct (Z.eqb_spec (cnt right (nv p)) (nv p)) as [C1|C1].
  { left. split; auto. split; auto. apply cnt_all; auto. }
  right. destruct (cnt_some right (nv p) Hn C0 C1) as (u & v & Hu & Hv & Ru & Rv).
  exists u, v. split; auto. split; auto. split; auto. split; auto.
  destruct (split3_core true p (s3_sd NN s) (sdf3 pl (vb p)) (s3_side NN s) right
     (PY (vb oneg) 0) (fun _ => PY (vb opos) 0) (split_copy_body MX))
    as [(b & sde & N & b' & X1 & X2 & q0 & q1 & sd' & b0 & b1 & X3 & X4 & X5 & X6)|(X1 & b & sde & N & X2)]; auto.
  - left. rewrite X1. cbn [bind negb]. rewrite X2. cbn [bind]. rewrite X3. cbn [bind].
    rewrite X4. cbn [bind]. rewrite X5. cbn [bind]. eexists _, _, _. split; [reflexivity|auto].
  - right. rewrite X2. cbn [bind negb]. eauto.
Qed.

(** [r3d_split_coord]. *)
Lemma split3_coord_spec (p o1 : pol) coord ax : wf3 p -> nv p <= MX -> 0 <= ax < 3 ->
  let right := cright3 coord ax (vb p) in
  (nv p = 0 /\ r3d_split_coord NN MX p o1 coord ax = OK (p, o1))
  \/ (0 < nv p /\ (forall v, 0 <= v < nv p -> right v = false)
      /\ r3d_split_coord NN MX p o1 coord ax = OK (p, PY (vb o1) 0))
  \/ (0 < nv p /\ (forall v, 0 <= v < nv p -> right v = true)
      /\ r3d_split_coord NN MX p o1 coord ax = OK (PY (vb p) 0, p))
  \/ (exists u v, 0 <= u < nv p /\ 0 <= v < nv p /\ right u = false /\ right v = true
      /\ ((exists q0 q1, r3d_split_coord NN MX p o1 coord ax = OK (q0, q1)
            /\ split3_result p (csd3 coord ax (vb p)) right q0 q1)
          \/ (r3d_split_coord NN MX p o1 coord ax = Err OutOfBounds
              /\ MX < nv p + 2 * exits 3 (fun v => negb (right v)) (nb (vb p)) (nv p)))).
Proof.
  intros Hw HM Hax right. pose proof Hw as (Hn & L & P). unfold r3d_split_coord.
  destruct (Z.leb_spec (nv p) 0) as [LE|LE]. { left. split; [lia|auto]. }
  right. destruct (split3_coord_sd_spec (vb p) (nv p) coord ax) as (s & E & H1 & H2 & H3 & H4); [lia|lia|].
  fold right in H2, H4. rewrite E. cbn [bind]. rewrite H4.
  destruct (Z.eqb_spec (cnt right (nv p)) 0) as [C0|C0].
  { left. split; auto. split; auto. apply cnt_none; auto. }
  right. destruct (Z.eqb_spec (cnt right (nv p)) (nv p)) as [C1|C1].
  { left. split; auto. split; auto. apply cnt_all; auto. }
  right. destruct (cnt_some right (nv p) Hn C0 C1) as (u & v & Hu & Hv & Ru & Rv).
  exists u, v. split; auto. split; auto. split; auto. split; auto.
  destruct (split3_core false p (s3_sd NN s) (csd3 coord ax (vb p)) (s3_side NN s) right
     (PY (vb o1) 0) (fun b => PY b 0) (fun _ => split3_coord_copy_body NN MX))
    as [(b & sde & N & b' & X1 & X2 & q0 & q1 & sd' & b0 & b1 & X3 & X4 & X5 & X6)|(X1 & X2)]; auto.
  { intros b. right. split; auto. intros i [[q0 q1] sd]. reflexivity. }
  - left. rewrite X1. cbn [bind]. rewrite X2. cbn [bind]. rewrite X3. cbn [bind].
    rewrite X4. cbn [bind]. rewrite X5. cbn [bind]. eauto 8.
  - right. rewrite X2. auto.
Qed.
End C.
