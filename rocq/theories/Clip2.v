(** * Clip2: structural facts about [r2d_clip], [r2d_split], [r2d_split_coord]
    for every arithmetic. *)
From Coq Require Import ZArith List Bool Lia.
From Verif Require Import Base Lib ModelCommon CommonFacts Model2 Spec2 Struct2.
Import ListNotations.
Open Scope Z_scope.

Section C.
Context (NN : num) (MX : Z).
Notation rv := (rvec2 (T NN)).
Notation buf := (vbuf rv).
Notation pol := (poly rv).
Notation plane := (plane2 (T NN)).

(** signed distance as computed by the code *)
Definition sdf (pl : plane) (b : buf) (v : Z) : T NN :=
  nadd NN (pd pl) (dot2 NN (ps b v) (pn pl)).

Definition minf (f : Z -> T NN) (n : Z) (m0 : T NN) : T NN :=
  fold_left (fun m v => if nlt NN (f v) m then f v else m) (zrange n) m0.
Definition maxf (f : Z -> T NN) (n : Z) (m0 : T NN) : T NN :=
  fold_left (fun m v => if nlt NN m (f v) then f v else m) (zrange n) m0.

Lemma clip_sd_spec b n pl : 0 <= n <= MX ->
  exists s, clip_sd NN MX b n pl = OK s
  /\ (forall v, 0 <= v < n -> sdists NN s v = Some (sdf pl b v))
  /\ (forall v, 0 <= v < n -> clipped NN s v = if nlt NN (sdf pl b v) (n0 NN) then 1 else 0)
  /\ (forall v, n <= v -> clipped NN s v = 0)
  /\ smin NN s = minf (sdf pl b) n (nbig NN)
  /\ smax NN s = maxf (sdf pl b) n (nopp NN (nbig NN)).
Proof.
  intros Hn. unfold clip_sd.
  destruct (for_inv (fun i s =>
     (forall v, 0 <= v < i -> sdists NN s v = Some (sdf pl b v))
  /\ (forall v, 0 <= v < i -> clipped NN s v = if nlt NN (sdf pl b v) (n0 NN) then 1 else 0)
  /\ (forall v, i <= v -> clipped NN s v = 0)
  /\ smin NN s = minf (sdf pl b) i (nbig NN)
  /\ smax NN s = maxf (sdf pl b) i (nopp NN (nbig NN)))
   0 n (clip_sd_body NN MX b pl)
   (SD NN (fun _ => None) (nbig NN) (nopp NN (nbig NN)) (fun _ => 0))) as (s & E & I);
   try lia; [cbn; repeat split; intros; try reflexivity; lia| |eauto].
  intros i s Hi (H1 & H2 & H3 & H4 & H5). unfold clip_sd_body.
  rewrite rd_ps_ok by lia. cbn [bind]. rewrite wr_ok by lia. cbn [bind].
  fold (sdf pl b i).
  assert (M : minf (sdf pl b) (i + 1) (nbig NN)
     = if nlt NN (sdf pl b i) (smin NN s) then sdf pl b i else smin NN s).
  { unfold minf. rewrite zrange_succ, fold_left_app by lia. cbn [fold_left].
    fold (minf (sdf pl b) i (nbig NN)). now rewrite <- H4. }
  assert (M' : maxf (sdf pl b) (i + 1) (nopp NN (nbig NN))
     = if nlt NN (smax NN s) (sdf pl b i) then sdf pl b i else smax NN s).
  { unfold maxf. rewrite zrange_succ, fold_left_app by lia. cbn [fold_left].
    fold (maxf (sdf pl b) i (nopp NN (nbig NN))). now rewrite <- H5. }
  destruct (nlt NN (sdf pl b i) (n0 NN)) eqn:Eb; cbn [bind]; rewrite ?wr_ok by lia; cbn [bind];
    (eexists; split; [reflexivity|]); cbn [sdists clipped smin smax]; rewrite M, M';
    (split; [|split; [|split; [|split; reflexivity]]]).
  - intros v Hv. destruct (Z.eq_dec v i); [subst; now rewrite upd_eq|]. rewrite upd_neq by lia. apply H1. lia.
  - intros v Hv. destruct (Z.eq_dec v i); [subst; now rewrite upd_eq, Eb|]. rewrite upd_neq by lia. apply H2. lia.
  - intros v Hv. rewrite upd_neq by lia. apply H3. lia.
  - intros v Hv. destruct (Z.eq_dec v i); [subst; now rewrite upd_eq|]. rewrite upd_neq by lia. apply H1. lia.
  - intros v Hv. destruct (Z.eq_dec v i); [subst; rewrite Eb; apply H3; lia|]. apply H2. lia.
  - intros v Hv. apply H3. lia.
Qed.

(** the vertices kept by one plane *)
Definition keepv (pl : plane) (b : buf) (v : Z) : bool := negb (nlt NN (sdf pl b v) (n0 NN)).

Lemma darts_list_prod D n : 0 <= D -> darts D n = list_prod (map Z.of_nat (seq 0 (Z.to_nat n)))
   (map Z.of_nat (seq 0 (Z.to_nat D))).
Proof.
  intros HD. unfold darts, zrange. induction (map Z.of_nat (seq 0 (Z.to_nat n))); cbn; auto.
  now rewrite IHl.
Qed.

Lemma ncross_exits cl f n (keep : Z -> bool) : 0 <= n -> linked f n ->
  (forall v, 0 <= v < n -> cl v = if keep v then 0 else 1) ->
  ncross 2 cl f n = exits 2 keep f n.
Proof.
  intros Hn HL Hk. unfold ncross, exits. rewrite darts_list_prod by lia.
  change (Z.to_nat 2) with 2%nat. do 2 f_equal. apply filter_ext_in.
  intros [v np] Hi. cbn [fst snd]. unfold crossb. cbn [fst snd].
  rewrite <- (darts_list_prod 2) in Hi by lia. apply in_darts in Hi as (Hv & Hnp).
  assert (0 <= f v np < n).
  { destruct (HL v Hv) as (A & B & _). destruct (slot2 np Hnp); subst; auto. }
  rewrite !Hk by auto. destruct (keep v), (keep (f v np)); reflexivity.
Qed.

(** What one plane does when it neither misses nor swallows the polygon. *)
Lemma clip_step_spec (p : pol) pl s : wf2 p -> nv p <= MX ->
  clip_sd NN MX (vb p) (nv p) pl = OK s ->
  (exists p' N b' K, clip_cut NN MX (vb p) (nv p) (sdists NN s) (clipped NN s) = OK p'
     /\ N = nv p + exits 2 (keepv pl (vb p)) (nb (vb p)) (nv p) /\ N <= MX
     /\ (forall v, 0 <= v < nv p -> K v = keepv pl (vb p) v)
     /\ (forall v, nv p <= v -> K v = true)
     /\ cut2 (vb p) (nv p) N K (newpos2 NN (vb p) (sdf pl (vb p))) b'
     /\ compressed 2 K N b' p')
  \/ (clip_cut NN MX (vb p) (nv p) (sdists NN s) (clipped NN s) = Err OutOfBounds
      /\ MX < nv p + exits 2 (keepv pl (vb p)) (nb (vb p)) (nv p)).
Proof.
  intros (Hn & HL) HM E.
  destruct (clip_sd_spec (vb p) (nv p) pl) as (s' & E' & H1 & H2 & H3 & _); [lia|].
  rewrite E in E'. inversion E'; subst s'. clear E'.
  assert (HC : ncross 2 (clipped NN s) (nb (vb p)) (nv p)
             = exits 2 (keepv pl (vb p)) (nb (vb p)) (nv p)).
  { apply ncross_exits; auto. intros v Hv. rewrite H2 by auto. unfold keepv.
    destruct (nlt NN (sdf pl (vb p) v) (n0 NN)); reflexivity. }
  destruct (clip_cut_spec NN MX (vb p) (nv p) (sdists NN s) (sdf pl (vb p)) (clipped NN s))
    as [(p' & N & b' & X1 & X2 & X3 & X4 & X5)|(X1 & X2)]; auto.
  - left. exists p', N, b', (fun v => clipped NN s v =? 0). rewrite <- HC.
    split; auto. split; auto. split; auto. split; [|split; [|split; auto]].
    + intros v Hv. rewrite H2 by auto. unfold keepv. destruct (nlt NN (sdf pl (vb p) v) (n0 NN)); reflexivity.
    + intros v Hv. now rewrite H3.
  - right. rewrite <- HC. auto.
Qed.

Lemma cut_nv K n N : 0 <= n <= N -> cnt K N <= N.
Proof. intros. apply cnt_le. lia. Qed.

(** [r2d_clip] on a well-linked polygon: either a well-linked polygon, or some
    plane needs more vertices than the buffer holds. *)
Lemma clip_planes_struct planes : forall p : pol, wf2 p -> nv p <= MX ->
  (exists p', clip_planes NN MX planes p = OK p' /\ wf2 p' /\ nv p' <= MX
      /\ (distinct2 (nb (vb p)) (nv p) -> distinct2 (nb (vb p')) (nv p')))
  \/ (clip_planes NN MX planes p = Err OutOfBounds
      /\ exists pre pl post q, planes = pre ++ pl :: post
         /\ clip_planes NN MX pre p = OK q
         /\ MX < nv q + exits 2 (keepv pl (vb q)) (nb (vb q)) (nv q)).
Proof.
  induction planes as [|pl rest IH]; intros p Hw HM.
  { left. exists p. cbn. auto. }
  cbn [clip_planes]. pose proof Hw as (Hn & HL).
  destruct (clip_sd_spec (vb p) (nv p) pl) as (s & E & _); [lia|].
  rewrite E. cbn [bind].
  destruct (nle NN (n0 NN) (smin NN s)) eqn:Emin.
  { destruct (IH p Hw HM) as [X|(X & pre & pl' & post & q & -> & Y1 & Y2)]; [left; auto|right].
    split; auto. exists (pl :: pre), pl', post, q. split; auto. split; auto.
    cbn [clip_planes]. rewrite E. cbn [bind]. now rewrite Emin. }
  destruct (nle NN (smax NN s) (n0 NN)) eqn:Emax.
  { left. eexists. split; [reflexivity|]. unfold wf2, linked, distinct2. cbn [vb nv]. repeat split; lia. }
  destruct (clip_step_spec p pl s Hw HM E) as [(p' & N & b' & K & X1 & X2 & X3 & X4 & X5 & X6 & X7)|(X1 & X2)].
  2: { right. rewrite X1. cbn [bind]. split; auto. exists [], pl, rest, p. auto. }
  rewrite X1. cbn [bind].
  assert (W' : wf2 p') by (eapply compressed_linked; eauto).
  assert (M' : nv p' <= MX).
  { destruct X7 as (-> & _). pose proof (cut_nv K _ _ (c_n _ _ _ _ _ _ X6)). lia. }
  destruct (IH p' W' M') as [(p'' & Y1 & Y2 & Y3 & Y4)|(X & pre & pl' & post & q & -> & Y1 & Y2)].
  - left. exists p''. split; auto. split; auto. split; auto. intros HD. apply Y4.
    eapply compressed_distinct; eauto.
  - right. split; auto. exists (pl :: pre), pl', post, q. split; auto. split; auto.
    cbn [clip_planes]. rewrite E. cbn [bind]. rewrite Emin, Emax, X1. cbn [bind]. auto.
Qed.

(** The number of bisected edges never exceeds the number of vertices. *)
Lemma exits_le keep f n : 0 <= n -> linked f n -> exits 2 keep f n <= n.
Proof.
  intros Hn HL. unfold exits. rewrite <- (darts_list_prod 2) by lia.
  set (l := filter _ _).
  assert (HI : forall v np, In (v, np) l <-> (0 <= v < n /\ 0 <= np < 2) /\ keep v = true /\ keep (f v np) = false).
  { intros. unfold l. rewrite filter_In, in_darts. cbn [fst snd]. rewrite andb_true_iff, negb_true_iff. tauto. }
  set (g := fun d : Z * Z => if snd d =? 0 then fst d else f (fst d) (snd d)).
  assert (ND : NoDup (map g l)).
  { assert (forall d e, In d l -> In e l -> g d = g e -> d = e) as INJ.
    { intros [v np] [w q] Hd He. apply HI in Hd, He. unfold g. cbn [fst snd].
      destruct Hd as ((Hv & Hp) & Kv & Kf), He as ((Hw & Hq) & Kw & Kf').
      destruct (slot2 np Hp), (slot2 q Hq); subst; cbn [Z.eqb Pos.eqb]; intros EE; try congruence.
      destruct (HL v Hv) as (_ & _ & _ & A). destruct (HL w Hw) as (_ & _ & _ & B).
      rewrite <- A, <- B, EE. reflexivity. }
    assert (NoDup l) as NL by (apply NoDup_filter, NoDup_darts; lia).
    clearbody l. clear HI. induction l as [|d l IHl]; cbn; [constructor|].
    inversion NL; subst. constructor.
    - rewrite in_map_iff. intros (e & Ee & He). apply H1. replace d with e; auto. apply INJ; cbn; auto.
    - apply IHl; auto. intros; apply INJ; cbn; auto. }
  assert (INC : incl (map g l) (zrange n)).
  { intros x Hx. apply in_map_iff in Hx as ([v np] & <- & Hd). apply HI in Hd.
    destruct Hd as ((Hv & Hp) & _). apply in_zrange. unfold g. cbn [fst snd].
    destruct (HL v Hv) as (A & B & _). destruct (slot2 np Hp); subst; cbn [Z.eqb Pos.eqb]; auto. }
  pose proof (NoDup_incl_length ND INC) as LL. rewrite map_length in LL.
  pose proof (length_zrange n Hn). lia.
Qed.

(** Growth of the vertex count. *)
Lemma clip_planes_growth planes : forall p p' : pol, wf2 p -> nv p <= MX ->
  clip_planes NN MX planes p = OK p' -> nv p' <= nv p * 2 ^ Z.of_nat (length planes).
Proof.
  induction planes as [|pl rest IH]; intros p p' Hw HM E.
  { cbn in E. inversion E. cbn. lia. }
  pose proof Hw as (Hn & HL).
  assert (P2 : 2 ^ Z.of_nat (length (pl :: rest)) = 2 * 2 ^ Z.of_nat (length rest)).
  { cbn [length]. rewrite Nat2Z.inj_succ, Z.pow_succ_r by lia. reflexivity. }
  assert (0 < 2 ^ Z.of_nat (length rest)) by (apply Z.pow_pos_nonneg; lia).
  rewrite P2.
  cbn [clip_planes] in E.
  destruct (clip_sd_spec (vb p) (nv p) pl) as (s & Es & _); [lia|].
  rewrite Es in E. cbn [bind] in E.
  destruct (nle NN (n0 NN) (smin NN s)).
  { apply IH in E; auto. nia. }
  destruct (nle NN (smax NN s) (n0 NN)).
  { inversion E. cbn [nv]. nia. }
  destruct (clip_step_spec p pl s Hw HM Es) as [(q & N & b' & K & X1 & X2 & X3 & X4 & X5 & X6 & X7)|(X1 & X2)];
    rewrite X1 in E; cbn [bind] in E; [|discriminate].
  assert (Wq : wf2 q) by (eapply compressed_linked; eauto).
  assert (Bq : nv q <= N).
  { destruct X7 as (-> & _). apply (cut_nv K _ _ (c_n _ _ _ _ _ _ X6)). }
  pose proof (exits_le (keepv pl (vb p)) (nb (vb p)) (nv p) Hn HL).
  apply IH in E; auto; [nia|lia].
Qed.

(** Enough room is enough: no out-of-bounds access when the buffer is large
    enough for doubling at every plane. *)
Lemma clip_planes_room planes : forall p : pol, wf2 p ->
  nv p * 2 ^ Z.of_nat (length planes) <= MX -> exists p', clip_planes NN MX planes p = OK p'.
Proof.
  intros p Hw HB.
  assert (0 < 2 ^ Z.of_nat (length planes)) by (apply Z.pow_pos_nonneg; lia).
  pose proof Hw as (Hn & HL).
  assert (HM : nv p <= MX) by nia.
  destruct (clip_planes_struct planes p Hw HM) as [(p' & E & _)|(E & pre & pl & post & q & EQ & E1 & E2)];
    [eauto|exfalso].
  destruct (clip_planes_struct pre p Hw HM) as [(q' & Eq & Wq & _)|(Eq & _)]; [|congruence].
  rewrite E1 in Eq. inversion Eq; subst q'. clear Eq.
  pose proof (clip_planes_growth pre p q Hw HM E1) as G.
  destruct Wq as (Hq & Lq).
  pose proof (exits_le (keepv pl (vb q)) (nb (vb q)) (nv q) Hq Lq).
  assert (2 ^ Z.of_nat (length planes) = 2 ^ Z.of_nat (length pre) * (2 * 2 ^ Z.of_nat (length post))).
  { rewrite EQ, app_length. cbn [length]. rewrite Nat2Z.inj_add, Nat2Z.inj_succ.
    rewrite Z.pow_add_r, Z.pow_succ_r by lia. ring. }
  assert (0 < 2 ^ Z.of_nat (length pre)) by (apply Z.pow_pos_nonneg; lia).
  assert (0 < 2 ^ Z.of_nat (length post)) by (apply Z.pow_pos_nonneg; lia).
  nia.
Qed.

(** ** split *)
Definition sidesd (pl : plane) (b : buf) (v : Z) : T NN :=
  nmul NN (sdf pl b v) (nofZ NN (-1)).
Definition rightv (pl : plane) (b : buf) (v : Z) : bool := nlt NN (sidesd pl b v) (n0 NN).

(** common shape of the two signed-distance loops *)
Lemma side_loop_spec (body : Z -> sidest NN -> res (sidest NN)) (sd : Z -> T NN) (right : Z -> bool) n :
  0 <= n <= MX ->
  (forall i s, 0 <= i < n -> body i s =
     OK (if right i then SI NN (upd (s_sd NN s) i (Some (sd i))) (upd (s_side NN s) i 1) (s_nright NN s + 1)
         else SI NN (upd (s_sd NN s) i (Some (sd i))) (s_side NN s) (s_nright NN s))) ->
  exists s, for_ 0 n body (SI NN (fun _ => None) (fun _ => 0) 0) = OK s
  /\ (forall v, 0 <= v < n -> s_sd NN s v = Some (sd v))
  /\ (forall v, 0 <= v < n -> s_side NN s v = if right v then 1 else 0)
  /\ (forall v, n <= v -> s_side NN s v = 0)
  /\ s_nright NN s = cnt right n.
Proof.
  intros Hn HB.
  destruct (for_inv (fun i s =>
     (forall v, 0 <= v < i -> s_sd NN s v = Some (sd v))
  /\ (forall v, 0 <= v < i -> s_side NN s v = if right v then 1 else 0)
  /\ (forall v, i <= v -> s_side NN s v = 0)
  /\ s_nright NN s = cnt right i) 0 n body
   (SI NN (fun _ => None) (fun _ => 0) 0)) as (s & E & I); try lia;
   [cbn; repeat split; intros; try reflexivity; lia| |eauto].
  intros i s Hi (H1 & H2 & H3 & H4). rewrite HB by auto. eexists. split; [reflexivity|].
  rewrite cnt_succ by lia.
  destruct (right i) eqn:Er; cbn [s_sd s_side s_nright];
    (split; [|split; [|split; [|lia]]]); intros v Hv;
    try (destruct (Z.eq_dec v i); [subst; rewrite ?upd_eq, ?Er; auto; apply H3; lia|]);
    rewrite ?upd_neq by lia; try apply H1; try apply H2; try apply H3; lia.
Qed.

Lemma split_sd_spec b n pl : 0 <= n <= MX ->
  exists s, for_ 0 n (split_sd_body NN MX b pl) (SI NN (fun _ => None) (fun _ => 0) 0) = OK s
  /\ (forall v, 0 <= v < n -> s_sd NN s v = Some (sidesd pl b v))
  /\ (forall v, 0 <= v < n -> s_side NN s v = if rightv pl b v then 1 else 0)
  /\ (forall v, n <= v -> s_side NN s v = 0)
  /\ s_nright NN s = cnt (rightv pl b) n.
Proof.
  intros Hn. apply side_loop_spec; auto.
  intros i s Hi. unfold split_sd_body. rewrite rd_ps_ok by lia. cbn [bind].
  rewrite wr_ok by lia. cbn [bind]. fold (sdf pl b i). fold (sidesd pl b i). fold (rightv pl b i).
  destruct (rightv pl b i); auto. rewrite wr_ok by lia. reflexivity.
Qed.

Definition coordv (ax : Z) (q : rv) : T NN := if ax =? 0 then vx q else vy q.
Definition csd (coord : T NN) (ax : Z) (b : buf) (v : Z) : T NN := nsub NN (coordv ax (ps b v)) coord.
Definition cright (coord : T NN) (ax : Z) (b : buf) (v : Z) : bool := nlt NN (n0 NN) (csd coord ax b v).

Lemma split_coord_sd_spec b n coord ax : 0 <= n <= MX -> 0 <= ax < 2 ->
  exists s, for_ 0 n (split_coord_sd_body NN MX b coord ax) (SI NN (fun _ => None) (fun _ => 0) 0) = OK s
  /\ (forall v, 0 <= v < n -> s_sd NN s v = Some (csd coord ax b v))
  /\ (forall v, 0 <= v < n -> s_side NN s v = if cright coord ax b v then 1 else 0)
  /\ (forall v, n <= v -> s_side NN s v = 0)
  /\ s_nright NN s = cnt (cright coord ax b) n.
Proof.
  intros Hn Hax. apply side_loop_spec; auto.
  intros i s Hi. unfold split_coord_sd_body. rewrite rd_ps_ok by lia. cbn [bind].
  assert (vget NN (ps b i) ax = OK (coordv ax (ps b i))) as ->.
  { unfold vget, coordv. destruct (slot2 ax Hax); subst; reflexivity. }
  cbn [bind]. rewrite wr_ok by lia. cbn [bind]. fold (csd coord ax b i). fold (cright coord ax b i).
  destruct (cright coord ax b i); auto. rewrite wr_ok by lia. reflexivity.
Qed.

(** Result of a split that cuts: both outputs are cuts of the input. *)
Definition split_result (p : pol) (sd : Z -> T NN) (right : Z -> bool) (o0 o1 : pol) : Prop :=
  exists N b' Ka Kb,
    N = nv p + 2 * exits 2 (fun v => negb (right v)) (nb (vb p)) (nv p) /\ N <= MX
    /\ (forall v, 0 <= v < nv p -> Ka v = negb (right v) /\ Kb v = right v)
    /\ (forall v, 0 <= v < N -> Kb v = negb (Ka v))
    /\ cut2 (vb p) (nv p) N Ka (newpos2 NN (vb p) sd) b'
    /\ compressed 2 Ka N b' o0
    /\ cut2 (vb p) (nv p) N Kb (newpos2' NN (vb p) sd) b'
    /\ compressed 2 Kb N b' o1.

Lemma split_core (p : pol) (sds : Z -> option (T NN)) sd (side : Z -> Z) (right : Z -> bool)
   (o1 : pol) (o0 : buf -> pol)
   (body : buf -> Z -> (pol * pol) * (Z -> Z) -> res ((pol * pol) * (Z -> Z))) :
  wf2 p -> nv p <= MX ->
  (forall v, 0 <= v < nv p -> sds v = Some (sd v)) ->
  (forall v, 0 <= v < nv p -> side v = if right v then 1 else 0) ->
  (forall v, nv p <= v -> side v = 0) ->
  nv o1 = 0 -> (forall b, nv (o0 b) = 0) ->
  (forall b, (forall i s, body b i s = split_copy_body MX b i s)
     \/ (vb (o0 b) = b /\ forall i s, body b i s = split_copy_body MX (vb (fst (fst s))) i s)) ->
  (exists b sde N b', for_ 0 (nv p) (split_ins_v NN MX sds) (vb p, side, nv p) = OK (b, sde, N)
     /\ relink NN MX (nv p) N b = OK b'
     /\ exists q0 q1 side' b0 b1,
        for_ 0 N (body b') ((o0 b', o1), sde) = OK ((q0, q1), side')
        /\ for_ 0 (nv q0) (reindex_loop MX 2 side') (vb q0) = OK b0
        /\ for_ 0 (nv q1) (reindex_loop MX 2 side') (vb q1) = OK b1
        /\ split_result p sd right (PY b0 (nv q0)) (PY b1 (nv q1)))
  \/ (for_ 0 (nv p) (split_ins_v NN MX sds) (vb p, side, nv p) = Err OutOfBounds
      /\ MX < nv p + 2 * exits 2 (fun v => negb (right v)) (nb (vb p)) (nv p)).
Proof.
  intros (Hn & HL) HM Hsd Hsi Hs0 Ho1 Ho0 Hbody.
  assert (HC : ncross 2 side (nb (vb p)) (nv p)
             = exits 2 (fun v => negb (right v)) (nb (vb p)) (nv p)).
  { apply ncross_exits; auto. intros v Hv. rewrite Hsi by auto. destruct (right v); reflexivity. }
  destruct (split_cut_spec NN MX (vb p) (nv p) sds sd side)
    as [(b & sde & N & b' & E1 & E2 & EN & EM & S1 & S2 & C0 & C1)|(E & HO)]; auto.
  { intros v Hv. rewrite Hsi by auto. destruct (right v); auto. }
  2: { right. rewrite <- HC. auto. }
  left. exists b, sde, N, b'. split; auto. split; auto.
  pose proof (c_n _ _ _ _ _ _ C0) as HnN.
  destruct (copy_reindex_spec MX 2 b' sde N (o0 b') o1 (body b'))
    as (q0 & q1 & sd' & b0 & b1 & F1 & F2 & F3 & F4 & F5); auto; try lia.
  { eapply cut2_closed; eauto. }
  { eapply cut2_closed; eauto. }
  exists q0, q1, sd', b0, b1. split; auto. split; auto. split; auto.
  exists N, b', (K0 sde), (K1 sde). rewrite <- HC. split; auto. split; auto.
  split; [|split; [|auto]].
  - intros v Hv. unfold K0, K1. rewrite S2, Hsi by auto. destruct (right v); auto.
  - intros v Hv. unfold K0, K1. destruct (S1 v Hv) as [-> | ->]; reflexivity.
Qed.

Lemma split_result_wf p sd right o0 o1 : wf2 p -> split_result p sd right o0 o1 ->
  wf2 o0 /\ wf2 o1 /\ nv o0 + nv o1 = nv p + 2 * exits 2 (fun v => negb (right v)) (nb (vb p)) (nv p)
  /\ nv o0 + nv o1 <= MX
  /\ (distinct2 (nb (vb p)) (nv p) -> distinct2 (nb (vb o0)) (nv o0) /\ distinct2 (nb (vb o1)) (nv o1)).
Proof.
  intros (Hn & HL) (N & b' & Ka & Kb & EN & EM & HK & HK2 & C0 & P0 & C1 & P1).
  split; [exact (compressed_linked _ _ _ _ _ _ _ C0 P0)|].
  split; [exact (compressed_linked _ _ _ _ _ _ _ C1 P1)|].
  assert (nv o0 + nv o1 = N).
  { destruct P0 as (-> & _), P1 as (-> & _). pose proof (c_n _ _ _ _ _ _ C0).
    assert (0 <= N) as HN by lia. clear - HK2 HN.
    revert HK2. pattern N. apply zrange_ind; auto.
    intros m Hm IH HK2. rewrite !cnt_succ by auto.
    rewrite (HK2 m) by lia. assert (cnt Ka m + cnt Kb m = m) by (apply IH; intros; apply HK2; lia).
    destruct (Ka m); cbn; lia. }
  split; [lia|]. split; [lia|].
  intros HD. split; [exact (compressed_distinct _ _ _ _ _ _ _ C0 P0 HL HD)
    |exact (compressed_distinct _ _ _ _ _ _ _ C1 P1 HL HD)].
Qed.

(** [r2d_split] of one polygon. *)
Lemma split1_spec pl (p opos oneg : pol) : wf2 p -> nv p <= MX ->
  (nv p = 0 /\ r2d_split1 NN MX pl p opos oneg = OK (p, (zero_poly NN, zero_poly NN)))
  \/ (0 < nv p /\ (forall v, 0 <= v < nv p -> rightv pl (vb p) v = false)
      /\ r2d_split1 NN MX pl p opos oneg = OK (p, (p, PY (vb oneg) 0)))
  \/ (0 < nv p /\ (forall v, 0 <= v < nv p -> rightv pl (vb p) v = true)
      /\ r2d_split1 NN MX pl p opos oneg = OK (p, (PY (vb opos) 0, p)))
  \/ (exists u v, 0 <= u < nv p /\ 0 <= v < nv p /\ rightv pl (vb p) u = false /\ rightv pl (vb p) v = true
      /\ ((exists q o0 o1, r2d_split1 NN MX pl p opos oneg = OK (q, (o0, o1))
            /\ split_result p (sidesd pl (vb p)) (rightv pl (vb p)) o0 o1)
          \/ (r2d_split1 NN MX pl p opos oneg = Err OutOfBounds
              /\ MX < nv p + 2 * exits 2 (fun v => negb (rightv pl (vb p) v)) (nb (vb p)) (nv p)))).
Proof.
  intros Hw HM. pose proof Hw as (Hn & HL). unfold r2d_split1.
  destruct (Z.leb_spec (nv p) 0) as [L|L]. { left. split; [lia|auto]. }
  right. destruct (split_sd_spec (vb p) (nv p) pl) as (s & E & H1 & H2 & H3 & H4); [lia|].
  rewrite E. cbn [bind]. rewrite H4.
  destruct (Z.eqb_spec (cnt (rightv pl (vb p)) (nv p)) 0) as [C0|C0].
  { left. split; auto. split; auto. intros v Hv. destruct (rightv pl (vb p) v) eqn:R; auto.
    pose proof (cnt_lt _ v (nv p) Hv R). pose proof (cnt_nonneg (rightv pl (vb p)) v). lia. }
  right. assert (NEG : forall K n, 0 <= n -> cnt K n + cnt (fun v => negb (K v)) n = n).
  { intros K n Hn'. pattern n. apply zrange_ind; auto. intros m Hm IH.
    rewrite !cnt_succ by auto. destruct (K m); cbn; lia. }
  destruct (Z.eqb_spec (cnt (rightv pl (vb p)) (nv p)) (nv p)) as [C1|C1].
  { left. split; auto. split; auto. intros v Hv. destruct (rightv pl (vb p) v) eqn:R; auto.
    pose proof (NEG (rightv pl (vb p)) (nv p) Hn).
    pose proof (cnt_lt (fun v => negb (rightv pl (vb p) v)) v (nv p) Hv ltac:(cbv beta; now rewrite R)).
    pose proof (cnt_nonneg (fun v => negb (rightv pl (vb p) v)) v). lia. }
  right.
  destruct (cnt_surj (rightv pl (vb p)) (nv p) 0) as (v & Hv & Rv & _); auto.
  { pose proof (cnt_nonneg (rightv pl (vb p)) (nv p)). lia. }
  destruct (cnt_surj (fun v => negb (rightv pl (vb p) v)) (nv p) 0) as (u & Hu & Ru & _); auto.
  { pose proof (cnt_le (rightv pl (vb p)) (nv p) Hn). pose proof (NEG (rightv pl (vb p)) (nv p) Hn). lia. }
  apply negb_true_iff in Ru. exists u, v. split; auto. split; auto. split; auto. split; auto.
  destruct (split_core p (s_sd NN s) (sidesd pl (vb p)) (s_side NN s) (rightv pl (vb p))
     (PY (vb oneg) 0) (fun _ => PY (vb opos) 0) (split_copy_body MX))
    as [(b & sde & N & b' & X1 & X2 & q0 & q1 & sd' & b0 & b1 & X3 & X4 & X5 & X6)|(X1 & X2)]; auto.
  - left. rewrite X1. cbn [bind]. rewrite X2. cbn [bind]. rewrite X3. cbn [bind].
    rewrite X4. cbn [bind]. rewrite X5. cbn [bind]. eauto 8.
  - right. rewrite X1. auto.
Qed.

(** [r2d_split_coord]. *)
Lemma split_coord_spec (p o1 : pol) coord ax : wf2 p -> nv p <= MX -> 0 <= ax < 2 ->
  let right := cright coord ax (vb p) in
  (nv p = 0 /\ r2d_split_coord NN MX p o1 coord ax = OK (p, o1))
  \/ (0 < nv p /\ (forall v, 0 <= v < nv p -> right v = false)
      /\ r2d_split_coord NN MX p o1 coord ax = OK (p, PY (vb o1) 0))
  \/ (0 < nv p /\ (forall v, 0 <= v < nv p -> right v = true)
      /\ r2d_split_coord NN MX p o1 coord ax = OK (PY (vb p) 0, p))
  \/ (exists u v, 0 <= u < nv p /\ 0 <= v < nv p /\ right u = false /\ right v = true
      /\ ((exists q0 q1, r2d_split_coord NN MX p o1 coord ax = OK (q0, q1)
            /\ split_result p (csd coord ax (vb p)) right q0 q1)
          \/ (r2d_split_coord NN MX p o1 coord ax = Err OutOfBounds
              /\ MX < nv p + 2 * exits 2 (fun v => negb (right v)) (nb (vb p)) (nv p)))).
Proof.
  intros Hw HM Hax right. pose proof Hw as (Hn & HL). unfold r2d_split_coord.
  destruct (Z.leb_spec (nv p) 0) as [L|L]. { left. split; [lia|auto]. }
  right. destruct (split_coord_sd_spec (vb p) (nv p) coord ax) as (s & E & H1 & H2 & H3 & H4); [lia|lia|].
  fold right in H2, H4.
  rewrite E. cbn [bind]. rewrite H4.
  destruct (Z.eqb_spec (cnt right (nv p)) 0) as [C0|C0].
  { left. split; auto. split; auto. intros v Hv. destruct (right v) eqn:R; auto.
    pose proof (cnt_lt _ v (nv p) Hv R). pose proof (cnt_nonneg right v). lia. }
  right. assert (NEG : forall K n, 0 <= n -> cnt K n + cnt (fun v => negb (K v)) n = n).
  { intros K n Hn'. pattern n. apply zrange_ind; auto. intros m Hm IH.
    rewrite !cnt_succ by auto. destruct (K m); cbn; lia. }
  destruct (Z.eqb_spec (cnt right (nv p)) (nv p)) as [C1|C1].
  { left. split; auto. split; auto. intros v Hv. destruct (right v) eqn:R; auto.
    pose proof (NEG right (nv p) Hn).
    pose proof (cnt_lt (fun v => negb (right v)) v (nv p) Hv ltac:(cbv beta; now rewrite R)).
    pose proof (cnt_nonneg (fun v => negb (right v)) v). lia. }
  right.
  destruct (cnt_surj right (nv p) 0) as (v & Hv & Rv & _); auto.
  { pose proof (cnt_nonneg right (nv p)). lia. }
  destruct (cnt_surj (fun v => negb (right v)) (nv p) 0) as (u & Hu & Ru & _); auto.
  { pose proof (cnt_le right (nv p) Hn). pose proof (NEG right (nv p) Hn). lia. }
  apply negb_true_iff in Ru. exists u, v. split; auto. split; auto. split; auto. split; auto.
  destruct (split_core p (s_sd NN s) (csd coord ax (vb p)) (s_side NN s) right
     (PY (vb o1) 0) (fun b => PY b 0) (fun _ => split_coord_copy_body NN MX))
    as [(b & sde & N & b' & X1 & X2 & q0 & q1 & sd' & b0 & b1 & X3 & X4 & X5 & X6)|(X1 & X2)]; auto.
  { intros b. right. split; auto. intros i [[q0 q1] sd]. reflexivity. }
  - left. rewrite X1. cbn [bind]. rewrite X2. cbn [bind]. rewrite X3. cbn [bind].
    rewrite X4. cbn [bind]. rewrite X5. cbn [bind]. eauto 8.
  - right. rewrite X1. auto.
Qed.
End C.
