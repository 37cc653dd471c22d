(** * Glue3: the 3D lemmas in the form stated in Props3. *)
From Coq Require Import Reals ZArith List Bool Lia Lra Psatz.
From Coquelicot Require Import Coquelicot.
From Verif Require Import Base Lib ModelCommon CommonFacts Model3 Spec2 Spec3 Orb3 Cut3 Clip2 Struct3 Clip3 Reduce2 Reduce3 FaceSpec3 Face3
  HPoly HInt RealNum SumR Spec3R Mom3 Geo3 CutSum3 Cons3 Shift3 Graph3 Small3 Trans3 Shape3 Faces3 Fail3 Grow3 Misc2 Glue2.
Import ListNotations.
Open Scope Z_scope.

(** vertices kept by a plane are those whose signed distance is not below zero *)
Definition kept3 (N : num) (pl : plane3 (T N)) (p : poly (rvec3 (T N))) (v : Z) : bool :=
  negb (nlt N (nadd N (d3 pl) (dot3 N (ps (vb p) v) (n3 pl))) (n0 N)).

Lemma wf3_nil {V} (p : poly V) : nv p = 0 -> wf3 p.
Proof.
  intros H0. split; [lia|]. rewrite H0. split.
  - constructor; unfold below; intros; lia.
  - intros d e (Hd & _). unfold below in Hd. lia.
Qed.

Section G.
Context (N : num) (MX : Z).
Notation pol := (poly (rvec3 (T N))).

Lemma r3d_clip_pos (p p' : pol) planes : wf3 p -> r3d_clip N MX p planes = OK (p', 1) ->
  0 < nv p /\ clip3_planes N MX planes p = OK (p', 1).
Proof.
  intros (Hn & _) E. unfold r3d_clip in E. destruct (Z.leb_spec (nv p) 0) as [L|L]; [inversion E|auto].
Qed.

Lemma r3d_clip_linked (p p' : pol) planes : wf3 p -> nv p <= MX -> r3d_clip N MX p planes = OK (p', 1) ->
  wf3 p' /\ nv p' <= MX.
Proof.
  intros Hw HM E. destruct (r3d_clip_pos p p' planes Hw E) as (_ & E1).
  destruct (clip3_planes_struct N MX planes p Hw HM) as [(q & E' & W & M)|(q & E' & _)]; rewrite E' in E1; inversion E1; subst; auto.
Qed.

Lemma r3d_clip_total (p : pol) planes : wf3 p -> nv p <= MX ->
  exists p' st, r3d_clip N MX p planes = OK (p', st)
  /\ (st = 1 /\ 0 < nv p
      \/ st = 0 /\ nv p = 0 /\ p' = p
      \/ st = 0 /\ 0 < nv p /\ exists pre pl post q, planes = pre ++ pl :: post
           /\ r3d_clip N MX p pre = OK (q, 1) /\ MX < nv q + exits 3 (kept3 N pl q) (nb (vb q)) (nv q)).
Proof.
  intros Hw HM. pose proof Hw as (Hn & _). unfold r3d_clip. destruct (Z.leb_spec (nv p) 0) as [L|L].
  { exists p, 0. split; auto. right. left. repeat split. lia. }
  destruct (clip3_planes_struct N MX planes p Hw HM) as [(q & E' & W & M)|(q & E' & pre & pl & post & r & A & B & C)].
  - exists q, 1. auto.
  - exists q, 0. split; auto. right. right. split; auto. split; auto. exists pre, pl, post, r. split; auto.
Qed.

Lemma r3d_clip_safe (p : pol) planes : wf3 p -> 0 < nv p <= MX ->
  (forall pre pl post q, planes = pre ++ pl :: post -> r3d_clip N MX p pre = OK (q, 1) ->
     nv q + exits 3 (kept3 N pl q) (nb (vb q)) (nv q) <= MX) ->
  exists p', r3d_clip N MX p planes = OK (p', 1).
Proof.
  intros Hw HM H. destruct (r3d_clip_total p planes Hw ltac:(lia)) as (p' & st & E & [(-> & _)|[(_ & X & _)|(-> & _ & pre & pl & post & q & A & B & C)]]).
  - eauto.
  - lia.
  - exfalso. pose proof (H pre pl post q A B). lia.
Qed.

Lemma clip3_planes_room planes : forall p : pol, wf3 p -> nv p <= MX ->
  5 * nv p * 2 ^ Z.of_nat (length planes) <= 4 * MX ->
  exists p', clip3_planes N MX planes p = OK (p', 1).
Proof.
  induction planes as [|pl rest IH]; intros p Hw Hp HM; [cbn; eauto|].
  cbn [length] in HM. rewrite Nat2Z.inj_succ, !Z.pow_succ_r in HM by lia.
  pose proof Hw as (Hn & HL & HS).
  pose proof (Z.pow_pos_nonneg 2 (Z.of_nat (length rest)) ltac:(lia) ltac:(lia)) as P2.
  set (b := 2 ^ Z.of_nat (length rest)) in *.
  assert (HM5 : 5 * nv p <= 2 * MX) by nia.
  cbn [clip3_planes]. destruct (clip3_sd_spec N MX (vb p) (nv p) pl) as (s & E & _); [lia|].
  rewrite E. cbn [bind].
  destruct (nle N (n0 N) (smin3 N s)); [apply IH; auto; fold b; nia|].
  destruct (nle N (smax3 N s) (n0 N)); [eauto|].
  pose proof (exits3_le (keepv3 N pl (vb p)) (nb (vb p)) (nv p) Hn HL) as EL.
  destruct (clip3_step_spec N MX p pl s Hw ltac:(lia) E) as [(p' & X1 & X2 & X3)|(p' & X1 & X2)]; [|lia].
  rewrite X1. cbn [bind]. destruct (cut_of_wf N p _ _ _ p' Hw X3) as (W' & M').
  pose proof (cut_at_most_double N p _ _ _ p' Hw X3). apply IH; auto; [lia|]. fold b. nia.
Qed.
Lemma r3d_clip_room (p : pol) planes : wf3 p -> 0 < nv p <= MX ->
  5 * nv p * 2 ^ Z.of_nat (length planes) <= 4 * MX ->
  exists p', r3d_clip N MX p planes = OK (p', 1).
Proof. intros Hw Hp HM. rewrite r3d_clip_pre by lia. apply clip3_planes_room; auto. lia. Qed.

(** ** failed clips *)
Lemma r3d_clip_failed (p p' : pol) planes : wf3 p -> 0 < nv p <= MX -> r3d_clip N MX p planes = OK (p', 0) ->
  exists pre q, (exists pl post, planes = pre ++ pl :: post) /\ r3d_clip N MX p pre = OK (q, 1) /\ nv q <= MX
  /\ nv p' = MX /\ forall v k, nv q <= v < MX -> 0 < k < 3 -> nb (vb p') v k = nb (vb q) v k.
Proof.
  intros Hw HM E. rewrite r3d_clip_pre in E by lia.
  destruct (clip3_planes_stale N MX planes p p' Hw ltac:(lia) E) as (pre & q & X & Eq & _ & M & Hn & Hs).
  exists pre, q. split; auto. rewrite r3d_clip_pre by lia. split; auto. split; auto. split; auto.
  intros v k Hv Hk. apply Hs; lia.
Qed.

(** ** splits *)
Lemma r3d_split_list pl : forall ins outs, r3d_split N MX pl ins = OK (outs, 1) ->
  Forall2 (fun i o => r3d_split1 N MX pl (fst i) (fst (snd i)) (snd (snd i)) = OK (o, true)) ins outs.
Proof.
  induction ins as [|[p [a b]] rest IH]; intros outs E; cbn [r3d_split] in E.
  - inversion E; subst. constructor.
  - apply bind_OK in E as ([r ok] & E1 & E). destruct ok; [|inversion E].
    apply bind_OK in E as ([rs st] & E2 & E). inversion E; subst. constructor; auto.
Qed.

Lemma r3d_split_linked pl ins outs : r3d_split N MX pl ins = OK (outs, 1) ->
  Forall2 (fun i o => wf3 (fst i) -> nv (fst i) <= MX ->
     wf3 (fst (snd o)) /\ wf3 (snd (snd o)) /\ nv (fst (snd o)) <= MX /\ nv (snd (snd o)) <= MX) ins outs.
Proof.
  intros E. apply r3d_split_list in E. eapply F2_impl; [|exact E].
  intros [p [a b]] [q [o0 o1]] X Hw HM. cbn [fst snd] in *. pose proof Hw as (Hn & _).
  assert (W0 : wf3 (zero_poly3 N)) by (apply wf3_nil; reflexivity).
  destruct (split31_spec N MX pl p a b Hw HM) as [(A & E')|[(A & B & E')|[(A & B & E')|(u & v & Hu & Hv & Ru & Rv & [(q' & x & y & E' & S)|(q' & E' & C)])]]];
    rewrite E' in X; inversion X; subst; cbn [nv zero_poly3]; auto with zarith.
  destruct (split3_result_wf N MX p _ _ _ _ Hw S) as (A & B & C & D).
  pose proof A as (A0 & _). pose proof B as (B0 & _). split; auto. split; auto. lia.
Qed.

Lemma r3d_split_total pl ins : List.Forall (fun i => wf3 (fst i) /\ nv (fst i) <= MX) ins ->
  exists outs st, r3d_split N MX pl ins = OK (outs, st) /\ length outs = length ins
  /\ (st = 1 \/ st = 0 /\ exists i, In i ins
        /\ MX < nv (fst i) + 2 * exits 3 (kept3 N pl (fst i)) (nb (vb (fst i))) (nv (fst i))).
Proof.
  induction 1 as [|[p [a b]] rest (Hw & HM) _ (outs & st & IH & HL & IH')]; cbn [r3d_split]; [eauto 6|]. cbn [fst] in *.
  destruct (split31_spec N MX pl p a b Hw ltac:(lia)) as [(A & E')|[(A & B & E')|[(A & B & E')|(u & v & Hu & Hv & Ru & Rv & [(q' & x & y & E' & S)|(q' & E' & C)])]]];
    rewrite E'; cbn [bind]; rewrite ?IH; cbn [bind];
    try (do 2 eexists; split; [reflexivity|]; split; [cbn; congruence|];
         destruct IH' as [->|(-> & i & Hi & Hx)]; auto; right; split; auto; exists i; split; [right; auto|auto]).
  do 2 eexists; split; [reflexivity|]. split; [reflexivity|]. right. split; auto.
  exists (p, (a, b)). split; [left; auto|exact C].
Qed.

Lemma r3d_split_room pl ins : List.Forall (fun i => wf3 (fst i) /\ 4 * nv (fst i) <= MX) ins ->
  exists outs, r3d_split N MX pl ins = OK (outs, 1).
Proof.
  intros H. destruct (r3d_split_total pl ins) as (outs & st & E & _ & [->|(_ & i & Hi & C)]); eauto.
  - eapply List.Forall_impl; [|exact H]. intros i (Hw & HM). pose proof Hw as (Hn & _). split; auto. lia.
  - exfalso. rewrite List.Forall_forall in H. destruct (H i Hi) as ((Hn & HL & _) & HM).
    pose proof (exits3_le (kept3 N pl (fst i)) (nb (vb (fst i))) (nv (fst i)) Hn HL). lia.
Qed.

(** ** reduce *)
Lemma num_moments3_eq po : num_moments3 po = (po + 1) * (po + 2) * (po + 3) / 6. Proof. reflexivity. Qed.

Lemma moment_slots3 po : 0 <= po ->
  (forall i j k, 0 <= i -> 0 <= j -> 0 <= k -> i + j + k <= po -> 0 <= idx3 i j k < (po + 1) * (po + 2) * (po + 3) / 6)
  /\ (forall i j k i' j' k', 0 <= i -> 0 <= j -> 0 <= k -> 0 <= i' -> 0 <= j' -> 0 <= k' ->
        (idx3 i j k < idx3 i' j' k' <-> i + j + k < i' + j' + k'
            \/ i + j + k = i' + j' + k' /\ (i' < i \/ i = i' /\ k < k')))
  /\ (forall m, 0 <= m < (po + 1) * (po + 2) * (po + 3) / 6 ->
        exists i j k, 0 <= i /\ 0 <= j /\ 0 <= k /\ i + j + k <= po /\ m = idx3 i j k).
Proof.
  intros Hpo. split; [|split].
  - intros i j k Hi Hj Hk Hs. now apply idx3_range.
  - assert (L : forall i j k i' j' k', 0 <= i -> 0 <= j -> 0 <= k -> 0 <= i' -> 0 <= j' -> 0 <= k' ->
      i + j + k < i' + j' + k' \/ i + j + k = i' + j' + k' /\ (i' < i \/ i = i' /\ k < k') -> idx3 i j k < idx3 i' j' k').
    { intros i j k i' j' k' A B C D F G [X|(X & Y)].
      - pose proof (idx3_order i j k A B C). pose proof (idx3_order i' j' k' D F G).
        pose proof (tri3_mono (i + j + k + 1) (i' + j' + k') ltac:(lia)). lia.
      - unfold idx3. rewrite X. destruct Y as [Y|(Y & Y')].
        + pose proof (tri2_mono (j + k + 1) (j' + k') ltac:(lia)) as M. rewrite tri2_succ in M. lia.
        + replace (j' + k') with (j + k) by lia. lia. }
    intros i j k i' j' k' A B C D F G. split; [|now apply L]. intros X.
    destruct (Z.lt_trichotomy (i + j + k) (i' + j' + k')) as [Y|[Y|Y]]; auto.
    + right. split; auto. destruct (Z.lt_trichotomy i i') as [W|[W|W]]; auto.
      * pose proof (L i' j' k' i j k D F G A B C ltac:(lia)). lia.
      * right. split; auto. destruct (Z.lt_trichotomy k k') as [Q|[Q|Q]]; auto.
        -- assert (j = j') by lia. subst. lia.
        -- pose proof (L i' j' k' i j k D F G A B C ltac:(lia)). lia.
    + pose proof (L i' j' k' i j k D F G A B C ltac:(lia)). lia.
  - intros m Hm. now apply idx3_surj.
Qed.

(** the volume is accumulated over a list that contains every triangle of the fan of every face exactly once *)
Lemma r3d_reduce_visits po (p : pol) mom : 0 <= po -> wf3 p -> nv p <= MX ->
  exists mom' l, r3d_reduce N MX false p mom po = OK mom'
  /\ NoDup l
  /\ (forall d, In d l <-> isd (below (nv p)) d /\ fst d <> fst (lead (nb (vb p)) (nv p) d)
                          /\ dtgt (nb (vb p)) d <> fst (lead (nb (vb p)) (nv p) d))
  /\ mom' 0 = fold_left (fun q d => nadd N q (nmul N (nsixth N)
        (sixv3 N (ps (vb p) (fst (lead (nb (vb p)) (nv p) d))) (ps (vb p) (dtgt (nb (vb p)) d)) (ps (vb p) (fst d))))) l (n0 N)
  /\ (forall m, ~ 0 <= m < (po + 1) * (po + 2) * (po + 3) / 6 -> mom' m = mom m)
  /\ (forall mom2, exists mom2', r3d_reduce N MX false p mom2 po = OK mom2').
Proof.
  intros Hpo Hw HM. pose proof Hw as (Hn & _).
  destruct (Z.eq_dec (nv p) 0) as [H0|H0].
  { assert (EM : forall m, exists m', r3d_reduce N MX false p m po = OK m' /\ (forall i, 0 <= i < num_moments3 po -> m' i = n0 N)
       /\ (forall i, ~ 0 <= i < num_moments3 po -> m' i = m i)) by (intros m; apply reduce3_empty; lia).
    destruct (EM mom) as (m1 & E & A & B). exists m1, []. split; auto. split; [constructor|]. split.
    { intros d. split; [intros []|]. intros ((X & _) & _). unfold below in X. lia. }
    split. { cbn. apply A. rewrite num_moments3_tri. pose proof (tri3_mono 1 (po + 1) ltac:(lia)). change (tri3 1) with 1 in *. lia. }
    split; [exact B|]. intros m2. destruct (EM m2) as (m2' & E2 & _). eauto. }
  assert (EM : forall m, exists m' l, r3d_reduce N MX false p m po = OK m' /\ mom_state N None p po l m m').
  { intros m. destruct (reduce3_spec N MX false po p m Hpo Hw ltac:(lia)) as (vc & l & m1 & -> & S & E). eauto. }
  destruct (EM mom) as (m1 & l & E & (S1 & S2 & S3 & S4)). exists m1, l. split; auto. split; auto. split; [exact S2|].
  split. { specialize (S3 0 0 0 ltac:(lia) ltac:(lia) ltac:(lia) ltac:(lia)). rewrite idx3_000 in S3. rewrite S3. reflexivity. }
  split; [exact S4|]. intros m2. destruct (EM m2) as (m2' & l2 & E2 & _). eauto.
Qed.
End G.

(** ** exact arithmetic *)
Lemma exits_all (keep : Z -> bool) f n : links f (below n) -> (forall v, 0 <= v < n -> keep v = true) -> exits 3 keep f n = 0.
Proof.
  intros L K. rewrite (exits3_ext keep (fun _ => true) f n L K). unfold exits.
  rewrite (filter_ext _ (fun _ => false)) by (intros; apply andb_false_r).
  induction (list_prod _ _); cbn; auto.
Qed.

Lemma r3d_clip_status MX planes (p p' : pol3) st : wf3 p -> 0 < nv p <= MX -> r3d_clip RN MX p planes = OK (p', st) ->
  (st = 1 \/ st = 0)
  /\ (st = 0 <-> exists pre pl post q, planes = pre ++ pl :: post /\ r3d_clip RN MX p pre = OK (q, 1)
        /\ (exists v, 0 <= v < nv q /\ (0 < sdist3 pl (ps (vb q) v))%R)
        /\ MX < nv q + exits 3 (kept3 RN pl q) (nb (vb q)) (nv q)).
Proof.
  intros Hw HM E.
  assert (EX : forall pl (q : pol3), links (nb (vb q)) (below (nv q)) ->
     exits 3 (kept3 RN pl q) (nb (vb q)) (nv q) = crossings3 pl q).
  { intros pl q HL. apply exits3_ext; auto. intros v Hv. unfold kept3, keepR.
    pose proof (sdf3_sdist pl (vb q) v) as S. unfold sdf3 in S. rn. rewrite S. cbn.
    unfold Rleb, Rltb. destruct (Rle_dec 0 _), (Rlt_dec _ 0); auto; lra. }
  assert (ST : forall pre pl post (q : pol3), planes = pre ++ pl :: post -> r3d_clip RN MX p pre = OK (q, 1) -> MX < nv q + crossings3 pl q ->
     (st = 0 <-> exists v, 0 <= v < nv q /\ (0 < sdist3 pl (ps (vb q) v))%R)).
  { intros pre pl post q A B C. destruct (r3d_clip_linked RN MX p q pre Hw (proj2 HM) B) as (Wq & Mq).
    rewrite r3d_clip_pre in E, B by (rn; lia). rewrite A in E. rewrite clip3_planes_app in E by (rn; lia).
    pose proof Wq as (_ & Lq & _). rn. rewrite B in E. cbn [bind Z.eqb Pos.eqb] in E.
    destruct (clip3_step_R MX pl post q Wq Mq) as [(D & _)|[(D & _ & E')|(_ & D & [(q' & _ & _ & _ & X & _)|(q' & E' & _)])]].
    - exfalso. unfold crossings3 in C. rewrite exits_all in C; auto; [rn; lia|]. intros v Hv. apply Rleb_true. auto.
    - rewrite E' in E. inversion E. split; [discriminate|]. intros (v & Hv & X). pose proof (D v Hv). lra.
    - rn; lia.
    - rewrite E' in E. inversion E. tauto. }
  destruct (r3d_clip_total RN MX p planes Hw (proj2 HM)) as (q & st' & E' & X). rewrite E in E'. inversion E'; subst q st'. clear E'.
  split. { intuition. }
  split.
  - intros ->. destruct X as [(X & _)|[(_ & X & _)|(_ & _ & pre & pl & post & q & A & B & C)]]; [discriminate|rn; lia|].
    exists pre, pl, post, q. split; auto. split; auto. split; auto.
    apply (ST pre pl post q A B); auto. rewrite <- EX; auto.
    destruct (r3d_clip_linked RN MX p q pre Hw (proj2 HM) B) as ((_ & L & _) & _). exact L.
  - intros (pre & pl & post & q & A & B & V & C). apply (ST pre pl post q A B); auto. rewrite <- EX; auto.
    destruct (r3d_clip_linked RN MX p q pre Hw (proj2 HM) B) as ((_ & L & _) & _). exact L.
Qed.

(** convex combination of the vertices *)
Definition in_hull3 (p : pol3) (q : rvec3 R) : Prop :=
  exists w : Z -> R, (forall v, (0 <= w v)%R) /\ lsum (zrange (nv p)) w = 1%R
   /\ x3 q = lsum (zrange (nv p)) (fun v => w v * x3 (ps (vb p) v))%R
   /\ y3 q = lsum (zrange (nv p)) (fun v => w v * y3 (ps (vb p) v))%R
   /\ z3 q = lsum (zrange (nv p)) (fun v => w v * z3 (ps (vb p) v))%R.

Lemma hull3_vertex (p : pol3) u : (0 <= u < nv p)%Z -> in_hull3 p (ps (vb p) u).
Proof.
  intros Hu. exists (fun v => if (v =? u)%Z then 1%R else 0%R). split.
  { intros v. destruct (v =? u)%Z; lra. }
  split; [|split; [|split]; symmetry; now apply (lsum_delta (nv p) u (fun v => _ (ps (vb p) v)))].
  transitivity (lsum (zrange (nv p)) (fun v => (if (v =? u)%Z then 1 else 0) * 1)%R); [apply lsum_ext; intros; ring|].
  now apply (lsum_delta (nv p) u (fun _ => 1%R)).
Qed.
Lemma hull3_combo (p : pol3) a b t : in_hull3 p a -> in_hull3 p b -> (0 <= t <= 1)%R -> in_hull3 p (lerp3 t a b).
Proof.
  intros (w & W1 & W2 & W3 & W4 & W5) (w' & V1 & V2' & V3' & V4 & V5) Ht.
  exists (fun v => (1 - t) * w v + t * w' v)%R. split.
  { intros v. pose proof (W1 v). pose proof (V1 v). nra. }
  assert (LS : forall f : Z -> R, lsum (zrange (nv p)) (fun v => ((1 - t) * w v + t * w' v) * f v)%R
     = ((1 - t) * lsum (zrange (nv p)) (fun v => w v * f v) + t * lsum (zrange (nv p)) (fun v => w' v * f v))%R).
  { intros f. rewrite <- !lsum_scal, <- lsum_add. apply lsum_ext. intros. ring. }
  split; [|unfold lerp3; cbn [x3 y3 z3]; rewrite W3, V3', W4, V4, W5, V5, !LS; auto].
  pose proof (LS (fun _ => 1%R)) as L.
  rewrite (lsum_ext _ (fun v => ((1 - t) * w v + t * w' v) * 1)%R (fun v => (1 - t) * w v + t * w' v)%R) in L by (intros; ring).
  rewrite L. rewrite (lsum_ext _ (fun v => w v * 1)%R w), (lsum_ext _ (fun v => w' v * 1)%R w') by (intros; ring).
  rewrite W2, V2'. ring.
Qed.
Lemma meet3_combo pl a b : (0 <= sdist3 pl a)%R -> (sdist3 pl b < 0)%R ->
  exists t, (0 <= t <= 1)%R /\ meet3 pl a b = lerp3 t a b.
Proof.
  intros A B. exists (sdist3 pl a / (sdist3 pl a - sdist3 pl b))%R. split; [|apply meet3_lerp; lra]. split.
  - apply Rmult_le_pos; [lra|]. left. apply Rinv_0_lt_compat. lra.
  - apply (Rmult_le_reg_r (sdist3 pl a - sdist3 pl b)); [lra|]. unfold Rdiv. rewrite Rmult_assoc, Rinv_l by lra. lra.
Qed.
Lemma clip3_planes_hull MX (planes : list (plane3 R)) (p0 : pol3) : forall (p p' : pol3), wf3 p -> (nv p <= MX)%Z ->
  clip3_planes RN MX planes p = OK (p', 1) ->
  (forall v, (0 <= v < nv p)%Z -> in_hull3 p0 (ps (vb p) v)) ->
  forall v, (0 <= v < nv p')%Z -> in_hull3 p0 (ps (vb p') v).
Proof.
  induction planes as [|pl rest IH]; intros p p' Hw HM E Hg.
  { cbn in E. inversion E; subst. auto. }
  destruct (clip3_step_R MX pl rest p Hw HM) as [(A & E')|[(A & B & E')|(A & B & [(q & C & W & M & R & E')|(q & E' & C)])]];
    rn; rewrite E' in E.
  - eauto.
  - inversion E; subst. cbn. intros. lia.
  - apply (IH q p'); auto. intros v Hv. destruct C as (N & C).
    destruct (cut_of_vertex p q _ _ N Hw C v Hv) as [(u & Hu & Ku & ->)|(x & (_ & K1 & K2) & H1 & H2 & ->)]; auto.
    unfold keepR in *. apply Rleb_true in K1. apply Rleb_false in K2. unfold meetR. destruct (meet3_combo pl _ _ K1 K2) as (t & Ht & ->). apply hull3_combo; auto.
  - inversion E.
Qed.

Lemma r3d_clip_R MX (planes : list (plane3 R)) (p p' : pol3) : wf3 p -> (nv p <= MX)%Z ->
  r3d_clip RN MX p planes = OK (p', 1) ->
  (forall v pl, 0 <= v < nv p' -> In pl planes -> (0 <= sdist3 pl (ps (vb p') v))%R)
  /\ (forall v, 0 <= v < nv p' -> in_hull3 p (ps (vb p') v))
  /\ (planar_faces p -> planar_faces p').
Proof.
  intros Hw HM E. destruct (r3d_clip_pos RN MX p p' planes Hw E) as (Hp & E1). split; [|split].
  - exact (clip3_planes_inside MX planes p p' Hw HM E1).
  - apply (clip3_planes_hull MX planes p p p' Hw HM E1). intros. now apply hull3_vertex.
  - intros HP. exact (clip3_planes_planar MX planes p p' Hw HP HM E1).
Qed.

(** nothing to cut off, nothing to keep *)
Lemma clip3_inside_id MX (planes : list (plane3 R)) (p : pol3) : wf3 p -> (nv p <= MX)%Z ->
  inside_all3 planes p -> clip3_planes RN MX planes p = OK (p, 1).
Proof.
  intros Hw HM. induction planes as [|pl rest IH]; intros H; auto.
  destruct (clip3_step_R MX pl rest p Hw HM) as [(A & E')|[(A & (v & Hv & B) & E')|((v & Hv & A) & _)]].
  - rn. rewrite E'. apply IH. intros v g Hv HI. apply H; auto. now right.
  - pose proof (H v pl Hv (or_introl eq_refl)). lra.
  - pose proof (H v pl Hv (or_introl eq_refl)). lra.
Qed.
Lemma r3d_clip_inside_id MX (planes : list (plane3 R)) (p : pol3) : wf3 p -> (0 < nv p <= MX)%Z ->
  (forall v pl, (0 <= v < nv p)%Z -> In pl planes -> (0 <= sdist3 pl (ps (vb p) v))%R) ->
  r3d_clip RN MX p planes = OK (p, 1).
Proof.
  intros Hw HM H. rewrite r3d_clip_pre by (rn; lia). apply clip3_inside_id; auto. rn; lia.
Qed.
Lemma r3d_clip_outside MX (planes : list (plane3 R)) (p p' : pol3) : wf3 p -> (nv p <= MX)%Z ->
  r3d_clip RN MX p planes = OK (p', 1) ->
  (exists pl, In pl planes /\ forall v, (0 <= v < nv p)%Z -> (sdist3 pl (ps (vb p) v) < 0)%R) -> nv p' = 0.
Proof.
  intros Hw HM E (pl & HI & H). destruct (r3d_clip_R MX planes p p' Hw HM E) as (A & B & _).
  destruct (r3d_clip_linked RN MX p p' planes Hw HM E) as ((Hn & _) & _).
  destruct (Z.eq_dec (nv p') 0) as [Q|Q]; auto. exfalso.
  pose proof (A 0%Z pl ltac:(rn; lia) HI) as A0. destruct (B 0%Z ltac:(rn; lia)) as (w & W1 & W2 & W3 & W4 & W5).
  assert (S : sdist3 pl (ps (vb p') 0%Z) = lsum (zrange (nv p)) (fun v => w v * sdist3 pl (ps (vb p) v))%R).
  { transitivity (d3 pl * lsum (zrange (nv p)) w + x3 (n3 pl) * x3 (ps (vb p') 0%Z) + y3 (n3 pl) * y3 (ps (vb p') 0%Z) + z3 (n3 pl) * z3 (ps (vb p') 0%Z))%R.
    { rewrite W2. unfold sdist3. ring. }
    rewrite W3, W4, W5. rewrite <- !lsum_scal, <- !lsum_add. apply lsum_ext. intros v _. unfold sdist3. ring. }
  assert (NEG : forall l, (forall v, In v l -> (0 <= v < nv p)%Z) -> (lsum l (fun v => w v * sdist3 pl (ps (vb p) v)) <= 0)%R
     /\ ((0 < lsum l w)%R -> (lsum l (fun v => w v * sdist3 pl (ps (vb p) v)) < 0)%R)).
  { induction l as [|v l IH]; intros Hl; cbn [lsum]; [split; lra|].
    destruct IH as (I1 & I2); [intros; apply Hl; now right|].
    pose proof (H v (Hl v (or_introl eq_refl))) as Hs. pose proof (W1 v).
    split; [nra|]. intros P. destruct (Req_dec (w v) 0) as [Z0|Z0]; [|nra].
    rewrite Z0 in *. assert (lsum l w > 0)%R by lra. specialize (I2 ltac:(lra)). lra. }
  destruct (NEG (zrange (nv p))) as (_ & N2); [intros v Hv; now apply in_zrange|].
  rewrite <- S in N2. specialize (N2 ltac:(lra)). lra.
Qed.

Lemma r3d_clip_conserves MX (pre : list (plane3 R)) pl (p p0 p1 p2 : pol3) i j k :
  proper pl -> wf3 p -> planar_faces p -> (nv p <= MX)%Z ->
  r3d_clip RN MX p pre = OK (p0, 1) ->
  r3d_clip RN MX p (pre ++ [pl]) = OK (p1, 1) -> r3d_clip RN MX p (pre ++ [flip3 pl]) = OK (p2, 1) ->
  (moment3 p1 i j k + moment3 p2 i j k = moment3 p0 i j k)%R.
Proof.
  intros Hpl Hw HP HM E0 E1 E2. apply r3d_clip_pos in E0, E1, E2; auto.
  exact (clip3_conserves MX pre pl p p0 p1 p2 i j k Hpl Hw HP HM (proj2 E0) (proj2 E1) (proj2 E2)).
Qed.

Lemma r3d_split_R MX pl ins outs : r3d_split RN MX pl ins = OK (outs, 1) ->
  Forall2 (fun (i o : pol3 * (pol3 * pol3)) => wf3 (fst i) -> nv (fst i) <= MX ->
     (planar_faces (fst i) -> planar_faces (fst (snd o)) /\ planar_faces (snd (snd o))
        /\ forall a b c, (moment3 (fst (snd o)) a b c + moment3 (snd (snd o)) a b c = moment3 (fst i) a b c)%R)
     /\ (forall v, 0 <= v < nv (fst (snd o)) -> (0 <= sdist3 pl (ps (vb (fst (snd o))) v))%R)
     /\ (forall v, 0 <= v < nv (snd (snd o)) -> (sdist3 pl (ps (vb (snd (snd o))) v) <= 0)%R)) ins outs.
Proof.
  intros E. apply r3d_split_list in E. eapply F2_impl; [|exact E].
  intros [p [a b]] [q [o0 o1]] X Hw HM. cbn [fst snd] in *.
  destruct (split31_R MX pl p a b q o0 o1 Hw HM X) as (A & B & C & _). auto.
Qed.

(** ** shapes *)
Lemma r3d_init_tet_shape MX (p0 : pol3) (a b c d : rvec3 R) : 4 <= MX ->
  exists p, r3d_init_tet RN MX p0 a b c d = OK p /\ nv p = 4 /\ wf3 p /\ planar_faces p
  /\ map (ps (vb p)) [0; 1; 2; 3] = [a; b; c; d]
  /\ forall i j k, moment3 p i j k = tetra_int a b c d i j k.
Proof.
  intros HM. destruct (init_tet_spec RN MX p0 a b c d HM) as (p & E & Hn & A & P). exists p. split; [exact E|].
  split; auto. split; [exact (tet_wf RN p Hn A)|]. split; [exact (tet_planar p Hn A)|]. split; [exact P|].
  intros i j k. exact (tet_moment p a b c d i j k Hn A P).
Qed.
Lemma r3d_init_box_shape MX (p0 : pol3) (lo hi : rvec3 R) : 8 <= MX ->
  exists p, r3d_init_box RN MX p0 lo hi = OK p /\ nv p = 8 /\ wf3 p /\ planar_faces p
  /\ map (ps (vb p)) [0; 1; 2; 3; 4; 5; 6; 7] =
     [V3 (x3 lo) (y3 lo) (z3 lo); V3 (x3 hi) (y3 lo) (z3 lo); V3 (x3 hi) (y3 hi) (z3 lo); V3 (x3 lo) (y3 hi) (z3 lo);
      V3 (x3 lo) (y3 lo) (z3 hi); V3 (x3 hi) (y3 lo) (z3 hi); V3 (x3 hi) (y3 hi) (z3 hi); V3 (x3 lo) (y3 hi) (z3 hi)]
  /\ forall i j k, moment3 p i j k
     = (RInt (fun x => x ^ i) (x3 lo) (x3 hi) * RInt (fun y => y ^ j) (y3 lo) (y3 hi)
        * RInt (fun z => z ^ k) (z3 lo) (z3 hi))%R.
Proof.
  intros HM. destruct (init_box_spec3 RN MX p0 lo hi HM) as (p & E & Hn & A & P). exists p. split; [exact E|].
  split; auto. split; [exact (box_wf RN p Hn A)|]. split; [exact (box_planar p lo hi Hn A P)|]. split; [exact P|].
  intros i j k. exact (box_moment3 p lo hi i j k Hn A P).
Qed.

Lemma r3d_orient_exact MX (p0 : pol3) (a b c d : rvec3 R) : 4 <= MX ->
  exists p, r3d_init_tet RN MX p0 a b c d = OK p
  /\ (r3d_orient RN a b c d : R) = moment3 p 0 0 0
  /\ (r3d_orient RN a b c d : R) =
     (((x3 b - x3 a) * ((y3 c - y3 a) * (z3 d - z3 a) - (z3 c - z3 a) * (y3 d - y3 a))
       - (y3 b - y3 a) * ((x3 c - x3 a) * (z3 d - z3 a) - (z3 c - z3 a) * (x3 d - x3 a))
       + (z3 b - z3 a) * ((x3 c - x3 a) * (y3 d - y3 a) - (y3 c - y3 a) * (x3 d - x3 a))) / 6)%R.
Proof.
  intros HM. destruct (r3d_init_tet_shape MX p0 a b c d HM) as (p & E & _ & _ & _ & _ & M). exists p. split; [exact E|].
  rewrite M, tetra_int_000. split; [apply orient3_vol|]. rewrite orient3_vol. unfold vol6, det3. cbn. field.
Qed.

(** ** faces of a polyhedron given by index lists *)
Lemma poly_faces_list (verts : list (rvec3 R)) : forall faces : list (list Z),
  (forall f, In f faces -> f <> [] /\ (forall i, In i f -> 0 <= i < Z.of_nat (length verts))
     /\ exists g, proper g /\ forall i, In i f -> sdist3 g (nth (Z.to_nat i) verts (V3 0 0 0)%R) = 0%R) ->
  exists pls, r3d_poly_faces_from_verts RN verts faces = OK pls
  /\ Forall2 (fun f pl => let vs := map (fun i => nth (Z.to_nat i) verts (V3 0 0 0)%R) f in
       (forall v, In v vs -> sdist3 pl v = 0%R)
       /\ exists c, (0 < c)%R /\ forall q, sdist3 pl q = (c * fan_vol vs q)%R) faces pls.
Proof.
  induction faces as [|f rest IH]; intros H; cbn [r3d_poly_faces_from_verts].
  { exists []. split; auto. }
  destruct IH as (pls & E & F). { intros g Hg. apply H. now right. }
  destruct (H f (or_introl eq_refl)) as (Hne & Hr & g & Hg & Hon).
  rn. rewrite (lookup_all_ok verts f (V3 0 0 0)%R Hr). cbn [bind].
  destruct (poly_face_R (map (fun i => nth (Z.to_nat i) verts (V3 0 0 0)%R) f) g) as (pl & Ep & A & B); auto.
  { destruct f; [congruence|discriminate]. }
  { intros v Hv. apply in_map_iff in Hv as (i & <- & Hi). auto. }
  exists (pl :: pls). rn. rewrite Ep. cbn [bind]. rewrite E. cbn [bind]. split; auto.
Qed.

(** ** centre of the vertices *)
Lemma r3d_poly_center_exact MX (p : pol3) : 0 <= nv p <= MX ->
  exists c, r3d_poly_center RN MX p = OK c
  /\ (x3 c = lsum (zrange (nv p)) (fun v => x3 (ps (vb p) v)) / IZR (nv p)
  /\ y3 c = lsum (zrange (nv p)) (fun v => y3 (ps (vb p) v)) / IZR (nv p)
  /\ z3 c = lsum (zrange (nv p)) (fun v => z3 (ps (vb p) v)) / IZR (nv p))%R.
Proof.
  intros Hn. unfold r3d_poly_center.
  destruct (for_inv (fun i (s : rvec3 R) => s = V3 (lsum (zrange i) (fun v => x3 (ps (vb p) v)))
      (lsum (zrange i) (fun v => y3 (ps (vb p) v))) (lsum (zrange i) (fun v => z3 (ps (vb p) v))))
     0 (nv p) (fun vcur vc =>
     let* q := rd_ps MX (vb p) vcur in
     OK (V3 (nadd RN (x3 vc) (x3 q)) (nadd RN (y3 vc) (y3 q)) (nadd RN (z3 vc) (z3 q)))) (V3 (n0 RN) (n0 RN) (n0 RN))) as (s & E & S); try (rn; lia); auto.
  - intros i s Hi ->. rewrite rd_ps_ok by (rn; lia). cbn [bind]. eexists. split; [reflexivity|].
    rewrite zrange_succ by lia. rewrite !lsum_app. cbn. f_equal; ring.
  - rn. rewrite E. cbn [bind]. eexists. split; [reflexivity|]. subst s. cbn. auto.
Qed.

Lemma reduce3_shift_equal MX (p : pol3) mom po : 0 <= po -> wf3 p -> nv p <= MX ->
  exists m1 m2, r3d_reduce RN MX false p mom po = OK m1 /\ r3d_reduce RN MX true p mom po = OK m2
  /\ forall m, m1 m = m2 m.
Proof.
  intros Hpo Hw HM.
  destruct (reduce_moment3 MX p mom po Hpo Hw HM) as (m1 & E1 & A1 & B1).
  destruct (reduce_shift_moment3 MX p mom po Hpo Hw HM) as (m2 & E2 & A2 & B2).
  exists m1, m2. split; [exact E1|]. split; [exact E2|]. intros m.
  assert (D : 0 <= m < num_moments3 po \/ ~ 0 <= m < num_moments3 po) by lia. destruct D as [D|D].
  - destruct (idx3_surj po m D) as (i & j & k & Hi & Hj & Hk & Hs & ->).
    pose proof (A1 (Z.to_nat i) (Z.to_nat j) (Z.to_nat k) ltac:(lia)) as X1.
    pose proof (A2 (Z.to_nat i) (Z.to_nat j) (Z.to_nat k) ltac:(lia)) as X2.
    rewrite !Z2Nat.id in X1, X2 by auto. congruence.
  - rewrite B1, B2 by auto. auto.
Qed.

(** ** transforms *)
Section Tr.
Context (MX : Z) (p : pol3).
Hypothesis Hw : wf3 p.
Hypothesis HM : nv p <= MX.
Lemma translate3_all (sh : rvec3 R) : exists p', r3d_translate RN MX p sh = OK p' /\ nv p' = nv p /\ nb (vb p') = nb (vb p)
  /\ (forall v, (0 <= v < nv p)%Z -> ps (vb p') v = V3 (x3 (ps (vb p) v) + x3 sh) (y3 (ps (vb p) v) + y3 sh) (z3 (ps (vb p) v) + z3 sh))%R
  /\ moment3 p' 0 0 0 = moment3 p 0 0 0.
Proof.
  destruct (translate3_R MX p Hw HM sh) as (p' & E & M). exists p'. split; [exact E|].
  pose proof M as (A & B & C & _). split; auto. split; auto. split; auto.
  rewrite (translate3_moment p Hw sh p' 0 0 0 M). unfold bsum3. cbn. unfold Binomial.C. cbn. field.
Qed.
Lemma scale3_all (s : R) : exists p', r3d_scale RN MX p s = OK p' /\ nv p' = nv p /\ nb (vb p') = nb (vb p)
  /\ (forall v, (0 <= v < nv p)%Z -> ps (vb p') v = V3 (x3 (ps (vb p) v) * s) (y3 (ps (vb p) v) * s) (z3 (ps (vb p) v) * s))%R
  /\ forall i j k, (moment3 p' i j k = s ^ (i + j + k + 3) * moment3 p i j k)%R.
Proof.
  destruct (scale3_R MX p Hw HM s) as (p' & E & M). exists p'. split; [exact E|].
  pose proof M as (A & B & C & _). split; auto. split; auto. split; auto.
  intros i j k. exact (scale3_moment p Hw s p' i j k M).
Qed.
Lemma shear3_all (s : R) axb axs : 0 <= axb < 3 -> 0 <= axs < 3 -> axb <> axs ->
  exists p', r3d_shear RN MX p s axb axs = OK p' /\ nv p' = nv p /\ nb (vb p') = nb (vb p)
  /\ (forall v, 0 <= v < nv p -> forall ax, 0 <= ax < 3 ->
        coordR3 ax (ps (vb p') v) = if ax =? axb then (coordR3 axb (ps (vb p) v) + s * coordR3 axs (ps (vb p) v))%R
                                    else coordR3 ax (ps (vb p) v))
  /\ moment3 p' 0 0 0 = moment3 p 0 0 0.
Proof.
  intros Ha Hb Hd. destruct (shear3_R MX p Hw HM s axb axs Ha Hb) as (p' & E & M). exists p'. split; [exact E|].
  pose proof M as (A & B & C & _). split; auto. split; auto. split.
  - intros v Hv ax Hx. rewrite C by auto. unfold shear3_map.
    assert (X : axb = 0 \/ axb = 1 \/ axb = 2) by lia. assert (Y : ax = 0 \/ ax = 1 \/ ax = 2) by lia.
    destruct X as [->|[->| ->]], Y as [->|[->| ->]]; reflexivity.
  - exact (shear3_volume p Hw s axb axs p' Ha Hb Hd M).
Qed.
Lemma affine3_all (m : Z -> Z -> R) : exists p', r3d_affine RN MX p m = OK p' /\ nv p' = nv p /\ nb (vb p') = nb (vb p)
  /\ (forall v, 0 <= v < nv p -> let q := ps (vb p) v in
        let row r := (m r 0%Z * x3 q + m r 1%Z * y3 q + m r 2%Z * z3 q + m r 3%Z)%R in
        ps (vb p') v = V3 (row 0%Z / row 3%Z)%R (row 1%Z / row 3%Z)%R (row 2%Z / row 3%Z)%R)
  /\ (m 3 0 = 0%R -> m 3 1 = 0%R -> m 3 2 = 0%R -> m 3 3 = 1%R -> (moment3 p' 0 0 0 = detm m * moment3 p 0 0 0)%R).
Proof.
  destruct (affine3_R MX p Hw HM m) as (p' & E & M). exists p'. split; [exact E|].
  pose proof M as (A & B & C & _). split; auto. split; auto. split.
  - intros v Hv q row. rewrite C by auto. unfold affine3_map, row, q. rn. cbv zeta beta. apply f_equal3; (apply f_equal2; ring).
  - intros. now apply (affine3_det p Hw m p').
Qed.
Lemma rotate3_all theta axis : 0 <= axis < 3 -> exists p', r3d_rotate RN MX p theta axis = OK p' /\ nv p' = nv p /\ nb (vb p') = nb (vb p)
  /\ (forall v, 0 <= v < nv p -> ps (vb p') v = rot3_map theta axis (ps (vb p) v))
  /\ (forall u v, 0 <= u < nv p -> 0 <= v < nv p -> dist3 (ps (vb p') u) (ps (vb p') v) = dist3 (ps (vb p) u) (ps (vb p) v))
  /\ moment3 p' 0 0 0 = moment3 p 0 0 0.
Proof.
  intros Ha. destruct (rotate3_R MX p Hw HM theta axis Ha) as (p' & E & M). exists p'. split; [exact E|].
  pose proof M as (A & B & C & _). split; auto. split; auto. split; auto. split.
  - intros u v Hu Hv. rewrite !C by auto. apply rot3_isometry.
  - exact (rotate3_volume p Hw theta axis p' Ha M).
Qed.
End Tr.

(** ** the failed clip *)
Lemma clip_failed_invalid : exists (p p' : pol3) (planes : list (plane3 R)),
  wf3 p /\ 0 < nv p <= 512 /\ r3d_clip RN 512 p planes = OK (p', 0) /\ ~ wf3 p'.
Proof.
  destruct (tets_fail 512 127 ltac:(lia) ltac:(lia)) as (p' & E & Hn & Hs).
  exists (tets 127 tets_pos), p', [tets_cut]. split; [apply tets_wf; lia|]. split; [cbn; lia|]. split; [exact E|].
  intros (_ & L & _). rn. rewrite Hn in L.
  pose proof (l_dist _ _ L 508 1 2 ltac:(unfold below; lia) ltac:(lia) ltac:(lia)) as X.
  rn. rewrite !Hs in X by lia. discriminate (X eq_refl).
Qed.
