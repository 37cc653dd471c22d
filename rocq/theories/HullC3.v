(** * HullC3: [r3d_clip], [r3d_split] and [r3d_split_coord] intersect convex polyhedra with
    half-spaces, over the reals. *)
From Coq Require Import Reals ZArith List Bool Lia Lra.
From Verif Require Import Base Lib SumR ModelCommon CommonFacts Model3 RealNum SpecN SpecNC PolyN TruncN NearN Spec3 Orb3 Cut3 Struct3 Clip3 Spec3R Mom3 Geo3 Cons3 SpecC3 Conv3.
Import ListNotations.
Open Scope R_scope.

Definition comb3 (s : R) (g h : plane3 R) : plane3 R :=
  PL3 (V3 (x3 (n3 g) + s * x3 (n3 h)) (y3 (n3 g) + s * y3 (n3 h)) (z3 (n3 g) + s * z3 (n3 h))) (d3 g + s * d3 h).
Lemma sdist3_comb s g h q : sdist3 (comb3 s g h) q = sdist3 g q + s * sdist3 h q.
Proof. unfold sdist3, comb3. cbn. ring. Qed.
Definition lift3 (c : R) (g : plane3 R) : plane3 R := PL3 (n3 g) (d3 g + c).
Lemma sdist3_lift c g q : sdist3 (lift3 c g) q = sdist3 g q + c.
Proof. unfold sdist3, lift3. cbn. ring. Qed.
Lemma hull3_vertex (p : pol3) v : (0 <= v < nv p)%Z -> hull3 p (ps (vb p) v).
Proof. intros Hv pl H. auto. Qed.
Lemma hull3_0 (p : pol3) x : (nv p <= 0)%Z -> ~ hull3 p x.
Proof. intros H0 H. specialize (H (PL3 (V3 0 0 0) (-1))). unfold sdist3 in H. cbn in H. assert (0 <= -1 + (0 * x3 x + 0 * y3 x + 0 * z3 x)) by (apply H; intros; lia). lra. Qed.
Lemma hull3_mono (p q : pol3) : (forall v, (0 <= v < nv q)%Z -> hull3 p (ps (vb q) v)) -> forall x, hull3 q x -> hull3 p x.
Proof. intros H x Hx g Hg. apply Hx. intros v Hv. apply H; auto. Qed.
(** a linear bound that holds at finitely many vertices holds with some room *)
Lemma finite_margin n (s g : Z -> R) : (0 <= n)%Z -> exists c, 0 <= c /\ forall v, (0 <= v < n)%Z -> s v < 0 -> 0 <= g v + c * (- s v).
Proof.
  revert n. apply zrange_ind. { exists 0. split; [lra|]. intros; lia. }
  intros n Hn (c & Hc & H). destruct (Rlt_dec (s n) 0) as [S|S].
  - exists (c + Rabs (g n) / (- s n)). assert (0 <= Rabs (g n) / (- s n)) by (apply Rle_mult_inv_pos; [apply Rabs_pos|lra]). split; [lra|]. intros v Hv Sv.
    destruct (Z.eq_dec v n) as [->|].
    + replace ((c + Rabs (g n) / - s n) * - s n) with (c * - s n + Rabs (g n)) by (field; lra). assert (0 <= c * - s n) by (apply Rmult_le_pos; lra). pose proof (Rle_abs (- g n)) as H9. rewrite Rabs_Ropp in H9. lra.
    + specialize (H v ltac:(lia) Sv). rewrite Rmult_plus_distr_r. assert (0 <= Rabs (g n) / - s n * - s v) by (apply Rmult_le_pos; lra). lra.
  - exists c. split; auto. intros v Hv Sv. destruct (Z.eq_dec v n) as [->|]; [contradiction|]. apply H; auto. lia.
Qed.
Lemma cut_kept (p p' : pol3) keep np N u : cut_of RN p keep np N p' -> (0 <= u < nv p)%Z -> keep u = true ->
  exists v, (0 <= v < nv p')%Z /\ ps (vb p') v = ps (vb p) u.
Proof.
  intros (b' & K & M & HK & C & (En & Hc)) Hu Ku. pose proof (cu_n _ _ _ _ _ _ _ C) as HnN. rewrite <- HK in Ku by auto.
  rn. exists (cnt K u). split.
  - rewrite En. split; [apply cnt_nonneg|]. apply cnt_lt; auto. lia.
  - destruct (Hc u ltac:(lia) Ku) as (-> & _). apply (cu_ps _ _ _ _ _ _ _ C). auto.
Qed.
Lemma meet_co pl0 pl (a b : rvec3 R) k : pl0 = pl \/ pl0 = flip3 pl -> sdist3 pl a <> sdist3 pl b ->
  co3 (meet3 pl a b) k = (co3 b k * sdist3 pl0 a - co3 a k * sdist3 pl0 b) / (sdist3 pl0 a - sdist3 pl0 b).
Proof.
  intros [->| ->] N.
  - unfold meet3, wav3, co3. cbn. destruct (k =? 0)%Z; [|destruct (k =? 1)%Z]; cbn; field; lra.
  - rewrite !sdist3_flip. unfold meet3, wav3, co3. cbn. destruct (k =? 0)%Z; [|destruct (k =? 1)%Z]; cbn; field; lra.
Qed.

(** one side of a convex polyhedron *)
Theorem cut_side (p p' : pol3) N keep pl pl0 : pl0 = pl \/ pl0 = flip3 pl -> convex3 p -> cut_of RN p keep (meetR pl p) N p' ->
  (forall v, (0 <= v < nv p)%Z -> keep v = true -> 0 <= sdist3 pl0 (ps (vb p) v)) ->
  (forall v, (0 <= v < nv p)%Z -> keep v = false -> sdist3 pl0 (ps (vb p) v) <= 0) ->
  ((forall v, (0 <= v < nv p)%Z -> keep v = true -> 0 < sdist3 pl0 (ps (vb p) v)) \/ (forall v, (0 <= v < nv p)%Z -> keep v = false -> sdist3 pl0 (ps (vb p) v) < 0)) ->
  (exists u, (0 <= u < nv p)%Z /\ keep u = true) ->
  convex3 p' /\ forall x, hull3 p' x <-> hull3 p x /\ 0 <= sdist3 pl0 x.
Proof.
  intros E0 CV CO Kt Kf KS (u & Hu & Ku). pose proof CV as (W & _). pose proof W as (Hn & L & _).
  assert (NE : forall v w, (0 <= v < nv p)%Z -> (0 <= w < nv p)%Z -> keep v = true -> keep w = false -> sdist3 pl (ps (vb p) v) <> sdist3 pl (ps (vb p) w)).
  { intros v w Hv Hw Kv Kw. pose proof (Kt v Hv Kv). pose proof (Kf w Hw Kw).
    assert (X : 0 < sdist3 pl0 (ps (vb p) v) \/ sdist3 pl0 (ps (vb p) w) < 0) by (destruct KS as [KS|KS]; [left|right]; auto).
    destruct E0 as [->| ->]; rewrite ?sdist3_flip in *; lra. }
  destruct (cut_convex3 p p' N keep (meetR pl p) pl0 CV CO Kt Kf KS) as (CV' & HU).
  { intros v i k Hv Hi Hk Kv Kw w a b. unfold meetR, dtgt. cbn [fst snd]. unfold at3, a, b. apply meet_co; auto. apply NE; auto. apply (l_rng _ _ L); auto. }
  split; auto. intros x.
  destruct (Rlt_dec 0 (sdist3 pl0 (ps (vb p) u))) as [P|P]. { apply (HU x u); auto. }
  (* the kept vertices on the plane *)
  destruct KS as [KS|KS]; [specialize (KS u Hu Ku); contradiction|].
  assert (D : (exists v0, (0 <= v0 < nv p)%Z /\ 0 < sdist3 pl0 (ps (vb p) v0)) \/ forall v, (0 <= v < nv p)%Z -> sdist3 pl0 (ps (vb p) v) <= 0).
  { destruct (existsb (fun v => if Rlt_dec 0 (sdist3 pl0 (ps (vb p) v)) then true else false) (zrange (nv p))) eqn:EX.
    - left. apply existsb_exists in EX as (v & I & T). apply in_zrange in I. exists v. split; auto. destruct (Rlt_dec 0 (sdist3 pl0 (ps (vb p) v))); [auto|discriminate].
    - right. intros v Hv. destruct (Rlt_dec 0 (sdist3 pl0 (ps (vb p) v))) as [T|T]; [|lra]. exfalso.
      assert (X : existsb (fun v => if Rlt_dec 0 (sdist3 pl0 (ps (vb p) v)) then true else false) (zrange (nv p)) = true); [|congruence].
      apply existsb_exists. exists v. split; [now apply in_zrange|]. destruct (Rlt_dec 0 (sdist3 pl0 (ps (vb p) v))); auto. }
  destruct D as [(v0 & Hv0 & P0)|D]; [apply (HU x v0); auto|].
  assert (KZ : forall v, (0 <= v < nv p)%Z -> keep v = true -> sdist3 pl0 (ps (vb p) v) = 0) by (intros v Hv Kv; specialize (Kt v Hv Kv); specialize (D v Hv); lra).
  assert (VP : forall v, (0 <= v < nv p')%Z -> exists u, (0 <= u < nv p)%Z /\ keep u = true /\ ps (vb p') v = ps (vb p) u).
  { intros v Hv. destruct (cut_of_vertex p p' keep _ N W CO v Hv) as [X|(y & Cy & Hy & Hy' & E)]; [exact X|]. exists (fst y).
    destruct Cy as (_ & K1 & K2). split; auto. split; auto. rewrite E. unfold meetR. apply meet3_on_l; [apply NE; auto|].
    specialize (KZ (fst y) Hy K1). destruct E0 as [->| ->]; rewrite ?sdist3_flip in KZ; lra. }
  split.
  - intros Hx. split.
    + revert x Hx. apply hull3_mono. intros v Hv. destruct (VP v Hv) as (w & Hw & _ & ->). now apply hull3_vertex.
    + apply Hx. intros v Hv. destruct (VP v Hv) as (w & Hw & Kw & ->). rewrite KZ by auto. lra.
  - intros (Hx & Sx) g Hg.
    destruct (finite_margin (nv p) (fun v => sdist3 pl0 (ps (vb p) v)) (fun v => sdist3 g (ps (vb p) v)) Hn) as (c & Hc & HC).
    assert (Y : 0 <= sdist3 (comb3 (- c) g pl0) x).
    { apply Hx. intros v Hv. rewrite sdist3_comb. destruct (keep v) eqn:Kv.
      - rewrite KZ by auto. destruct (cut_kept p p' keep _ N v CO Hv Kv) as (v' & Hv' & E). specialize (Hg v' Hv'). rewrite E in Hg. lra.
      - specialize (HC v Hv (KS v Hv Kv)). cbv beta in HC. lra. }
    rewrite sdist3_comb in Y. assert (sdist3 pl0 x <= 0).
    { assert (0 <= sdist3 (flip3 pl0) x) by (apply Hx; intros v Hv; rewrite sdist3_flip; specialize (D v Hv); lra). rewrite sdist3_flip in H. lra. }
    assert (E : sdist3 pl0 x = 0) by lra. rewrite E in Y. lra.
Qed.

(** the empty polyhedron *)
Lemma convex3_0 (p : pol3) : nv p = 0%Z -> convex3 p.
Proof.
  intros E. split; [now apply wf3_empty|]. exists 0%Z, (fun _ => 0%Z). rewrite E. split.
  - constructor; unfold isd, below; intros; lia.
  - intros e He. exists (fun _ _ => 0), (fun _ => 0), (fun _ _ => 0). split; [|split]; try (intros ? ?; lia).
    constructor; unfold upto; intros; lia.
Qed.

(** ** [r3d_clip] *)
Section C.
Variable MX : Z.
Lemma clip_hulls planes : forall p p' : pol3, convex3 p -> (nv p <= MX)%Z -> clip3_planes RN MX planes p = OK (p', 1%Z) ->
  convex3 p' /\ ((forall x, hull3 p' x <-> hull3 p x /\ holds3 planes x) \/ (nv p' = 0%Z /\ exists pl, In pl planes /\ forall x, hull3 p x -> holds3 planes x -> sdist3 pl x = 0)).
Proof.
  induction planes as [|pl rest IH]; intros p p' CV HM E.
  { cbn in E. injection E as <-. split; auto. left. intros x. split; [intros H; split; auto; intros pl []|intros (H & _); auto]. }
  pose proof CV as (W & _).
  destruct (clip3_step_R MX pl rest p W HM) as [(A & E')|[(A & B & E')|(A & (u & Hu & Su) & [(q & (N & CO) & Wq & Mq & R & E')|(q & E' & _)])]]; rn; rewrite E' in E.
  - destruct (IH p p' CV HM E) as (C' & [H|(Z0 & H)]); split; auto.
    + left. intros x. rewrite H. split; intros (H1 & H2); split; auto.
      * intros pl' [<-|I]; auto.
      * intros pl' I. apply H2. now right.
    + destruct H as (g & Ig & H). right. split; auto. exists g. split; [now right|]. intros x Hx Sx. apply (H x Hx). intros pl' I. apply Sx. now right.
  - injection E as <-. split; [now apply convex3_0|]. right. split; auto. exists pl. split; [now left|]. intros x Hx Sx. specialize (Sx pl ltac:(now left)).
    assert (0 <= sdist3 (flip3 pl) x) by (apply Hx; intros v Hv; rewrite sdist3_flip; specialize (A v Hv); lra). rewrite sdist3_flip in H. lra.
  - assert (KT : forall v, keepR pl p v = true <-> 0 <= sdist3 pl (ps (vb p) v)) by (intros v; unfold keepR; apply Rleb_true).
    assert (KF : forall v, keepR pl p v = false -> sdist3 pl (ps (vb p) v) < 0).
    { intros v Kv. destruct (Rle_dec 0 (sdist3 pl (ps (vb p) v))) as [Q|Q]; [apply KT in Q; congruence|lra]. }
    destruct (cut_side p q N (keepR pl p) pl pl (or_introl eq_refl) CV CO) as (Cq & Hq); [intros v _; apply KT|intros; apply Rlt_le; auto|right; auto| |].
    { exists u. split; auto. apply KT. lra. }
    destruct (IH q p' Cq Mq E) as (C' & [H|(Z0 & H)]); split; auto.
    + left. intros x. rewrite H, Hq. split.
      * intros ((H1 & H2) & H3). split; auto. intros pl' [<-|I]; auto.
      * intros (H1 & H2). split; [split; auto; apply H2; now left|]. intros pl' I. apply H2. now right.
    + destruct H as (g & Ig & H). right. split; auto. exists g. split; [now right|]. intros x Hx Sx. apply (H x); [|intros pl' I; apply Sx; now right]. apply Hq. split; auto. apply Sx. now left.
  - discriminate.
Qed.
Theorem r3d_clip_hull (p p' : pol3) planes : convex3 p -> (nv p <= MX)%Z -> r3d_clip RN MX p planes = OK (p', 1%Z) ->
  convex3 p' /\ ((forall x, hull3 p' x <-> hull3 p x /\ holds3 planes x) \/ (nv p' = 0%Z /\ exists pl, In pl planes /\ forall x, hull3 p x -> holds3 planes x -> sdist3 pl x = 0)).
Proof.
  intros CV HM E. unfold r3d_clip in E. rn. destruct (Z.leb_spec (nv p) 0); [inversion E|]. now apply (clip_hulls planes).
Qed.

(** ** Splits *)
Lemma side_all (p : pol3) pl : convex3 p -> (forall v, (0 <= v < nv p)%Z -> 0 <= sdist3 pl (ps (vb p) v)) -> side_of p pl p.
Proof. intros C A. split; auto. left. intros x. split; [intros H; split; auto|tauto]. Qed.
Lemma side_none (p o : pol3) pl : nv o = 0%Z -> (forall v, (0 <= v < nv p)%Z -> sdist3 pl (ps (vb p) v) <= 0) -> side_of p pl o.
Proof.
  intros E A. split; [now apply convex3_0|]. right. split; auto. intros x Hx.
  assert (0 <= sdist3 (flip3 pl) x) by (apply Hx; intros v Hv; rewrite sdist3_flip; specialize (A v Hv); lra). rewrite sdist3_flip in H. lra.
Qed.
Theorem split1_hull pl (p op on q o0 o1 : pol3) : convex3 p -> (nv p <= MX)%Z ->
  r3d_split1 RN MX pl p op on = OK ((q, (o0, o1)), true) -> side_of p pl o0 /\ side_of p (flip3 pl) o1.
Proof.
  intros CV HM E. pose proof CV as (W & _).
  assert (RT : forall v, rightv3 RN pl (vb p) v = true -> sdist3 pl (ps (vb p) v) < 0).
  { intros v. unfold rightv3. rewrite sdf3_sdist. cbn. intros X. now apply Rltb_true in X. }
  assert (RF : forall v, rightv3 RN pl (vb p) v = false -> 0 <= sdist3 pl (ps (vb p) v)).
  { intros v. unfold rightv3. rewrite sdf3_sdist. cbn. intros X. apply Rltb_false in X. lra. }
  assert (EZ : nv (zero_poly3 RN) = 0%Z) by reflexivity.
  destruct (split31_spec RN MX pl p op on W HM) as [(H0 & E')|[(H0 & A & E')|[(H0 & A & E')|(u & v & Hu & Hv & Ru & Rv & [(q' & o0' & o1' & E' & S)|(q' & E' & _)])]]];
    rn; rewrite E' in E; inversion E; subst; rn.
  - split; apply side_none; auto; intros; lia.
  - split; [apply side_all; auto|apply side_none; auto]. intros v Hv. rewrite sdist3_flip. specialize (RF v (A v Hv)). lra.
  - split; [apply side_none; auto; intros v Hv; apply Rlt_le; auto|apply side_all; auto]. intros v Hv. rewrite sdist3_flip. specialize (RT v (A v Hv)). lra.
  - assert (HSD : forall u v, (0 <= u < nv p)%Z -> (0 <= v < nv p)%Z -> rightv3 RN pl (vb p) u = false ->
       rightv3 RN pl (vb p) v = true ->
       (0 <= sdist3 pl (ps (vb p) u) /\ sdist3 pl (ps (vb p) v) < 0) \/ (sdist3 pl (ps (vb p) u) <= 0 /\ 0 < sdist3 pl (ps (vb p) v))).
    { intros a b _ _ Ra Rb. left. auto. }
    assert (SD : forall v, (0 <= v < nv p)%Z -> @eq R (sdf3 RN pl (vb p) v) (sdist3 pl (ps (vb p) v))) by (intros; apply sdf3_sdist).
    destruct (split3_cuts pl p o0 o1 _ _ MX W SD HSD S) as (C0 & C1).
    destruct (cut_side p o0 _ _ pl pl (or_introl eq_refl) CV C0) as (X0 & Y0).
    + intros w Hw K. apply negb_true_iff in K. auto.
    + intros w Hw K. apply negb_false_iff in K. apply Rlt_le. auto.
    + right. intros w Hw K. apply negb_false_iff in K. auto.
    + exists u. split; auto. now rewrite Ru.
    + destruct (cut_side p o1 _ _ pl (flip3 pl) (or_intror eq_refl) CV C1) as (X1 & Y1).
      * intros w Hw K. rewrite sdist3_flip. specialize (RT w K). lra.
      * intros w Hw K. rewrite sdist3_flip. specialize (RF w K). lra.
      * left. intros w Hw K. rewrite sdist3_flip. specialize (RT w K). lra.
      * exists v. auto.
      * split; split; auto.
Qed.

Theorem split_coord_hull (p o1 q0 q1 : pol3) coord ax : convex3 p -> (nv p <= MX)%Z -> (0 <= ax < 3)%Z -> nv o1 = 0%Z \/ (0 < nv p)%Z ->
  r3d_split_coord RN MX p o1 coord ax = OK (q0, q1) ->
  side_of p (flip3 (axis_plane3 ax coord)) q0 /\ side_of p (axis_plane3 ax coord) q1.
Proof.
  intros CV HM Hax Ho E. set (pl := axis_plane3 ax coord). pose proof CV as (W & _).
  assert (SD : forall v, (0 <= v < nv p)%Z -> @eq R (csd3 RN coord ax (vb p) v) (sdist3 pl (ps (vb p) v))).
  { intros v Hv. unfold csd3, pl. rewrite axis_sdist3. reflexivity. }
  assert (RT : forall v, (0 <= v < nv p)%Z -> cright3 RN coord ax (vb p) v = true -> 0 < sdist3 pl (ps (vb p) v)).
  { intros v Hv. unfold cright3. rewrite SD by auto. cbn. intros X. now apply Rltb_true in X. }
  assert (RF : forall v, (0 <= v < nv p)%Z -> cright3 RN coord ax (vb p) v = false -> sdist3 pl (ps (vb p) v) <= 0).
  { intros v Hv. unfold cright3. rewrite SD by auto. cbn. intros X. now apply Rltb_false in X. }
  destruct (split3_coord_spec RN MX p o1 coord ax W HM Hax) as [(H0 & E')|[(H0 & A & E')|[(H0 & A & E')|(u & v & Hu & Hv & Ru & Rv & [(q' & o1' & E' & S)|(E' & _)])]]];
    rn; rewrite E' in E; inversion E; subst; rn.
  - assert (nv q1 = 0%Z) by lia. split; apply side_none; auto; intros; lia.
  - split; [apply side_all; auto; intros v Hv; rewrite sdist3_flip; specialize (RF v Hv (A v Hv)); lra|apply side_none; auto].
  - split; [apply side_none; auto; intros v Hv; rewrite sdist3_flip; specialize (RT v Hv (A v Hv)); lra|apply side_all; auto; intros v Hv; apply Rlt_le; auto].
  - assert (HSD : forall u v, (0 <= u < nv p)%Z -> (0 <= v < nv p)%Z -> cright3 RN coord ax (vb p) u = false ->
       cright3 RN coord ax (vb p) v = true ->
       (0 <= sdist3 pl (ps (vb p) u) /\ sdist3 pl (ps (vb p) v) < 0) \/ (sdist3 pl (ps (vb p) u) <= 0 /\ 0 < sdist3 pl (ps (vb p) v))).
    { intros a b Ha Hb Ra Rb. right. auto. }
    destruct (split3_cuts pl p q0 q1 _ _ MX W SD HSD S) as (C0 & C1).
    destruct (cut_side p q0 _ _ pl (flip3 pl) (or_intror eq_refl) CV C0) as (X0 & Y0).
    + intros w Hw K. apply negb_true_iff in K. rewrite sdist3_flip. specialize (RF w Hw K). lra.
    + intros w Hw K. apply negb_false_iff in K. rewrite sdist3_flip. specialize (RT w Hw K). lra.
    + right. intros w Hw K. apply negb_false_iff in K. rewrite sdist3_flip. specialize (RT w Hw K). lra.
    + exists u. split; auto. now rewrite Ru.
    + destruct (cut_side p q1 _ _ pl pl (or_introl eq_refl) CV C1) as (X1 & Y1).
      * intros w Hw K. apply Rlt_le. auto.
      * intros w Hw K. auto.
      * left. auto.
      * exists v. auto.
      * split; split; auto.
Qed.
End C.
