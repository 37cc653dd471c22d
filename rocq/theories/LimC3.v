(** * LimC3: volumes of convex polyhedra some of whose edges have length zero, as limits. *)
From Coq Require Import Reals ZArith List Bool Lia Lra Psatz Classical.
From Verif Require Import Base Lib SumR ModelCommon CommonFacts Model3 ModelN RealNum SpecN SpecNC SpecNP SpecNR SpecNJ PolyN TruncN NearN FlagR BoxVolN FlagN SplitN MonoN ContN VoxJ
  HPoly HShift HInt Spec3 Orb3 Cut3 Struct3 FaceSpec3 Face3 Clip3 Spec3R Mom3 Geo3 Cons3 GlueV3 SpecC3 Conv3 HullC3 FlagC3 VolC3.
Import ListNotations.
Open Scope R_scope.
Notation det3 := SpecC3.det3.

(** ** Continuous functions of the positions *)
Ltac cont_step add sub mul K :=
  lazymatch goal with
  | |- _ (fun q => @?F q + @?G q) => apply (add F G)
  | |- _ (fun q => @?F q - @?G q) => apply (sub F G)
  | |- _ (fun q => @?F q * @?G q) => apply (mul F G)
  | |- _ => apply K; [assumption|lia]
  end.
Section Cont.
Context (n : Z) (p : Z -> vec).
Definition close (d : R) (q : Z -> vec) : Prop := forall v k, (0 <= v < n)%Z -> (0 <= k < 3)%Z -> Rabs (q v k - p v k) < d.
Definition cont (F : (Z -> vec) -> R) : Prop := forall e, 0 < e -> exists d, 0 < d /\ forall q, close d q -> Rabs (F q - F p) < e.
Lemma close_le d d' q : d <= d' -> close d q -> close d' q.
Proof. intros H C v k Hv Hk. specialize (C v k Hv Hk). lra. Qed.
Lemma cont_const c : cont (fun _ => c).
Proof. intros e He. exists 1. split; [lra|]. intros. rewrite Rminus_diag_eq, Rabs_R0; auto. Qed.
Lemma cont_co v k : (0 <= v < n)%Z -> (0 <= k < 3)%Z -> cont (fun q => q v k).
Proof. intros Hv Hk e He. exists e. split; auto. Qed.
Lemma cont_add F G : cont F -> cont G -> cont (fun q => F q + G q).
Proof.
  intros HF HG e He. destruct (HF (e / 2) ltac:(lra)) as (d & Hd & A). destruct (HG (e / 2) ltac:(lra)) as (d' & Hd' & B).
  exists (Rmin d d'). split; [apply Rmin_glb_lt; auto|]. intros q Cq.
  specialize (A q (close_le _ _ _ (Rmin_l _ _) Cq)). specialize (B q (close_le _ _ _ (Rmin_r _ _) Cq)).
  replace (F q + G q - (F p + G p)) with ((F q - F p) + (G q - G p)) by ring. eapply Rle_lt_trans; [apply Rabs_triang|]. lra.
Qed.
Lemma cont_mul F G : cont F -> cont G -> cont (fun q => F q * G q).
Proof.
  intros HF HG e He. set (M := Rabs (F p) + Rabs (G p) + 1). pose proof (Rabs_pos (F p)). pose proof (Rabs_pos (G p)). assert (1 <= M) by (unfold M; lra).
  assert (Ht : 0 < Rmin 1 (e / (2 * M))) by (apply Rmin_glb_lt; [lra|apply Rdiv_lt_0_compat; lra]).
  destruct (HF _ Ht) as (d & Hd & A). destruct (HG _ Ht) as (d' & Hd' & B).
  exists (Rmin d d'). split; [apply Rmin_glb_lt; auto|]. intros q Cq.
  specialize (A q (close_le _ _ _ (Rmin_l _ _) Cq)). specialize (B q (close_le _ _ _ (Rmin_r _ _) Cq)).
  set (t := Rmin 1 (e / (2 * M))) in *. assert (T1 : t <= 1) by apply Rmin_l. assert (T2 : t <= e / (2 * M)) by apply Rmin_r.
  replace (F q * G q - F p * G p) with ((F q - F p) * (G q - G p) + ((F q - F p) * G p + F p * (G q - G p))) by ring.
  eapply Rle_lt_trans; [apply Rabs_triang|]. eapply Rle_lt_trans; [apply Rplus_le_compat_l, Rabs_triang|]. rewrite !Rabs_mult.
  set (a := Rabs (F q - F p)) in *. set (b := Rabs (G q - G p)) in *. assert (0 <= a) by apply Rabs_pos. assert (0 <= b) by apply Rabs_pos.
  assert (a * b <= t * 1) by (apply Rmult_le_compat; lra).
  assert (a * Rabs (G p) <= t * Rabs (G p)) by (apply Rmult_le_compat_r; lra). assert (Rabs (F p) * b <= Rabs (F p) * t) by (apply Rmult_le_compat_l; lra).
  assert (t * M <= e / 2). { apply Rle_trans with (e / (2 * M) * M); [apply Rmult_le_compat_r; lra|]. right. field. lra. }
  assert (t * M = t * 1 + t * Rabs (G p) + Rabs (F p) * t) by (unfold M; ring). lra.
Qed.
Lemma cont_scal c F : cont F -> cont (fun q => c * F q).
Proof. intros H. apply (cont_mul (fun _ => c) F); auto using cont_const. Qed.
Lemma cont_sub F G : cont F -> cont G -> cont (fun q => F q - G q).
Proof.
  intros HF HG e He. destruct (cont_add F (fun q => -1 * G q) HF (cont_scal _ _ HG) e He) as (d & Hd & A). exists d. split; auto. intros q Cq. specialize (A q Cq).
  replace (F q - G q - (F p - G p)) with (F q + -1 * G q - (F p + -1 * G p)) by ring. auto.
Qed.
Lemma cont_lsum {A} (l : list A) (F : A -> (Z -> vec) -> R) : (forall a, In a l -> cont (F a)) -> cont (fun q => lsum l (fun a => F a q)).
Proof.
  induction l as [|a l IH]; intros H; cbn [lsum]; [apply cont_const|]. apply (cont_add (F a) (fun q => lsum l (fun a => F a q))); [apply H; now left|]. apply IH. intros b Hb. apply H. now right.
Qed.
Lemma cont_det a b c : (0 <= a < n)%Z -> (0 <= b < n)%Z -> (0 <= c < n)%Z -> cont (fun q => det3 (q a) (q b) (q c)).
Proof.
  intros Ha Hb Hc. assert (K : forall v k, (0 <= v < n)%Z -> (0 <= k < 3)%Z -> cont (fun q => q v k)) by (intros; now apply cont_co). unfold SpecC3.det3.
  repeat cont_step cont_add cont_sub cont_mul K.
Qed.
Lemma cont_unique F c : cont F -> (forall d, 0 < d -> exists q, close d q /\ F q = c) -> F p = c.
Proof.
  intros HF H. destruct (Req_dec (F p) c) as [E|E]; auto. exfalso. assert (P : 0 < Rabs (F p - c)) by (apply Rabs_pos_lt; lra).
  destruct (HF _ P) as (d & Hd & A). destruct (H d Hd) as (q & Cq & Eq). specialize (A q Cq). rewrite Eq in A. rewrite Rabs_minus_sym in A. lra.
Qed.
End Cont.

(** ** Points of one plane *)
Definition dif (a b : rvec3 R) : vec := fun k => co3 b k - co3 a k.
Lemma vol6_det a b c d : vol6 a b c d = det3 (dif a b) (dif a c) (dif a d).
Proof. unfold vol6, HPoly.det3, psub, pt3, SpecC3.det3, dif, co3. cbn. ring. Qed.
Lemma cr_dt (a b c : vec) : det3 a b c = dt (cr a b) c.
Proof. unfold SpecC3.det3, dt, cr. cbn [Z.eqb Pos.eqb]. ring. Qed.
Lemma sdist_dif (nn : vec) a b : sdist3 (PL3 (V3 (nn 0%Z) (nn 1%Z) (nn 2%Z)) (- dt nn (co3 a))) b = dt nn (dif a b).
Proof. unfold sdist3, dt, dif, co3. cbn. ring. Qed.
Lemma proper_nz (nn : vec) d : dt nn nn <> 0 -> proper (PL3 (V3 (nn 0%Z) (nn 1%Z) (nn 2%Z)) d).
Proof.
  intros N. unfold proper. cbn. destruct (Req_dec (nn 0%Z) 0) as [A|A]; [|auto]. destruct (Req_dec (nn 1%Z) 0) as [B|B]; [|auto]. right. right. intros G. apply N. unfold dt. rewrite A, B, G. ring.
Qed.
Lemma dt_zero (c : vec) : dt c c = 0 -> c 0%Z = 0 /\ c 1%Z = 0 /\ c 2%Z = 0.
Proof. unfold dt. intros. repeat split; nra. Qed.
Lemma coplanar (P : rvec3 R -> Prop) : (forall a b c d, P a -> P b -> P c -> P d -> vol6 a b c d = 0) ->
  exists g, proper g /\ forall a, P a -> sdist3 g a = 0.
Proof.
  intros H. destruct (classic (exists a b c, P a /\ P b /\ P c /\ dt (cr (dif a b) (dif a c)) (cr (dif a b) (dif a c)) <> 0)) as [(a & b & c & Pa & Pb & Pc & N)|N].
  { exists (PL3 (V3 (cr (dif a b) (dif a c) 0%Z) (cr (dif a b) (dif a c) 1%Z) (cr (dif a b) (dif a c) 2%Z)) (- dt (cr (dif a b) (dif a c)) (co3 a))).
    split; [now apply proper_nz|]. intros d Pd. rewrite sdist_dif, <- cr_dt, <- vol6_det. auto. }
  destruct (classic (exists a b, P a /\ P b /\ dt (dif a b) (dif a b) <> 0)) as [(a & b & Pa & Pb & N')|N'].
  { assert (X : exists nn : vec, dt nn nn <> 0 /\ dt nn (dif a b) = 0).
    { set (u := dif a b) in *. destruct (Req_dec (u 0%Z * u 0%Z + u 1%Z * u 1%Z) 0) as [E|E].
      - exists (fun k => if (k =? 0)%Z then 1 else 0). unfold dt. cbn. assert (u 0%Z = 0) by nra. rewrite H0. split; lra.
      - exists (fun k => if (k =? 0)%Z then u 1%Z else if (k =? 1)%Z then - u 0%Z else 0). unfold dt. cbn. split; [lra|ring]. }
    destruct X as (nn & Nn & Z0). exists (PL3 (V3 (nn 0%Z) (nn 1%Z) (nn 2%Z)) (- dt nn (co3 a))). split; [now apply proper_nz|].
    intros c Pc. rewrite sdist_dif.
    destruct (par3 (dif a c) (dif a b) N') as (g & Hg).
    { destruct (Req_dec (dt (cr (dif a b) (dif a c)) (cr (dif a b) (dif a c))) 0) as [E|E]; [|exfalso; apply N; exists a, b, c; auto].
      apply dt_zero in E as (E0 & E1 & E2). unfold cr in E0, E1, E2. cbn [Z.eqb Pos.eqb] in E0, E1, E2. intros k Hk. unfold cr.
      assert (K : k = 0%Z \/ k = 1%Z \/ k = 2%Z) by lia. destruct K as [->|[->| ->]]; cbn [Z.eqb Pos.eqb]; lra. }
    unfold dt in *. rewrite !Hg by lia. transitivity (g * (nn 0%Z * dif a b 0%Z + nn 1%Z * dif a b 1%Z + nn 2%Z * dif a b 2%Z)); [ring|]. rewrite Z0. ring. }
  destruct (classic (exists a, P a)) as [(a & Pa)|N''].
  - exists (PL3 (V3 1 0 0) (- x3 a)). split; [unfold proper; cbn; lra|]. intros b Pb.
    destruct (Req_dec (dt (dif a b) (dif a b)) 0) as [E|E]; [|exfalso; apply N'; exists a, b; auto]. apply dt_zero in E as (E & _). unfold dif, co3 in E. cbn in E. unfold sdist3. cbn. lra.
  - exists (PL3 (V3 1 0 0) 0). split; [unfold proper; cbn; lra|]. intros b Pb. exfalso. eauto.
Qed.

(** ** Approximations of a convex polyhedron *)
Definition with_pos (p : pol3) (q : Z -> vec) : pol3 := PY (VB (nb (vb p)) (fun v => V3 (q v 0%Z) (q v 1%Z) (q v 2%Z))) (nv p).
Lemma with_pos_at p q v k : (0 <= k < 3)%Z -> at3 (with_pos p q) v k = q v k.
Proof. intros Hk. unfold at3, with_pos, co3. cbn. assert (K : k = 0%Z \/ k = 1%Z \/ k = 2%Z) by lia. destruct K as [->|[->| ->]]; reflexivity. Qed.
Lemma realized_ext D n nh h q q' l0 l : (forall v k, upto n v -> (0 <= k < D)%Z -> q v k = q' v k) -> realized D n nh h q l0 l -> realized D n nh h q' l0 l.
Proof.
  intros E [A B G I]. assert (X : forall v c0 c, upto n v -> linN D c0 c (q' v) = linN D c0 c (q v)) by (intros; apply linN_ext; intros; symmetry; auto).
  constructor; auto.
  - intros. rewrite X; auto.
  - intros. rewrite X; auto.
  - intros v w Hv Hw H. apply I; auto. intros k Hk. rewrite !E by auto. auto.
Qed.
Theorem convex3_approx p : convex3 p -> forall e, 0 < e -> exists q, solid3 (with_pos p q) /\ close (nv p) (at3 p) e q.
Proof.
  intros (W & nh & lab & LA & H) e He. destruct (H e He) as (q & l0 & l & R & TU & CL). exists q. split; auto. split; [exact W|]. exists nh, lab, l0, l. split; [exact LA|]. split; [|exact TU].
  apply (realized_ext _ _ _ _ q); auto. intros v k _ Hk. symmetry. now apply with_pos_at.
Qed.
Lemma solid_convex3 p : solid3 p -> convex3 p.
Proof.
  intros (W & nh & lab & l0 & l & LA & R & TU). split; auto. exists nh, lab. split; auto. intros e He. exists (at3 p), l0, l. split; auto. split; auto.
  intros v k _ _. rewrite Rminus_diag_eq, Rabs_R0; auto.
Qed.
Lemma solid_planar p : solid3 p -> planar_faces p.
Proof.
  intros (W & nh & lab & l0 & l & LA & Q & TU) d Hd. pose proof W as (Hn & L & _). set (g := lab d). exists (PL3 (V3 (l g 0%Z) (l g 1%Z) (l g 2%Z)) (l0 g)). split.
  - apply proper_nz. destruct d as (v & i). destruct Hd as (Hv & Hi). apply (l_nz p nh lab l0 l W LA Q g v ((i + 1) mod 3)); auto. + apply Z.mod_pos_bound; lia. + apply (lab_dart (nv p) lab); auto.
  - intros e SF. assert (He : isd (below (nv p)) e) by (destruct SF as (k & ->); apply (isd_iter _ _ L); auto). pose proof (lab_sf _ (nv p) nh lab L LA d e Hd SF) as X. destruct e as (v & i). destruct He as (Hv & Hi). cbn [fst snd] in *. unfold below in Hv.
    rewrite <- lin_sdist3. unfold g. rewrite <- X. rewrite (lab_dart (nv p) lab) by auto. apply (re_on _ _ _ _ _ _ _ Q); auto. apply Z.mod_pos_bound; lia.
Qed.
Lemma same_isd (p : pol3) d e : wf3 p -> isd (below (nv p)) d -> same_face (nb (vb p)) d e -> isd (below (nv p)) e.
Proof. intros (_ & L & _) Hd (k & ->). apply (isd_iter _ _ L); auto. Qed.
Lemma cont_vol6 n (p : Z -> vec) a b c d : (0 <= a < n)%Z -> (0 <= b < n)%Z -> (0 <= c < n)%Z -> (0 <= d < n)%Z ->
  cont n p (fun q => det3 (fun k => q b k - q a k) (fun k => q c k - q a k) (fun k => q d k - q a k)).
Proof.
  intros Ha Hb Hc Hd. assert (K : forall v k, (0 <= v < n)%Z -> (0 <= k < 3)%Z -> cont n p (fun q => q v k)) by (intros; now apply cont_co). unfold SpecC3.det3.
  repeat cont_step (cont_add n p) (cont_sub n p) (cont_mul n p) K.
Qed.
Theorem convex_planar p : convex3 p -> planar_faces p.
Proof.
  intros CV d Hd. pose proof CV as (W & _).
  destruct (coplanar (fun x => exists e, same_face (nb (vb p)) d e /\ x = ps (vb p) (fst e))) as (g & Pg & Hg).
  - intros ? ? ? ? (e1 & S1 & ->) (e2 & S2 & ->) (e3 & S3 & ->) (e4 & S4 & ->).
    assert (B : forall e, same_face (nb (vb p)) d e -> (0 <= fst e < nv p)%Z) by (intros e He; apply (same_isd p d e W Hd He)).
    rewrite vol6_det. pose proof (cont_vol6 (nv p) (at3 p) (fst e1) (fst e2) (fst e3) (fst e4) (B _ S1) (B _ S2) (B _ S3) (B _ S4)) as C.
    apply (cont_unique _ _ _ _ C). intros e He. destruct (convex3_approx p CV e He) as (q & Sq & Cq). exists q. split; auto.
    destruct (solid_planar _ Sq d Hd) as (g & Pg & Hg). pose proof (plane_vol6 g _ _ _ _ Pg (Hg e1 S1) (Hg e2 S2) (Hg e3 S3) (Hg e4 S4)) as V. rewrite vol6_det in V.
    exact V.
  - exists g. split; auto. intros e He. apply Hg. eauto.
Qed.
Lemma cont_moment p : wf3 p -> cont (nv p) (at3 p) (fun q => moment3 (with_pos p q) 0 0 0).
Proof.
  intros (Hn & L & _). unfold moment3. cbn [with_pos vb nv nb ps].
  apply (cont_lsum (nv p) (at3 p) (darts 3 (nv p)) (fun d q => tet3 0 0 0 (V3 (q (fst (lead (nb (vb p)) (nv p) d)) 0%Z) (q (fst (lead (nb (vb p)) (nv p) d)) 1%Z) (q (fst (lead (nb (vb p)) (nv p) d)) 2%Z))
     (V3 (q (dtgt (nb (vb p)) d) 0%Z) (q (dtgt (nb (vb p)) d) 1%Z) (q (dtgt (nb (vb p)) d) 2%Z)) (V3 (q (fst d) 0%Z) (q (fst d) 1%Z) (q (fst d) 2%Z)))).
  intros d Hd. apply (isd_in (nv p)) in Hd.
  assert (HL : (0 <= fst (lead (nb (vb p)) (nv p) d) < nv p)%Z).
  { destruct (lead_ok _ _ Hn L d Hd) as (SF & _). destruct SF as (k & ->). apply (isd_iter _ _ L); auto. }
  assert (HT : (0 <= dtgt (nb (vb p)) d < nv p)%Z) by (apply (l_rng _ _ L); apply Hd). assert (HF : (0 <= fst d < nv p)%Z) by apply Hd.
  pose proof (cont_scal (nv p) (at3 p) (/ 6) _ (cont_det (nv p) (at3 p) _ _ _ HL HT HF)) as C. intros e He. destruct (C e He) as (t & Ht & A). exists t. split; auto. intros q Cq. specialize (A q Cq).
  rewrite !tet3_0. match goal with |- Rabs ?a < _ => match type of A with Rabs ?b < _ => replace a with b; auto end end. unfold SpecC3.det3, co3, at3. cbn. field.
Qed.
Lemma moment_self p : moment3 (with_pos p (at3 p)) 0 0 0 = moment3 p 0 0 0.
Proof.
  unfold moment3. cbn [with_pos vb nv nb ps]. apply lsum_ext. intros d _. unfold at3, co3. cbn. f_equal; match goal with |- _ = ?x => destruct x; reflexivity end.
Qed.

(** the volume of a polyhedron with edges of positive length *)
Theorem solid_content p : solid3 p -> content3 (hull3 p) (moment3 p 0 0 0).
Proof.
  intros (W & nh & lab & l0 & l & LA & Q & TU). pose proof W as (Hn & L & _).
  destruct (Z.eq_dec (nv p) 0) as [Z0|Z0].
  { rewrite moment3_empty by lia. intros e He. split; [exists []|exists []]; (split; [|cbn; lra]).
    - split; [intros ? []|constructor]. - split; [intros ? []|]. intros x Hx. exfalso. apply (hull3_0 p _ ltac:(lia) Hx). }
  set (q := PN RN (VB (nb (vb p)) (at3 p)) (fd3 lab) (nv p) nh).
  assert (Hh : (0 < nh)%Z) by (pose proof (la_rng _ _ _ _ LA (0%Z, 0%Z) ltac:(split; [unfold below; cbn; lia|cbn; lia])); lia).
  assert (G : good 3 q).
  { split; [cbn; lia|]. split; [cbn; lia|]. exists nh, (bk3 (nb (vb p))), (facet lab), l0, l. split; [apply cells3; auto|exact Q]. }
  pose proof (vol_content 3 ltac:(lia) q G) as V.
  assert (E : volN 3 q = moment3 p 0 0 0). { unfold volN, q. cbn [nvN vbN ps nb]. rewrite flag_sum_R. apply (flags_moment p nh lab l0 l W LA Q TU). }
  rewrite E in V. revert V. unfold content3. apply content_ext. intros x. rewrite hull3_hullN. unfold hullP, q. cbn [nvN vbN ps].
  split; intros H c0 c A; specialize (H c0 c A); unfold halfN in *; rewrite lin3 in *; exact H.
Qed.
