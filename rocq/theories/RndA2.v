(** * RndA2: the areas of the two parts of a split in rounded arithmetic. *)
From Coq Require Import Reals ZArith List Bool Lia Lra Psatz.
From Verif Require Import Base Lib SumR ModelCommon CommonFacts RealNum Model2 Spec2 Spec2R Struct2 Clip2 Mom2 Cons2 Small2 SpecC2 RndNum SpecR2 RndC2.
Import ListNotations.
Open Scope R_scope.

(** ** Edge sums of a cut polygon whose new vertices are anywhere *)
Section Tag.
Context {V : Type} (f : V -> V -> R) (Phi : V -> R).
Context (b0 b' : vbuf V) (n N : Z) (K : Z -> bool) (np : Z -> Z -> V).
Hypothesis HL : linked (nb b0) n.
Hypothesis C : cut2 b0 n N K np b'.

Definition isnew (u : Z) : bool := negb (u <? n)%Z.
(** an edge between two new vertices *)
Definition both (u : Z) : bool := isnew u && isnew (nb b' u 0%Z).
Let tf (x y : V * bool) : R := if snd x && snd y then Phi (fst y) - Phi (fst x) else f (fst x) (fst y).
Let tb0 : vbuf (V * bool) := VB (nb b0) (fun v => (ps b0 v, false)).
Let tb' : vbuf (V * bool) := VB (nb b') (fun v => (ps b' v, isnew v)).
Let tnp (v q : Z) : V * bool := (np v q, true).

Lemma tag_cut : cut2 tb0 n N K tnp tb'.
Proof.
  pose proof C as [c1 c2 c3 c4 c5 c6]. constructor; cbn [nb ps tb0 tb']; auto.
  - intros v Hv. rewrite c2 by auto. unfold isnew. destruct (Z.ltb_spec v n); [reflexivity|lia].
  - intros v q Hv Hq Kv Kx. destruct (c4 v q Hv Hq Kv Kx) as (A & ->). split; auto. unfold tnp, isnew.
    destruct (Z.ltb_spec (nb b' v q) n); [lia|reflexivity].
Qed.
Lemma tag_esum : lsum (filter K (zrange N)) (fun v => if both v then Phi (ps b' (nb b' v 0%Z)) - Phi (ps b' v) else f (ps b' v) (ps b' (nb b' v 0%Z)))
  = lsum (zrange n) (edge_part f Phi b0 K np).
Proof.
  pose proof (cut_esum tf (fun x => snd x = true) (fun x => Phi (fst x))) as X.
  specialize (X ltac:(intros q q' A B; unfold tf; rewrite A, B; reflexivity) tb0 tb' n N K tnp HL tag_cut ltac:(reflexivity)).
  transitivity (lsum (zrange n) (edge_part tf (fun x => Phi (fst x)) tb0 K tnp)); [exact X|]. apply lsum_ext. intros v _. unfold edge_part, tb0. cbn [nb ps]. reflexivity.
Qed.

Lemma both_count (e : R) : lsum (filter K (zrange N)) (fun v => if both v then e else 0)
  = lsum (zrange n) (fun v => if K v && negb (K (nb b0 v 0%Z)) then e else 0).
Proof.
  rewrite <- !lsum_filter. pose proof (c_n _ _ _ _ _ _ C) as Hn. symmetry.
  apply (lsum_bij (fun v => nb b' v 0%Z) _ _ (fun _ => e)).
  - apply NoDup_filter, NoDup_zrange.
  - apply NoDup_filter, NoDup_filter, NoDup_zrange.
  - intros v Hv. apply filter_In in Hv as (Hv & X). apply in_zrange in Hv. apply andb_true_iff in X as (X1 & X2). apply negb_true_iff in X2.
    destruct (c_new _ _ _ _ _ _ C v 0%Z Hv ltac:(lia) X1 X2) as (Y1 & _).
    destruct (c_mut _ _ _ _ _ _ C v 0%Z ltac:(lia) ltac:(lia) X1) as (A & B & D). change (1 - 0)%Z with 1%Z in D.
    apply filter_In. split; [apply filter_In; split; [now apply in_zrange|auto]|].
    unfold both, isnew. destruct (c_src _ _ _ _ _ _ C _ Y1 B) as (w & q & Hw & Hq & _ & _ & E1 & E2 & E3).
    destruct (slot2 q Hq); subst q; [|rewrite D in E3; lia].
    apply andb_true_iff. rewrite !negb_true_iff, !Z.ltb_ge. lia.
  - intros v w Hv Hw E. apply filter_In in Hv as (Hv & X). apply in_zrange in Hv. apply andb_true_iff in X as (X1 & _).
    apply filter_In in Hw as (Hw & Y). apply in_zrange in Hw. apply andb_true_iff in Y as (Y1 & _).
    destruct (c_mut _ _ _ _ _ _ C v 0%Z ltac:(lia) ltac:(lia) X1) as (_ & _ & D1).
    destruct (c_mut _ _ _ _ _ _ C w 0%Z ltac:(lia) ltac:(lia) Y1) as (_ & _ & D2). congruence.
  - intros w Hw. apply filter_In in Hw as (Hw & X). apply filter_In in Hw as (Hw & Kw). apply in_zrange in Hw.
    unfold both, isnew in X. apply andb_true_iff in X as (X1 & X2). rewrite !negb_true_iff, !Z.ltb_ge in *.
    destruct (c_src _ _ _ _ _ _ C w ltac:(lia) Kw) as (v & q & Hv & Hq & K1 & K2 & E1 & E2 & E3).
    destruct (slot2 q Hq); subst q.
    + exists v. split; auto. apply filter_In. rewrite in_zrange, K1, K2. auto.
    + change (1 - 1)%Z with 0%Z in E2. lia.
Qed.
End Tag.

Lemma lsum_le {A} (l : list A) f g : (forall a, In a l -> f a <= g a) -> lsum l f <= lsum l g.
Proof. induction l; cbn; intros H; [lra|]. pose proof (H a (or_introl eq_refl)). assert (lsum l f <= lsum l g) by (apply IHl; intros; apply H; auto). lra. Qed.
Lemma lsum_abs {A} (l : list A) f : Rabs (lsum l f) <= lsum l (fun a => Rabs (f a)).
Proof. induction l; cbn; [rewrite Rabs_R0; lra|]. eapply Rle_trans; [apply Rabs_triang|]. lra. Qed.
Lemma lsum_const_filter {A} (K : A -> bool) l : lsum l (fun a => if K a then 1 else 0) = IZR (Z.of_nat (length (filter K l))).
Proof.
  induction l; cbn [lsum filter]; [reflexivity|]. rewrite IHl. destruct (K a); cbn [length]; [|lra].
  rewrite Nat2Z.inj_succ, succ_IZR. lra.
Qed.

(** the edges that leave a set of vertices, counted from their first ends *)
Lemma exits_edges (b : vbuf (rvec2 R)) n keep : (0 <= n)%Z -> linked (nb b) n ->
  IZR (exits 2 keep (nb b) n) = lsum (zrange n) (fun v => (if keep v && negb (keep (nb b v 0%Z)) then 1 else 0) + (if negb (keep v) && keep (nb b v 0%Z) then 1 else 0)).
Proof.
  intros Hn HL. unfold exits. rewrite <- lsum_const_filter. change (map Z.of_nat (seq 0 2)) with [0%Z; 1%Z]. rewrite lsum_add.
  transitivity (lsum (zrange n) (fun v => (if keep v && negb (keep (nb b v 0%Z)) then 1 else 0) + (if keep v && negb (keep (nb b v 1%Z)) then 1 else 0))).
  { unfold zrange. induction (map Z.of_nat (seq 0 (Z.to_nat n))) as [|a l IH]; cbn [list_prod map app lsum fst snd]; [reflexivity|]. rewrite IH. lra. }
  rewrite lsum_add. f_equal.
  pose proof (lsum_next (PY b n) (fun v => if keep v && negb (keep (nb b v 1%Z)) then 1 else 0) HL) as X. cbn [vb nv] in X. rewrite <- X.
  apply lsum_ext. intros v Hv. apply in_zrange in Hv. destruct (HL v Hv) as (_ & _ & -> & _). now rewrite andb_comm.
Qed.

(** ** Twice the signed triangle, and points moved to the line *)
Definition om (x y : rvec2 R) : R := (vx x * vy y - vy x * vx y) / 2.
Lemma om_edge x y : edge2 0 0 x y = om x y.
Proof. apply edge2_00. Qed.

Section Proj.
Context (pl : plane2 R).
Hypothesis Hmu : 0 < steep2 pl.
Definition onto2 (x : rvec2 R) : rvec2 R :=
  if Rle_dec (Rabs (vy (pn pl))) (Rabs (vx (pn pl))) then V2 (vx x - sdist pl x / vx (pn pl)) (vy x)
  else V2 (vx x) (vy x - sdist pl x / vy (pn pl)).
Lemma steep_nz : vx (pn pl) <> 0 \/ vy (pn pl) <> 0.
Proof.
  destruct (Req_dec (vx (pn pl)) 0) as [E|E]; auto. destruct (Req_dec (vy (pn pl)) 0) as [E'|E']; auto.
  exfalso. unfold steep2 in Hmu. rewrite E, E', Rabs_R0 in Hmu. unfold Rmax in Hmu. destruct (Rle_dec 0 0); lra.
Qed.
Lemma proj_case : (vx (pn pl) <> 0 /\ Rabs (vx (pn pl)) = steep2 pl /\ forall x, onto2 x = V2 (vx x - sdist pl x / vx (pn pl)) (vy x))
  \/ (vy (pn pl) <> 0 /\ Rabs (vy (pn pl)) = steep2 pl /\ forall x, onto2 x = V2 (vx x) (vy x - sdist pl x / vy (pn pl))).
Proof.
  unfold onto2, steep2, Rmax in *. destruct (Rle_dec (Rabs (vy (pn pl))) (Rabs (vx (pn pl)))) as [L|L], (Rle_dec (Rabs (vx (pn pl))) (Rabs (vy (pn pl)))) as [L'|L']; try lra.
  - left. split; [intros E; rewrite E, Rabs_R0 in *; lra|]. split; [lra|auto].
  - left. split; [intros E; rewrite E, Rabs_R0 in *; lra|]. split; [lra|auto].
  - right. split; [intros E; rewrite E, Rabs_R0 in *; lra|]. split; [lra|auto].
Qed.
Lemma proj_on x : sdist pl (onto2 x) = 0.
Proof. destruct proj_case as [(H & _ & E)|(H & _ & E)]; rewrite E; unfold sdist; cbn [vx vy]; field; auto. Qed.

Lemma quot_abs a b s : Rabs b = steep2 pl -> Rabs a <= s -> Rabs (a / b) <= s / steep2 pl.
Proof.
  intros E H. unfold Rdiv. rewrite Rabs_mult. assert (b <> 0) by (intros ->; rewrite Rabs_R0 in E; lra). rewrite Rabs_inv. rewrite E.
  apply Rmult_le_compat_r; auto. left. now apply Rinv_0_lt_compat.
Qed.
Lemma near_line M s x y : within_abs2 M x -> within_abs2 M y -> Rabs (sdist pl x) <= s -> Rabs (sdist pl y) <= s ->
  Rabs (om x y - om (onto2 x) (onto2 y)) <= s / steep2 pl * M.
Proof.
  intros (X1 & X2) (Y1 & Y2) SX SY.
  assert (G : forall ex ey a b, Rabs ex <= s / steep2 pl -> Rabs ey <= s / steep2 pl -> Rabs a <= M -> Rabs b <= M -> Rabs ((ex * b - a * ey) / 2) <= s / steep2 pl * M).
  { intros ex ey a b H1 H2 H3 H4. unfold Rdiv at 1. rewrite Rabs_mult, (Rabs_pos_eq (/ 2)) by lra.
    assert (Rabs (ex * b - a * ey) <= 2 * (s / steep2 pl * M)); [|lra].
    unfold Rminus. eapply Rle_trans; [apply Rabs_triang|]. rewrite Rabs_Ropp, !Rabs_mult.
    pose proof (Rmult_le_compat _ _ _ _ (Rabs_pos ex) (Rabs_pos b) H1 H4). pose proof (Rmult_le_compat _ _ _ _ (Rabs_pos ey) (Rabs_pos a) H2 H3). lra. }
  destruct proj_case as [(H & Em & E)|(H & Em & E)]; rewrite !E; unfold om; cbn [vx vy].
  - replace ((vx x * vy y - vy x * vx y) / 2 - ((vx x - sdist pl x / vx (pn pl)) * vy y - vy x * (vx y - sdist pl y / vx (pn pl))) / 2)
      with ((sdist pl x / vx (pn pl) * vy y - vy x * (sdist pl y / vx (pn pl))) / 2) by (field; auto).
    apply G; auto using quot_abs.
  - replace ((vx x * vy y - vy x * vx y) / 2 - (vx x * (vy y - sdist pl y / vy (pn pl)) - (vy x - sdist pl x / vy (pn pl)) * vx y) / 2)
      with (- ((sdist pl x / vy (pn pl) * vx y - vx x * (sdist pl y / vy (pn pl))) / 2)) by (field; auto).
    rewrite Rabs_Ropp. apply G; auto using quot_abs.
Qed.
End Proj.

(** a point close to a segment divides its signed triangle almost exactly *)
Lemma near_seg m e a b x c : 0 <= c <= 1 -> within_abs2 m a -> within_abs2 m b -> near2 e x (lerp2 c a b) ->
  Rabs (om a x + om x b - om a b) <= 2 * (e * m).
Proof.
  intros Hc (A1 & A2) (B1 & B2) (X1 & X2). unfold lerp2 in *. cbn [vx vy] in *.
  set (e0 := vx x - ((1 - c) * vx a + c * vx b)) in *. set (e1 := vy x - ((1 - c) * vy a + c * vy b)) in *.
  replace (om a x + om x b - om a b) with ((e0 * (vy b - vy a) - e1 * (vx b - vx a)) / 2) by (unfold om, e0, e1; field).
  assert (D : forall p q, Rabs p <= m -> Rabs q <= m -> Rabs (p - q) <= 2 * m).
  { intros p q H H'. unfold Rminus. eapply Rle_trans; [apply Rabs_triang|]. rewrite Rabs_Ropp. lra. }
  unfold Rdiv. rewrite Rabs_mult, (Rabs_pos_eq (/ 2)) by lra. assert (Rabs (e0 * (vy b - vy a) - e1 * (vx b - vx a)) <= 4 * (e * m)); [|lra].
  unfold Rminus at 1. eapply Rle_trans; [apply Rabs_triang|]. rewrite Rabs_Ropp, !Rabs_mult.
  pose proof (Rmult_le_compat _ _ _ _ (Rabs_pos e0) (Rabs_pos _) X1 (D _ _ B2 A2)).
  pose proof (Rmult_le_compat _ _ _ _ (Rabs_pos e1) (Rabs_pos _) X2 (D _ _ B1 A1)). lra.
Qed.

(** ** The two parts of a split *)
Section Split.
Context (u : R) (rnd : R -> R) (HA : accurate u rnd) (Hu : 0 <= u <= 1 / 100).
Notation FR := (FN rnd).
Context (pl : plane2 R) (p q0 q1 : pol2) (m : R) (s : Z -> R) (right : Z -> bool) (sg : R) (MX : Z).
Hypothesis Hw : wf2 p.
Hypothesis Hm0 : 0 <= m.
Hypothesis Hm : forall v, (0 <= v < nv p)%Z -> within_abs2 m (ps (vb p) v).
Hypothesis Hs : forall v, (0 <= v < nv p)%Z -> Rabs (s v - sdist pl (ps (vb p) v)) <= 7 * u * plane_size2 pl m.
Hypothesis Hg : sg = 1 \/ sg = -1.
Hypothesis R0 : forall v, (0 <= v < nv p)%Z -> right v = false -> 0 <= sg * s v.
Hypothesis R1 : forall v, (0 <= v < nv p)%Z -> right v = true -> sg * s v < 0.
Hypothesis HS : split_result FR MX p s right q0 q1.

Let Hu' : 0 <= u <= 1 / 10. Proof. lra. Qed.
Let um : 0 <= 5 * u * m. Proof. apply Rmult_le_pos; lra. Qed.

Lemma sdist_within x : within_abs2 m x -> Rabs (sdist pl x - pd pl) <= normal_size2 pl * m.
Proof.
  intros (H1 & H2). unfold sdist, normal_size2. replace (pd pl + (vx (pn pl) * vx x + vy (pn pl) * vy x) - pd pl) with (vx (pn pl) * vx x + vy (pn pl) * vy x) by ring.
  eapply Rle_trans; [apply Rabs_triang|]. rewrite !Rabs_mult. pose proof (Rabs_pos (vx (pn pl))). pose proof (Rabs_pos (vy (pn pl))). nra.
Qed.
Lemma normal_steep : normal_size2 pl <= 2 * steep2 pl.
Proof. unfold normal_size2, steep2, Rmax. destruct (Rle_dec _ _); lra. Qed.
Lemma steep_pos0 : 0 <= steep2 pl.
Proof. unfold steep2, Rmax. pose proof (Rabs_pos (vx (pn pl))). pose proof (Rabs_pos (vy (pn pl))). destruct (Rle_dec _ _); lra. Qed.
Lemma normal_zero : steep2 pl <= 0 -> normal_size2 pl = 0.
Proof. intros. pose proof normal_steep. pose proof (normal_size2_pos pl). lra. Qed.

(** a line that divides the polygon is not far away *)
Lemma divides a b : (0 <= a < nv p)%Z -> (0 <= b < nv p)%Z -> right a = false -> right b = true ->
  0 < steep2 pl /\ Rabs (pd pl) <= 5 / 2 * (steep2 pl * m).
Proof.
  intros Ha Hb Ra Rb. pose proof (R0 a Ha Ra) as Sa. pose proof (R1 b Hb Rb) as Sb.
  pose proof (Hs a Ha) as Ea. pose proof (Hs b Hb) as Eb. apply rabs_inv in Ea, Eb.
  pose proof (sdist_within _ (Hm a Ha)) as Wa. pose proof (sdist_within _ (Hm b Hb)) as Wb. apply rabs_inv in Wa, Wb.
  set (t := 7 * u * plane_size2 pl m) in *. set (da := sdist pl (ps (vb p) a)) in *. set (db := sdist pl (ps (vb p) b)) in *.
  assert (D : Rabs (pd pl) <= normal_size2 pl * m + t). { apply Rabs_le. destruct Hg; subst sg; lra. }
  unfold t, plane_size2 in D. pose proof normal_steep. pose proof steep_pos0 as P0. pose proof (normal_size2_pos pl).
  assert (NS : 0 <= normal_size2 pl * m <= 2 * (steep2 pl * m)) by nra.
  assert (D2 : Rabs (pd pl) <= 5 / 2 * (steep2 pl * m)).
  { set (X := normal_size2 pl * m) in *. set (Y := Rabs (pd pl)) in *. assert (0 <= Y) by apply Rabs_pos.
    assert (7 * u * (Y + X) <= 7 / 100 * (Y + X)) by (apply Rmult_le_compat_r; lra). lra. }
  split; auto. destruct (Rle_lt_dec (steep2 pl) 0) as [L|L]; auto. exfalso.
  pose proof (normal_zero L) as Z0. assert (steep2 pl = 0) as Z1 by lra. rewrite Z1 in D2.
  assert (Rabs (pd pl) = 0) as Z2 by (pose proof (Rabs_pos (pd pl)); lra).
  unfold t, plane_size2 in *. rewrite Z0, Z2 in *. destruct Hg; subst sg; lra.
Qed.

Lemma lnkF v q : (0 <= v < nv p)%Z -> (0 <= q < 2)%Z -> (0 <= nb (vb p) v q < nv p)%Z /\ nb (vb p) (nb (vb p) v q) (1 - q) = v.
Proof.
  intros Hv Hq. destruct Hw as (_ & HL). destruct (HL v Hv) as (A & B & C & D).
  destruct (slot2 q Hq); subst; auto.
Qed.

(** the new vertex on an edge *)
Lemma newpos_near a b q : (0 <= a < nv p)%Z -> (0 <= b < nv p)%Z -> nb (vb p) a q = b -> right a = false -> right b = true ->
  exists c, 0 <= c <= 1 /\ near2 (5 * u * m) (newpos2 FR (vb p) s a q) (lerp2 c (ps (vb p) a) (ps (vb p) b))
   /\ Rabs (sdist pl (newpos2 FR (vb p) s a q)) <= 7 * u * plane_size2 pl m + normal_size2 pl * (5 * u * m).
Proof.
  intros Ha Hb E Ra Rb. pose proof (R0 a Ha Ra) as Sa. pose proof (R1 b Hb Rb) as Sb.
  assert (W : (0 <= s a /\ s b < 0) \/ (s a <= 0 /\ 0 < s b)) by (destruct Hg; subst sg; lra).
  destruct (weights2 _ _ W) as (W1 & W2). exists (s a / (s a - s b)). split; auto.
  assert (NR : near2 (5 * u * m) (newpos2 FR (vb p) s a q) (lerp2 (s a / (s a - s b)) (ps (vb p) a) (ps (vb p) b))).
  { unfold newpos2. change (T FR) with R. rewrite E. apply (wav2_near u rnd HA Hu'); auto. }
  split; auto. pose proof (sdist_near2 pl _ _ _ NR) as SS. rewrite sdist_lerp2 in SS.
  pose proof (Hs a Ha) as Ea. pose proof (Hs b Hb) as Eb. apply rabs_inv in Ea, Eb, SS. apply Rabs_le.
  set (c := s a / (s a - s b)) in *. set (t := 7 * u * plane_size2 pl m) in *. set (sa := sdist pl (ps (vb p) a)) in *. set (sb := sdist pl (ps (vb p) b)) in *.
  assert ((1 - c) * (s a - t) <= (1 - c) * sa <= (1 - c) * (s a + t)) by (split; apply Rmult_le_compat_l; lra).
  assert (c * (s b - t) <= c * sb <= c * (s b + t)) by (split; apply Rmult_le_compat_l; lra). lra.
Qed.

Definition Phi0 (x : rvec2 R) : R := edge2 0 0 (base_pt pl) (onto2 pl x).

(** the edges between two new vertices on one side *)
Lemma side_error N (b' : vbuf (rvec2 R)) K np (q : pol2) E : cut2 (vb p) (nv p) N K np b' -> compressed 2 K N b' q ->
  0 <= E ->
  (forall v k w j, (0 <= v < nv p)%Z -> (0 <= k < 2)%Z -> K v = true -> K (nb (vb p) v k) = false ->
     (0 <= w < nv p)%Z -> (0 <= j < 2)%Z -> K w = true -> K (nb (vb p) w j) = false ->
     Rabs (edge2 0 0 (np v k) (np w j) - (Phi0 (np w j) - Phi0 (np v k))) <= E) ->
  Rabs (moment2 q 0 0 - lsum (zrange (nv p)) (edge_part (edge2 0 0) Phi0 (vb p) K np))
   <= lsum (zrange (nv p)) (fun v => if K v && negb (K (nb (vb p) v 0%Z)) then E else 0).
Proof.
  intros C P HE HX. pose proof Hw as (Hn & HL). unfold moment2. change (lsum (zrange (nv q)) _) with (esumR (edge2 0 0) (vb q) (nv q)).
  rewrite (compressed_esum (edge2 0 0) _ _ _ _ _ _ C q P), <- (tag_esum (edge2 0 0) Phi0 _ _ _ _ _ _ HL C), <- (both_count _ _ _ _ _ _ C E), <- lsum_sub.
  eapply Rle_trans; [apply lsum_abs|]. apply lsum_le. intros v Hv. apply filter_In in Hv as (Hv & Kv). apply in_zrange in Hv.
  destruct (both b' (nv p) v) eqn:B; [|rewrite Rminus_eq_0, Rabs_R0; lra].
  unfold both, isnew in B. apply andb_true_iff in B as (B1 & B2). rewrite !negb_true_iff, !Z.ltb_ge in *.
  destruct (c_mut _ _ _ _ _ _ C v 0%Z Hv ltac:(lia) Kv) as (A1 & A2 & _).
  assert (NW : forall w, (nv p <= w < N)%Z -> K w = true -> exists a k, (0 <= a < nv p)%Z /\ (0 <= k < 2)%Z /\ K a = true /\ K (nb (vb p) a k) = false /\ ps b' w = np a k).
  { intros w Hw' Kw. destruct (c_src _ _ _ _ _ _ C w Hw' Kw) as (a & k & Ha & Hk & K1 & K2 & E1 & _).
    destruct (c_new _ _ _ _ _ _ C a k Ha Hk K1 K2) as (_ & Y). rewrite E1 in Y. exists a, k. auto. }
  destruct (NW v ltac:(lia) Kv) as (a & k & Ha & Hk & Ka & Kb & ->). destruct (NW (nb b' v 0%Z) (conj B2 (proj2 A1)) A2) as (a' & k' & Ha' & Hk' & Ka' & Kb' & ->). auto.
Qed.

Theorem split_area : Rabs (moment2 q0 0 0 + moment2 q1 0 0 - moment2 p 0 0) <= 30 * u * (m * m) * IZR (nv q0 + nv q1 - nv p).
Proof.
  pose proof (split_result_wf FR MX p s right q0 q1 Hw HS) as (_ & _ & CNT & _). change (T FR) with R in *.
  destruct HS as (N & b' & Ka & Kb & _ & _ & HK & _ & C0 & P0 & C1 & P1). pose proof Hw as (Hn & HL). change (T FR) with R in *.
  set (keep := fun v => negb (right v)) in *.
  replace (IZR (nv q0 + nv q1 - nv p)) with (2 * IZR (exits 2 keep (nb (vb p)) (nv p)))
    by (rewrite <- mult_IZR; f_equal; lia).
  rewrite (exits_edges (vb p) (nv p) keep Hn HL).
  assert (U0 : 0 <= u * (m * m)) by (repeat apply Rmult_le_pos; lra).
  (* points of either side *)
  set (E := 44 * u * (m * m)).
  assert (NN : forall x y a b c d, (0 <= a < nv p)%Z -> (0 <= b < nv p)%Z -> right a = false -> right b = true -> 
     (0 <= c <= 1) -> (0 <= d <= 1) -> (exists x1 x2, within_abs2 m x1 /\ within_abs2 m x2 /\ near2 (5 * u * m) x (lerp2 c x1 x2)) -> (exists y1 y2, within_abs2 m y1 /\ within_abs2 m y2 /\ near2 (5 * u * m) y (lerp2 d y1 y2)) ->
     Rabs (sdist pl x) <= 7 * u * plane_size2 pl m + normal_size2 pl * (5 * u * m) -> Rabs (sdist pl y) <= 7 * u * plane_size2 pl m + normal_size2 pl * (5 * u * m) ->
     Rabs (edge2 0 0 x y - (Phi0 y - Phi0 x)) <= E).
  { intros x y a b c d Ha Hb Ra Rb Hc Hd (x1 & x2 & X1 & X2 & X3) (y1 & y2 & Y1 & Y2 & Y3) SX SY.
    destruct (divides a b Ha Hb Ra Rb) as (MU & DD).
    unfold Phi0. change (edge2 0 0 (base_pt pl) (onto2 pl y)) with (Phi2 pl 0 0 (onto2 pl y)). change (edge2 0 0 (base_pt pl) (onto2 pl x)) with (Phi2 pl 0 0 (onto2 pl x)).
    rewrite <- (edge2_on pl (steep_nz pl MU) 0 0) by (now apply proj_on). rewrite !om_edge.
    eapply Rle_trans. { eapply (near_line pl MU (m + 5 * u * m)); [| |exact SX|exact SY]; eapply near2_within; eauto; now apply lerp2_within. }
    unfold plane_size2. pose proof normal_steep as NS. pose proof (normal_size2_pos pl) as NP.
    set (mu := steep2 pl) in *.
    assert (SB : 7 * u * (Rabs (pd pl) + normal_size2 pl * m) + normal_size2 pl * (5 * u * m) <= 83 / 2 * u * m * mu).
    { assert (7 * u * (Rabs (pd pl) + normal_size2 pl * m) <= 7 * u * (5 / 2 * (mu * m) + 2 * mu * m)) by (pose proof (Rmult_le_compat_r m _ _ Hm0 NS); apply Rmult_le_compat_l; lra).
      assert (normal_size2 pl * (5 * u * m) <= 2 * mu * (5 * u * m)) by (apply Rmult_le_compat_r; auto).
      assert (u * m * mu = u * m * mu) by auto. lra. }
    assert (MM : m + 5 * u * m <= 21 / 20 * m) by nra.
    apply Rle_trans with (83 / 2 * u * m * (21 / 20 * m)); [|unfold E; lra].
    apply Rmult_le_compat; [| lra | | exact MM].
    - unfold Rdiv. apply Rmult_le_pos; [|left; now apply Rinv_0_lt_compat]. pose proof (Rabs_pos (sdist pl x)). unfold plane_size2 in SX. lra.
    - apply Rmult_le_reg_r with mu; auto. unfold Rdiv at 1. rewrite Rmult_assoc, Rinv_l by lra. lra. }
  assert (EP : 0 <= E) by (unfold E; lra).
  (* the new positions, on the two sides *)
  assert (F0 : forall v k, (0 <= v < nv p)%Z -> (0 <= k < 2)%Z -> Ka v = true -> Ka (nb (vb p) v k) = false -> right v = false /\ right (nb (vb p) v k) = true).
  { intros v k Hv Hk A B. destruct (lnkF v k Hv Hk) as (L & _). rewrite (proj1 (HK v Hv)) in A. rewrite (proj1 (HK _ L)) in B.
    apply negb_true_iff in A. apply negb_false_iff in B. auto. }
  assert (F1 : forall v k, (0 <= v < nv p)%Z -> (0 <= k < 2)%Z -> Kb v = true -> Kb (nb (vb p) v k) = false -> right v = true /\ right (nb (vb p) v k) = false).
  { intros v k Hv Hk A B. destruct (lnkF v k Hv Hk) as (L & _). rewrite (proj2 (HK v Hv)) in A. rewrite (proj2 (HK _ L)) in B. auto. }
  pose proof (side_error N b' Ka _ q0 E C0 P0 EP) as S0. pose proof (side_error N b' Kb _ q1 E C1 P1 EP) as S1.
  assert (S0' := S0 ltac:(
    intros v k w j Hv Hk A1 A2 Hw' Hj B1 B2; destruct (F0 v k Hv Hk A1 A2) as (Rv & Rv'); destruct (F0 w j Hw' Hj B1 B2) as (Rw & Rw');
    destruct (lnkF v k Hv Hk) as (L1 & _); destruct (lnkF w j Hw' Hj) as (L2 & _);
    destruct (newpos_near v _ k Hv L1 eq_refl Rv Rv') as (c & Hc & X1 & X2); destruct (newpos_near w _ j Hw' L2 eq_refl Rw Rw') as (d & Hd & Y1 & Y2);
    apply (NN _ _ v (nb (vb p) v k) c d); auto; [exists (ps (vb p) v), (ps (vb p) (nb (vb p) v k)); auto|exists (ps (vb p) w), (ps (vb p) (nb (vb p) w j)); auto])).
  assert (S1' := S1 ltac:(
    intros v k w j Hv Hk A1 A2 Hw' Hj B1 B2; destruct (F1 v k Hv Hk A1 A2) as (Rv & Rv'); destruct (F1 w j Hw' Hj B1 B2) as (Rw & Rw');
    destruct (lnkF v k Hv Hk) as (L1 & M1); destruct (lnkF w j Hw' Hj) as (L2 & M2); unfold newpos2'; change (T FR) with R;
    destruct (newpos_near (nb (vb p) v k) v (1 - k)%Z L1 Hv M1 Rv' Rv) as (c & Hc & X1 & X2); destruct (newpos_near (nb (vb p) w j) w (1 - j)%Z L2 Hw' M2 Rw' Rw) as (d & Hd & Y1 & Y2);
    apply (NN _ _ (nb (vb p) v k) v c d); auto; [exists (ps (vb p) (nb (vb p) v k)), (ps (vb p) v); auto|exists (ps (vb p) (nb (vb p) w j)), (ps (vb p) w); auto])).
  clear S0 S1.
  (* the crossed edges *)
  assert (SM : Rabs (lsum (zrange (nv p)) (edge_part (edge2 0 0) Phi0 (vb p) Ka (newpos2 FR (vb p) s)) + lsum (zrange (nv p)) (edge_part (edge2 0 0) Phi0 (vb p) Kb (newpos2' FR (vb p) s)) - moment2 p 0 0)
     <= lsum (zrange (nv p)) (fun v => 10 * u * (m * m) * ((if keep v && negb (keep (nb (vb p) v 0%Z)) then 1 else 0) + (if negb (keep v) && keep (nb (vb p) v 0%Z) then 1 else 0)))).
  { unfold moment2. rewrite <- lsum_add, <- lsum_sub. eapply Rle_trans; [apply lsum_abs|]. apply lsum_le. intros v Hv. apply in_zrange in Hv.
    unfold edge_part. destruct (lnkF v 0%Z Hv ltac:(lia)) as (L & L'). change (1 - 0)%Z with 1%Z in L'.
    destruct (HK v Hv) as (-> & ->). destruct (HK _ L) as (-> & ->). unfold keep.
    assert (Z0 : Rabs 0 <= 10 * u * (m * m) * (0 + 0)) by (rewrite Rabs_R0; lra).
    destruct (right v) eqn:Rv; destruct (right (nb (vb p) v 0%Z)) eqn:Rw; cbn [negb andb].
    - match goal with |- Rabs ?x <= _ => replace x with 0 by ring end. exact Z0.
    - unfold newpos2'. change (T FR) with R. change (1 - 0)%Z with 1%Z.
      destruct (newpos_near (nb (vb p) v 0%Z) v 1%Z L Hv L' Rw Rv) as (c & Hc & X1 & _).
      pose proof (near_seg m _ _ _ _ _ Hc (Hm _ L) (Hm _ Hv) X1) as X. rewrite !om_edge.
      match goal with |- Rabs ?x <= _ => replace x with (- (om (ps (vb p) (nb (vb p) v 0%Z)) (newpos2 FR (vb p) s (nb (vb p) v 0%Z) 1) + om (newpos2 FR (vb p) s (nb (vb p) v 0%Z) 1) (ps (vb p) v) - om (ps (vb p) (nb (vb p) v 0%Z)) (ps (vb p) v))) by (unfold om; change (T FR) with R; field) end.
      rewrite Rabs_Ropp. change (T FR) with R in *. lra.
    - unfold newpos2'. change (T FR) with R. change (1 - 1)%Z with 0%Z. rewrite L'.
      destruct (newpos_near v (nb (vb p) v 0%Z) 0%Z Hv L eq_refl Rv Rw) as (c & Hc & X1 & _).
      pose proof (near_seg m _ _ _ _ _ Hc (Hm _ Hv) (Hm _ L) X1) as X. rewrite !om_edge.
      match goal with |- Rabs ?x <= _ => replace x with (om (ps (vb p) v) (newpos2 FR (vb p) s v 0) + om (newpos2 FR (vb p) s v 0) (ps (vb p) (nb (vb p) v 0%Z)) - om (ps (vb p) v) (ps (vb p) (nb (vb p) v 0%Z))) by (unfold om; change (T FR) with R; field) end.
      change (T FR) with R in *. lra.
    - match goal with |- Rabs ?x <= _ => replace x with 0 by ring end. exact Z0. }
  rewrite lsum_scal in SM.
  set (XN := lsum (zrange (nv p)) (fun v => (if keep v && negb (keep (nb (vb p) v 0%Z)) then 1 else 0) + (if negb (keep v) && keep (nb (vb p) v 0%Z) then 1 else 0))) in *.
  assert (ES : lsum (zrange (nv p)) (fun v => if Ka v && negb (Ka (nb (vb p) v 0%Z)) then E else 0) + lsum (zrange (nv p)) (fun v => if Kb v && negb (Kb (nb (vb p) v 0%Z)) then E else 0) = E * XN).
  { unfold XN. rewrite <- lsum_scal, <- lsum_add. apply lsum_ext. intros v Hv. apply in_zrange in Hv.
    destruct (lnkF v 0%Z Hv ltac:(lia)) as (L & _). destruct (HK v Hv) as (-> & ->). destruct (HK _ L) as (-> & ->). unfold keep.
    destruct (right v), (right (nb (vb p) v 0%Z)); cbn [negb andb]; ring. }
  assert (XP : 0 <= XN). { unfold XN. apply Rle_trans with (lsum (zrange (nv p)) (fun _ => 0)); [right; symmetry; now apply lsum_0|]. apply lsum_le. intros v _. destruct (keep v), (keep (nb (vb p) v 0%Z)); cbn; lra. }
  change (T FR) with R in *. apply rabs_inv in S0', S1', SM.
  assert (EE : 54 * u * (m * m) * XN <= 60 * u * (m * m) * XN).
  { apply Rmult_le_compat_r; auto. assert (54 * (u * (m * m)) <= 60 * (u * (m * m))) by lra. lra. }
  assert (EV : E * XN = 44 * u * (m * m) * XN) by reflexivity. clearbody E. apply Rabs_le. split; lra.
Qed.
End Split.

Lemma moment2_none (q : pol2) i j : nv q = 0%Z -> moment2 q i j = 0.
Proof. intros E. unfold moment2. rewrite E. reflexivity. Qed.

Section Tops.
Context (u : R) (rnd : R -> R) (HA : accurate u rnd) (Hu : 0 <= u <= 1 / 100).
Notation FR := (FN rnd).
Let Hu' : 0 <= u <= 1 / 10. Proof. lra. Qed.

Lemma split1_area MX pl m (p op on q o0 o1 : pol2) : 0 <= m -> wf2 p -> (nv p <= MX)%Z ->
  (forall v, (0 <= v < nv p)%Z -> within_abs2 m (ps (vb p) v)) ->
  r2d_split1 FR MX pl p op on = OK (q, (o0, o1)) ->
  Rabs (moment2 o0 0 0 + moment2 o1 0 0 - moment2 p 0 0) <= 30 * u * (m * m) * IZR (nv o0 + nv o1 - nv p)
  /\ (0 <= nv o0 + nv o1 - nv p <= 2 * nv p)%Z.
Proof.
  intros Hm0 Hw HM Hm E. set (s := rside2 rnd pl p). pose proof Hw as (Hn & HL).
  assert (Hs : forall v, (0 <= v < nv p)%Z -> Rabs (s v - sdist (flip pl) (ps (vb p) v)) <= 7 * u * plane_size2 (flip pl) m).
  { intros. rewrite plane_size2_flip. apply rside2_near; auto. }
  assert (RT : forall v, rightv FR pl (vb p) v = true -> s v < 0).
  { intros v X. change (Rltb (s v) 0 = true) in X. now apply Rltb_true in X. }
  assert (RF : forall v, rightv FR pl (vb p) v = false -> 0 <= s v).
  { intros v X. change (Rltb (s v) 0 = false) in X. apply Rltb_false in X. lra. }
  assert (Z0 : forall x, Rabs (x - x) <= 30 * u * (m * m) * 0) by (intros; rewrite Rminus_eq_0, Rabs_R0; lra).
  destruct (split1_spec FR MX pl p op on Hw HM) as [(H0 & E')|[(H0 & A & E')|[(H0 & A & E')|(x & y & Hx & Hy & Rx & Ry & [(q' & o0' & o1' & E' & SR)|(E' & _)])]]];
    change (T FR) with R in *; rewrite E' in E; inversion E; subst.
  - split; [|rewrite H0; cbn; lia]. rewrite (moment2_none q) by auto. rewrite !(moment2_none (zero_poly FR)) by auto. rewrite H0, Rplus_0_r. apply Z0.
  - split; [|cbn [nv]; lia]. rewrite (moment2_none (PY _ 0)) by auto. cbn [nv]. rewrite Z.add_0_r, Z.sub_diag, Rplus_0_r. apply Z0.
  - split; [|cbn [nv]; lia]. rewrite (moment2_none (PY _ 0)) by auto. cbn [nv]. rewrite Z.add_0_l, Z.sub_diag, Rplus_0_l. apply Z0.
  - split.
    + apply (split_area u rnd HA Hu (flip pl) p o0 o1 m s (rightv FR pl (vb p)) 1 MX); auto.
      * intros v Hv X. pose proof (RF v X). lra.
      * intros v Hv X. pose proof (RT v X). lra.
    + destruct (split_result_wf FR MX p s _ o0 o1 Hw SR) as (_ & _ & CN & _). change (T FR) with R in *.
      pose proof (exits_le (fun v => negb (rightv FR pl (vb p) v)) (nb (vb p)) (nv p) Hn HL).
      assert (0 <= exits 2 (fun v => negb (rightv FR pl (vb p) v)) (nb (vb p)) (nv p))%Z by (unfold exits; lia). lia.
Qed.

Lemma split_coord_area MX m (p o1 q0 q1 : pol2) coord ax : 0 <= m -> wf2 p -> (0 < nv p <= MX)%Z -> (0 <= ax < 2)%Z ->
  (forall v, (0 <= v < nv p)%Z -> within_abs2 m (ps (vb p) v)) ->
  r2d_split_coord FR MX p o1 coord ax = OK (q0, q1) ->
  Rabs (moment2 q0 0 0 + moment2 q1 0 0 - moment2 p 0 0) <= 30 * u * (m * m) * IZR (nv q0 + nv q1 - nv p)
  /\ (0 <= nv q0 + nv q1 - nv p <= 2 * nv p)%Z.
Proof.
  intros Hm0 Hw HM Hax Hm E. set (pl := axis_plane ax coord). set (s := (fun v => csd FR coord ax (vb p) v) : Z -> R). pose proof Hw as (Hn & HL).
  assert (Hs : forall v, (0 <= v < nv p)%Z -> Rabs (s v - sdist pl (ps (vb p) v)) <= 7 * u * plane_size2 pl m) by (intros; apply csd2_near; auto).
  assert (RT : forall v, cright FR coord ax (vb p) v = true -> 0 < s v).
  { intros v X. change (Rltb 0 (s v) = true) in X. now apply Rltb_true in X. }
  assert (RF : forall v, cright FR coord ax (vb p) v = false -> s v <= 0).
  { intros v X. change (Rltb 0 (s v) = false) in X. apply Rltb_false in X. lra. }
  assert (Z0 : forall x, Rabs (x - x) <= 30 * u * (m * m) * 0) by (intros; rewrite Rminus_eq_0, Rabs_R0; lra).
  destruct (split_coord_spec FR MX p o1 coord ax Hw (proj2 HM) Hax) as [(H0 & E')|[(H0 & A & E')|[(H0 & A & E')|(x & y & Hx & Hy & Rx & Ry & [(q' & o1' & E' & SR)|(E' & _)])]]];
    change (T FR) with R in *; rewrite E' in E; inversion E; subst.
  - lia.
  - split; [|cbn [nv]; lia]. rewrite (moment2_none (PY _ 0)) by auto. cbn [nv]. rewrite Z.add_0_r, Z.sub_diag, Rplus_0_r. apply Z0.
  - split; [|cbn [nv]; lia]. rewrite (moment2_none (PY _ 0)) by auto. cbn [nv]. rewrite Z.add_0_l, Z.sub_diag, Rplus_0_l. apply Z0.
  - split.
    + apply (split_area u rnd HA Hu pl p q0 q1 m s (cright FR coord ax (vb p)) (-1) MX); auto.
      * intros v Hv X. pose proof (RF v X). lra.
      * intros v Hv X. pose proof (RT v X). lra.
    + destruct (split_result_wf FR MX p s _ q0 q1 Hw SR) as (_ & _ & CN & _). change (T FR) with R in *.
      pose proof (exits_le (fun v => negb (cright FR coord ax (vb p) v)) (nb (vb p)) (nv p) Hn HL).
      assert (0 <= exits 2 (fun v => negb (cright FR coord ax (vb p) v)) (nb (vb p)) (nv p))%Z by (unfold exits; lia). lia.
Qed.
End Tops.

Lemma r2d_split_area u rnd MX pl m ins outs : accurate u rnd -> 0 <= u <= 1 / 100 -> 0 <= m -> r2d_split (FN rnd) MX pl ins = OK outs ->
  Forall2 (fun (i o : pol2 * (pol2 * pol2)) => let p := fst i in let o0 := fst (snd o) in let o1 := snd (snd o) in
     wf2 p -> (nv p <= MX)%Z -> (forall v, (0 <= v < nv p)%Z -> within_abs2 m (ps (vb p) v)) ->
     Rabs (moment2 o0 0 0 + moment2 o1 0 0 - moment2 p 0 0) <= 30 * u * (m * m) * IZR (nv o0 + nv o1 - nv p)
     /\ (0 <= nv o0 + nv o1 - nv p <= 2 * nv p)%Z) ins outs.
Proof.
  intros HA Hu Hm E. apply Misc2.r2d_split_list in E. eapply Glue2.F2_impl; [|exact E].
  intros [p [a b]] [q [o0 o1]] X. cbn [fst snd] in *. cbv zeta. intros Hw HM HB. exact (split1_area u rnd HA Hu MX pl m p a b q o0 o1 Hm Hw HM HB X).
Qed.
