(** * NanN: [rNd_reduce] divides by zero on an edge of length zero, and [rNd_clip] makes
    such edges. *)
From Coq Require Import Reals ZArith List Bool Lia Lra Psatz.
From Verif Require Import Base Lib SumR ModelCommon CommonFacts ModelN ModelNC SpecN SpecNC SpecNR SpecNaN RealNum Clip2 InsN CutN ClipN CellsN PolyN HullN RedN FlagR.
Import ListNotations.
Open Scope R_scope.

Notation real := (T XN).
Lemma xadd_r a : nadd XN a None = None. Proof. destruct a; reflexivity. Qed.
Lemma xmul_r a : nmul XN a None = None. Proof. destruct a; reflexivity. Qed.

Lemma fold_None {A} (g : real -> A -> real) l : (forall a, In a l -> g None a = None) -> fold_left g l None = None.
Proof. induction l as [|a l IH]; intros H; cbn [fold_left]; auto. rewrite H by now left. apply IH. intros. apply H. now right. Qed.
Lemma fold_poison {A} (g : real -> A -> real) l s a : (forall a, In a l -> g None a = None) -> In a l -> (forall s, g s a = None) -> fold_left g l s = None.
Proof.
  revert s. induction l as [|b l IH]; intros s H I P; [destruct I|]. cbn [fold_left]. destruct I as [->|I].
  - rewrite P. apply fold_None. intros. apply H. now right.
  - apply IH; auto. intros. apply H. now right.
Qed.
Lemma fold_Some {A} (g : real -> A -> real) (h : R -> A -> R) l s : (forall s a, In a l -> g (Some s) a = Some (h s a)) -> fold_left g l (Some s) = Some (fold_left h l s).
Proof. revert s. induction l as [|b l IH]; intros s H; cbn [fold_left]; auto. rewrite H by now left. apply IH. intros. apply H. now right. Qed.

Section D.
Context (D : Z).
Hypothesis HD : (1 <= D)%Z.
Notation dotN := (dotN XN D).
Notation flagsN := (flagsN XN D).
Lemma dot_None a c j : (0 <= j < D)%Z -> a j = None -> dotN a c = None.
Proof.
  intros Hj E. unfold SpecNR.dotN. apply (fold_poison _ _ _ j); [intros; reflexivity|now apply in_zrange|].
  intros s. rewrite E. change (nmul XN None (c j)) with (@None R). apply xadd_r.
Qed.
Lemma dot_0 a c : (forall j, (0 <= j < D)%Z -> a j = Some 0 /\ c j = Some 0) -> dotN a c = Some 0.
Proof.
  intros H. unfold SpecNR.dotN. change (n0 XN) with (Some 0). rewrite (fold_Some _ (fun s _ => s)).
  - f_equal. generalize 0. induction (zrange D); intros; cbn; auto.
  - intros s j Hj. apply in_zrange in Hj. destruct (H j Hj) as (-> & ->). cbn. f_equal. lra.
Qed.
(** a flag whose first direction is not a number *)
Lemma flags_None k : forall x E u L, (Z.of_nat k < D)%Z -> length (free D u) = k -> L 0%Z 0%Z = None -> flagsN k x E u L = None.
Proof.
  induction k as [|k IH]; intros x E u L Hk Hu HL; cbn [SpecNR.flagsN].
  - unfold termN. apply (fold_poison _ _ _ 0%Z); [intros; reflexivity|apply in_zrange; lia|]. intros s.
    rewrite (dot_None (L 0%Z) x 0%Z) by (auto; lia). rewrite xmul_r. destruct s; reflexivity.
  - destruct (free D u) as [|i l] eqn:F; [discriminate|]. assert (Hi : In i (free D u)) by (rewrite F; now left).
    pose proof (proj1 (in_free D u i) Hi) as (Hi1 & Hi2).
    apply (fold_poison _ _ _ i); [intros a _; destruct (u a); reflexivity|now apply in_zrange|].
    intros s. rewrite Hi2. rewrite IH; [apply xadd_r|lia|apply free_length; auto; rewrite F; auto|].
    unfold upd. destruct (Z.eqb_spec 0 (D - Z.of_nat (S k))); [lia|auto].
Qed.
(** an edge of length zero *)
Lemma vertex_None x E i : (0 <= i < D)%Z -> (forall j, (0 <= j < D)%Z -> E i j = Some 0) -> vertexN XN D x E = None.
Proof.
  intros Hi E0. unfold vertexN. destruct (Z.to_nat D) as [|k] eqn:K; [lia|]. cbn [SpecNR.flagsN].
  replace (D - Z.of_nat (S k))%Z with 0%Z by lia.
  apply (fold_poison _ _ _ i); [intros; reflexivity|now apply in_zrange|]. intros s.
  rewrite flags_None; [apply xadd_r|lia| |].
  - apply free_length; [apply in_free; auto|]. rewrite free_all. rewrite length_zrange_nat. lia.
  - rewrite upd_eq. change (orthN XN D (fun _ _ => n0 XN) 0 (E i)) with (E i). unfold unitN. rewrite dot_0 by auto. rewrite E0 by lia.
    cbn. rewrite sqrt_0. destruct (Rlt_dec 0 0); [reflexivity|]. destruct (Req_EM_T 0 0); [reflexivity|lra].
Qed.
End D.

Lemma reduce_None MX D ltd0 (p : polyN XN) v i : (1 <= D)%Z -> (0 <= nvN XN p <= MX)%Z ->
  (forall v i, (0 <= v < nvN XN p)%Z -> (0 <= i < D)%Z -> (0 <= nb (vbN XN p) v i < nvN XN p)%Z) ->
  (0 <= v < nvN XN p)%Z -> (0 <= i < D)%Z ->
  (forall k, (0 <= k < D)%Z -> exists t, ps (vbN XN p) v k = Some t /\ ps (vbN XN p) (nb (vbN XN p) v i) k = Some t) ->
  rNd_reduce XN MX D ltd0 p = OK None.
Proof.
  intros HD Hn Hb Hv Hi H. rewrite rNd_reduce_flags by (auto; lia). f_equal. unfold flag_sum.
  apply (fold_poison _ _ _ v); [intros; reflexivity|now apply in_zrange|]. intros s. rewrite (vertex_None D HD _ _ i Hi); [apply xadd_r|].
  intros j Hj. unfold edgeN. destruct (H j Hj) as (t & -> & ->). cbn. f_equal. lra.
Qed.

Lemma sdf_Some D (pl : planeN XN) (b : vbuf (Z -> real)) v (q : Z -> R) c0 c : dN XN pl = Some c0 -> (forall k, (0 <= k < D)%Z -> nN XN pl k = Some (c k)) ->
  (forall k, (0 <= k < D)%Z -> ps b v k = Some (q k)) -> sdfN XN D pl b v = Some (linN D c0 c q).
Proof.
  intros H0 Hc Hq. unfold sdfN, linN. rewrite H0. rewrite (fold_Some _ (fun s k => s + c k * q k)).
  - f_equal. generalize c0. induction (zrange D) as [|a l IH]; intros s; cbn [fold_left lsum]; [lra|]. rewrite IH. lra.
  - intros s k Hk. apply in_zrange in Hk. rewrite Hc, Hq by auto. cbn. f_equal. lra.
Qed.
Lemma minf_le (f : Z -> real) (s : Z -> R) n m0 v : (forall v, (0 <= v < n)%Z -> f v = Some (s v)) -> (0 <= v < n)%Z ->
  exists m, minf XN f n (Some m0) = Some m /\ m <= s v.
Proof.
  intros H Hv. unfold minf. assert (I : In v (zrange n)) by now apply in_zrange.
  assert (A : forall w, In w (zrange n) -> f w = Some (s w)) by (intros w Hw; apply H; now apply in_zrange).
  clear H Hv. revert m0. induction (zrange n) as [|w l IH]; [destruct I|]. intros m0. cbn [fold_left].
  assert (M : forall m0, exists m, fold_left (fun m v0 => if nlt XN (f v0) m then f v0 else m) l (Some m0) = Some m /\ m <= m0).
  { assert (A' : forall w, In w l -> f w = Some (s w)) by (intros; apply A; now right). clear -A'.
    induction l as [|w l IH]; intros m0; cbn [fold_left]; [exists m0; split; auto; lra|]. rewrite A' by now left. cbn [nlt XN lift2b].
    destruct (Rltb (s w) m0) eqn:L.
    - destruct (IH ltac:(intros; apply A'; now right) (s w)) as (m & E & Q). exists m. split; auto. apply Rltb_true in L. lra.
    - apply IH. intros; apply A'; now right. }
  destruct I as [->|I].
  - rewrite A by now left. cbn [nlt XN lift2b]. destruct (Rltb (s v) m0) eqn:L; [apply M|]. destruct (M m0) as (m & E & Q). exists m. split; auto. apply Rltb_false in L. lra.
  - rewrite A by now left. cbn [nlt XN lift2b]. destruct (Rltb (s w) m0); apply IH; auto; intros; apply A; now right.
Qed.
Lemma maxf_ge (f : Z -> real) (s : Z -> R) n m0 v : (forall v, (0 <= v < n)%Z -> f v = Some (s v)) -> (0 <= v < n)%Z ->
  exists m, maxf XN f n (Some m0) = Some m /\ s v <= m.
Proof.
  intros H Hv. unfold maxf. assert (I : In v (zrange n)) by now apply in_zrange.
  assert (A : forall w, In w (zrange n) -> f w = Some (s w)) by (intros w Hw; apply H; now apply in_zrange).
  clear H Hv. revert m0. induction (zrange n) as [|w l IH]; [destruct I|]. intros m0. cbn [fold_left].
  assert (M : forall m0, exists m, fold_left (fun m v0 => if nlt XN m (f v0) then f v0 else m) l (Some m0) = Some m /\ m0 <= m).
  { assert (A' : forall w, In w l -> f w = Some (s w)) by (intros; apply A; now right). clear -A'.
    induction l as [|w l IH]; intros m0; cbn [fold_left]; [exists m0; split; auto; lra|]. rewrite A' by now left. cbn [nlt XN lift2b].
    destruct (Rltb m0 (s w)) eqn:L.
    - destruct (IH ltac:(intros; apply A'; now right) (s w)) as (m & E & Q). exists m. split; auto. apply Rltb_true in L. lra.
    - apply IH. intros; apply A'; now right. }
  destruct I as [->|I].
  - rewrite A by now left. cbn [nlt XN lift2b]. destruct (Rltb m0 (s v)) eqn:L; [apply M|]. destruct (M m0) as (m & E & Q). exists m. split; auto. apply Rltb_false in L. lra.
  - rewrite A by now left. cbn [nlt XN lift2b]. destruct (Rltb m0 (s w)); apply IH; auto; intros; apply A; now right.
Qed.

(** clipping through a vertex one of whose neighbours is cut off *)
Theorem clip_through MX D fuel ltd0 (p : polyN XN) pl nh bk h (q : Z -> Z -> R) c0 c v i w : (3 <= D)%Z -> (0 <= nvN XN p)%Z -> (nvN XN p * (D + 1) <= MX)%Z ->
  (Z.to_nat (MX * D * D * D) <= fuel)%nat -> (0 <= nfN XN p)%Z ->
  cells D (upto (nvN XN p)) (nfN XN p) nh (nb (vbN XN p)) bk h (fdN XN p) -> simple_edges D (upto (nvN XN p)) (nb (vbN XN p)) ->
  (forall v k, (0 <= v < nvN XN p)%Z -> (0 <= k < D)%Z -> ps (vbN XN p) v k = Some (q v k)) ->
  dN XN pl = Some c0 -> (forall k, (0 <= k < D)%Z -> nN XN pl k = Some (c k)) ->
  (0 <= v < nvN XN p)%Z -> (0 <= i < D)%Z -> linN D c0 c (q v) = 0 -> linN D c0 c (q (nb (vbN XN p) v i)) < 0 ->
  (0 <= w < nvN XN p)%Z -> 0 < linN D c0 c (q w) ->
  exists p', rNd_clip XN MX D fuel p [pl] = OK p' /\ rNd_reduce XN MX D ltd0 p' = OK None.
Proof.
  intros HD Hn HM Hf Hnf C SE Hq H0 Hc Hv Hi Zv Nu Hw Pw.
  set (s := fun v => linN D c0 c (q v)). set (u := nb (vbN XN p) v i) in *.
  assert (Hu : (0 <= u < nvN XN p)%Z) by (apply (ce_f _ _ _ _ _ _ _ _ C); auto).
  assert (SD : forall v, (0 <= v < nvN XN p)%Z -> sdfN XN D pl (vbN XN p) v = Some (s v)) by (intros; apply sdf_Some; auto).
  pose proof (cut_edges_le D (nvN XN p) (keepvN XN D pl (vbN XN p)) (nb (vbN XN p)) ltac:(lia) ltac:(lia)) as CE.
  destruct (clipN_onep XN MX D fuel p pl nh bk h HD ltac:(nia) Hnf Hf C SE) as [(_ & X)|[(_ & X)|[(_ & p' & E & En & Enf & bk' & h' & ov & nw & CC & TT & PO & PN)|(X & _)]]].
  - exfalso. destruct X as [X|X]; [lia|]. destruct (minf_le (sdfN XN D pl (vbN XN p)) s (nvN XN p) (10 ^ 30) u SD Hu) as (m & Em & Lm).
    change (nbig XN) with (Some (10 ^ 30)) in X. rewrite Em in X. cbn in X. apply Rleb_true in X. unfold s in Lm. lra.
  - exfalso. destruct (maxf_ge (sdfN XN D pl (vbN XN p)) s (nvN XN p) (- 10 ^ 30) w SD Hw) as (m & Em & Lm).
    change (nopp XN (nbig XN)) with (Some (- 10 ^ 30)) in X. rewrite Em in X. cbn in X. apply Rleb_true in X. unfold s in Lm. lra.
  - exists p'. split; auto.
    assert (Kv : keepvN XN D pl (vbN XN p) v = true) by (unfold keepvN; rewrite SD by auto; cbn; unfold s; rewrite Zv; unfold Rltb; destruct (Rlt_dec 0 0); auto; lra).
    assert (Ku : keepvN XN D pl (vbN XN p) u = false) by (unfold keepvN; rewrite SD by auto; cbn; unfold s; unfold Rltb; destruct Rlt_dec; auto; lra).
    pose proof (cnt_le (keepvN XN D pl (vbN XN p)) (nvN XN p) ltac:(lia)) as CL. pose proof (cnt_nonneg (keepvN XN D pl (vbN XN p)) (nvN XN p)) as CN.
    apply (reduce_None MX D ltd0 p' (ov v) i); try lia; try nia.
    + intros a b Ha Hb. apply (ce_f _ _ _ _ _ _ _ _ CC a b Ha Hb).
    + apply (tr_old _ _ _ _ _ _ _ _ _ _ _ TT); auto.
    + intros k Hk. exists (q v k). rewrite (tr_f _ _ _ _ _ _ _ _ _ _ _ TT v i Hv Hi Kv). fold u. rewrite Ku.
      destruct (PO v Hv Kv) as (-> & _). rewrite Hq by auto. split; auto.
      destruct (PN v i Hv Hi Kv Ku) as (P & _). rewrite P by auto. unfold newposN. fold u. rewrite !SD, !Hq by auto. unfold s. rewrite Zv.
      cbn. unfold lift2. destruct Req_EM_T as [Y|Y]; [lra|]. f_equal. field. lra.
  - exfalso. nia.
Qed.

(** the unit cube cut along a diagonal plane *)
Theorem cube_diagonal MX D fuel ltd0 (p0 : polyN XN) : (3 <= D)%Z -> (2 ^ D * (D + 1) <= MX)%Z -> (Z.to_nat (MX * D * D * D) <= fuel)%nat ->
  exists p p', rNd_init_box XN MX D p0 (fun _ => Some 0) (fun _ => Some 1) = OK p
    /\ rNd_clip XN MX D fuel p [PLN XN (fun k => if (k =? 0)%Z then Some 1 else if (k =? 1)%Z then Some (-1) else Some 0) (Some 0)] = OK p'
    /\ rNd_reduce XN MX D ltd0 p' = OK None.
Proof.
  intros HD HM Hf. assert (P2 : (0 < 2 ^ D)%Z) by (apply Z.pow_pos_nonneg; lia).
  assert (P4 : (2 ^ 2 <= 2 ^ D)%Z) by (apply Z.pow_le_mono_r; lia). change (2 ^ 2)%Z with 4%Z in P4.
  destruct (box_cells XN MX D p0 (fun _ => Some 0) (fun _ => Some 1) ltac:(lia) ltac:(nia)) as (p & E & En & Hnf & P & L & C & SE).
  set (c := fun k => if (k =? 0)%Z then 1 else if (k =? 1)%Z then -1 else 0).
  set (q := fun v k => if Z.testbit v k then 1 else 0).
  assert (LC : forall x, linN D 0 c x = x 0%Z - x 1%Z).
  { intros x. unfold linN. rewrite (lsum_ext _ _ (fun k => (if (k =? 0)%Z then 1 else 0) * x k + (if (k =? 1)%Z then -1 else 0) * x k)).
    - rewrite lsum_add. rewrite (lsum_single _ _ 0%Z (NoDup_zrange _)), (lsum_single _ (fun k => (if (k =? 1)%Z then -1 else 0) * x k) 1%Z (NoDup_zrange _)).
      + cbn. lra.
      + apply in_zrange; lia.
      + intros j _ N. destruct (Z.eqb_spec j 1); [congruence|lra].
      + apply in_zrange; lia.
      + intros j _ N. destruct (Z.eqb_spec j 0); [congruence|lra].
    - intros k _. unfold c. destruct (Z.eqb_spec k 0), (Z.eqb_spec k 1); try lra; lia. }
  destruct (clip_through MX D fuel ltd0 p (PLN XN (fun k => if (k =? 0)%Z then Some 1 else if (k =? 1)%Z then Some (-1) else Some 0) (Some 0)) (2 * D)%Z
    (fun _ i => i) boxh q 0 c 0%Z 1%Z 1%Z) as (p' & E' & R'); rewrite ?En; auto; try lia; try nia.
  - intros v k Hv Hk. rewrite P by auto. unfold q. destruct (Z.testbit v k); reflexivity.
  - intros k _. cbn [nN]. unfold c. destruct (k =? 0)%Z, (k =? 1)%Z; reflexivity.
  - rewrite LC. unfold q. cbn. lra.
  - rewrite LC, L by lia. unfold q. cbn. lra.
  - rewrite LC. unfold q. cbn. lra.
  - exists p, p'. auto.
Qed.
