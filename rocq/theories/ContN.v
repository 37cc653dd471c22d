(** * ContN: what [rNd_reduce] returns for a solid polytope is the volume of its hull. *)
From Coq Require Import Reals ZArith List Bool Lia Lra Psatz.
From Verif Require Import Base Lib SumR ModelCommon ModelN ModelNC SpecN SpecNC SpecNP SpecNJ RealNum PolyN NearN FlagR HullN SplitN UniqN OffN MonoN DisN.
Import ListNotations.
Open Scope R_scope.

Lemma FOP_map_filter {A B} (P : B -> B -> Prop) (g : A -> B) t l : ForallOrdPairs P (map g l) -> ForallOrdPairs P (map g (filter t l)).
Proof.
  induction l as [|a l IH]; intros H; [constructor|]. cbn in H. inversion H as [|? ? F1 F2]; subst. cbn [filter]. destruct (t a); [|auto]. cbn. constructor; auto.
  apply Forall_forall. intros b Hb. rewrite Forall_forall in F1. apply F1. apply in_map_iff in Hb as (x & <- & Hx). apply filter_In in Hx as (Hx & _). now apply in_map.
Qed.
Lemma lsum_le {A} (l : list A) f g : (forall a, In a l -> f a <= g a) -> lsum l f <= lsum l g.
Proof. induction l as [|a l IH]; intros H; cbn [lsum]; [lra|]. pose proof (H a (or_introl eq_refl)). assert (lsum l f <= lsum l g) by (apply IH; intros; apply H; now right). lra. Qed.
Lemma lsum_bound (l : list Z) (f : Z -> R) i : (forall a, In a l -> 0 <= f a) -> In i l -> f i <= lsum l f.
Proof.
  induction l as [|a l IH]; intros H []; cbn [lsum].
  - subst. assert (0 <= lsum l f) by (apply lsum_nonneg; intros; apply H; now right). lra.
  - pose proof (H a (or_introl eq_refl)). assert (f i <= lsum l f) by (apply IH; auto; intros; apply H; now right). lra.
Qed.
Lemma box_vol_bvol D b : box_vol D b = bvol D (fst b) (snd b).
Proof. unfold box_vol, bvol. induction (zrange D) as [|i l IH]; auto. cbn. now rewrite IH. Qed.

Section C.
Context (D : Z).
Hypothesis HD : (3 <= D)%Z.
Notation I i := (0 <= i < D)%Z.

Lemma bounding (p : polyN RN) : exists b, real_box D b /\ forall x, hullP D p x -> inb D b x.
Proof.
  set (B := 1 + lsum (zrange (nvN RN p)) (fun v => lsum (zrange D) (fun k => Rabs (ps (vbN RN p) v k)))).
  assert (P : forall v k, upto (nvN RN p) v -> I k -> Rabs (ps (vbN RN p) v k) <= B - 1).
  { intros v k Hv Hk. unfold B. replace (1 + lsum (zrange (nvN RN p)) (fun v => lsum (zrange D) (fun k => Rabs (ps (vbN RN p) v k))) - 1)
      with (lsum (zrange (nvN RN p)) (fun v => lsum (zrange D) (fun k => Rabs (ps (vbN RN p) v k)))) by ring.
    eapply Rle_trans; [apply (lsum_bound (zrange D) (fun k => Rabs (ps (vbN RN p) v k)) k); [intros; apply Rabs_pos|now apply in_zrange]|].
    apply (lsum_bound (zrange (nvN RN p)) (fun v => lsum (zrange D) (fun k => Rabs (ps (vbN RN p) v k))) v); [intros; apply lsum_nonneg; intros; apply Rabs_pos|now apply in_zrange]. }
  assert (B1 : 1 <= B). { unfold B. assert (0 <= lsum (zrange (nvN RN p)) (fun v => lsum (zrange D) (fun k => Rabs (ps (vbN RN p) v k)))); [|lra].
    apply lsum_nonneg. intros. apply lsum_nonneg. intros. apply Rabs_pos. }
  exists (fun _ => - B, fun _ => B). split; [intros i _; cbn; lra|]. intros x Hx i Hi. cbn [fst snd].
  assert (SP : forall c0 s y, linN D c0 (fun k => if (k =? i)%Z then s else 0) y = c0 + s * y i).
  { intros c0 s y. unfold linN. rewrite (lsum_single _ _ i (NoDup_zrange _) (proj2 (in_zrange _ _) Hi)); [now rewrite Z.eqb_refl|].
    intros k _ N. destruct (Z.eqb_spec k i); [contradiction|]. ring. }
  pose proof (Hx B (fun k => if (k =? i)%Z then 1 else 0)) as A1. pose proof (Hx B (fun k => if (k =? i)%Z then -1 else 0)) as A2. unfold halfN in A1, A2.
  rewrite SP in A1, A2.
  assert (0 <= B + 1 * x i) by (apply A1; intros v Hv; rewrite SP; specialize (P v i Hv Hi); apply Rabs_le_inv in P; lra).
  assert (0 <= B + -1 * x i) by (apply A2; intros v Hv; rewrite SP; specialize (P v i Hv Hi); apply Rabs_le_inv in P; lra). lra.
Qed.
Lemma form_bound nh (l : Z -> Z -> R) : exists W, 0 <= W /\ forall g, (0 <= g < nh)%Z -> wt D (l g) <= W.
Proof.
  exists (lsum (zrange nh) (fun g => wt D (l g))). split; [apply lsum_nonneg; intros; apply wt_nonneg|].
  intros g Hg. apply (lsum_bound (zrange nh) (fun g => wt D (l g))); [intros; apply wt_nonneg|now apply in_zrange].
Qed.
Lemma near c0 c (b : boxR) W mu t x y : 0 < mu -> wt D c <= W -> W * mu <= t -> (forall i, I i -> wid b i <= mu) -> inb D b x -> inb D b y ->
  linN D c0 c y - t <= linN D c0 c x.
Proof.
  intros Hm HW Ht Wb Hx Hy. pose proof (lin_close D c0 c x y mu) as A.
  assert (B : Rabs (linN D c0 c x - linN D c0 c y) <= wt D c * mu).
  { apply A. intros k Hk. specialize (Wb k Hk). specialize (Hx k Hk). specialize (Hy k Hk). unfold wid in Wb. apply Rabs_le. lra. }
  apply Rabs_le_inv in B. assert (wt D c * mu <= W * mu) by (apply Rmult_le_compat_r; lra). lra.
Qed.

Lemma inner_boxes p e : good D p -> 0 < e -> exists l, packed D (hullP D p) l /\ volN D p - e <= lsum l (box_vol D).
Proof.
  intros (Hn & SP) He. destruct (Z.eq_dec (nvN RN p) 0) as [Z0|Z0].
  { exists []. split; [split; [intros ? []|constructor]|]. rewrite volN_0 by auto. cbn. lra. }
  destruct (solid_off D p ltac:(lia) ltac:(lia) SP) as (nh & l0 & l & HF & OFF). destruct (OFF e He) as (t & Ht & X).
  destruct (X (fun _ => t)) as (p' & En & S' & H' & V'). { intros g _. rewrite Rabs_right; lra. }
  destruct (bounding p') as (b & RB & HB). destruct (form_bound nh l) as (W & W0 & HW).
  assert (Hmu : 0 < t / (W + 1)) by (apply Rdiv_lt_0_compat; lra).
  destruct (dissect D HD (b, p') (t / (W + 1))) as (L & X1 & X2); [split; [auto|split; [split; [cbn; lia|auto]|auto]]|auto|].
  assert (WM : W * (t / (W + 1)) <= t).
  { apply Rle_trans with ((W + 1) * (t / (W + 1))); [apply Rmult_le_compat_r; lra|]. right. field. lra. }
  set (L' := filter (fun c => (0 <? nvN RN (snd c))%Z) L). exists (map fst L'). split; [split|].
  - intros c Hc. apply in_map_iff in Hc as (a & <- & Ha). apply filter_In in Ha as (Ha & Na). apply Z.ltb_lt in Na.
    destruct (di_each _ _ _ X1 a Ha) as (E1 & E2 & E3 & E4). split; auto. intros x Hx. apply HF. intros g Hg.
    assert (U0 : upto (nvN RN (snd a)) 0%Z) by (unfold upto; lia). pose proof (hull_vertex D _ (ps (vbN RN (snd a))) _ U0) as Hv. apply E4 in Hv as (Hv1 & Hv2).
    cbn [snd] in Hv1. pose proof (proj1 (H' _) Hv1 g Hg) as P. cbv beta in P.
    pose proof (near (l0 g) (l g) (fst a) W (t / (W + 1)) t x (ps (vbN RN (snd a)) 0%Z) Hmu (HW g Hg) WM (X2 a Ha) Hx Hv2). lra.
  - apply FOP_map_filter. apply (di_apart _ _ _ X1).
  - rewrite lsum_map. pose proof (di_sum _ _ _ X1) as SU. cbn [snd] in SU. apply Rabs_le_inv in V'.
    apply Rle_trans with (lsum L' (fun c => volN D (snd c))).
    + unfold L'. rewrite lsum_filter. rewrite (lsum_ext L _ (fun c => volN D (snd c))); [lra|]. intros c Hc. destruct (Z.ltb_spec 0 (nvN RN (snd c))); auto.
      destruct (di_each _ _ _ X1 c Hc) as (_ & (N & _) & _). rewrite volN_0; auto. lia.
    + apply lsum_le. intros c Hc. apply filter_In in Hc as (Hc & _). destruct (di_each _ _ _ X1 c Hc) as (E1 & E2 & E3 & E4).
      destruct (box_poly D HD (fst (fst c)) (snd (fst c)) E1) as (q & Gq & Hq & Vq). rewrite box_vol_bvol, <- Vq. apply vol_mono; auto. intros x Hx. apply Hq. now apply E4.
Qed.
Lemma outer_boxes p e : good D p -> 0 < e -> exists l, covered D (hullP D p) l /\ lsum l (box_vol D) <= volN D p + e.
Proof.
  intros (Hn & SP) He. destruct (Z.eq_dec (nvN RN p) 0) as [Z0|Z0].
  { exists []. split; [split; [intros ? []|]|]. - intros x Hx. exfalso. unfold hullP in Hx. rewrite Z0 in Hx. eapply hullN_0; eauto. - rewrite volN_0 by auto. cbn. lra. }
  destruct (solid_off D p ltac:(lia) ltac:(lia) SP) as (nh & l0 & l & HF & OFF). destruct (OFF e He) as (t & Ht & X).
  destruct (X (fun _ => - t)) as (p' & En & S' & H' & V'). { intros g _. rewrite Rabs_left; lra. }
  destruct (bounding p') as (b & RB & HB). destruct (form_bound nh l) as (W & W0 & HW).
  assert (Hmu : 0 < t / 2 / (W + 1)) by (apply Rdiv_lt_0_compat; lra).
  destruct (dissect D HD (b, p') (t / 2 / (W + 1))) as (L & X1 & X2); [split; [auto|split; [split; [cbn; lia|auto]|auto]]|auto|].
  assert (WM : W * (t / 2 / (W + 1)) <= t / 2).
  { apply Rle_trans with ((W + 1) * (t / 2 / (W + 1))); [apply Rmult_le_compat_r; lra|]. right. field. lra. }
  set (mid := fun (c : boxR) k => (fst c k + snd c k) / 2).
  assert (MI : forall c, real_box D c -> inb D c (mid c)) by (intros c Rc i Hi; specialize (Rc i Hi); unfold mid; lra).
  set (test := fun c : boxR * polyN RN => forallb (fun g => if Rle_dec (- (t / 2)) (linN D (l0 g) (l g) (mid (fst c))) then true else false) (zrange nh)).
  assert (TE : forall c, test c = true <-> forall g, (0 <= g < nh)%Z -> - (t / 2) <= linN D (l0 g) (l g) (mid (fst c))).
  { intros c. unfold test. rewrite forallb_forall. split; intros H g Hg.
    - apply (proj2 (in_zrange nh g)) in Hg. specialize (H g Hg). destruct (Rle_dec _ _) in H; [auto|discriminate].
    - apply in_zrange in Hg. specialize (H g Hg). destruct (Rle_dec _ _); auto. }
  exists (map fst (filter test L)). split; [split|].
  - intros c Hc. apply in_map_iff in Hc as (a & <- & Ha). apply filter_In in Ha as (Ha & _). apply (di_each _ _ _ X1 a Ha).
  - intros x Hx. assert (Hp : forall g, (0 <= g < nh)%Z -> 0 <= linN D (l0 g) (l g) x) by (now apply HF).
    assert (Hx' : hullP D p' x) by (apply H'; intros g Hg; specialize (Hp g Hg); lra).
    destruct (di_cover _ _ _ X1 x (HB x Hx')) as (a & Ha & Ax). exists (fst a). split; auto. apply in_map. apply filter_In. split; auto. apply TE. intros g Hg.
    pose proof (near (l0 g) (l g) (fst a) W (t / 2 / (W + 1)) (t / 2) (mid (fst a)) x Hmu (HW g Hg) WM (X2 a Ha) (MI _ (proj1 (di_each _ _ _ X1 a Ha))) Ax).
    specialize (Hp g Hg). lra.
  - rewrite lsum_map, lsum_filter. pose proof (di_sum _ _ _ X1) as SU. cbn [snd] in SU. apply Rabs_le_inv in V'.
    apply Rle_trans with (lsum L (fun c => volN D (snd c))); [|lra]. apply lsum_le. intros c Hc. destruct (di_each _ _ _ X1 c Hc) as (E1 & E2 & E3 & E4).
    destruct (test c) eqn:T; [|apply vol_nonneg; [lia|apply E2]]. right.
    destruct (box_poly D HD (fst (fst c)) (snd (fst c)) E1) as (q & Gq & Hq & Vq). rewrite box_vol_bvol, <- Vq. symmetry. apply vol_hull; [lia|apply E2|apply Gq|].
    intros x. rewrite E4, Hq. cbn [snd]. split; [tauto|]. intros Hx. split; auto. apply H'. intros g Hg. pose proof (proj1 (TE c) T g Hg) as P.
    pose proof (near (l0 g) (l g) (fst c) W (t / 2 / (W + 1)) (t / 2) x (mid (fst c)) Hmu (HW g Hg) WM (X2 c Hc) Hx (MI _ E1)). lra.
Qed.
Theorem vol_content p : good D p -> content D (hullP D p) (volN D p).
Proof. intros G e He. split; [now apply inner_boxes|now apply outer_boxes]. Qed.
End C.
