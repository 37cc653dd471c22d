(** * UniqJ: a set has at most one volume: lattice points counted in disjoint and in
    covering boxes. *)
From Coq Require Import Reals ZArith List Bool Lia Lra Psatz.
From Verif Require Import Base Lib SumR SpecNP SpecNJ PolyN FlagR MonoN ContN.
Import ListNotations.
Open Scope R_scope.

Definition ind (b : bool) : R := if b then 1 else 0.
Lemma ind_range b : 0 <= ind b <= 1. Proof. destruct b; cbn; lra. Qed.
Lemma lsum_ind {A} (P : A -> bool) l : lsum l (fun a => ind (P a)) = INR (length (filter P l)).
Proof. induction l as [|a l IH]; cbn [lsum filter length]; auto. rewrite IH. destruct (P a); cbn [length ind]; [rewrite S_INR|]; lra. Qed.

(** ** integers in an interval *)
Definition line (M : Z) : list Z := map (fun k => (k - M)%Z) (zrange (2 * M + 1)).
Lemma in_line M z : In z (line M) <-> (- M <= z <= M)%Z.
Proof. unfold line. rewrite in_map_iff. split; [intros (k & <- & H); apply in_zrange in H; lia|]. intros H. exists (z + M)%Z. split; [lia|apply in_zrange; lia]. Qed.
Lemma NoDup_line M : NoDup (line M).
Proof. apply FinFun.Injective_map_NoDup; [intros a b; lia|apply NoDup_zrange]. Qed.
Definition opn (a b : R) (z : Z) : bool := if Rlt_dec a (IZR z) then if Rlt_dec (IZR z) b then true else false else false.
Definition cls (a b : R) (z : Z) : bool := if Rle_dec a (IZR z) then if Rle_dec (IZR z) b then true else false else false.
Lemma opn_iff a b z : opn a b z = true <-> a < IZR z < b.
Proof. unfold opn. destruct (Rlt_dec a (IZR z)), (Rlt_dec (IZR z) b); split; try discriminate; try lra; auto. Qed.
Lemma cls_iff a b z : cls a b z = true <-> a <= IZR z <= b.
Proof. unfold cls. destruct (Rle_dec a (IZR z)), (Rle_dec (IZR z) b); split; try discriminate; try lra; auto. Qed.

Lemma opn_count M a b : - IZR M <= a -> b <= IZR M -> b - a - 1 <= lsum (line M) (fun z => ind (opn a b z)).
Proof.
  intros Ha Hb. rewrite lsum_ind. set (u := up a). set (m := (- up (- b) - u + 1)%Z).
  destruct (archimed a) as (U1 & U2). destruct (archimed (- b)) as (V1 & V2). fold u in U1, U2.
  assert (Em : IZR m = 1 - IZR (up (- b)) - IZR u) by (unfold m; rewrite plus_IZR, minus_IZR, opp_IZR; lra).
  destruct (Z_le_dec m 0) as [N|N]; [apply IZR_le in N; pose proof (pos_INR (length (filter (opn a b) (line M)))); lra|].
  assert (L : (length (map (fun k => (u + k)%Z) (zrange m)) <= length (filter (opn a b) (line M)))%nat).
  { apply NoDup_incl_length; [apply FinFun.Injective_map_NoDup; [intros x y; lia|apply NoDup_zrange]|].
    intros z Hz. apply in_map_iff in Hz as (k & <- & Hk). apply in_zrange in Hk.
    assert (K1 : IZR u <= IZR (u + k)) by (apply IZR_le; lia). assert (K2 : IZR (u + k) <= IZR (- up (- b))) by (apply IZR_le; unfold m in Hk; lia). rewrite opp_IZR in K2.
    apply filter_In. split; [|apply opn_iff; lra]. apply in_line. split; apply le_IZR; rewrite ?opp_IZR; lra. }
  rewrite map_length, length_zrange_nat in L. apply le_INR in L. rewrite INR_IZR_INZ, Z2Nat.id in L by lia. lra.
Qed.
Lemma cls_count M a b : a <= b -> lsum (line M) (fun z => ind (cls a b z)) <= b - a + 1.
Proof.
  intros Hab. rewrite lsum_ind. set (u := (1 - up (- a))%Z). set (m := (up b - u)%Z).
  destruct (archimed (- a)) as (U1 & U2). destruct (archimed b) as (V1 & V2).
  assert (Eu : IZR u = 1 - IZR (up (- a))) by (unfold u; rewrite minus_IZR; lra). assert (Em : IZR m = IZR (up b) - IZR u) by (unfold m; rewrite minus_IZR; lra).
  assert (L : (length (filter (cls a b) (line M)) <= length (map (fun k => (u + k)%Z) (zrange m)))%nat).
  { apply NoDup_incl_length; [apply NoDup_filter, NoDup_line|]. intros z Hz. apply filter_In in Hz as (_ & Hz). apply cls_iff in Hz.
    apply in_map_iff. exists (z - u)%Z. split; [lia|]. apply in_zrange. assert (u - 1 < z)%Z by (apply lt_IZR; rewrite minus_IZR; lra).
    assert (z < up b)%Z by (apply lt_IZR; lra). unfold m. lia. }
  rewrite map_length, length_zrange_nat in L. apply le_INR in L.
  assert (Hm : (-1 < m)%Z) by (apply lt_IZR; lra).
  rewrite (INR_IZR_INZ (Z.to_nat m)), Z2Nat.id in L by lia. lra.
Qed.

(** ** lattice points *)
Fixpoint grid (M : Z) (n : nat) : list (Z -> Z) :=
  match n with O => [fun _ => 0%Z] | S n => flat_map (fun z => map (fun k => upd z (Z.of_nat n) k) (line M)) (grid M n) end.
Lemma grid_prod M (f : Z -> Z -> R) n : lsum (grid M n) (fun z => lprod (zrange (Z.of_nat n)) (fun i => f i (z i))) = lprod (zrange (Z.of_nat n)) (fun i => lsum (line M) (f i)).
Proof.
  induction n as [|n IH]; [cbn; lra|]. cbn [grid]. replace (Z.of_nat (S n)) with (Z.of_nat n + 1)%Z by lia. rewrite lsum_flat_map, zrange_succ, lprod_app by lia.
  rewrite (lsum_ext _ _ (fun z => lsum (line M) (f (Z.of_nat n)) * lprod (zrange (Z.of_nat n)) (fun i => f i (z i)))).
  - rewrite lsum_scal, IH. cbn [lprod]. ring.
  - intros z _. rewrite lsum_map. rewrite (lsum_ext _ _ (fun k => lprod (zrange (Z.of_nat n)) (fun i => f i (z i)) * f (Z.of_nat n) k)); [rewrite lsum_scal; ring|].
    intros k _. rewrite lprod_app. cbn [lprod]. rewrite upd_eq, (lprod_ext (zrange (Z.of_nat n)) (fun i => f i (upd z (Z.of_nat n) k i)) (fun i => f i (z i))); [ring|].
    intros i Hi. apply in_zrange in Hi. rewrite upd_neq by lia. reflexivity.
Qed.
Lemma lprod_ind {A} (P : A -> bool) l : lprod l (fun a => ind (P a)) = ind (forallb P l).
Proof. induction l as [|a l IH]; cbn [lprod forallb]; auto. rewrite IH. destruct (P a), (forallb P l); cbn; lra. Qed.

Section U.
Context (D : Z).
Hypothesis HD : (0 <= D)%Z.
(** the lattice of step 1/(n+1) *)
Definition at_ (n : nat) (z : Z -> Z) : Z -> R := fun i => IZR (z i) / INR (S n).
Definition inS n (b : boxR) z : bool := forallb (fun i => opn (fst b i * INR (S n)) (snd b i * INR (S n)) (z i)) (zrange D).
Definition clS n (b : boxR) z : bool := forallb (fun i => cls (fst b i * INR (S n)) (snd b i * INR (S n)) (z i)) (zrange D).
Lemma step_pos n : 0 < INR (S n). Proof. apply lt_0_INR. lia. Qed.
Lemma scale_lt n a z : a * INR (S n) < IZR z <-> a < IZR z / INR (S n).
Proof. pose proof (step_pos n) as P. split; intros H. - apply (Rmult_lt_reg_r (INR (S n))); auto. unfold Rdiv. rewrite Rmult_assoc, Rinv_l by lra. lra.
  - apply (Rmult_lt_compat_r (INR (S n))) in H; auto. unfold Rdiv in H. rewrite Rmult_assoc, Rinv_l in H by lra. lra. Qed.
Lemma scale_gt n a z : IZR z < a * INR (S n) <-> IZR z / INR (S n) < a.
Proof. pose proof (step_pos n) as P. split; intros H. - apply (Rmult_lt_reg_r (INR (S n))); auto. unfold Rdiv. rewrite Rmult_assoc, Rinv_l by lra. lra.
  - apply (Rmult_lt_compat_r (INR (S n))) in H; auto. unfold Rdiv in H. rewrite Rmult_assoc, Rinv_l in H by lra. lra. Qed.
Lemma inS_iff n b z : inS n b z = true <-> insideb D b (at_ n z).
Proof.
  unfold inS. rewrite forallb_forall. split; intros H i Hi.
  - apply (proj2 (in_zrange D i)) in Hi. specialize (H i Hi). apply opn_iff in H as (H1 & H2). split; [now apply scale_lt|now apply scale_gt].
  - apply in_zrange in Hi. destruct (H i Hi) as (H1 & H2). apply opn_iff. split; [now apply scale_lt|now apply scale_gt].
Qed.
Lemma clS_iff n b z : inb D b (at_ n z) -> clS n b z = true.
Proof.
  intros H. unfold clS. apply forallb_forall. intros i Hi. apply in_zrange in Hi. destruct (H i Hi) as (H1 & H2). apply cls_iff. split; apply Rnot_lt_le; intros C.
  - apply scale_gt in C. unfold at_ in H1. lra.
  - apply scale_lt in C. unfold at_ in H2. lra.
Qed.
Lemma at_most_one n z (l : list boxR) : ForallOrdPairs (apart D) l -> lsum l (fun b => ind (inS n b z)) <= ind (existsb (fun b => inS n b z) l).
Proof.
  induction 1 as [|b l F1 F2 IH]; cbn [lsum existsb]; [cbn; lra|]. destruct (inS n b z) eqn:E; cbn [orb]; [|cbn [ind]; lra].
  assert (X : lsum l (fun b => ind (inS n b z)) = 0); [|rewrite X; cbn; lra]. apply lsum_0. intros c Hc. destruct (inS n c z) eqn:E2; auto. exfalso.
  rewrite Forall_forall in F1. apply inS_iff in E, E2. exact (F1 c Hc _ E E2).
Qed.

Lemma count_le n M K li lo : packed D K li -> covered D K lo ->
  lsum li (fun b => lprod (zrange D) (fun i => lsum (line M) (fun z => ind (opn (fst b i * INR (S n)) (snd b i * INR (S n)) z))))
  <= lsum lo (fun b => lprod (zrange D) (fun i => lsum (line M) (fun z => ind (cls (fst b i * INR (S n)) (snd b i * INR (S n)) z)))).
Proof.
  intros (P1 & P2) (C1 & C2). pose proof (grid_prod M) as G. assert (ED : D = Z.of_nat (Z.to_nat D)) by lia.
  rewrite (lsum_ext li _ (fun b => lsum (grid M (Z.to_nat D)) (fun z => ind (inS n b z)))).
  2: { intros b _. pose proof (G (fun i z => ind (opn (fst b i * INR (S n)) (snd b i * INR (S n)) z)) (Z.to_nat D)) as E. rewrite <- ED in E. rewrite <- E. apply lsum_ext. intros z _.
    apply (lprod_ind (fun i => opn (fst b i * INR (S n)) (snd b i * INR (S n)) (z i))). }
  rewrite (lsum_ext lo _ (fun b => lsum (grid M (Z.to_nat D)) (fun z => ind (clS n b z)))).
  2: { intros b _. pose proof (G (fun i z => ind (cls (fst b i * INR (S n)) (snd b i * INR (S n)) z)) (Z.to_nat D)) as E. rewrite <- ED in E. rewrite <- E. apply lsum_ext. intros z _.
    apply (lprod_ind (fun i => cls (fst b i * INR (S n)) (snd b i * INR (S n)) (z i))). }
  rewrite (lsum_swap li), (lsum_swap lo). apply lsum_le. intros z _. eapply Rle_trans; [apply at_most_one; auto|].
  destruct (existsb (fun b => inS n b z) li) eqn:E; [|cbn [ind]; apply lsum_nonneg; intros; apply ind_range].
  apply existsb_exists in E as (b & Hb & Eb). apply inS_iff in Eb. destruct (P1 b Hb) as (_ & P). assert (Kz : K (at_ n z)) by (apply P; intros i Hi; specialize (Eb i Hi); lra).
  destruct (C2 _ Kz) as (c & Hc & Ic). apply clS_iff in Ic. cbn [ind]. revert Hc. clear - Ic. induction lo as [|d l IH]; intros []; cbn [lsum].
  - subst. rewrite Ic. cbn. assert (0 <= lsum l (fun b => ind (clS n b z))) by (apply lsum_nonneg; intros; apply ind_range). lra.
  - pose proof (ind_range (clS n d z)). specialize (IH H). lra.
Qed.

(** ** the limit *)
Definition inn n (b : boxR) : R := lprod (zrange D) (fun i => snd b i - fst b i - / INR (S n)).
Definition out n (b : boxR) : R := lprod (zrange D) (fun i => snd b i - fst b i + / INR (S n)).
Lemma lprod_le {A} (l : list A) f g : (forall a, In a l -> 0 <= f a <= g a) -> 0 <= lprod l f <= lprod l g.
Proof.
  induction l as [|a l IH]; intros H; cbn [lprod]; [lra|]. destruct IH as (I1 & I2); [intros; apply H; now right|]. destruct (H a (or_introl eq_refl)) as (H1 & H2).
  split; [now apply Rmult_le_pos|]. apply Rmult_le_compat; auto.
Qed.
Lemma lprod_const {A} (l : list A) f c : lprod l (fun a => c * f a) = lprod l (fun _ => c) * lprod l f.
Proof. apply lprod_mul. Qed.
Lemma big M0 (l : list boxR) n : exists M, (M0 <= M)%Z /\ forall b i, In b l -> (0 <= i < D)%Z -> - IZR M <= fst b i * INR (S n) /\ snd b i * INR (S n) <= IZR M.
Proof.
  induction l as [|b l (M & H0 & H)]; [exists M0; split; [lia|intros ? ? []]|].
  assert (X : exists m, (0 <= m)%Z /\ forall i, (0 <= i < D)%Z -> - IZR m <= fst b i * INR (S n) /\ snd b i * INR (S n) <= IZR m).
  { set (r := lsum (zrange D) (fun i => Rabs (fst b i * INR (S n)) + Rabs (snd b i * INR (S n)))).
    assert (R0 : 0 <= r) by (apply lsum_nonneg; intros; pose proof (Rabs_pos (fst b a * INR (S n))); pose proof (Rabs_pos (snd b a * INR (S n))); lra).
    destruct (archimed r) as (A1 & _). exists (up r). split; [apply le_IZR; lra|]. intros i Hi.
    assert (B : Rabs (fst b i * INR (S n)) + Rabs (snd b i * INR (S n)) <= r).
    { apply (lsum_bound (zrange D) (fun i => Rabs (fst b i * INR (S n)) + Rabs (snd b i * INR (S n)))); [|now apply in_zrange].
      intros; pose proof (Rabs_pos (fst b a * INR (S n))); pose proof (Rabs_pos (snd b a * INR (S n))); lra. }
    pose proof (Rabs_pos (fst b i * INR (S n))). pose proof (Rabs_pos (snd b i * INR (S n))). pose proof (Rle_abs (- (fst b i * INR (S n)))) as P1. rewrite Rabs_Ropp in P1.
    pose proof (Rle_abs (snd b i * INR (S n))). lra. }
  destruct X as (m & m0 & X). exists (Z.max M m). split; [lia|]. assert (Q1 : IZR M <= IZR (Z.max M m)) by (apply IZR_le; lia). assert (Q2 : IZR m <= IZR (Z.max M m)) by (apply IZR_le; lia).
  intros c i [->|Hc] Hi; [specialize (X i Hi)|specialize (H c i Hc Hi)]; lra.
Qed.
Lemma step_le n K li lo : packed D K li -> covered D K lo -> (forall b i, In b li -> (0 <= i < D)%Z -> / INR (S n) <= snd b i - fst b i) -> lsum li (inn n) <= lsum lo (out n).
Proof.
  intros P C W. destruct (big 0 li n) as (M & M0 & HM). pose proof (count_le n M K li lo P C) as X. pose proof (step_pos n) as SP.
  set (q := lprod (zrange D) (fun _ => INR (S n))).
  assert (Q : 0 < q). { unfold q. clear - SP. induction (zrange D) as [|a l IH]; cbn [lprod]; [lra|]. apply Rmult_lt_0_compat; auto. }
  apply (Rmult_le_reg_l q); auto. rewrite <- !lsum_scal. eapply Rle_trans; [|eapply Rle_trans; [exact X|]].
  - apply lsum_le. intros b Hb. unfold inn, q. rewrite <- lprod_mul. apply lprod_le. intros i Hi. apply in_zrange in Hi. destruct (HM b i Hb Hi) as (A1 & A2).
    specialize (W b i Hb Hi). split; [apply Rmult_le_pos; lra|]. pose proof (opn_count M _ _ A1 A2).
    replace (INR (S n) * (snd b i - fst b i - / INR (S n))) with (snd b i * INR (S n) - fst b i * INR (S n) - 1) by (field; lra). lra.
  - apply lsum_le. intros b Hb. unfold out, q. rewrite <- lprod_mul. apply lprod_le. intros i Hi. apply in_zrange in Hi.
    pose proof (proj1 C b Hb i Hi) as Wb. split; [apply lsum_nonneg; intros; apply ind_range|]. pose proof (cls_count M (fst b i * INR (S n)) (snd b i * INR (S n))) as Y.
    replace (INR (S n) * (snd b i - fst b i + / INR (S n))) with (snd b i * INR (S n) - fst b i * INR (S n) + 1) by (field; lra). apply Y. apply Rmult_le_compat_r; lra.
Qed.
Lemma inv_cv : Un_cv (fun n => / INR (S n)) 0.
Proof.
  intros e He. destruct (archimed_cor1 e He) as (N & N1 & N2). exists N. intros n Hn. unfold R_dist. rewrite Rminus_0_r, Rabs_right; [|left; apply Rinv_0_lt_compat, step_pos].
  eapply Rle_lt_trans; [|exact N1]. apply Rinv_le_contravar; [apply lt_0_INR; lia|apply le_INR; lia].
Qed.
Lemma lprod_cv {A} (l : list A) (f : A -> nat -> R) g : (forall a, In a l -> Un_cv (f a) (g a)) -> Un_cv (fun n => lprod l (fun a => f a n)) (lprod l g).
Proof.
  induction l as [|a l IH]; intros H; cbn [lprod]; [intros e He; exists O; intros; unfold R_dist; rewrite Rminus_diag_eq, Rabs_R0; auto|].
  apply (CV_mult (f a) (fun n => lprod l (fun a => f a n))); [apply H; now left|apply IH; intros; apply H; now right].
Qed.
Lemma lsum_cv {A} (l : list A) (f : A -> nat -> R) g : (forall a, In a l -> Un_cv (f a) (g a)) -> Un_cv (fun n => lsum l (fun a => f a n)) (lsum l g).
Proof.
  induction l as [|a l IH]; intros H; cbn [lsum]; [intros e He; exists O; intros; unfold R_dist; rewrite Rminus_diag_eq, Rabs_R0; auto|].
  apply (CV_plus (f a) (fun n => lsum l (fun a => f a n))); [apply H; now left|apply IH; intros; apply H; now right].
Qed.
Lemma const_cv c : Un_cv (fun _ => c) c.
Proof. intros e He. exists O. intros. unfold R_dist. rewrite Rminus_diag_eq, Rabs_R0; auto. Qed.
Lemma inn_cv b : Un_cv (fun n => inn n b) (box_vol D b).
Proof.
  rewrite box_vol_bvol. unfold inn, bvol. apply (lprod_cv (zrange D) (fun i n => snd b i - fst b i - / INR (S n))). intros i _.
  pose proof (CV_minus (fun _ => snd b i - fst b i) (fun n => / INR (S n)) _ _ (const_cv _) inv_cv) as X. rewrite Rminus_0_r in X. exact X.
Qed.
Lemma out_cv b : Un_cv (fun n => out n b) (box_vol D b).
Proof.
  rewrite box_vol_bvol. unfold out, bvol. apply (lprod_cv (zrange D) (fun i n => snd b i - fst b i + / INR (S n))). intros i _.
  pose proof (CV_plus (fun _ => snd b i - fst b i) (fun n => / INR (S n)) _ _ (const_cv _) inv_cv) as X. rewrite Rplus_0_r in X. exact X.
Qed.
Lemma least_width li : (forall b, In b li -> real_box D b) -> exists N, forall n b i, (N <= n)%nat -> In b li -> (0 <= i < D)%Z -> / INR (S n) <= snd b i - fst b i.
Proof.
  intros H.
  assert (X : exists w, 0 < w /\ forall b i, In b li -> (0 <= i < D)%Z -> w <= snd b i - fst b i).
  { induction li as [|b l IH]; [exists 1; split; [lra|intros ? ? []]|]. destruct IH as (w & W0 & W); [intros; apply H; now right|].
    assert (Y : exists w, 0 < w /\ forall i, In i (zrange D) -> w <= snd b i - fst b i).
    { assert (P : forall i, In i (zrange D) -> 0 < snd b i - fst b i) by (intros i Hi; apply in_zrange in Hi; pose proof (H b (or_introl eq_refl) i Hi); lra).
      clear - P. induction (zrange D) as [|i l IH]; [exists 1; split; [lra|intros ? []]|]. destruct IH as (w & W0 & W); [intros; apply P; now right|].
      exists (Rmin w (snd b i - fst b i)). split; [apply Rmin_glb_lt; auto; apply P; now left|]. intros j [->|Hj]; [apply Rmin_r|]. eapply Rle_trans; [apply Rmin_l|auto]. }
    destruct Y as (v & V0 & V). exists (Rmin w v). split; [now apply Rmin_glb_lt|]. intros c i [->|Hc] Hi.
    - eapply Rle_trans; [apply Rmin_r|]. apply V. now apply in_zrange.
    - eapply Rle_trans; [apply Rmin_l|auto]. }
  destruct X as (w & W0 & W). destruct (archimed_cor1 w W0) as (N & N1 & N2). exists N. intros n b i Hn Hb Hi. specialize (W b i Hb Hi).
  assert (/ INR (S n) <= / INR N) by (apply Rinv_le_contravar; [apply lt_0_INR; lia|apply le_INR; lia]). lra.
Qed.
Lemma cv_shift f c N : Un_cv f c -> Un_cv (fun n => f (n + N)%nat) c.
Proof. intros H e He. destruct (H e He) as (M & HM). exists M. intros n Hn. apply HM. lia. Qed.
Theorem packed_covered K li lo : packed D K li -> covered D K lo -> lsum li (box_vol D) <= lsum lo (box_vol D).
Proof.
  intros P C. destruct (least_width li) as (N & HN); [intros b Hb; apply (proj1 P b Hb)|].
  apply (@Rle_cv_lim (fun n => lsum li (inn (n + N))) (fun n => lsum lo (out (n + N)))).
  - intros n. apply (step_le _ K); auto. intros. apply HN; auto; lia.
  - apply (cv_shift (fun n => lsum li (inn n))). apply (lsum_cv li (fun b n => inn n b)). intros; apply inn_cv.
  - apply (cv_shift (fun n => lsum lo (out n))). apply (lsum_cv lo (fun b n => out n b)). intros; apply out_cv.
Qed.
Theorem content_unique K t s : content D K t -> content D K s -> t = s.
Proof.
  assert (G : forall t s, content D K t -> content D K s -> t <= s).
  { clear t s. intros t s Ht Hs. apply Rnot_lt_le. intros L. destruct (Ht ((t - s) / 4)) as ((li & P1 & P2) & _); [lra|]. destruct (Hs ((t - s) / 4)) as (_ & (lo & C1 & C2)); [lra|].
    pose proof (packed_covered K li lo P1 C1). lra. }
  intros. apply Rle_antisym; auto.
Qed.
End U.
