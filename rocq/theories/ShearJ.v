(** * ShearJ: shears and rotations keep the volume of a set. *)
From Coq Require Import Reals ZArith List Bool Lia Lra Psatz Classical.
From Verif Require Import Base Lib SumR ModelCommon ModelN ModelNC SpecNP SpecNV SpecNJ RealNum FlagR ContN UniqJ DisN JordJ ClipJ VoxJ SpecPN TransN ProjN ProjGN.
From Verif Require BoxVolN BoxVoxN.
Import ListNotations.
Open Scope R_scope.

Lemma div_nonneg a b : 0 <= a -> 0 < b -> 0 <= a / b.
Proof. intros. apply Rmult_le_pos; [auto|left; now apply Rinv_0_lt_compat]. Qed.
Lemma inr_above r : exists n, r < INR n.
Proof.
  exists (Z.to_nat (up (Rmax r 0))). pose proof (archimed (Rmax r 0)) as (H & _). pose proof (Rmax_l r 0). pose proof (Rmax_r r 0).
  assert (0 < up (Rmax r 0))%Z by (apply lt_IZR; lra). rewrite INR_IZR_INZ, Z2Nat.id by lia. lra.
Qed.
Lemma apart_axis D b c : real_box D b -> real_box D c -> apart D b c -> exists i, (0 <= i < D)%Z /\ (snd b i <= fst c i \/ snd c i <= fst b i).
Proof.
  intros Rb Rc A. apply NNPP. intros N.
  assert (F : forall i, (0 <= i < D)%Z -> fst c i < snd b i /\ fst b i < snd c i).
  { intros i Hi. split; apply Rnot_le_lt; intros X; apply N; exists i; auto. }
  set (x := fun i => (Rmax (fst b i) (fst c i) + Rmin (snd b i) (snd c i)) / 2).
  assert (G : forall i, (0 <= i < D)%Z -> Rmax (fst b i) (fst c i) < x i < Rmin (snd b i) (snd c i)).
  { intros i Hi. destruct (F i Hi). specialize (Rb i Hi). specialize (Rc i Hi).
    assert (Rmax (fst b i) (fst c i) < Rmin (snd b i) (snd c i)) by (apply Rmax_lub_lt; apply Rmin_glb_lt; lra). unfold x. lra. }
  apply (A x); intros i Hi; specialize (G i Hi); pose proof (Rmax_l (fst b i) (fst c i)); pose proof (Rmax_r (fst b i) (fst c i));
    pose proof (Rmin_l (snd b i) (snd c i)); pose proof (Rmin_r (snd b i) (snd c i)); lra.
Qed.
Lemma lprod_two (l : list Z) a b ra rb : NoDup l -> In a l -> In b l -> a <> b ->
  lprod l (fun i => if (i =? a)%Z then ra else if (i =? b)%Z then rb else 1) = ra * rb.
Proof.
  intros ND Ia Ib N.
  assert (Q0 : forall l, ~ In a l -> ~ In b l -> lprod l (fun i => if (i =? a)%Z then ra else if (i =? b)%Z then rb else 1) = 1).
  { induction l0 as [|c l0 IH]; intros H1 H2; cbn; auto. rewrite IH by (intros ?; cbn in *; tauto).
    destruct (Z.eqb_spec c a); [subst; cbn in H1; tauto|]. destruct (Z.eqb_spec c b); [subst; cbn in H2; tauto|]. ring. }
  assert (Q1 : forall l, NoDup l -> In a l -> ~ In b l -> lprod l (fun i => if (i =? a)%Z then ra else if (i =? b)%Z then rb else 1) = ra).
  { induction l0 as [|c l0 IH]; intros H0 H1 H2; [destruct H1|]. inversion H0; subst. cbn. destruct (Z.eqb_spec c a) as [->|].
    - rewrite Q0; auto; [ring|]. intros ?. apply H2. now right.
    - destruct (Z.eqb_spec c b); [subst; cbn in H2; tauto|]. rewrite IH; auto; [ring| |]; [destruct H1; congruence|]. intros ?. apply H2. now right. }
  assert (Q2 : forall l, NoDup l -> ~ In a l -> In b l -> lprod l (fun i => if (i =? a)%Z then ra else if (i =? b)%Z then rb else 1) = rb).
  { induction l0 as [|c l0 IH]; intros H0 H1 H2; [destruct H2|]. inversion H0; subst. cbn. destruct (Z.eqb_spec c a) as [->|]; [cbn in H1; tauto|].
    destruct (Z.eqb_spec c b) as [->|]. - rewrite Q0; auto; [ring|]. intros ?. apply H1. now right.
    - rewrite IH; auto; [ring| |]; [intros ?; apply H1; now right|destruct H2; congruence]. }
  induction l as [|c l IH]; [destruct Ia|]. inversion ND; subst. cbn. destruct (Z.eqb_spec c a) as [->|].
  - rewrite Q2; auto. destruct Ib; [congruence|auto].
  - destruct (Z.eqb_spec c b) as [->|]. + rewrite Q1; auto; [ring|]. destruct Ia; [congruence|auto].
    + rewrite IH; auto; [ring| |]; [destruct Ia; congruence|destruct Ib; congruence].
Qed.
Lemma box_vol_ratio D r (b c : boxR) : (forall i, (0 <= i < D)%Z -> snd c i - fst c i = r i * (snd b i - fst b i)) -> box_vol D c = lprod (zrange D) r * box_vol D b.
Proof.
  intros H. unfold box_vol. assert (Q : forall l, (forall i, In i l -> (0 <= i < D)%Z) -> fold_right (fun i t => (snd c i - fst c i) * t) 1 l
    = lprod l r * fold_right (fun i t => (snd b i - fst b i) * t) 1 l).
  { induction l as [|a l IH]; intros Hl; cbn; [ring|]. rewrite IH by (intros; apply Hl; now right). rewrite H by (apply Hl; now left). ring. }
  apply Q. intros i Hi. now apply in_zrange.
Qed.
Lemma cell_find (n : nat) w lo x : 0 < w -> lo <= x <= lo + INR (S n) * w -> exists k, (0 <= k < Z.of_nat (S n))%Z /\ lo + IZR k * w <= x <= lo + IZR (k + 1) * w.
Proof.
  intros Hw. induction n as [|n IH]; intros Hx.
  - exists 0%Z. split; [lia|]. cbn in Hx. replace (IZR (0 + 1)) with 1 by (cbn; lra). replace (IZR 0) with 0 by reflexivity. lra.
  - destruct (Rle_lt_dec x (lo + INR (S n) * w)) as [L|L].
    + destruct (IH (conj (proj1 Hx) L)) as (k & Hk & X). exists k. split; [lia|auto].
    + exists (Z.of_nat (S n)). split; [lia|]. rewrite plus_IZR, <- INR_IZR_INZ. rewrite (S_INR (S n)) in Hx. lra.
Qed.

Section Sh.
Context (D a b : Z) (s : R).
Hypothesis Ha : (0 <= a < D)%Z.
Hypothesis Hb : (0 <= b < D)%Z.
Hypothesis Hab : a <> b.
Definition sh (x : Z -> R) (k : Z) : R := if (k =? b)%Z then x k + s * x a else x k.
Definition unsh (x : Z -> R) (k : Z) : R := if (k =? b)%Z then x k - s * x a else x k.
Definition img (K : (Z -> R) -> Prop) (y : Z -> R) : Prop := exists x, K x /\ forall k, (0 <= k < D)%Z -> y k = sh x k.

Lemma sh_unsh y k : sh (unsh y) k = y k.
Proof. unfold sh, unsh. destruct (Z.eqb_spec k b); auto. destruct (Z.eqb_spec a b); [congruence|ring]. Qed.
Lemma img_box (B : boxR) y : img (inb D B) y <-> inb D B (unsh y).
Proof.
  split.
  - intros (x & Hx & E) k Hk. specialize (Hx k Hk). unfold unsh. rewrite !E by auto. unfold sh. destruct (Z.eqb_spec k b); [destruct (Z.eqb_spec a b); [congruence|]|auto].
    replace (x k + s * x a - s * x a) with (x k) by ring. auto.
  - intros H. exists (unsh y). split; auto. intros k _. symmetry. apply sh_unsh.
Qed.
(** boxes in the images of boxes that are apart *)
Lemma img_parted (B C : boxR) : real_box D B -> real_box D C -> apart D B C -> parted D (img (inb D B)) (img (inb D C)).
Proof.
  intros RB RC A. destruct (apart_axis D B C RB RC A) as (i & Hi & S).
  intros u v Ru Rv Hu Hv x Xu Xv.
  (* two common points that differ in axis [i] only *)
  assert (exists e, 0 < e /\ x i + e < snd u i /\ x i + e < snd v i) as (e & He & E1 & E2).
  { specialize (Xu i Hi). specialize (Xv i Hi). exists ((Rmin (snd u i) (snd v i) - x i) / 2).
    assert (x i < Rmin (snd u i) (snd v i)) by (apply Rmin_glb_lt; lra). pose proof (Rmin_l (snd u i) (snd v i)). pose proof (Rmin_r (snd u i) (snd v i)). lra. }
  set (y := fun k => if (k =? i)%Z then x k + e else x k).
  assert (Yu : inb D u y) by (intros k Hk; specialize (Xu k Hk); unfold y; destruct (Z.eqb_spec k i); [subst; lra|lra]).
  assert (Yv : inb D v y) by (intros k Hk; specialize (Xv k Hk); unfold y; destruct (Z.eqb_spec k i); [subst; lra|lra]).
  assert (xu : inb D u x) by (intros k Hk; specialize (Xu k Hk); lra). assert (xv : inb D v x) by (intros k Hk; specialize (Xv k Hk); lra).
  pose proof (proj1 (img_box B x) (Hu x xu) i Hi) as P1. pose proof (proj1 (img_box C x) (Hv x xv) i Hi) as P2.
  pose proof (proj1 (img_box B y) (Hu y Yu) i Hi) as P3. pose proof (proj1 (img_box C y) (Hv y Yv) i Hi) as P4.
  assert (E : unsh y i = unsh x i + e).
  { unfold unsh, y. rewrite Z.eqb_refl. destruct (Z.eqb_spec i b); [|ring]. destruct (Z.eqb_spec a i); [congruence|ring]. }
  destruct S; lra.
Qed.

Section B.
Context (B : boxR) (n : nat).
Hypothesis RB : real_box D B.
Let w := (snd B a - fst B a) / INR (S n).
Let x k := fst B a + IZR k * w.
Definition slab (lb hb : Z -> R) (k : Z) : boxR :=
  ((fun i => if (i =? a)%Z then x k else if (i =? b)%Z then lb k else fst B i), (fun i => if (i =? a)%Z then x (k + 1) else if (i =? b)%Z then hb k else snd B i)).
Lemma n_pos : 0 < INR (S n). Proof. apply lt_0_INR. lia. Qed.
Lemma w_pos : 0 < w. Proof. pose proof n_pos. specialize (RB a Ha). apply Rdiv_lt_0_compat; lra. Qed.
Lemma x_step k : x (k + 1) - x k = w. Proof. unfold x. rewrite plus_IZR. ring. Qed.
Let lo k := Rmin (s * x k) (s * x (k + 1)).
Let hi k := Rmax (s * x k) (s * x (k + 1)).
Lemma lohi k : hi k - lo k = Rabs s * w.
Proof.
  unfold hi, lo. pose proof (x_step k). pose proof w_pos. destruct (Rle_dec 0 s).
  - rewrite Rabs_pos_eq, Rmin_left, Rmax_right by nra. nra.
  - rewrite Rabs_left, Rmin_right, Rmax_left by nra. nra.
Qed.
Lemma between k t : x k <= t <= x (k + 1) -> lo k <= s * t <= hi k.
Proof.
  intros H. unfold lo, hi. pose proof (x_step k). pose proof w_pos. destruct (Rle_dec 0 s).
  - rewrite Rmin_left, Rmax_right by nra. nra.
  - rewrite Rmin_right, Rmax_left by nra. nra.
Qed.
Let d := Rabs s * w / (snd B b - fst B b).
Definition inner := map (slab (fun k => fst B b + hi k) (fun k => snd B b + lo k)) (zrange (Z.of_nat (S n))).
Definition outer := map (slab (fun k => fst B b + lo k) (fun k => snd B b + hi k)) (zrange (Z.of_nat (S n))).
Lemma slab_vol lb hb q k : hb k - lb k = q * (snd B b - fst B b) -> box_vol D (slab lb hb k) = q / INR (S n) * box_vol D B.
Proof.
  intros E. rewrite (box_vol_ratio D (fun i => if (i =? a)%Z then / INR (S n) else if (i =? b)%Z then q else 1) B).
  - rewrite lprod_two; auto; [unfold Rdiv; ring|apply NoDup_zrange|now apply in_zrange|now apply in_zrange].
  - intros i Hi. cbn [slab fst snd]. destruct (Z.eqb_spec i a) as [->|]; [rewrite x_step; unfold w; field; apply not_0_INR; lia|].
    destruct (Z.eqb_spec i b) as [->|]; [auto|ring].
Qed.
Lemma slab_sum lb hb q : (forall k, hb k - lb k = q * (snd B b - fst B b)) -> lsum (map (slab lb hb) (zrange (Z.of_nat (S n)))) (box_vol D) = q * box_vol D B.
Proof.
  intros E. rewrite lsum_map. rewrite (lsum_ext _ _ (fun _ => q / INR (S n) * box_vol D B)) by (intros; now apply slab_vol).
  assert (C : forall (l : list Z) c, lsum l (fun _ => c) = INR (length l) * c) by (induction l as [|u l IH]; intros c; [cbn; ring|cbn [lsum length]; rewrite S_INR, IH; ring]).
  rewrite C, length_zrange_nat, Nat2Z.id. field. apply not_0_INR. lia.
Qed.
Lemma inner_sum : lsum inner (box_vol D) = (1 - d) * box_vol D B.
Proof. apply slab_sum. intros k. pose proof (lohi k). specialize (RB b Hb). unfold d. field_simplify_eq; lra. Qed.
Lemma outer_sum : lsum outer (box_vol D) = (1 + d) * box_vol D B.
Proof. apply slab_sum. intros k. pose proof (lohi k). specialize (RB b Hb). unfold d. field_simplify_eq; lra. Qed.
Lemma inner_packed : d < 1 -> packed D (img (inb D B)) inner.
Proof.
  intros Hd. pose proof w_pos as Hw. assert (Lb := RB b Hb).
  assert (Hd' : Rabs s * w < snd B b - fst B b).
  { assert (E : Rabs s * w = d * (snd B b - fst B b)) by (unfold d; field; lra). rewrite E. nra. }
  split.
  - intros c Hc. apply in_map_iff in Hc. destruct Hc as (k & <- & Hk). pose proof (lohi k) as LH. split.
    + intros i Hi. cbn. destruct (Z.eqb_spec i a); [pose proof (x_step k); lra|]. destruct (Z.eqb_spec i b); [lra|auto].
    + intros y Hy. apply img_box. intros i Hi. unfold unsh. pose proof (Hy i Hi) as Yi. pose proof (Hy a Ha) as Ya. cbn in Yi, Ya.
      rewrite Z.eqb_refl in Ya. pose proof (between k (y a) Ya).
      destruct (Z.eqb_spec i b) as [->|].
      * destruct (Z.eqb_spec b a); [congruence|]. lra.
      * destruct (Z.eqb_spec i a) as [->|]; [|auto]. apply in_zrange in Hk.
        assert (0 <= IZR k) by (apply IZR_le; lia). assert (IZR (k + 1) <= INR (S n)) by (rewrite INR_IZR_INZ; apply IZR_le; lia).
        assert (fst B a <= x k) by (unfold x; nra).
        assert (x (k + 1) <= snd B a). { unfold x. replace (snd B a) with (fst B a + INR (S n) * w) by (unfold w; field; apply not_0_INR; lia). nra. }
        lra.
  - unfold inner. assert (Q : forall l, NoDup l -> ForallOrdPairs (apart D) (map (slab (fun k => fst B b + hi k) (fun k => snd B b + lo k)) l)).
    { induction l as [|k l IH]; intros ND; cbn; constructor; inversion ND; subst; auto. rewrite Forall_forall. intros v Hv. apply in_map_iff in Hv. destruct Hv as (k' & <- & Hk').
      intros y Y1 Y2. specialize (Y1 a Ha). specialize (Y2 a Ha). cbn in Y1, Y2. rewrite Z.eqb_refl in Y1, Y2. unfold x in Y1, Y2. 
      assert (IZR k < IZR (k' + 1)) by nra. assert (IZR k' < IZR (k + 1)) by nra. apply lt_IZR in H, H0. assert (k = k') by lia. subst. tauto. }
    apply Q, NoDup_zrange.
Qed.
Lemma outer_covered : covered D (img (inb D B)) outer.
Proof.
  pose proof w_pos as Hw. assert (Lb := RB b Hb). split.
  - intros c Hc. apply in_map_iff in Hc. destruct Hc as (k & <- & Hk). pose proof (lohi k) as LH. assert (0 <= Rabs s * w) by (apply Rmult_le_pos; [apply Rabs_pos|lra]).
    intros i Hi. cbn. destruct (Z.eqb_spec i a); [pose proof (x_step k); lra|]. destruct (Z.eqb_spec i b); [lra|auto].
  - intros y Hy. apply img_box in Hy. pose proof (Hy a Ha) as Ya. unfold unsh in Ya. destruct (Z.eqb_spec a b); [congruence|].
    destruct (cell_find n w (fst B a) (y a)) as (k & Hk & Xk); [auto| |].
    { replace (fst B a + INR (S n) * w) with (snd B a) by (unfold w; field; apply not_0_INR; lia). auto. }
    exists (slab (fun k => fst B b + lo k) (fun k => snd B b + hi k) k). split; [apply in_map; now apply in_zrange|].
    pose proof (between k (y a) Xk). intros i Hi. specialize (Hy i Hi). unfold unsh in Hy. cbn. destruct (Z.eqb_spec i a) as [Ea|]; [rewrite Ea in *; exact Xk|].
    destruct (Z.eqb_spec i b) as [Eb|]; [rewrite Eb in *; lra|auto].
Qed.
End B.

Lemma box_content (B : boxR) : real_box D B -> content D (img (inb D B)) (box_vol D B).
Proof.
  intros RB e He. pose proof (RB a Ha) as La. pose proof (RB b Hb) as Lb. pose proof (box_vol_pos D B RB) as V.
  set (c := Rabs s * (snd B a - fst B a) / (snd B b - fst B b)).
  assert (C0 : 0 <= c) by (apply div_nonneg; [apply Rmult_le_pos; [apply Rabs_pos|lra]|lra]).
  destruct (inr_above (c * box_vol D B / e + c + 1)) as (n & Hn).
  assert (Sn : INR n < INR (S n)) by (apply lt_INR; lia). assert (N0 : 0 < INR (S n)) by (apply lt_0_INR; lia).
  set (d := Rabs s * ((snd B a - fst B a) / INR (S n)) / (snd B b - fst B b)).
  assert (Ed : d = c / INR (S n)) by (unfold d, c; field; lra).
  assert (Q0 : 0 <= c * box_vol D B / e) by (apply div_nonneg; nra).
  assert (D1 : d < 1) by (rewrite Ed; apply (Rmult_lt_reg_r (INR (S n))); auto; unfold Rdiv; rewrite Rmult_assoc, Rinv_l by lra; lra).
  assert (D2 : d * box_vol D B <= e).
  { rewrite Ed. apply (Rmult_le_reg_r (INR (S n))); auto. replace (c / INR (S n) * box_vol D B * INR (S n)) with (e * (c * box_vol D B / e)) by (field; lra). nra. }
  split.
  - exists (inner B n). split; [now apply inner_packed|]. rewrite inner_sum by auto. fold d. lra.
  - exists (outer B n). split; [now apply outer_covered|]. rewrite outer_sum by auto. fold d. lra.
Qed.
Lemma pack_img l : (forall c, In c l -> real_box D c) -> ForallOrdPairs (apart D) l -> forall e, 0 < e ->
  exists l', ForallOrdPairs (apart D) l' /\ (forall v, In v l' -> real_box D v /\ exists c, In c l /\ forall x, inb D v x -> img (inb D c) x) /\ lsum l (box_vol D) - e <= lsum l' (box_vol D).
Proof.
  induction l as [|c l IH]; intros HR HF e He.
  - exists []. split; [constructor|]. split; [intros v []|cbn; lra].
  - inversion HF as [|? ? F1 F2]; subst. destruct (IH (fun v Hv => HR v (or_intror Hv)) F2 (e / 2)) as (l' & A1 & A2 & A3); [lra|].
    destruct (proj1 (box_content c (HR c (or_introl eq_refl)) (e / 2) ltac:(lra))) as (l1 & (P1 & P2) & P3).
    exists (l1 ++ l'). split; [|split].
    + apply FOP_app; auto. intros u v Hu Hv. destruct (P1 u Hu) as (Ru & Iu). destruct (A2 v Hv) as (Rv & c' & Hc' & Iv).
      rewrite Forall_forall in F1. apply (img_parted c c'); auto; [apply HR; now left|apply HR; now right].
    + intros v Hv. apply in_app_or in Hv as [Hv|Hv]; [destruct (P1 v Hv); split; auto; exists c; split; [now left|auto]|].
      destruct (A2 v Hv) as (Rv & c' & Hc' & Iv). split; auto. exists c'. split; [now right|auto].
    + rewrite lsum_app'. cbn [lsum]. lra.
Qed.
Lemma cover_img l : (forall c, In c l -> real_box D c) -> forall e, 0 < e ->
  exists l', (forall v, In v l' -> real_box D v) /\ (forall c x, In c l -> img (inb D c) x -> exists v, In v l' /\ inb D v x) /\ lsum l' (box_vol D) <= lsum l (box_vol D) + e.
Proof.
  induction l as [|c l IH]; intros HR e He.
  - exists []. split; [intros v []|]. split; [intros c x []|cbn; lra].
  - destruct (IH (fun v Hv => HR v (or_intror Hv)) (e / 2)) as (l' & A1 & A2 & A3); [lra|].
    destruct (proj2 (box_content c (HR c (or_introl eq_refl)) (e / 2) ltac:(lra))) as (l1 & (P1 & P2) & P3).
    exists (l1 ++ l'). split; [|split].
    + intros v Hv. apply in_app_or in Hv as [Hv|Hv]; auto.
    + intros c' x [<-|Hc'] Hx; [destruct (P2 x Hx) as (v & Hv & X)|destruct (A2 c' x Hc' Hx) as (v & Hv & X)]; exists v; split; auto; apply in_or_app; auto.
    + rewrite lsum_app'. cbn [lsum]. lra.
Qed.
Theorem content_shear K t : content D K t -> content D (img K) t.
Proof.
  intros C e He. destruct (C (e / 2)) as ((l & (P1 & P2) & P3) & (m & (M1 & M2) & M3)); [lra|]. split.
  - destruct (pack_img l (fun c Hc => proj1 (P1 c Hc)) P2 (e / 2)) as (l' & A1 & A2 & A3); [lra|]. exists l'. split; [|lra]. split; auto.
    intros v Hv. destruct (A2 v Hv) as (Rv & c & Hc & I). split; auto. intros x Hx. destruct (I x Hx) as (y & Hy & E). exists y. split; auto. now apply (P1 c Hc).
  - destruct (cover_img m M1 (e / 2)) as (l' & A1 & A2 & A3); [lra|]. exists l'. split; [|lra]. split; auto.
    intros x (y & Ky & E). destruct (M2 y Ky) as (c & Hc & I). apply (A2 c x Hc). exists y. split; auto.
Qed.
End Sh.

(** ** Rotations *)
Definition rotN (th : R) (a1 a2 : Z) (x : Z -> R) (k : Z) : R :=
  if (k =? a1)%Z then cos th * x a1 - sin th * x a2 else if (k =? a2)%Z then sin th * x a1 + cos th * x a2 else x k.
Theorem content_rotate D th a1 a2 K t : (0 <= D)%Z -> (0 <= a1 < D)%Z -> (0 <= a2 < D)%Z -> a1 <> a2 -> content D K t ->
  content D (fun y => exists x, K x /\ forall k, (0 <= k < D)%Z -> y k = rotN th a1 a2 x k) t.
Proof.
  intros HD H1 H2 N C. pose proof (sin2_cos2 th) as SC. unfold Rsqr in SC. destruct (Req_dec (cos th) (-1)) as [E|E].
  - assert (S0 : sin th = 0) by (rewrite E in SC; nra).
    apply (content_ext D (fun y => exists x, K x /\ forall k, (0 <= k < D)%Z -> y k = (if (k =? a1)%Z then -1 else if (k =? a2)%Z then -1 else 1) * x k + 0)).
    + intros y. split; intros (x & Kx & Ey); exists x; (split; [auto|]); intros k Hk; rewrite Ey by auto; unfold rotN; rewrite E, S0;
      destruct (Z.eqb_spec k a1) as [->|]; [ring|destruct (Z.eqb_spec k a2) as [->|]; ring|ring|destruct (Z.eqb_spec k a2) as [->|]; ring].
    + replace t with (lprod (zrange D) (fun i => Rabs (if (i =? a1)%Z then -1 else if (i =? a2)%Z then -1 else 1)) * t).
      * apply (content_scaled D _ (fun _ => 0)); [|exact C]. intros i _. destruct (i =? a1)%Z; [lra|destruct (i =? a2)%Z; lra].
      * rewrite <- (Rmult_1_l t) at 2. f_equal. induction (zrange D) as [|k l IH]; cbn; auto. rewrite IH. destruct (k =? a1)%Z; [|destruct (k =? a2)%Z]; rewrite ?Rabs_R1, ?(Rabs_left (-1)) by lra; ring.
  - set (u := sin th / (1 + cos th)).
    assert (Nc : 1 + cos th <> 0) by lra.
    assert (T1 : u * (1 + cos th) = sin th) by (unfold u; field; auto).
    assert (T2 : sin th * u = 1 - cos th) by (unfold u; field_simplify_eq; [|auto]; lra).
    pose proof (content_shear D a2 a1 (- u) H2 H1 (not_eq_sym N) _ _ (content_shear D a1 a2 (sin th) H1 H2 N _ _ (content_shear D a2 a1 (- u) H2 H1 (not_eq_sym N) _ _ C))) as CC.
    assert (Q : forall x k, sh a2 a1 (- u) (sh a1 a2 (sin th) (sh a2 a1 (- u) x)) k = rotN th a1 a2 x k).
    { intros x k. unfold sh, rotN. rewrite !Z.eqb_refl. destruct (Z.eqb_spec a2 a1); [congruence|]. destruct (Z.eqb_spec a1 a2); [congruence|].
      destruct (Z.eqb_spec k a1) as [->|].
      - destruct (Z.eqb_spec a1 a2); [congruence|]. transitivity ((1 - sin th * u) * x a1 + (- u - u * (1 - sin th * u)) * x a2); [ring|]. rewrite T2, <- T1. ring.
      - destruct (Z.eqb_spec k a2) as [->|]; auto. transitivity (sin th * x a1 + (1 - sin th * u) * x a2); [ring|]. rewrite T2. ring. }
    assert (SX : forall a b s x x' k, (0 <= a < D)%Z -> (0 <= k < D)%Z -> (forall k, (0 <= k < D)%Z -> x k = x' k) -> sh a b s x k = sh a b s x' k).
    { intros a b s x x' k Ha Hk H. unfold sh. rewrite (H k Hk), (H a Ha). auto. }
    revert CC. apply content_ext. intros y. split.
    + intros (x2 & (x1 & (x & Kx & E0) & E1) & E2). exists x. split; auto. intros k Hk. rewrite E2, <- Q by auto. apply SX; auto. intros k' Hk'. rewrite E1 by auto. apply SX; auto.
    + intros (x & Kx & Ey). exists (sh a1 a2 (sin th) (sh a2 a1 (- u) x)). split; [|intros k Hk; rewrite Ey by auto; symmetry; apply Q].
      exists (sh a2 a1 (- u) x). split; [|auto]. exists x. auto.
Qed.

Section Vol.
Context (MX D : Z) (p : polyN RN) (ltd0 ltd1 : Z -> Z -> R).
Hypothesis HD : (3 <= D)%Z.
Hypothesis Hn : (0 <= nvN RN p <= MX)%Z.
Hypothesis SO : solidN D p.
Lemma image_volume g p' (t t' : R) : (forall K, content D K t -> content D (fun y => exists x, K x /\ forall k, (0 <= k < D)%Z -> y k = g x k) t') -> nvN RN p' = nvN RN p ->
  imageN D g p p' -> rNd_reduce RN MX D ltd0 p = OK t -> rNd_reduce RN MX D ltd1 p' = OK t'.
Proof.
  intros HC En (_ & I2 & I3) E.
  destruct (reduce_content MX D p ltd0 HD Hn SO) as (t0 & E0 & C0 & _).
  assert (t0 = t) as -> by (pose proof (eq_trans (eq_sym E0) E) as X; injection X; auto).
  assert (Hn' : (0 <= nvN RN p' <= MX)%Z) by (rewrite En; exact Hn).
  destruct (reduce_content MX D p' ltd1 HD Hn' (I2 SO)) as (t1 & E' & C' & U). rewrite E'. f_equal. symmetry. apply U.
  apply (content_ext D (fun y => exists x, hullP D p x /\ forall k, (0 <= k < D)%Z -> y k = g x k)).
  - intros y. symmetry. apply I3.
  - now apply HC.
Qed.
Theorem shearN_volume s axb axs p' (t : R) : (0 <= axb < D)%Z -> (0 <= axs < D)%Z -> axb <> axs -> rNd_shear RN MX D p s axb axs = OK p' ->
  rNd_reduce RN MX D ltd0 p = OK t -> rNd_reduce RN MX D ltd1 p' = OK t.
Proof.
  intros H1 H2 N E Et. destruct (shearN_image MX D p Hn s axb axs H1 H2 N) as (q & E' & I). assert (q = p') as -> by (pose proof (eq_trans (eq_sym E') E) as X; injection X; auto).
  destruct (rNd_shear_spec RN MX D p s axb axs H1 H2 Hn) as (q & E2 & M). assert (q = p') as -> by (pose proof (eq_trans (eq_sym E2) E) as X; injection X; auto).
  refine (image_volume _ p' t t _ (proj1 M) I Et). intros K C. refine (content_shear D axs axb s H2 H1 (not_eq_sym N) K t C).
Qed.
Theorem rotateN_volume th a1 a2 p' (t : R) : (0 <= a1 < D)%Z -> (0 <= a2 < D)%Z -> a1 <> a2 -> rNd_rotate RN MX D p th a1 a2 = OK p' ->
  rNd_reduce RN MX D ltd0 p = OK t -> rNd_reduce RN MX D ltd1 p' = OK t.
Proof.
  intros H1 H2 N E Et. destruct (rotateN_image MX D p Hn th a1 a2 H1 H2 N) as (q & E' & I). assert (q = p') as -> by (pose proof (eq_trans (eq_sym E') E) as X; injection X; auto).
  destruct (rNd_rotate_spec RN MX D p th a1 a2 H1 H2 Hn) as (q & E2 & M). assert (q = p') as -> by (pose proof (eq_trans (eq_sym E2) E) as X; injection X; auto).
  refine (image_volume _ p' t t _ (proj1 M) I Et). intros K C. refine (content_rotate D th a1 a2 K t _ H1 H2 N C). lia.
Qed.
End Vol.

(** a box, sheared and rotated *)
Theorem turned_box MX D (p : polyN RN) lo hi s th a1 a2 b1 b2 ltd0 : (3 <= D)%Z -> (2 ^ D <= MX)%Z -> (forall i, (0 <= i < D)%Z -> lo i < hi i) ->
  (0 <= a1 < D)%Z -> (0 <= a2 < D)%Z -> a1 <> a2 -> (0 <= b1 < D)%Z -> (0 <= b2 < D)%Z -> b1 <> b2 ->
  exists p0 p1 p2, rNd_init_box RN MX D p lo hi = OK p0 /\ rNd_shear RN MX D p0 s a1 a2 = OK p1 /\ rNd_rotate RN MX D p1 th b1 b2 = OK p2
  /\ rNd_reduce RN MX D ltd0 p2 = OK (lprod (zrange D) (fun i => hi i - lo i)).
Proof.
  intros HD HM HL A1 A2 A3 B1 B2 B3.
  destruct (BoxVoxN.box_solid MX D p lo hi ltac:(lia) HM HL) as (p0 & E0 & N0 & S0 & _).
  destruct (BoxVolN.box_reduce MX D p lo hi ltd0 ltac:(lia) HM HL) as (p0' & E0' & R0).
  assert (p0' = p0) as -> by (pose proof (eq_trans (eq_sym E0') E0) as X; injection X; auto).
  assert (Hn0 : (0 <= nvN RN p0 <= MX)%Z) by (rewrite N0; split; [apply Z.pow_nonneg; lia|exact HM]).
  destruct (shearN_image MX D p0 Hn0 s a1 a2 A1 A2 A3) as (p1 & E1 & I1).
  destruct (rNd_shear_spec RN MX D p0 s a1 a2 A1 A2 Hn0) as (q & Eq & M). assert (q = p1) as -> by (pose proof (eq_trans (eq_sym Eq) E1) as X; injection X; auto).
  assert (Hn1 : (0 <= nvN RN p1 <= MX)%Z) by (rewrite (proj1 M); exact Hn0).
  pose proof (shearN_volume MX D p0 ltd0 ltd0 HD Hn0 S0 s a1 a2 p1 _ A1 A2 A3 E1 R0) as R1.
  destruct (rotateN_image MX D p1 Hn1 th b1 b2 B1 B2 B3) as (p2 & E2 & _).
  exists p0, p1, p2. split; auto. split; auto. split; auto. exact (rotateN_volume MX D p1 ltd0 ltd0 HD Hn1 (proj1 (proj2 I1) S0) th b1 b2 p2 _ B1 B2 B3 E2 R1).
Qed.
