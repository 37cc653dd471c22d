(** * InitP6: [r3d_init_poly], the general case: the graph that results. *)
From Coq Require Import ZArith List Bool Lia Relations.
From Verif Require Import Base Lib ModelCommon CommonFacts Model3 ModelB Spec3 SpecB Orb3 InitP InitP2 InitP3 InitP4 InitP5.
Import ListNotations.
Open Scope Z_scope.

Section Desc.
Context (nf : Z) (nvf : Z -> Z) (fi : Z -> Z -> Z).
Notation corner := (corner nf nvf).
Notation vat := (vat fi).
Notation csucc := (csucc nvf).
Notation cpred := (cpred nvf).
Notation vdeg := (vdeg nf nvf fi).
Context (n : Z) (CS : closed_surface nf nvf fi n).
Notation copp := (copp nf nvf fi).
Notation rs := (rs nf nvf fi).
Notation rsi := (rsi nf nvf fi).
Notation base := (base nf nvf fi).
Notation copy := (copy nf nvf fi).
Context (HN : 0 <= n) (OR : one_ring nf nvf fi) (DG : forall v, 0 <= v < n -> 3 <= vdeg v).
Let rs_c c : corner c -> corner (rs c) := rs_corner nf nvf fi n CS c.
Let rsi_c c : corner c -> corner (rsi c) := rsi_corner nf nvf fi n CS c.
Let cop_c c : corner c -> corner (copp c) := copp_corner nf nvf fi n CS c.
Let rsv c : corner c -> vat (rs c) = vat c := rs_vat nf nvf fi n CS c.
Let rsiv c : corner c -> vat (rsi c) = vat c := rsi_vat nf nvf fi n CS c.
Let rr c : corner c -> rs (rsi c) = c := rs_rsi nf nvf fi n CS c.
Let ri c : corner c -> rsi (rs c) = c := rsi_rs nf nvf fi n CS c.
Let coco c : corner c -> copp (copp c) = c := copp_copp nf nvf fi n CS c.
Let cone c : corner c -> vat (copp c) <> vat c := copp_ne nf nvf fi n CS c.
Let sc c : corner c -> corner (csucc c) := csucc_corner nf nvf c.
Let pc c : corner c -> corner (cpred c) := cpred_corner nf nvf c.

(** ** one ring *)
Lemma rs_iter_corner k c : corner c -> corner (iter k rs c) /\ vat (iter k rs c) = vat c.
Proof. intros H. induction k as [|k (I1 & I2)]; cbn; auto. split; auto. rewrite rsv; auto. Qed.
Lemma ring_iter c d : corner c -> corner d -> vat c = vat d -> exists k, d = iter k rs c.
Proof.
  intros Hc Hd E. pose proof (OR c d Hc Hd E) as T. apply clos_rt_rtn1 in T. clear Hd E. induction T as [|y z (Hy & Hz & E1 & E2) _ IH].
  - exists 0%nat. auto.
  - destruct IH as (k & ->). exists (S k). cbn. apply (rs_uniq nf nvf fi n CS); auto.
Qed.
Lemma at_most c l : (forall d, corner d -> vat d = vat c -> In d l) -> vdeg (vat c) <= Z.of_nat (length l).
Proof.
  intros H. unfold vdeg. apply inj_le. apply NoDup_incl_length.
  - apply NoDup_filter, NoDup_corners.
  - intros d Hd. apply filter_In in Hd as (Hd & E). apply in_corners in Hd. apply Z.eqb_eq in E. auto.
Qed.
Lemma RS1 c : corner c -> rs c <> c.
Proof.
  intros Hc E. pose proof (DG _ (cs_rng _ _ _ _ CS c Hc)) as G.
  assert (A : vdeg (vat c) <= 1); [|lia]. apply (at_most c [c]). intros d Hd Ed. destruct (ring_iter c d) as (k & ->); auto.
  left. symmetry. clear -E. induction k as [|k IH]; cbn; auto. congruence.
Qed.
Lemma RS2 c : corner c -> rs (rs c) <> c.
Proof.
  intros Hc E. pose proof (DG _ (cs_rng _ _ _ _ CS c Hc)) as G.
  assert (A : vdeg (vat c) <= 2); [|lia]. apply (at_most c [c; rs c]). intros d Hd Ed. destruct (ring_iter c d) as (k & ->); auto.
  clear -E. induction k as [|k [IH|[IH|[]]]]; cbn [iter]; [left; auto|right; left|left]; congruence.
Qed.

Lemma base_cst v : base v = cst nf nvf fi v. Proof. reflexivity. Qed.
Lemma base_succ v : 0 <= v -> base (v + 1) = base v + (vdeg v - 2).
Proof. intros H. rewrite !base_cst. unfold cst. rewrite st_succ; auto. Qed.
Lemma base_mono u v : 0 <= u <= v -> v <= n -> base u <= base v.
Proof.
  intros H1 H2. rewrite !base_cst. unfold cst. apply (st_mono (fun v => vdeg v - 2) n); auto. intros w Hw. specialize (DG w Hw). lia.
Qed.
Lemma copy_uniq u v w : 0 <= u < n -> 0 <= v < n -> copy u w -> copy v w -> u = v.
Proof.
  unfold copy. intros Hu Hv A B. destruct (Z.lt_trichotomy u v) as [L|[L|L]]; auto.
  - pose proof (base_mono (u + 1) v ltac:(lia) ltac:(lia)). lia.
  - pose proof (base_mono (v + 1) u ltac:(lia) ltac:(lia)). lia.
Qed.

(** ** the graph *)
Context (first : Z * Z -> bool) (f : Z -> Z -> Z) (G : Z * Z -> Z) (SO : split_out nf nvf fi n first f G).
Definition live x := corner x /\ first x = false /\ first (rs x) = false.
Definition hst (x : Z * Z) : Z * Z := if first x then rs x else if first (rs x) then rsi x else x.
Definition sx (x : Z * Z) : Z := if first x then 0 else if first (rs x) then 2 else 1.
Definition ext (x : Z * Z) : dart := (G (hst x), sx x).

Let Fu := so_uniq _ _ _ _ _ _ _ SO.
Lemma first_rs x : corner x -> first x = true -> first (rs x) = false.
Proof. intros Hx A. apply not_true_is_false. intros B. apply (RS1 x Hx). apply Fu; auto. Qed.
Lemma first_rs2 x : corner x -> first x = true -> first (rs (rs x)) = false.
Proof. intros Hx A. apply not_true_is_false. intros B. apply (RS2 x Hx). apply Fu; auto. rewrite !rsv; auto. Qed.
Lemma first_rsi x : corner x -> first (rs x) = true -> first (rsi x) = false.
Proof.
  intros Hx A. apply not_true_is_false. intros B. apply (RS2 (rsi x)); auto. rewrite rr by auto. apply Fu; auto. rewrite rsv, rsiv; auto.
Qed.
Lemma hst_live x : corner x -> live (hst x) /\ vat (hst x) = vat x.
Proof.
  intros Hx. unfold hst, live. destruct (first x) eqn:A.
  - split; auto. split; auto. split; [apply first_rs|apply first_rs2]; auto.
  - destruct (first (rs x)) eqn:B; auto. split; auto. split; auto. split; [apply first_rsi; auto|]. rewrite rr; auto.
Qed.
Lemma live_c x : live x -> corner x. Proof. intros (H & _). auto. Qed.
Lemma hst_id x : live x -> hst x = x /\ sx x = 1.
Proof. intros (_ & A & B). unfold hst, sx. rewrite A, B. auto. Qed.
Lemma sx_rng x : 0 <= sx x < 3. Proof. unfold sx. destruct (first x), (first (rs x)); lia. Qed.
Lemma G_inj x y : live x -> live y -> G x = G y -> x = y.
Proof. intros (A & B & C) (A' & B' & C'). apply (so_inj _ _ _ _ _ _ _ SO); auto. Qed.
Lemma G_copy x : live x -> copy (vat x) (G x).
Proof. intros (A & B & C). apply (so_block _ _ _ _ _ _ _ SO); auto. Qed.
Lemma copy_below v w : 0 <= v < n -> copy v w -> below (base n) w.
Proof.
  unfold copy, below. intros Hv H. pose proof (base_mono (v + 1) n ltac:(lia) ltac:(lia)). pose proof (base_mono 0 v ltac:(lia) ltac:(lia)) as B.
  change (base 0) with 0 in B. lia.
Qed.
Lemma vrng x : corner x -> 0 <= vat x < n. Proof. apply (cs_rng _ _ _ _ CS). Qed.
Lemma G_below x : live x -> below (base n) (G x).
Proof. intros L. apply (copy_below (vat x)); [apply vrng, live_c; auto|apply G_copy; auto]. Qed.
Lemma G_surj w : below (base n) w -> exists x, live x /\ G x = w.
Proof. intros H. destruct (so_surj _ _ _ _ _ _ _ SO w H) as (x & A & B & C & E). exists x. split; auto. split; auto. Qed.
Lemma ext_inj x y : corner x -> corner y -> ext x = ext y -> x = y.
Proof.
  intros Hx Hy E. injection E as E1 E2. destruct (hst_live x Hx) as (L1 & V1), (hst_live y Hy) as (L2 & V2). apply G_inj in E1; auto.
  assert (Ev : vat x = vat y) by congruence. unfold hst, sx in E1, E2.
  destruct (first x) eqn:A, (first y) eqn:B; try (destruct (first (rs x)) eqn:A2); try (destruct (first (rs y)) eqn:B2); try lia; auto.
  rewrite <- (rr x), <- (rr y) by auto. f_equal. auto.
Qed.
Lemma ext_tgt x : corner x -> dtgt f (ext x) = G (hst (copp x)).
Proof. intros Hx. apply (so_ext _ _ _ _ _ _ _ SO x Hx). Qed.

(** edges between copies of the same vertex *)
Definition up x := live x /\ first (rs (rs x)) = false.
Definition dn x := live x /\ first (rsi x) = false.
Lemma up_dn x : up x -> dn (rs x).
Proof. intros ((Hx & A & B) & C). split; [split; auto|]. rewrite ri; auto. Qed.
Lemma dn_up x : dn x -> up (rsi x).
Proof. intros ((Hx & A & B) & C). split; [split; auto; rewrite rr; auto|]. rewrite rr; auto. Qed.
Lemma up_tgt x : up x -> f (G x) 2 = G (rs x).
Proof. intros ((Hx & A & B) & C). apply (so_2 _ _ _ _ _ _ _ SO); auto. Qed.
Lemma dn_tgt x : dn x -> f (G x) 0 = G (rsi x).
Proof. intros ((Hx & A & B) & C). apply (so_0 _ _ _ _ _ _ _ SO); auto. Qed.
Lemma slot2 x : live x -> (up x) \/ (first (rs (rs x)) = true /\ ext (rs x) = (G x, 2)).
Proof.
  intros (Hx & A & B). destruct (first (rs (rs x))) eqn:C; [right|left; split; [split|]; auto]. split; auto.
  unfold ext, hst, sx. rewrite B, C, ri by auto. auto.
Qed.
Lemma slot0 x : live x -> (dn x) \/ (first (rsi x) = true /\ ext (rsi x) = (G x, 0)).
Proof.
  intros (Hx & A & B). destruct (first (rsi x)) eqn:C; [right|left; split; [split|]; auto]. split; auto.
  unfold ext, hst, sx. rewrite C, rr by auto. auto.
Qed.
Lemma slot1 x : live x -> ext x = (G x, 1).
Proof. intros H. unfold ext. destruct (hst_id x H) as (-> & ->). auto. Qed.
(** every directed edge is one of three kinds *)
Lemma kinds w i : below (base n) w -> 0 <= i < 3 ->
  (exists x, corner x /\ (w, i) = ext x) \/ (exists x, dn x /\ (w, i) = (G x, 0)) \/ (exists x, up x /\ (w, i) = (G x, 2)).
Proof.
  intros Hw Hi. destruct (G_surj w Hw) as (x & L & <-). pose proof (live_c x L) as Hx.
  destruct (Orb3.slot3 i Hi) as [ -> | [ -> | -> ]].
  - destruct (slot0 x L) as [Q|(_ & Q)]; [right; left; eauto|left; exists (rsi x); auto].
  - left. exists x. rewrite slot1; auto.
  - destruct (slot2 x L) as [Q|(_ & Q)]; [right; right; eauto|left; exists (rs x); auto].
Qed.
(** what a directed edge leads to, and back *)
Definition kind (d d' : dart) (y : Z * Z) : Prop :=
  (exists x, corner x /\ d = ext x /\ d' = ext (copp x) /\ y = hst (copp x))
  \/ (exists x, dn x /\ d = (G x, 0) /\ d' = (G (rsi x), 2) /\ y = rsi x)
  \/ (exists x, up x /\ d = (G x, 2) /\ d' = (G (rs x), 0) /\ y = rs x).
Lemma kind_ex w i : below (base n) w -> 0 <= i < 3 -> exists d' y, kind (w, i) d' y.
Proof.
  intros Hw Hi. destruct (kinds w i Hw Hi) as [(x & A & B)|[(x & A & B)|(x & A & B)]]; do 2 eexists; [left|right; left|right; right]; exists x; eauto.
Qed.
Lemma kind_spec d d' y : kind d d' y -> live y /\ f (fst d) (snd d) = G y /\ fst d' = G y /\ 0 <= snd d' < 3 /\ f (fst d') (snd d') = fst d.
Proof.
  intros [(x & A & -> & -> & ->)|[(x & A & -> & -> & ->)|(x & A & -> & -> & ->)]].
  - split; [apply hst_live; auto|]. split; [apply ext_tgt; auto|]. split; auto. split; [apply sx_rng|].
    change (f (fst (ext (copp x))) (snd (ext (copp x)))) with (dtgt f (ext (copp x))). rewrite ext_tgt, coco; auto.
  - pose proof (dn_up _ A) as U. split; [apply U|]. cbn [fst snd]. split; [apply dn_tgt; auto|]. split; auto. split; [lia|].
    rewrite up_tgt, rr; auto. apply A.
  - pose proof (up_dn _ A) as U. split; [apply U|]. cbn [fst snd]. split; [apply up_tgt; auto|]. split; auto. split; [lia|].
    rewrite dn_tgt, ri; auto. apply A.
Qed.
Lemma out_links : links f (below (base n)).
Proof.
  constructor.
  - intros v i Hv Hi. destruct (kind_ex v i Hv Hi) as (d' & y & K). destruct (kind_spec _ _ _ K) as (L & E & _). cbn [fst snd] in E. rewrite E. apply G_below; auto.
  - intros v i Hv Hi E. destruct (kind_ex v i Hv Hi) as (d' & y & K). destruct (kind_spec _ _ _ K) as (L & E1 & _). cbn [fst snd] in E1. rewrite E in E1.
    destruct K as [(x & A & Q & _ & ->)|[(x & A & Q & _ & ->)|(x & A & Q & _ & ->)]].
    + injection Q as Q _. rewrite Q in E1. apply G_inj in E1; [|apply hst_live; auto|auto].
      pose proof (proj2 (hst_live x A)). pose proof (proj2 (hst_live (copp x) (cop_c x A))). apply (cone x A). congruence.
    + injection Q as Q _. rewrite Q in E1. apply G_inj in E1; [|apply A|auto]. destruct A as ((Hx & _) & _). apply (RS1 x Hx).
      rewrite E1 at 1. apply rr; auto.
    + injection Q as Q _. rewrite Q in E1. apply G_inj in E1; [|apply A|auto]. destruct A as ((Hx & _) & _). apply (RS1 x Hx). auto.
  - intros v i j Hv Hi Hj E. destruct (kind_ex v i Hv Hi) as (d1 & y1 & K1). destruct (kind_ex v j Hv Hj) as (d2 & y2 & K2).
    destruct (kind_spec _ _ _ K1) as (L1 & E1 & _). destruct (kind_spec _ _ _ K2) as (L2 & E2 & _). cbn [fst snd] in E1, E2.
    assert (Y : y1 = y2) by (apply G_inj; auto; congruence). clear E1 E2.
    assert (XC : forall x z, corner x -> live z -> G (hst x) = G z -> vat (hst (copp x)) <> vat z).
    { intros x z Hx Lz Q. destruct (hst_live x Hx) as (Lx & Vx). apply G_inj in Q; auto. destruct (hst_live (copp x)) as (_ & Vc); auto.
      specialize (cone x Hx). congruence. }
    destruct K1 as [(x & A & Q & _ & ->)|[(x & A & Q & _ & ->)|(x & A & Q & _ & ->)]], K2 as [(z & B & R & _ & ->)|[(z & B & R & _ & ->)|(z & B & R & _ & ->)]];
      injection Q as Q1 Q2; injection R as R1 R2; try congruence; rewrite Q1 in R1.
    + assert (E' : x = z); [|congruence].
      pose proof (proj2 (hst_live x A)) as V1. pose proof (proj2 (hst_live z B)) as V2.
      pose proof (proj2 (hst_live (copp x) (cop_c x A))) as V3. pose proof (proj2 (hst_live (copp z) (cop_c z B))) as V4.
      apply G_inj in R1; [|apply hst_live; auto|apply hst_live; auto].
      apply (cs_once _ _ _ _ CS); auto; [congruence|]. rewrite <- !(copp_vat nf nvf fi n CS) by auto. congruence.
    + exfalso. destruct B as (Lz & _). apply (XC x z A Lz R1). rewrite Y. apply rsiv, live_c. auto.
    + exfalso. destruct B as (Lz & _). apply (XC x z A Lz R1). rewrite Y. apply rsv, live_c. auto.
    + exfalso. destruct A as (Lz & _). apply (XC z x B Lz ltac:(auto)). rewrite <- Y. apply rsiv, live_c. auto.
    + exfalso. destruct A as (Lx & _), B as (Lz & _). apply G_inj in R1; auto. subst z. pose proof (live_c x Lx) as Hx.
      apply (RS2 x Hx). rewrite <- Y. apply rr. auto.
    + exfalso. destruct A as (Lz & _). apply (XC z x B Lz ltac:(auto)). rewrite <- Y. apply rsv, live_c. auto.
    + exfalso. destruct A as (Lx & _), B as (Lz & _). apply G_inj in R1; auto. subst z. pose proof (live_c x Lx) as Hx.
      apply (RS2 x Hx). rewrite Y. apply rr. auto.
  - intros v i Hv Hi. destruct (kind_ex v i Hv Hi) as (d' & y & K). destruct (kind_spec _ _ _ K) as (L & E & E1 & E2 & E3). cbn [fst snd] in *.
    exists (snd d'). split; auto. rewrite E, <- E1. auto.
Qed.
Lemma kind_isd d d' y : kind d d' y -> isd (below (base n)) d.
Proof.
  intros [(x & A & -> & _)|[(x & A & -> & _)|(x & A & -> & _)]]; split; cbn [ext fst snd]; try lia; try apply G_below; try apply A; try apply hst_live; auto; apply sx_rng.
Qed.
Lemma kind_opp d d' y : kind d d' y -> dopp f d = d'.
Proof.
  intros K. destruct (kind_spec _ _ _ K) as (L & E & E1 & E2 & E3). unfold dopp. unfold dtgt at 1. rewrite E, <- E1. destruct d' as (w & j). cbn [fst snd] in *. f_equal.
  unfold dtgt. rewrite E, <- E1. apply (Orb3.slot_eq f (below (base n))); auto; [exact out_links|]. rewrite E1. apply G_below; auto.
Qed.
Lemma opp_ext x : corner x -> dopp f (ext x) = ext (copp x).
Proof. intros H. apply (kind_opp _ _ (hst (copp x))). left. eauto. Qed.
Lemma opp_dn x : dn x -> dopp f (G x, 0) = (G (rsi x), 2).
Proof. intros H. apply (kind_opp _ _ (rsi x)). right. left. eauto. Qed.
Lemma opp_up x : up x -> dopp f (G x, 2) = (G (rs x), 0).
Proof. intros H. apply (kind_opp _ _ (rs x)). right. right. eauto. Qed.
Lemma next_up x : up x -> fnext f (G x, 2) = ext (rs x).
Proof. intros U. unfold fnext. rewrite opp_up by auto. rewrite slot1 by apply (up_dn x U). reflexivity. Qed.
Lemma next_dn x : dn x -> fnext f (G x, 0) = (G (rsi x), 0).
Proof. intros U. unfold fnext. rewrite opp_dn by auto. reflexivity. Qed.
(** down the copies of a vertex to the first one *)
Lemma walk_dn c0 : corner c0 -> first c0 = true -> forall m x, live x -> x = iter m rs c0 ->
  exists k, iter k (fnext f) (G x, 0) = ext c0 /\ forall j, (j < k)%nat -> exists z, dn z /\ vat z = vat c0 /\ iter j (fnext f) (G x, 0) = (G z, 0).
Proof.
  intros Hc F. induction m as [|m IH]; intros x L E.
  - exfalso. destruct L as (_ & A & _). subst x. cbn in A. congruence.
  - assert (Hx : corner x) by (apply live_c; auto).
    assert (Er : rsi x = iter m rs c0) by (rewrite E; cbn; apply ri; apply rs_iter_corner; auto).
    assert (Vx : vat x = vat c0) by (rewrite E; apply rs_iter_corner; auto).
    destruct (slot0 x L) as [Q|(Q & R)].
    + destruct (IH (rsi x)) as (k & K1 & K2); auto; [apply (dn_up x Q)|]. exists (S k). rewrite iter_S, next_dn by auto. split; auto.
      intros [|j] Hj; [exists x; auto|]. rewrite iter_S, next_dn by auto. apply K2. lia.
    + exists 0%nat. cbn [iter]. split; [|lia]. rewrite <- R. f_equal. apply Fu; auto. rewrite rsiv; auto.
Qed.
Lemma walk_from x : live x -> exists c0, corner c0 /\ vat c0 = vat x /\ first c0 = true /\ exists m, x = iter m rs c0.
Proof.
  intros L. pose proof (live_c x L) as Hx. destruct (so_first _ _ _ _ _ _ _ SO (vat x) (vrng x Hx)) as (c0 & H0 & V0 & F0).
  exists c0. split; auto. split; auto. split; auto. apply ring_iter; auto.
Qed.
Lemma next_ext x : corner x -> exists k, (0 < k)%nat /\ iter k (fnext f) (ext x) = ext (rs (copp x))
  /\ forall j, (0 < j < k)%nat -> exists z, vat z = vat (copp x) /\ ((dn z /\ iter j (fnext f) (ext x) = (G z, 0)) \/ (up z /\ iter j (fnext f) (ext x) = (G z, 2))).
Proof.
  intros Hx. pose proof (cop_c x Hx) as Hy. set (y := copp x) in *.
  assert (E1 : fnext f (ext x) = drot (ext y)) by (unfold fnext; rewrite opp_ext; auto).
  destruct (first y) eqn:A.
  - exists 1%nat. split; [lia|]. cbn [iter]. split; [|intros; lia]. rewrite E1. unfold ext at 1, hst, sx. rewrite A. unfold drot. cbn [fst snd].
    rewrite slot1; [reflexivity|]. split; auto. split; [apply first_rs|apply first_rs2]; auto.
  - destruct (first (rs y)) eqn:B.
    + assert (L : live (rsi y)) by (split; auto; split; [apply first_rsi; auto|rewrite rr; auto]).
      assert (E2 : drot (ext y) = (G (rsi y), 0)) by (unfold ext, hst, sx; rewrite A, B; reflexivity).
      destruct (walk_from (rsi y) L) as (c0 & H0 & V0 & F0 & m & Em). rewrite rsiv in V0 by auto.
      assert (Ec : c0 = rs y) by (apply Fu; auto; rewrite rsv; auto).
      destruct (walk_dn c0 H0 F0 m (rsi y) L Em) as (k & K1 & K2). exists (S k). split; [lia|]. rewrite iter_S, E1, E2, <- Ec. split; auto.
      intros [|j] Hj; [lia|]. rewrite iter_S, E1, E2. destruct (K2 j) as (z & Dz & Vz & Ez); [lia|]. exists z. split; [congruence|auto].
    + assert (L : live y) by (split; auto). assert (E2 : drot (ext y) = (G y, 2)) by (rewrite slot1 by auto; reflexivity).
      destruct (slot2 y L) as [Q|(Q & R)].
      * exists 2%nat. split; [lia|]. rewrite iter_S, E1, E2. cbn [iter]. rewrite next_up by auto. split; auto.
        intros j Hj. assert (j = 1%nat) by lia. subst j. cbn [iter]. rewrite E1, E2. exists y. auto.
      * exists 1%nat. split; [lia|]. cbn [iter]. rewrite E1, E2, R. split; auto. intros; lia.
Qed.

(** ** faces *)
Definition lab (d : dart) (F : Z) : Prop :=
  (exists x, corner x /\ d = ext x /\ F = fst (copp x))
  \/ (exists x l, dn x /\ d = (G x, 0) /\ corner l /\ vat l = vat x /\ first (rs l) = true /\ F = fst l)
  \/ (exists x, up x /\ d = (G x, 2) /\ F = fst x).
Lemma last_ex x : corner x -> exists l, corner l /\ vat l = vat x /\ first (rs l) = true.
Proof.
  intros Hx. destruct (so_first _ _ _ _ _ _ _ SO (vat x) (vrng x Hx)) as (c0 & H0 & V0 & F0). exists (rsi c0).
  split; auto. split; [rewrite rsiv; auto|rewrite rr; auto].
Qed.
Lemma last_uniq l l' : corner l -> corner l' -> vat l = vat l' -> first (rs l) = true -> first (rs l') = true -> l = l'.
Proof. intros. rewrite <- (ri l), <- (ri l') by auto. f_equal. apply Fu; auto. rewrite !rsv; auto. Qed.
Lemma ext_dn x z : corner x -> dn z -> ext x <> (G z, 0).
Proof.
  intros Hx (L & A) E. injection E as E1 E2. apply G_inj in E1; [|apply hst_live; auto|auto]. unfold sx, hst in *.
  destruct (first x) eqn:B; [|destruct (first (rs x)); lia]. subst z. rewrite ri in A by auto. congruence.
Qed.
Lemma ext_up x z : corner x -> up z -> ext x <> (G z, 2).
Proof.
  intros Hx (L & A) E. injection E as E1 E2. apply G_inj in E1; [|apply hst_live; auto|auto]. unfold sx, hst in *.
  destruct (first x) eqn:B; [lia|]. destruct (first (rs x)) eqn:C; [|lia]. subst z. rewrite rr in A by auto. congruence.
Qed.
Lemma lab_fun d F F' : lab d F -> lab d F' -> F = F'.
Proof.
  intros [(x & A & -> & ->)|[(x & l & A & -> & Hl & Vl & Fl & ->)|(x & A & -> & ->)]] [(z & B & E & ->)|[(z & l' & B & E & Hl' & Vl' & Fl' & ->)|(z & B & E & ->)]].
  - apply ext_inj in E; auto. congruence.
  - exfalso. apply (ext_dn x z); auto.
  - exfalso. apply (ext_up x z); auto.
  - exfalso. apply (ext_dn z x); auto.
  - injection E as E. apply G_inj in E; [|apply A|apply B]. subst z. f_equal. apply last_uniq; auto. congruence.
  - discriminate.
  - exfalso. apply (ext_up z x); auto.
  - discriminate.
  - injection E as E. apply G_inj in E; [|apply A|apply B]. congruence.
Qed.
Lemma copp_rs x : corner x -> fst (copp (rs x)) = fst x.
Proof. intros Hx. unfold rs. rewrite coco; auto. Qed.
Lemma fst_rsi x : corner x -> fst (rsi x) = fst (copp x). Proof. reflexivity. Qed.
(** slot 0 of a copy that stays is labelled by the last face *)
Lemma lab_0 x l : live x -> corner l -> vat l = vat x -> first (rs l) = true -> lab (G x, 0) (fst l).
Proof.
  intros L Hl Vl Fl. destruct (slot0 x L) as [Q|(Q & R)].
  - right. left. exists x, l. auto 10.
  - left. pose proof (live_c x L) as Hx. exists (rsi x). split; auto. split; auto.
    assert (E : rs l = rsi x) by (apply Fu; auto; rewrite rsv, rsiv; auto). rewrite <- E, copp_rs; auto.
Qed.
Lemma lab_2 x : live x -> lab (G x, 2) (fst x).
Proof.
  intros L. pose proof (live_c x L) as Hx. destruct (slot2 x L) as [Q|(Q & R)].
  - right. right. exists x. auto.
  - left. exists (rs x). split; auto. split; auto. rewrite copp_rs; auto.
Qed.
Lemma lab_next d F : lab d F -> lab (fnext f d) F.
Proof.
  intros [(x & A & -> & ->)|[(x & l & A & -> & Hl & Vl & Fl & ->)|(x & A & -> & ->)]].
  - unfold fnext. rewrite opp_ext by auto. pose proof (cop_c x A) as Hy. set (y := copp x) in *. unfold ext, hst, sx, drot. destruct (first y) eqn:Fy.
    + cbn [fst snd]. change ((0 + 1) mod 3) with 1. assert (L : live (rs y)) by (split; auto; split; [apply first_rs|apply first_rs2]; auto).
      rewrite <- slot1 by auto. left. exists (rs y). split; auto. split; auto. rewrite copp_rs; auto.
    + destruct (first (rs y)) eqn:Fr; cbn [fst snd].
      * change ((2 + 1) mod 3) with 0. apply lab_0; auto; [split; auto; split; [apply first_rsi; auto|rewrite rr; auto]|]. rewrite rsiv; auto.
      * change ((1 + 1) mod 3) with 2. apply lab_2. split; auto.
  - rewrite next_dn by auto. apply lab_0; auto; [apply (dn_up x A)|]. rewrite rsiv; auto. apply A.
  - rewrite next_up by auto. left. exists (rs x). assert (Hx : corner x) by apply A. split; auto. split; auto. rewrite copp_rs; auto.
Qed.
Lemma lab_iter k d F : lab d F -> lab (iter k (fnext f) d) F.
Proof. intros H. induction k as [|k IH]; cbn; auto. apply lab_next; auto. Qed.
Lemma lab_face d e F F' : lab d F -> lab e F' -> same_face f d e -> F = F'.
Proof. intros A B (k & ->). apply (lab_fun (iter k (fnext f) d)); auto. apply lab_iter; auto. Qed.

Definition delta (c : Z * Z) : dart := ext (copp c).
Lemma delta_lab c : corner c -> lab (delta c) (fst c).
Proof. intros Hc. left. exists (copp c). split; auto. split; auto. rewrite coco; auto. Qed.
Lemma delta_next c : corner c -> exists k, (0 < k)%nat /\ iter k (fnext f) (delta c) = delta (cpred c)
  /\ forall j, (0 < j < k)%nat -> copy (vat c) (dsrc (iter j (fnext f) (delta c))) /\ copy (vat c) (dtgt f (iter j (fnext f) (delta c))).
Proof.
  intros Hc. destruct (next_ext (copp c)) as (k & K1 & K2 & K3); auto. rewrite coco in K2, K3 by auto. exists k. split; auto. split; [exact K2|].
  intros j Hj. destruct (K3 j Hj) as (z & Vz & [(Dz & E)|(Uz & E)]); unfold delta; rewrite E; unfold dsrc, dtgt; cbn [fst snd]; rewrite <- Vz.
  - split; [apply G_copy; apply Dz|]. rewrite dn_tgt by auto. rewrite <- (rsiv z) by apply Dz. apply G_copy. apply (dn_up z Dz).
  - split; [apply G_copy; apply Uz|]. rewrite up_tgt by auto. rewrite <- (rsv z) by apply Uz. apply G_copy. apply (up_dn z Uz).
Qed.
Lemma delta_iter k c : corner c -> same_face f (delta c) (delta (iter k cpred c)).
Proof.
  intros Hc. induction k as [|k IH]; cbn; [exists 0%nat; auto|].
  assert (Hk : corner (iter k cpred c)) by (apply cpred_iter; auto). destruct (delta_next _ Hk) as (m & _ & E & _).
  destruct IH as (j & E2). exists (m + j)%nat. rewrite iter_add, <- E2. auto.
Qed.
Lemma delta_face c d : corner c -> corner d -> same_face f (delta c) (delta d) <-> fst c = fst d.
Proof.
  intros Hc Hd. split.
  - apply lab_face; apply delta_lab; auto.
  - intros E. assert (X : exists k, d = iter k cpred c); [|destruct X as (k & ->); apply delta_iter; auto].
    exists (Z.to_nat ((snd c - snd d) mod nvf (fst c))). rewrite (proj2 (cpred_iter nf nvf _ c Hc)).
    destruct Hc as (Hc1 & Hc2), Hd as (Hd1 & Hd2). destruct c as (a & i), d as (b & j). cbn [fst snd] in *. subst b. f_equal.
    pose proof (Z.mod_pos_bound (i - j) (nvf a) ltac:(lia)). rewrite Z2Nat.id by lia. rewrite Zminus_mod_idemp_r.
    replace (i - (i - j)) with j by lia. rewrite Z.mod_small; lia.
Qed.
Lemma delta_isd c : corner c -> isd (below (base n)) (delta c).
Proof. intros Hc. apply (kind_isd _ (ext (copp (copp c))) (hst (copp (copp c)))). left. exists (copp c). auto. Qed.
Lemma delta_all d : isd (below (base n)) d -> exists c, corner c /\ same_face f (delta c) d.
Proof.
  intros Hd. assert (X : exists x, corner x /\ same_face f d (ext x)).
  { destruct d as (w & i). destruct Hd as (Hw & Hi). cbn [fst snd] in *. destruct (kinds w i Hw Hi) as [(x & A & ->)|[(x & A & ->)|(x & A & ->)]].
    - exists x. split; auto. exists 0%nat. auto.
    - destruct (walk_from x) as (c0 & H0 & V0 & F0 & m & Em); [apply A|]. destruct (walk_dn c0 H0 F0 m x) as (k & K & _); auto; [apply A|].
      exists c0. split; auto. exists k. auto.
    - exists (rs x). split; [apply rs_c; apply A|]. exists 1%nat. cbn. rewrite next_up; auto. }
  destruct X as (x & Hx & S). exists (copp x). split; auto. unfold delta. rewrite coco by auto.
  apply (Orb3.sf_sym f (below (base n)) out_links (base n)); auto.
Qed.

Lemma joined v w w' : 0 <= v < n -> copy v w -> copy v w' ->
  clos_refl_sym_trans _ (fun a b => copy v a /\ copy v b /\ exists i, 0 <= i < 3 /\ f a i = b) w w'.
Proof.
  intros Hv Hw Hw'. destruct (so_first _ _ _ _ _ _ _ SO v Hv) as (c0 & H0 & V0 & F0).
  assert (X : forall m x, live x -> x = iter m rs c0 ->
     clos_refl_sym_trans _ (fun a b => copy v a /\ copy v b /\ exists i, 0 <= i < 3 /\ f a i = b) (G x) (G (rs c0))).
  { induction m as [|m IH]; intros x L E.
    - exfalso. destruct L as (_ & A & _). subst x. cbn in A. congruence.
    - assert (Hx : corner x) by (apply live_c; auto).
      assert (Er : rsi x = iter m rs c0) by (rewrite E; cbn; apply ri; apply rs_iter_corner; auto).
      assert (Vx : vat x = v) by (rewrite E, <- V0; apply rs_iter_corner; auto).
      destruct (slot0 x L) as [Q|(Q & R)].
      + eapply rst_trans; [|apply (IH (rsi x)); auto; apply (dn_up x Q)]. apply rst_step. split; [rewrite <- Vx; apply G_copy; auto|].
        split; [rewrite <- Vx, <- (rsiv x) by auto; apply G_copy; apply (dn_up x Q)|]. exists 0. split; [lia|]. apply dn_tgt; auto.
      + assert (Q2 : x = rs c0); [|rewrite Q2; apply rst_refl]. rewrite <- (rr x) by auto. f_equal. apply Fu; auto. rewrite rsiv; auto. congruence. }
  assert (Y : forall w, copy v w -> clos_refl_sym_trans _ (fun a b => copy v a /\ copy v b /\ exists i, 0 <= i < 3 /\ f a i = b) w (G (rs c0))).
  { intros u Hu. destruct (G_surj u (copy_below v u Hv Hu)) as (x & L & <-). pose proof (live_c x L) as Hx.
    assert (Vx : vat x = v) by (apply (copy_uniq _ _ (G x)); auto; [apply vrng; auto|apply G_copy; auto]).
    destruct (ring_iter c0 x) as (m & Em); auto; [congruence|]. apply (X m); auto. }
  eapply rst_trans; [apply Y; auto|]. apply rst_sym, Y. auto.
Qed.

Theorem out_resolves : resolves nf nvf fi n f delta.
Proof.
  constructor.
  - exact out_links.
  - intros w Hw. destruct (G_surj w Hw) as (x & L & <-). exists (vat x). split; [apply vrng, live_c; auto|apply G_copy; auto].
  - exact joined.
  - intros c Hc. split; [apply sx_rng|]. unfold delta. rewrite ext_tgt by auto. rewrite coco by auto. unfold dsrc. cbn [ext fst]. split.
    + rewrite <- (copp_vat nf nvf fi n CS) by auto. rewrite <- (proj2 (hst_live (copp c) (cop_c c Hc))). apply G_copy, hst_live. auto.
    + rewrite <- (proj2 (hst_live c Hc)) at 1. apply G_copy, hst_live. auto.
  - intros c d Hc Hd E. apply ext_inj in E; auto. rewrite <- (coco c), <- (coco d), E; auto.
  - intros (w & i) v (Hw & Hi) Hv Cv Ct. cbn [fst snd] in *. unfold dsrc, dtgt in *. cbn [fst snd] in *. destruct (kinds w i Hw Hi) as [(x & A & E)|[(x & A & E)|(x & A & E)]].
    + exists (copp x). split; auto. unfold delta. rewrite coco; auto.
    + exfalso. injection E as -> ->. assert (Lx : live x) by apply A. pose proof (live_c x Lx) as Hx. rewrite dn_tgt in Ct by auto. apply Ct.
      pose proof (G_copy x Lx) as C1. pose proof (G_copy (rsi x) ltac:(apply (dn_up x A))) as C2. rewrite rsiv in C2 by auto.
      rewrite (copy_uniq v (vat x) (G x)); auto. apply vrng; auto.
    + exfalso. injection E as -> ->. assert (Lx : live x) by apply A. pose proof (live_c x Lx) as Hx. rewrite up_tgt in Ct by auto. apply Ct.
      pose proof (G_copy x Lx) as C1. pose proof (G_copy (rs x) ltac:(apply (up_dn x A))) as C2. rewrite rsv in C2 by auto.
      rewrite (copy_uniq v (vat x) (G x)); auto. apply vrng; auto.
  - exact delta_next.
  - exact delta_face.
  - exact delta_all.
Qed.

(** ** two faces share at most one edge *)
Context (SH : share_one nf nvf fi) (FM : faces_meet nf nvf fi).
Let once := proj1 FM.
Lemma share_edge a b c d : corner a -> corner b -> corner c -> corner d -> fst a = fst c -> fst b = fst d -> fst a <> fst b ->
  vat a = vat b -> vat c = vat d -> vat a <> vat c -> (c = csucc a /\ d = copp a /\ b = csucc d) \/ (a = csucc c /\ b = copp c /\ d = csucc b).
Proof.
  intros Ha Hb Hc Hd E1 E2 N V1 V2 V3.
  destruct (proj2 FM a c b d) as (x & y & Hx & Hy & F1 & F2 & W1 & W2 & [(X1 & X2)|(X1 & X2)]); auto; [left|right].
  - assert (x = a) by auto. subst x. assert (y = d) by (apply once; auto; congruence). subst y.
    split; [apply once; auto; cbn; congruence|]. split; [apply (copp_uniq nf nvf fi n CS); auto|]. apply once; auto; cbn; congruence.
  - assert (x = c) by (apply once; auto; congruence). subst x. assert (y = b) by (apply once; auto; congruence). subst y.
    split; [apply once; auto; cbn; congruence|]. split; [apply (copp_uniq nf nvf fi n CS); auto|]. apply once; auto; cbn; congruence.
Qed.
Lemma ext_up_faces x y l : corner x -> up y -> corner l -> vat l = vat y -> first (rs l) = true ->
  fst (copp x) = fst y -> fst x = fst l -> False.
Proof.
  intros Hx (Ly & U) Hl Vl Fl E1 E2. pose proof (live_c y Ly) as Hy. pose proof (cop_c x Hx) as Hc.
  assert (Nyl : y <> l) by (intros ->; destruct Ly as (_ & _ & B); congruence).
  assert (N : fst x <> fst (copp x)). { intros E. apply Nyl. apply once; auto. congruence. }
  assert (C1 : vat y <> vat x).
  { intros E. assert (x = l) by (apply once; auto; congruence). subst x.
    assert (Y : csucc (copp l) = y) by (apply once; auto; rewrite (copp_vats nf nvf fi n CS) by auto; auto).
    assert (Z1 : rs y = l) by (rewrite <- Y; apply rr; auto). congruence. }
  assert (C2 : vat y <> vat (csucc x)).
  { intros E. assert (Y : copp x = y) by (apply once; auto; rewrite (copp_vat nf nvf fi n CS) by auto; auto).
    assert (Y2 : csucc x = l) by (apply once; auto; congruence).
    assert (Z1 : rsi y = l) by (rewrite <- Y; unfold rsi; rewrite coco; auto).
    assert (Z2 : rs l = y) by (rewrite <- Z1; apply rr; auto). destruct Ly as (_ & B & _). congruence. }
  (* the faces share the edge of [x] and the vertex of [y]: they share another edge *)
  destruct (share_edge x (csucc (copp x)) l y) as [(A1 & A2 & A3)|(A1 & A2 & A3)]; auto.
  - rewrite (copp_vats nf nvf fi n CS); auto.
  - congruence.
  - (* l = csucc x : vat l = vat (csucc x) *) apply C2. rewrite <- Vl, A1. auto.
  - (* x = csucc l *)
    assert (E3 : csucc (copp x) = copp l) by auto.
    apply (f_equal fst) in E3. cbn in E3.
    assert (X : x = l); [|apply C1; congruence].
    apply (SH x l (copp x) (copp l)); auto; rewrite ?(copp_vat nf nvf fi n CS), ?(copp_vats nf nvf fi n CS) by auto; auto.
Qed.
Lemma up_up_faces y l y' l' : up y -> corner l -> vat l = vat y -> first (rs l) = true ->
  up y' -> corner l' -> vat l' = vat y' -> first (rs l') = true -> fst y = fst y' -> fst l = fst l' -> y = y'.
Proof.
  intros (Ly & U) Hl Vl Fl (Ly' & U') Hl' Vl' Fl' E1 E2. pose proof (live_c y Ly) as Hy. pose proof (live_c y' Ly') as Hy'.
  destruct (Z.eq_dec (vat y) (vat y')) as [E|NE]; [apply once; auto|]. exfalso.
  assert (Nyl : y <> l) by (intros ->; destruct Ly as (_ & _ & B); congruence).
  assert (N : fst y <> fst l). { intros E. apply Nyl. apply once; auto. }
  destruct (share_edge y l y' l') as [(A1 & A2 & A3)|(A1 & A2 & A3)]; auto.
  - assert (Z1 : rs l = y) by (rewrite A3, A2; apply rr; auto). destruct Ly as (_ & B & _). congruence.
  - assert (Z1 : rs l' = y') by (rewrite A3, A2; apply rr; auto). destruct Ly' as (_ & B & _). congruence.
Qed.
Lemma up_dn_faces y l z l' : up y -> corner l -> vat l = vat y -> first (rs l) = true ->
  up z -> corner l' -> vat l' = vat z -> first (rs l') = true -> fst y = fst l' -> fst l = fst z -> False.
Proof.
  intros (Ly & U) Hl Vl Fl (Ly' & U') Hl' Vl' Fl' E1 E2. pose proof (live_c y Ly) as Hy. pose proof (live_c z Ly') as Hz.
  assert (Nyl : y <> l) by (intros ->; destruct Ly as (_ & _ & B); congruence).
  destruct (Z.eq_dec (vat y) (vat z)) as [E|NE].
  - assert (y = l') by (apply once; auto; congruence). apply Nyl. subst y. apply last_uniq; auto.
  - assert (N : fst y <> fst l). { intros E. apply Nyl. apply once; auto. }
    destruct (share_edge y l l' z) as [(A1 & A2 & A3)|(A1 & A2 & A3)]; auto; [congruence| |].
    + assert (Z1 : rs l = y) by (rewrite A3, A2; apply rr; auto). destruct Ly as (_ & B & _). congruence.
    + assert (Z1 : rs z = l') by (rewrite A3, A2; apply rr; auto). congruence.
Qed.
(** label of a directed edge and of its opposite *)
Definition lab2 (d : dart) (A B : Z) : Prop :=
  (exists x, corner x /\ d = ext x /\ A = fst (copp x) /\ B = fst x)
  \/ (exists y l, up y /\ corner l /\ vat l = vat y /\ first (rs l) = true /\ d = (G y, 2) /\ A = fst y /\ B = fst l)
  \/ (exists y l, up y /\ corner l /\ vat l = vat y /\ first (rs l) = true /\ d = (G (rs y), 0) /\ A = fst l /\ B = fst y).
Lemma lab2_ex d : isd (below (base n)) d -> exists A B, lab2 d A B /\ lab d A /\ lab (dopp f d) B.
Proof.
  intros Hd. destruct d as (w & i), Hd as (Hw & Hi). cbn [fst snd] in *. destruct (kinds w i Hw Hi) as [(x & A & ->)|[(x & A & ->)|(x & A & ->)]].
  - exists (fst (copp x)), (fst x). split; [left; eauto|]. split; [left; eauto|]. rewrite opp_ext by auto. left. exists (copp x). rewrite coco; auto.
  - assert (Hx : corner x) by apply A. destruct (last_ex x Hx) as (l & Hl & Vl & Fl). exists (fst l), (fst (rsi x)).
    split; [right; right; exists (rsi x), l|split].
    + rewrite rr by auto. rewrite rsiv by auto. pose proof (dn_up x A). auto 10.
    + apply lab_0; auto. apply A.
    + rewrite opp_dn by auto. apply lab_2. apply (dn_up x A).
  - assert (Hx : corner x) by apply A. destruct (last_ex x Hx) as (l & Hl & Vl & Fl). exists (fst x), (fst l).
    split; [right; left; exists x, l; auto 10|split].
    + apply lab_2. apply A.
    + rewrite opp_up by auto. apply lab_0; auto. { apply (up_dn x A). } rewrite rsv; auto.
Qed.
Lemma out_simple : simple_faces f (below (base n)).
Proof.
  intros d e Hd He S1 S2. destruct (lab2_ex d Hd) as (A & B & L & L1 & L2). destruct (lab2_ex e He) as (A' & B' & L' & L1' & L2').
  assert (A = A') by (apply (lab_face d e); auto). assert (B = B') by (apply (lab_face (dopp f d) (dopp f e)); auto). subst A' B'. clear L1 L2 L1' L2' S1 S2 Hd He.
  destruct L as [(x & X & -> & -> & ->)|[(y & l & Y & Hl & Vl & Fl & -> & -> & ->)|(y & l & Y & Hl & Vl & Fl & -> & -> & ->)]],
    L' as [(x' & X' & -> & E1 & E2)|[(y' & l' & Y' & Hl' & Vl' & Fl' & -> & E1 & E2)|(y' & l' & Y' & Hl' & Vl' & Fl' & -> & E1 & E2)]].
  - f_equal. apply (SH x x' (copp x) (copp x')); auto; rewrite ?(copp_vat nf nvf fi n CS), ?(copp_vats nf nvf fi n CS) by auto; auto.
  - exfalso. apply (ext_up_faces x y' l'); auto.
  - exfalso. apply (ext_up_faces (copp x) y' l'); auto. rewrite coco; auto.
  - exfalso. apply (ext_up_faces x' y l); auto.
  - rewrite (up_up_faces y l y' l'); auto.
  - exfalso. apply (up_dn_faces y l y' l'); auto.
  - exfalso. apply (ext_up_faces (copp x') y l); auto. rewrite coco; auto.
  - exfalso. apply (up_dn_faces y l y' l'); auto.
  - rewrite (up_up_faces y l y' l'); auto.
Qed.
End Desc.
