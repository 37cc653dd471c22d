(** * GoodBal: connectedness of convex polytopes in the buffers of the code. *)
From Coq Require Import Reals ZArith List Bool Lia Lra.
From Verif Require Import Base Lib SumR ModelCommon CommonFacts ModelN ModelNC RealNum SpecN SpecNC SpecNP PolyN SpecGood Flood Conn Good3 CubeN GoodN GlueN HullN BalN.
From Verif Require Import Model3 Spec3R SpecC3 Orb3 Conv3 Spec3.
Import ListNotations.
Open Scope Z_scope.

Lemma walk_sub f D (U X X' : Z -> Prop) u w : (forall v i, U v -> 0 <= i < D -> U (f v i)) -> (forall x, U x -> X' x -> X x) ->
  U u -> walk f D X u w -> walk f D X' u w.
Proof.
  intros Cl Sub Hu Wk. assert (U w /\ walk f D X' u w); [|tauto].
  induction Wk as [N|v i Wk (Hv & IH) Hi N]; [split; [auto|apply walk_refl; auto]|].
  split; [auto|]. apply walk_step; auto.
Qed.

Lemma realized_survives D n nf nh f bk h fd q l0 l (S : list Z) u w : 1 <= D -> cells D (upto n) nf nh f bk h fd -> realized D n nh h q l0 l ->
  Z.of_nat (length S) < D -> 0 <= u < n -> 0 <= w < n -> ~ In u S -> ~ In w S -> walk f D (fun x => In x S) u w.
Proof.
  intros HD C Q Hl Hu Hw Nu Nw. set (S' := filter (fun s => (0 <=? s) && (s <? n)) S).
  assert (IS : forall s, In s S' <-> In s S /\ upto n s).
  { intros s. unfold S'. rewrite filter_In, andb_true_iff, Z.leb_le, Z.ltb_lt. unfold upto. tauto. }
  assert (Wk : walk f D (fun x => In x S') u w).
  { apply (balinski D n nf nh f bk h fd q l0 l HD C Q); auto; try (rewrite IS; tauto).
    - assert (length S' <= length S)%nat by (unfold S'; clear; induction S as [|a r IH]; cbn; auto; destruct ((0 <=? a) && (a <? n)); cbn; lia). lia.
    - intros s Hs. now apply IS. }
  apply (walk_sub f D (upto n) (fun x => In x S')); auto.
  - intros v i Hv Hi. apply (ce_f _ _ _ _ _ _ _ _ C v i Hv Hi).
  - intros x Hx Sx. now apply IS.
Qed.

Section N.
Context (D : Z).
Hypothesis HD : 1 <= D.
Lemma convexN_links (p : polyN RN) : convexN D p -> good_links (nb (vbN RN p)) D (nvN RN p).
Proof.
  intros (_ & nh & bk & h & C & P). destruct (P 1%R ltac:(lra)) as (q & l0 & l & Q & _).
  pose proof (realized_simple D _ _ _ _ _ _ _ _ _ _ C Q) as Sm. intros v i Hv Hi.
  destruct (ce_f _ _ _ _ _ _ _ _ C v i Hv Hi) as (A & B). destruct (ce_bk _ _ _ _ _ _ _ _ C v i Hv Hi) as (Hb & Eb & _).
  split; [exact A|]. split; auto. split; [|eauto]. intros j Hj E. now apply (Sm v).
Qed.
Lemma convexN_survives (p : polyN RN) (S : list Z) u w : convexN D p -> Z.of_nat (length S) < D ->
  0 <= u < nvN RN p -> 0 <= w < nvN RN p -> ~ In u S -> ~ In w S -> walk (nb (vbN RN p)) D (fun x => In x S) u w.
Proof.
  intros (_ & nh & bk & h & C & P) Hl Hu Hw Nu Nw. destruct (P 1%R ltac:(lra)) as (q & l0 & l & Q & _).
  now apply (realized_survives D (nvN RN p) (nfN RN p) nh _ bk h (fdN RN p) q l0 l).
Qed.
Lemma convex_is_goodN MX fuel (p : polyN RN) : 2 <= D -> 0 <= nvN RN p -> convexN D p -> (D - 1) * nvN RN p + 1 <= MX ->
  (nvN RN p + 1) ^ (D - 1) <= Z.of_nat fuel -> rNd_is_good RN MX D fuel p = OK 1.
Proof.
  intros H2 Hn CV HM Hf. apply good_is_good; auto; [now apply convexN_links|].
  intros S u w _ Hl _ Hu Hw _ Nu Nw. apply convexN_survives; auto. lia.
Qed.
End N.

(** ** Three dimensions *)
Lemma convex3_conn (p : pol3) u w : convex3 p -> 0 <= u < nv p -> 0 <= w < nv p -> conn (nb (vb p)) 3 u w.
Proof.
  intros ((Hn & L & SF) & nh & lab & LA & R) Hu Hw. destruct (R 1%R ltac:(lra)) as (q & l0 & l & Q & _).
  apply (realized_conn 3 (nv p) nh nh (nb (vb p)) (bk3 (nb (vb p))) (facet lab) (fd3 lab) q l0 l (cells3 _ _ _ _ L LA) Q u w Hu Hw).
Qed.
Lemma convex3_survives (p : pol3) (S : list Z) u w : convex3 p -> Z.of_nat (length S) < 3 -> 0 <= u < nv p -> 0 <= w < nv p -> ~ In u S -> ~ In w S ->
  walk (nb (vb p)) 3 (fun x => In x S) u w.
Proof.
  intros ((Hn & L & SF) & nh & lab & LA & R) Hl Hu Hw. destruct (R 1%R ltac:(lra)) as (q & l0 & l & Q & _).
  apply (realized_survives 3 (nv p) nh nh (nb (vb p)) (bk3 (nb (vb p))) (facet lab) (fd3 lab) q l0 l S u w); auto; [lia|exact (cells3 _ _ _ _ L LA)].
Qed.
(** the clipped polytope *)
Lemma clip_is_goodN MX D fuel fuel' (p p' : polyN RN) planes : 3 <= D -> (Z.to_nat (MX * D * D * D) <= fuel)%nat -> 0 <= nvN RN p <= MX -> convexN D p ->
  rNd_clip RN MX D fuel p planes = OK p' -> (D - 1) * nvN RN p' + 1 <= MX -> (nvN RN p' + 1) ^ (D - 1) <= Z.of_nat fuel' ->
  rNd_is_good RN MX D fuel' p' = OK 1.
Proof.
  intros HD Hf Hn CV E HM Hf'. destruct (rNd_clip_hull MX D fuel HD Hf p planes Hn CV) as [(q & E' & Hq & _ & CQ & _)|(_ & E')]; rewrite E' in E; [|discriminate].
  injection E as <-. apply convex_is_goodN; auto; lia.
Qed.
