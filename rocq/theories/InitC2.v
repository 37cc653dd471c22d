(** * InitC2: [r2d_init_box] and [r2d_init_poly] build convex polygons. *)
From Coq Require Import Reals ZArith List Bool Lia Lra Psatz.
From Verif Require Import Base Lib ModelCommon CommonFacts Model2 Spec2 Struct2 Clip2 HPoly HShift HInt
  RealNum SumR Reduce2 Spec2R Mom2 Cons2 Convex2 Small2 Glue2 GlueV2 SpecC2 LoopC2 HullC2 ClipC2.
Import ListNotations.
Open Scope R_scope.

Lemma strict_weak s : strict_ccw s -> ccw s.
Proof. induction s as [|a s IH]; auto. intros (A & B). split; auto. eapply FOP_weaken; [|exact A]. cbn. intros. lra. Qed.
Lemma FOP_nth {A} (P : A -> A -> Prop) s d i j : ForallOrdPairs P s -> (i < j)%nat -> (j < length s)%nat -> P (nth i s d) (nth j s d).
Proof.
  intros H. revert i j. induction H as [|a l F _ IH]; intros i j Hi Hj; [cbn in Hj; lia|].
  destruct i as [|i], j as [|j]; try lia; cbn [nth].
  - rewrite Forall_forall in F. apply F, nth_In. cbn in Hj. lia.
  - cbn in Hj. apply IH; lia.
Qed.
Lemma strict_nth s : strict_ccw s -> forall i j k, (i < j < k)%nat -> (k < length s)%nat -> 0 < turn (nth i s o2) (nth j s o2) (nth k s o2).
Proof.
  induction s as [|a s IH]; intros H i j k Hi Hk; [cbn in Hk; lia|]. destruct H as (A & B). cbn in Hk.
  destruct i as [|i], j as [|j], k as [|k]; try lia; cbn [nth].
  - apply (FOP_nth (fun b c => 0 < turn a b c) s o2 j k A); lia.
  - apply IH; auto; lia.
Qed.
Lemma quad g a b c d : turn b c d * sdist g a + turn a b d * sdist g c = turn a c d * sdist g b + turn a b c * sdist g d.
Proof. unfold turn, sdist. ring. Qed.
Lemma quad_signs g a b c d : 0 < turn a b c -> 0 < turn a b d -> 0 < turn a c d -> 0 < turn b c d ->
  0 <= sdist g a -> sdist g b < 0 -> 0 <= sdist g c -> sdist g d < 0 -> False.
Proof. intros A B C D X Y Z W. pose proof (quad g a b c d). nra. Qed.

Lemma ring_loop (p : pol2) : (0 < nv p)%Z -> (forall v, (0 <= v < nv p)%Z -> nb (vb p) v 0%Z = ((v + 1) mod nv p)%Z) ->
  loop (fun v => nb (vb p) v 0%Z) (nv p) (zrange (nv p)).
Proof.
  intros Hn H. set (n := nv p) in *.
  assert (L : length (zrange n) = Z.to_nat n) by (unfold zrange; now rewrite map_length, seq_length).
  assert (NT : forall k d, (k < Z.to_nat n)%nat -> nth k (zrange n) d = Z.of_nat k).
  { intros k d Hk. unfold zrange. rewrite (nth_indep _ d (Z.of_nat 0)) by (rewrite map_length, seq_length; auto). rewrite map_nth, seq_nth; auto. }
  split; [apply NoDup_zrange|]. split; [intros v; apply in_zrange|]. split.
  - intros l a b r E. assert (Hl : (S (length l) < Z.to_nat n)%nat) by (rewrite <- L, E, app_length; cbn; lia).
    assert (Ea : a = Z.of_nat (length l)) by (rewrite <- (NT (length l) 0%Z), E by lia; rewrite app_nth2, Nat.sub_diag by lia; reflexivity).
    assert (Eb : b = Z.of_nat (S (length l))).
    { rewrite <- (NT (S (length l)) 0%Z), E by lia. rewrite app_nth2 by lia. replace (S (length l) - length l)%nat with 1%nat by lia. reflexivity. }
    rewrite H by lia. rewrite Z.mod_small by lia. lia.
  - intros a r E. assert (Ea : a = 0%Z) by (change 0%Z with (Z.of_nat 0); rewrite <- (NT 0%nat 0%Z), E by lia; reflexivity).
    replace n with (n - 1 + 1)%Z at 1 by lia. rewrite zrange_succ, last_last by lia. rewrite H by lia. replace (n - 1 + 1)%Z with n by lia. rewrite Z_mod_same_full. lia.
Qed.

Theorem init_poly_convex MX (p p' : pol2) (l : list (rvec2 R)) : (3 <= Z.of_nat (length l) <= MX)%Z -> strict_ccw l -> r2d_init_poly RN MX p l = OK p' ->
  convex_ccw p' /\ nv p' = Z.of_nat (length l) /\ forall x, hull2 p' x <-> forall g, (forall q, In q l -> 0 <= sdist g q) -> 0 <= sdist g x.
Proof.
  intros Hl HS E. destruct (init_poly_all RN MX p l o2 Hl) as (q & E' & En & ((Hn & HL) & _) & _ & I). rn. rewrite E in E'. injection E' as <-.
  set (n := nv p') in *.
  assert (PS : forall v, (0 <= v < n)%Z -> ps (vb p') v = nth (Z.to_nat v) l o2) by (intros v Hv; apply I; auto).
  assert (NB : forall v, (0 <= v < n)%Z -> nb (vb p') v 0%Z = ((v + 1) mod n)%Z) by (intros v Hv; apply I; auto).
  assert (MP : map (ps (vb p')) (zrange n) = l).
  { apply (nth_ext _ _ o2 o2); [rewrite map_length; unfold zrange; rewrite map_length, seq_length; lia|].
    intros k Hk. rewrite map_length in Hk. unfold zrange in *. rewrite map_length, seq_length in Hk.
    rewrite (nth_indep _ o2 (ps (vb p') (Z.of_nat 0))) by (rewrite !map_length, seq_length; auto). rewrite map_nth, map_nth, seq_nth by auto. rewrite PS by lia. f_equal. lia. }
  assert (TT : forall i j k, (0 <= i < j)%Z -> (j < k < n)%Z -> 0 < turn (ps (vb p') i) (ps (vb p') j) (ps (vb p') k)).
  { intros i j k H1 H2. rewrite !PS by lia. apply strict_nth; auto; lia. }
  split; [|split; auto].
  - split; [split; auto|]. split.
    + assert (G : forall g u v, (0 <= u < v)%Z -> (v < n)%Z -> 0 <= sdist g (ps (vb p') u) -> 0 <= sdist g (ps (vb p') v) ->
        ~ 0 <= sdist g (ps (vb p') (nb (vb p') u 0%Z)) -> ~ 0 <= sdist g (ps (vb p') (nb (vb p') v 0%Z)) -> False).
      { intros g u v Hu Hv Ku Kv. rewrite !NB by lia. rewrite (Z.mod_small (u + 1)) by lia. intros Fu Fv.
        assert (u + 1 <> v)%Z by (intros X; rewrite X in Fu; contradiction).
        destruct (Z.eq_dec (v + 1) n) as [X|X].
        - rewrite X, Z_mod_same_full in Fv. assert (u <> 0)%Z by (intros Y; subst; contradiction).
          apply (quad_signs g (ps (vb p') u) (ps (vb p') (u + 1)) (ps (vb p') v) (ps (vb p') 0)); auto; try lra; try (apply TT; lia);
            rewrite <- turn_rot; apply TT; lia.
        - rewrite Z.mod_small in Fv by lia.
          apply (quad_signs g (ps (vb p') u) (ps (vb p') (u + 1)) (ps (vb p') v) (ps (vb p') (v + 1))); auto; try lra; apply TT; lia. }
      intros g u v. cbn zeta. intros Hu Hv Ku Kv Fu Fv. fold n in Hu, Hv. destruct (Z.lt_total u v) as [X|[X|X]]; auto; exfalso; [apply (G g u v)|apply (G g v u)]; auto; lia.
    + exists (zrange n). split; [apply ring_loop; fold n; auto; lia|]. rewrite MP. now apply strict_weak.
  - intros x. split; intros H g Hg; apply H.
    + intros v Hv. rewrite PS by auto. apply Hg, nth_In. fold n in Hv. lia.
    + intros y Hy. rewrite <- MP in Hy. apply in_map_iff in Hy as (v & <- & Hv). apply in_zrange in Hv. auto.
Qed.

Theorem init_box_convex MX (p p' : pol2) lo hi : (4 <= MX)%Z -> vx lo <= vx hi -> vy lo <= vy hi -> r2d_init_box RN MX p lo hi = OK p' ->
  convex_ccw p' /\ nv p' = 4%Z /\ forall x, hull2 p' x <-> vx lo <= vx x <= vx hi /\ vy lo <= vy x <= vy hi.
Proof.
  intros HM X Y E. destruct (init_box_spec RN MX p lo hi HM) as (q & E' & En & Ep & Eb). pose proof (convex2_init_box MX p p' lo hi HM E) as HC.
  destruct (init_box_all MX p lo hi HM) as (q' & E2 & _ & G & _). rn. rewrite E in E', E2. injection E' as <-. injection E2 as <-.
  destruct G as (Hw & _). pose proof Ep as Ep'. change (zrange 4) with [0; 1; 2; 3]%Z in Ep. cbn [map] in Ep. injection Ep as P0 P1 P2 P3.
  split; [|split; auto].
  - apply convex_ccw_iff. split; auto. split; auto. exists (zrange 4). split.
    + rewrite <- En. apply ring_loop; [lia|]. rewrite En. intros v Hv. apply Eb; auto.
    + rewrite Ep'. cbn [ccw]. repeat lazymatch goal with |- _ /\ _ => split | |- ForallOrdPairs _ [] => apply FOP_nil | |- ForallOrdPairs _ _ => apply FOP_cons | |- Forall _ [] => apply Forall_nil | |- Forall _ _ => apply Forall_cons | |- True => exact I end; unfold turn; cbn; nra.
  - intros x. split.
    + intros H. assert (Q : forall g, 0 <= sdist g (V2 (vx lo) (vy lo)) -> 0 <= sdist g (V2 (vx hi) (vy lo)) -> 0 <= sdist g (V2 (vx hi) (vy hi)) -> 0 <= sdist g (V2 (vx lo) (vy hi)) -> 0 <= sdist g x).
      { intros g A B C D. apply H. rewrite En. intros v Hv. assert (V : (v = 0 \/ v = 1 \/ v = 2 \/ v = 3)%Z) by lia. destruct V as [->|[->|[->| ->]]]; rewrite ?P0, ?P1, ?P2, ?P3; auto. }
      pose proof (Q (PL2 (V2 1 0) (- vx lo))) as Q1. pose proof (Q (PL2 (V2 (-1) 0) (vx hi))) as Q2.
      pose proof (Q (PL2 (V2 0 1) (- vy lo))) as Q3. pose proof (Q (PL2 (V2 0 (-1)) (vy hi))) as Q4.
      unfold sdist in *. cbn in *. lra.
    + intros (HX & HY) g Hg. rewrite En in Hg. pose proof (Hg 0%Z ltac:(lia)) as G0. pose proof (Hg 1%Z ltac:(lia)) as G1. pose proof (Hg 2%Z ltac:(lia)) as G2. pose proof (Hg 3%Z ltac:(lia)) as G3.
      rewrite P0 in G0. rewrite P1 in G1. rewrite P2 in G2. rewrite P3 in G3. unfold sdist in *. cbn in *.
      destruct (Rle_dec 0 (vx (pn g))), (Rle_dec 0 (vy (pn g))); nra.
Qed.
