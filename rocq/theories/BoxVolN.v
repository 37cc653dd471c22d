(** * BoxVolN: [rNd_reduce] of a box is the product of its sides. *)
From Coq Require Import Reals ZArith List Bool Lia Lra.
From Verif Require Import Base Lib SumR ModelCommon CommonFacts ModelN ModelNC SpecN SpecNC RealNum InitN CutN ClipN CellsN SpecNR RedN FlagR.
Import ListNotations.
Open Scope R_scope.

Lemma zrange_app a b : (0 <= a)%Z -> (0 <= b)%Z -> zrange (a + b) = zrange a ++ map (fun v => (v + a)%Z) (zrange b).
Proof.
  intros Ha. revert b. apply zrange_ind.
  - rewrite Z.add_0_r. cbn [zrange]. change (zrange 0) with (@nil Z). cbn. now rewrite app_nil_r.
  - intros n Hn IH. replace (a + (n + 1))%Z with (a + n + 1)%Z by lia. rewrite zrange_succ, IH, (zrange_succ n), map_app by lia. rewrite app_assoc. cbn. do 2 f_equal. lia.
Qed.
Lemma bits_prod (g : Z -> bool -> R) n : (0 <= n)%Z ->
  lsum (zrange (2 ^ n)) (fun v => lprod (zrange n) (fun i => g i (Z.testbit v i))) = lprod (zrange n) (fun i => g i true + g i false).
Proof.
  revert n. apply zrange_ind; [change (1 + 0 = 1); lra|]. intros n Hn IH.
  assert (P2 : (0 < 2 ^ n)%Z) by (apply Z.pow_pos_nonneg; lia).
  rewrite Z.pow_add_r by lia. change (2 ^ 1)%Z with 2%Z. replace (2 ^ n * 2)%Z with (2 ^ n + 2 ^ n)%Z by lia.
  rewrite zrange_app, lsum_app, lsum_map by lia. rewrite (zrange_succ n) by lia. rewrite (lprod_app _ _ (fun i => g i true + g i false)), <- IH. cbn [lprod].
  assert (A : forall v, (0 <= v < 2 ^ n)%Z -> Z.testbit v n = false).
  { intros v Hv. rewrite Z.testbit_odd, Z.shiftr_div_pow2, Z.div_small by lia. reflexivity. }
  assert (B : forall v, (0 <= v < 2 ^ n)%Z -> Z.testbit (v + 2 ^ n) n = true).
  { intros v Hv. rewrite Z.testbit_odd, Z.shiftr_div_pow2 by lia. replace (v + 2 ^ n)%Z with (v + 1 * 2 ^ n)%Z by lia. rewrite Z.div_add, Z.div_small by lia. reflexivity. }
  assert (C : forall v i, (0 <= v < 2 ^ n)%Z -> (0 <= i < n)%Z -> Z.testbit (v + 2 ^ n) i = Z.testbit v i).
  { intros v i Hv Hi. rewrite <- (Z.mod_pow2_bits_low (v + 2 ^ n) n i) by lia. replace (v + 2 ^ n)%Z with (v + 1 * 2 ^ n)%Z by lia. rewrite Z.mod_add, Z.mod_small by lia. reflexivity. }
  rewrite Rmult_1_r, (Rmult_comm (lsum _ _)), Rmult_plus_distr_r, <- !lsum_scal, Rplus_comm. f_equal.
  - apply lsum_ext. intros v Hv. apply in_zrange in Hv. rewrite lprod_app. cbn [lprod]. rewrite B by auto.
    rewrite (lprod_ext _ (fun i => g i (Z.testbit (v + 2 ^ n) i)) (fun i => g i (Z.testbit v i))); [ring|]. intros i Hi. apply in_zrange in Hi. now rewrite C.
  - apply lsum_ext. intros v Hv. apply in_zrange in Hv. rewrite lprod_app. cbn [lprod]. rewrite A by auto. ring.
Qed.

Lemma flag_sum_R D n (p : Z -> Z -> R) f : flag_sum RN D n p f = lsum (zrange n) (fun v => vertexN RN D (p v) (edgeN RN p f v)).
Proof. etransitivity; [exact (fold_left_lsum (zrange n) (fun v => vertexN RN D (p v) (edgeN RN p f v)) 0)|]. apply Rplus_0_l. Qed.

Theorem box_reduce MX D (p : polyN RN) lo hi ltd0 : (0 <= D)%Z -> (2 ^ D <= MX)%Z -> (forall i, (0 <= i < D)%Z -> lo i < hi i) ->
  exists p', rNd_init_box RN MX D p lo hi = OK p' /\ rNd_reduce RN MX D ltd0 p' = OK (lprod (zrange D) (fun i => hi i - lo i)).
Proof.
  intros HD HM HL. destruct (box_cells RN MX D p lo hi HD HM) as (p' & E & En & Hnf & P & F & C & SE).
  exists p'. split; auto. assert (P2 : (0 < 2 ^ D)%Z) by (apply Z.pow_pos_nonneg; lia).
  rewrite rNd_reduce_flags; auto; try lia.
  2: { intros v i Hv Hi. rewrite En in *. apply (ce_f _ _ _ _ _ _ _ _ C v i Hv Hi). }
  f_equal. rewrite En. change (@eq R (flag_sum RN D (2 ^ D) (ps (vbN RN p')) (nb (vbN RN p'))) (lprod (zrange D) (fun i => hi i - lo i))).
  rewrite flag_sum_R. pose (g := fun i (s : bool) => if s then hi i else - lo i). transitivity (lprod (zrange D) (fun i => g i true + g i false)); [|apply lprod_ext; intros; unfold g; lra].
  rewrite <- bits_prod by auto. apply lsum_ext. intros v Hv. apply in_zrange in Hv.
  rewrite (vertex_scal D HD _ axis _ (fun i => hi i - lo i) (fun i => if Z.testbit v i then 1 else -1)).
  - rewrite (vertex_axis D HD), <- lprod_mul. apply lprod_ext. intros i Hi. apply in_zrange in Hi.
    match goal with |- @eq _ ?a ?b => change (@eq R a b) end. rewrite P by auto. unfold g. destruct (Z.testbit v i); lra.
  - intros i Hi. split; [specialize (HL i Hi); lra|]. split; [destruct (Z.testbit v i); lra|]. intros j Hj. unfold edgeN. cbn [nsub RN].
    pose proof (proj1 (ce_f _ _ _ _ _ _ _ _ C v i Hv Hi)) as Hw. rewrite F in * by auto. unfold upto in Hw. rewrite !P by auto.
    unfold axis. rewrite Z.lxor_spec, Z.pow2_bits_eqb by lia.
    destruct (Z.eqb_spec j i) as [->|N].
    + rewrite Z.eqb_refl, xorb_true_r. destruct (Z.testbit v i); cbn [negb]; match goal with |- @eq _ ?a ?b => change (@eq R a b) end; lra.
    + destruct (Z.eqb_spec i j); [congruence|]. rewrite xorb_false_r. match goal with |- @eq _ ?a ?b => change (@eq R a b) end. lra.
Qed.
