(** * Grow3: how many vertices a cut leaves. *)
From Coq Require Import ZArith List Bool Lia Permutation.
From Verif Require Import Base Lib ModelCommon CommonFacts Model3 Spec2 Spec3 Orb3 Cut3 Struct3 Clip3 FaceSpec3 Face3.
Import ListNotations.
Open Scope Z_scope.

Section G.
Context (NN : num).
Notation pol := (poly (rvec3 (T NN))).

Lemma cut_of_count (p : pol) keep np N p' : wf3 p -> cut_of NN p keep np N p' ->
  nv p' = cnt keep (nv p) + exits 3 keep (nb (vb p)) (nv p).
Proof.
  intros (Hn & L & P) (b' & K & M & HK & C & Hc). destruct Hc as (-> & _).
  rewrite <- (cnt_ext K keep (nv p)) by auto.
  rewrite <- (ncross_exits3 (nb (vb p)) (nv p) K keep Hn L HK).
  pose proof (cu_n _ _ _ _ _ _ _ C) as HN. pose proof (cu_g _ _ _ _ _ _ _ C) as G.
  unfold cnt. rewrite <- Nat2Z.inj_add. f_equal.
  rewrite <- (map_length M (crosses (nb (vb p)) (nv p) K)), <- app_length. apply Permutation_length.
  apply NoDup_Permutation.
  - apply NoDup_filter, NoDup_zrange.
  - apply NoDup_app'.
    + apply NoDup_filter, NoDup_zrange.
    + apply NoDup_map_inj; [|apply NoDup_filter, NoDup_darts; lia].
      intros x y Hx Hy E. apply in_crosses in Hx, Hy. eapply (Cut3.c_inj _ _ _ _ _ G); eauto.
    + intros v Hv Hm. apply filter_In in Hv as (Hv & _). apply in_zrange in Hv. apply in_map_iff in Hm as (x & <- & Hx).
      apply in_crosses in Hx. destruct (Cut3.c_new _ _ _ _ _ G x Hx) as (R & _). lia.
  - intros v. rewrite in_app_iff, !filter_In, !in_zrange, in_map_iff. split.
    + intros (Hv & Kv). destruct (Z.lt_ge_cases v (nv p)); [left; split; auto; lia|right].
      apply (cu_dom _ _ _ _ _ _ _ C) in Kv as (x & Hx & ->); [|lia]. exists x. split; auto. now apply in_crosses.
    + intros [(Hv & Kv)|(x & <- & Hx)]; [split; auto; lia|]. apply in_crosses in Hx.
      destruct (cu_new _ _ _ _ _ _ _ C x Hx) as (R & _). destruct (Cut3.c_new _ _ _ _ _ G x Hx) as (R' & _).
      split; [lia|]. apply (cu_dom _ _ _ _ _ _ _ C); eauto.
Qed.
End G.

(** at most three edges leave a kept or a dropped vertex *)
Lemma exits3_bounds keep f n : 0 <= n -> links f (below n) ->
  0 <= exits 3 keep f n <= 3 * cnt keep n /\ exits 3 keep f n <= 3 * (n - cnt keep n).
Proof.
  intros Hn L. rewrite <- (ncross_exits3 f n keep keep Hn L) by auto.
  assert (LP : forall K : Z -> bool, Z.of_nat (length (list_prod (filter K (zrange n)) (zrange 3))) = 3 * cnt K n).
  { intros K. rewrite prod_length. unfold cnt. change (length (zrange 3)) with 3%nat. lia. }
  split; [split; [lia|]|].
  - rewrite <- LP. apply inj_le. apply NoDup_incl_length; [apply NoDup_filter, NoDup_darts; lia|].
    intros [v i] Hx. apply in_crosses in Hx as ((Hv & Hi) & Kv & _). cbn [fst snd] in *. apply in_prod; [|now apply in_zrange].
    apply filter_In. split; auto. apply in_zrange. exact Hv.
  - pose proof (cnt_neg keep n Hn). replace (n - cnt keep n) with (cnt (fun v => negb (keep v)) n) by lia.
    rewrite <- LP, <- (map_length (dopp f)). apply inj_le. apply NoDup_incl_length.
    + apply NoDup_map_inj; [|apply NoDup_filter, NoDup_darts; lia]. intros x y Hx Hy. apply in_crosses in Hx, Hy.
      apply (opp_inj f (below n) L); [apply Hx|apply Hy].
    + intros e He. apply in_map_iff in He as (x & <- & Hx). apply in_crosses in Hx as (Ix & _ & Kx).
      pose proof (isd_opp f (below n) L x Ix) as Io. destruct (dopp f x) as [w j] eqn:E. destruct Io as (Hw & Hj). cbn [fst snd] in *.
      apply in_prod; [|now apply in_zrange]. apply filter_In. split; [apply in_zrange; exact Hw|].
      unfold dopp in E. inversion E; subst. now rewrite Kx.
Qed.
Lemma cut_at_most_double (NN : num) (p : poly (rvec3 (T NN))) keep np N p' : wf3 p -> cut_of NN p keep np N p' -> nv p' <= 2 * nv p.
Proof.
  intros Hw C. rewrite (cut_of_count NN p keep np N p' Hw C). destruct Hw as (Hn & L & _).
  pose proof (exits3_bounds keep (nb (vb p)) (nv p) Hn L). lia.
Qed.
