(** * MomC2: the sum over the edges that the code uses is the area of a convex polygon. *)
From Coq Require Import Reals ZArith List Bool Lia Lra Permutation.
From Verif Require Import Base Lib SumR ModelCommon CommonFacts Model2 ModelV RealNum SpecNV SpecNJ UniqJ VoxJ JordJ Spec2 Spec2R Struct2 Clip2 Mom2 Cons2 Reduce2 Glue2
  Small2 SpecC2 LoopC2 HullC2 ClipC2 InitC2 AreaC2.
Import ListNotations.
Open Scope R_scope.

Definition cr (a b : rvec2 R) : R := vx a * vy b - vy a * vx b.
Fixpoint path {A} (E : A -> A -> R) (a : A) (s : list A) : R := match s with [] => 0 | b :: r => E a b + path E b r end.
Lemma path_fan a b s : cr a b + path cr b s + cr (last (b :: s) a) a = fan a (b :: s).
Proof.
  revert b. induction s as [|c s IH]; intros b.
  - cbn. unfold cr. ring.
  - change (fan a (b :: c :: s)) with (turn a b c + fan a (c :: s)). rewrite <- (IH c).
    change (last (b :: c :: s) a) with (last (c :: s) a). cbn [path]. unfold turn, cr. ring.
Qed.
Lemma last_cons {A} (a d : A) s : last (a :: s) d = last s a.
Proof.
  revert a d. induction s as [|b s IH]; intros a d; auto. change (last (a :: b :: s) d) with (last (b :: s) d). rewrite !(IH b). reflexivity.
Qed.
Lemma lsum_path (F : Z -> Z -> R) (f : Z -> Z) a s : (forall l u v r, a :: s = l ++ u :: v :: r -> f u = v) ->
  lsum (a :: s) (fun v => F v (f v)) = path F a s + F (last s a) (f (last s a)).
Proof.
  revert a. induction s as [|b s IH]; intros a H.
  - cbn. ring.
  - change (lsum (a :: b :: s) ?g) with (g a + lsum (b :: s) g). cbv beta. rewrite IH by (intros l u v r E; apply (H (a :: l) u v r); cbn; now rewrite E).
    rewrite (H [] a b s eq_refl), last_cons. cbn [path]. ring.
Qed.
Lemma path_map {A B} (g : A -> B) E a s : path (fun u v => E (g u) (g v)) a s = path E (g a) (map g s).
Proof. revert a. induction s as [|b s IH]; intros a; cbn; auto. now rewrite IH. Qed.

Lemma loop_perm f n s : (0 <= n)%Z -> loop f n s -> Permutation (zrange n) s.
Proof. intros Hn (ND & I & _). apply NoDup_Permutation; auto using NoDup_zrange. intros v. rewrite I. apply in_zrange. Qed.
Lemma moment_fan (p : pol2) a s : (0 <= nv p)%Z -> loop (fun v => nb (vb p) v 0%Z) (nv p) (a :: s) -> moment2 p 0 0 = fan (ps (vb p) a) (map (ps (vb p)) s) / 2.
Proof.
  intros Hn L. unfold moment2. rewrite (lsum_perm _ _ _ (loop_perm _ _ _ Hn L)). destruct L as (ND & I & S & L).
  rewrite (lsum_path (fun u v => edge2 0 0 (ps (vb p) u) (ps (vb p) v)) (fun v => nb (vb p) v 0%Z) a s S).
  rewrite (path_map (ps (vb p)) (edge2 0 0)). specialize (L a s eq_refl). rewrite last_cons in L. rewrite L.
  assert (PE : forall x l, path (edge2 0 0) x l = path cr x l / 2).
  { intros x l. revert x. induction l as [|y l IH]; intros x; cbn [path]; [field|]. rewrite IH, edge2_00. unfold cr. field. }
  rewrite PE, edge2_00. destruct s as [|b s].
  - cbn. field.
  - cbn [map path]. rewrite <- path_fan. fold (cr (ps (vb p) (last (b :: s) a)) (ps (vb p) a)).
    replace (last (ps (vb p) b :: map (ps (vb p)) s) (ps (vb p) a)) with (ps (vb p) (last (b :: s) a)); [field|].
    change (ps (vb p) b :: map (ps (vb p)) s) with (map (ps (vb p)) (b :: s)). symmetry. now apply last_map.
Qed.
Lemma moment2_none (p : pol2) i j : nv p = 0%Z -> moment2 p i j = 0.
Proof. intros E. unfold moment2. rn. rewrite E. reflexivity. Qed.
Lemma content2_none (K : rvec2 R -> Prop) : (forall x, ~ K x) -> content2 K 0.
Proof. intros H. apply content_none. intros x. apply H. Qed.
Lemma hullL_hull (p : pol2) s x : (forall v, In v s <-> (0 <= v < nv p)%Z) -> (hullL (map (ps (vb p)) s) x <-> hull2 p x).
Proof.
  intros I. split; intros H h Hh; apply H.
  - intros y Hy. apply in_map_iff in Hy as (v & <- & Hv). apply Hh, I, Hv.
  - intros v Hv. apply Hh. apply in_map. now apply I.
Qed.
Theorem convex_area (p : pol2) : convex_ccw p -> content2 (hull2 p) (moment2 p 0 0).
Proof.
  intros ((Hn & _) & _ & s & L & C). destruct s as [|a s].
  - assert (E : nv p = 0%Z). { destruct L as (_ & I & _). destruct (Z.eq_dec (nv p) 0) as [|N]; auto. exfalso. rn. apply (proj2 (I 0%Z)). lia. }
    rewrite moment2_none by auto. apply content2_none. intros x Hx. apply (hull2_0 p x); auto; rn; lia.
  - rewrite (moment_fan p a s Hn L). eapply content2_ext; [|apply fan_content; exact C]. intros x. change (ps (vb p) a :: map (ps (vb p)) s) with (map (ps (vb p)) (a :: s)). apply hullL_hull. apply L.
Qed.
