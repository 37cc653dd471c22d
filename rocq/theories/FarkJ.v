(** * FarkJ: Farkas' lemma for finitely many linear functionals (Bartl's proof), and hulls as
    weighted means. *)
From Coq Require Import Reals ZArith List Bool Lia Lra Psatz Classical.
From Verif Require Import Base Lib SumR.
Import ListNotations.
Open Scope R_scope.

Section F.
Context {V : Type} (add : V -> V -> V) (scal : R -> V -> V).
Definition lin (f : V -> R) : Prop := (forall x y, f (add x y) = f x + f y) /\ forall c x, f (scal c x) = c * f x.
Fixpoint mix (w : list R) (l : list (V -> R)) (x : V) : R :=
  match w, l with c :: w, a :: l => c * a x + mix w l x | _, _ => 0 end.
Lemma mix_map (g : V -> R) k w l x x0 : mix w (map (fun (a : V -> R) y => a y - a x0 * k * g y) l) x = mix w l x - mix w l x0 * k * g x.
Proof. revert w. induction l as [|a l IH]; intros [|c w]; cbn [map mix]; try lra. rewrite IH. ring. Qed.
Lemma mix_nonneg w l x : Forall (fun c => 0 <= c) w -> (forall a, In a l -> 0 <= a x) -> 0 <= mix w l x.
Proof.
  revert l. induction w as [|c w IH]; intros [|a l] H K; cbn; try lra. inversion H; subst. specialize (IH l H3 ltac:(intros; apply K; now right)). specialize (K a (or_introl eq_refl)). nra.
Qed.
Theorem farkas (l : list (V -> R)) : forall b, Forall lin l -> lin b -> (forall x, (forall a, In a l -> 0 <= a x) -> 0 <= b x) ->
  exists w, length w = length l /\ Forall (fun c => 0 <= c) w /\ forall x, b x = mix w l x.
Proof.
  remember (length l) as n eqn:En. revert l En. induction n as [|n IH]; intros [|g l] En; try discriminate; intros b HL Lb H.
  - exists []. split; auto. split; auto. intros x. cbn. pose proof (H x ltac:(intros ? [])) as A. pose proof (H (scal (-1) x) ltac:(intros ? [])) as B. rewrite (proj2 Lb) in B. lra.
  - injection En as En. inversion HL as [|? ? Lg HL']; subst. destruct (classic (forall x, (forall a, In a l -> 0 <= a x) -> 0 <= b x)) as [Y|N].
    + destruct (IH l eq_refl b HL' Lb Y) as (w & E & P & F). exists (0 :: w). split; [cbn; lia|]. split; [constructor; auto; lra|]. intros x. cbn. rewrite F. lra.
    + apply not_all_ex_not in N as (x0 & N). apply imply_to_and in N as (P0 & N). apply Rnot_le_lt in N.
      assert (G0 : g x0 < 0) by (apply Rnot_le_lt; intros G0; assert (0 <= b x0); [apply H; intros a [<-|Ha]; auto|lra]).
      set (k := / g x0). assert (Gk : g x0 * k = 1) by (unfold k; field; lra).
      assert (LM : forall f, lin f -> lin (fun y => f y - f x0 * k * g y)) by (intros f (A & B); split; intros; rewrite ?A, ?B, ?(proj1 Lg), ?(proj2 Lg); ring).
      assert (AT : forall f x, lin f -> f (add x (scal (- (g x * k)) x0)) = f x - f x0 * k * g x) by (intros f x (A & B); rewrite A, B; ring).
      destruct (IH (map (fun (a : V -> R) y => a y - a x0 * k * g y) l) ltac:(now rewrite map_length) (fun y => b y - b x0 * k * g y)) as (w & E & P & F).
      * apply Forall_map. eapply Forall_impl; [|exact HL']. intros a. apply LM.
      * now apply LM.
      * intros x Hx. rewrite <- (AT b x Lb). apply H. intros a [<-|Ha].
        -- rewrite (AT g x Lg), Gk. lra.
        -- rewrite Forall_forall in HL'. rewrite (AT a x (HL' a Ha)). apply (Hx (fun y => a y - a x0 * k * g y)). apply in_map_iff. exists a. auto.
      * exists ((b x0 - mix w l x0) * k :: w). split; [cbn; lia|]. split.
        -- constructor; auto. assert (0 <= mix w l x0) by now apply mix_nonneg. assert (k < 0) by (unfold k; apply Rinv_lt_0_compat; lra). nra.
        -- intros x. cbn. specialize (F x). cbv beta in F. rewrite mix_map in F. lra.
Qed.
End F.

(** weights for numbered functionals *)
Lemma mix_seq {V : Type} (f : Z -> V -> R) x n : forall s w, length w = n ->
  mix w (map f (map Z.of_nat (seq s n))) x = lsum (map Z.of_nat (seq s n)) (fun v => nth (Z.to_nat v - s) w 0 * f v x).
Proof.
  induction n as [|n IH]; intros s [|c w] E; try discriminate; cbn [seq map mix lsum]; auto. injection E as E. f_equal.
  - now rewrite Nat2Z.id, Nat.sub_diag.
  - rewrite (IH (S s) w E). apply lsum_ext. intros v Hv. apply in_map_iff in Hv as (i & <- & Hi). apply in_seq in Hi. rewrite Nat2Z.id. replace (i - s)%nat with (S (i - S s)) by lia. reflexivity.
Qed.
Theorem farkas_weights {V : Type} (add : V -> V -> V) (scal : R -> V -> V) (f : Z -> V -> R) (b : V -> R) n :
  (forall v, (0 <= v < n)%Z -> lin add scal (f v)) -> lin add scal b -> (forall x, (forall v, (0 <= v < n)%Z -> 0 <= f v x) -> 0 <= b x) ->
  exists w : Z -> R, (forall v, (0 <= v < n)%Z -> 0 <= w v) /\ forall x, b x = lsum (zrange n) (fun v => w v * f v x).
Proof.
  intros LF Lb H. destruct (farkas add scal (map f (zrange n)) b) as (w & E & P & F); auto.
  - apply Forall_map, Forall_forall. intros v Hv. apply LF. now apply in_zrange in Hv.
  - intros x Hx. apply H. intros v Hv. apply Hx. apply in_map. now apply in_zrange.
  - rewrite map_length in E. unfold zrange in *. rewrite map_length, seq_length in E. exists (fun v => nth (Z.to_nat v) w 0). split.
    + intros v Hv. rewrite Forall_forall in P. apply P, nth_In. lia.
    + intros x. rewrite F, (mix_seq f x (Z.to_nat n) 0 w E). apply lsum_ext. intros v _. now rewrite Nat.sub_0_r.
Qed.
