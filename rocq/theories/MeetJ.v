(** * MeetJ: integrals over unions of sets whose common points have no content. *)
From Coq Require Import Reals ZArith List Bool Lia Lra Psatz.
From Verif Require Import Base Lib SumR ModelCommon ModelN RealNum SpecNP SpecNV SpecNJ SpecI FlagR ContN UniqJ VoxJ DisN PolyN JordJ IntJ.
Import ListNotations.
Open Scope R_scope.

Lemma parted_null D (HD : (0 <= D)%Z) (K K' : (Z -> R) -> Prop) : content D (fun x => K x /\ K' x) 0 -> parted D K K'.
Proof.
  intros H b c Rb Rc Hb Hc x Xb Xc. set (m := ((fun i => Rmax (fst b i) (fst c i)), (fun i => Rmin (snd b i) (snd c i))) : boxR).
  assert (Rm : real_box D m).
  { intros i Hi. specialize (Xb i Hi). specialize (Xc i Hi). cbn. apply Rlt_trans with (x i); [apply Rmax_lub_lt|apply Rmin_glb_lt]; lra. }
  assert (P : packed D (fun x => K x /\ K' x) [m]).
  { split; [|constructor; constructor]. intros q [<-|[]]. split; auto. intros y Hy. split; [apply Hb|apply Hc]; intros i Hi; specialize (Hy i Hi); cbn in Hy;
      pose proof (Rmax_l (fst b i) (fst c i)); pose proof (Rmax_r (fst b i) (fst c i)); pose proof (Rmin_l (snd b i) (snd c i)); pose proof (Rmin_r (snd b i) (snd c i)); lra. }
  pose proof (packed_le D HD _ _ _ P H) as L. cbn [lsum] in L. pose proof (box_vol_pos D m Rm). lra.
Qed.

Section M.
Context (D : Z).
Hypothesis HD : (0 <= D)%Z.
Lemma null_or (K K' : (Z -> R) -> Prop) : content D K 0 -> content D K' 0 -> content D (fun x => K x \/ K' x) 0.
Proof.
  intros H H' e He. split; [exists []; split; [split; [intros ? []|constructor]|cbn; lra]|].
  destruct (H (e / 2) ltac:(lra)) as (_ & l & (A1 & A2) & A3). destruct (H' (e / 2) ltac:(lra)) as (_ & l' & (B1 & B2) & B3).
  exists (l ++ l'). rewrite lsum_app'. split; [|lra]. split.
  - intros b Hb. apply in_app_or in Hb as [Hb|Hb]; auto.
  - intros x [Hx|Hx]; [destruct (A2 x Hx) as (c & C1 & C2)|destruct (B2 x Hx) as (c & C1 & C2)]; exists c; split; auto; apply in_or_app; auto.
Qed.
Lemma null_any {A} (l : list A) (S : A -> (Z -> R) -> Prop) (K : (Z -> R) -> Prop) : (forall r, In r l -> content D (fun x => K x /\ S r x) 0) ->
  content D (fun x => K x /\ exists r, In r l /\ S r x) 0.
Proof.
  induction l as [|a l IH]; intros H; [apply content_none; auto; intros x (_ & r & [] & _)|].
  eapply content_zero_sub; [|apply (null_or _ _ (H a (or_introl eq_refl)) (IH (fun r Hr => H r (or_intror Hr))))].
  intros x (Hx & r & [<-|Hr] & Sr); [now left|right]. split; auto. exists r. auto.
Qed.
Lemma null_below (K : (Z -> R) -> Prop) g M : content D K 0 -> (forall x, K x -> g x <= M) -> content (D + 1) (below_graph D K g) 0.
Proof.
  intros HK Hg e He. split; [exists []; split; [split; [intros ? []|apply FOP_nil]|cbn; lra]|].
  set (h := Rabs M + 1). assert (Hh : 0 < h) by (pose proof (Rabs_pos M); unfold h; lra).
  destruct (HK (e / h) ltac:(now apply Rdiv_lt_0_compat)) as (_ & l & (L1 & L2) & Ls). exists (map (tall D h) l). split.
  - split. + intros b Hb. apply in_map_iff in Hb as (b' & <- & Hb'). apply tall_real; auto.
    + intros x (Kx & H1 & H2). destruct (L2 x Kx) as (b & Hb & Ib). exists (tall D h b). split; [now apply in_map|]. apply tall_in. auto. split; auto.
      specialize (Hg x Kx). pose proof (Rle_abs M). unfold h. lra.
  - rewrite tall_sum by auto. apply (Rmult_le_compat_r h) in Ls; [|lra]. replace ((0 + e / h) * h) with e in Ls by (field; lra). lra.
Qed.
Lemma integral_add (K1 K2 K : (Z -> R) -> Prop) f t1 t2 M : content D (fun x => K1 x /\ K2 x) 0 -> (forall x, K1 x -> K2 x -> Rabs (f x) <= M) -> (forall x, K x <-> K1 x \/ K2 x) ->
  integral D K1 f t1 -> integral D K2 f t2 -> integral D K f (t1 + t2).
Proof.
  intros N B S (a1 & b1 & A1 & B1 & ->) (a2 & b2 & A2 & B2 & ->). exists (a1 + a2), (b1 + b2).
  assert (G : forall g s1 s2, (forall x, K1 x -> K2 x -> g x <= M) -> content (D + 1) (below_graph D K1 g) s1 -> content (D + 1) (below_graph D K2 g) s2 -> content (D + 1) (below_graph D K g) (s1 + s2)).
  { intros g s1 s2 Hg C1 C2. apply (content_add (D + 1) (below_graph D K1 g) (below_graph D K2 g)); auto.
    - intros b c. revert b c. assert (Z : content (D + 1) (fun x => below_graph D K1 g x /\ below_graph D K2 g x) 0).
      { eapply content_zero_sub; [|apply (null_below (fun x => K1 x /\ K2 x) g M N); intros x (? & ?); auto]. intros x ((X1 & X2) & X3 & X4). split; auto. }
      apply (parted_null (D + 1) ltac:(lia)); auto.
    - intros x. unfold below_graph. rewrite S. tauto. }
  split; [|split; [|lra]]; apply G; auto; intros x X1 X2; specialize (B x X1 X2); apply NearN.Rabs_le_inv in B; lra.
Qed.
Lemma integral_parts {A} (l : list A) (S : A -> (Z -> R) -> Prop) (t : A -> R) (K : (Z -> R) -> Prop) f M : (forall x, K x <-> exists q, In q l /\ S q x) ->
  ForallOrdPairs (fun q r => content D (fun x => S q x /\ S r x) 0) l -> (forall q, In q l -> integral D (S q) f (t q)) -> (forall x, K x -> Rabs (f x) <= M) ->
  integral D K f (lsum l t).
Proof.
  revert K. induction l as [|q l IH]; intros K E F H B; cbn [lsum].
  - apply (integral_null D HD K f M); auto. apply content_none; auto. intros x Hx. apply E in Hx as (q & [] & _).
  - inversion F as [|? ? F1 F2]; subst. rewrite Forall_forall in F1.
    apply (integral_add (S q) (fun x => exists r, In r l /\ S r x) K f (t q) (lsum l t) M).
    + apply null_any. auto.
    + intros x X1 _. apply B, E. exists q. split; [now left|auto].
    + intros x. rewrite E. split; [intros (r & [<-|Hr] & Sr); [now left|right; exists r; auto]|]. intros [X|(r & Hr & Sr)]; [exists q; split; [now left|auto]|exists r; split; [now right|auto]].
    + apply H. now left.
    + apply IH; auto; [tauto|intros; apply H; now right|]. intros x (r & Hr & Sr). apply B, E. exists r. split; [now right|auto].
Qed.
End M.
