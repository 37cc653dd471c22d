(** * Cut3: cutting a valid graph along a vertex set leaves a valid graph.

    [f] is the graph before, [K] the kept vertices, [f'] the graph in which every
    edge from a kept to a removed vertex ends in a new vertex [M x] and the new
    vertices are linked along the old faces.  Nothing here depends on how the
    program produces [f']. *)
From Coq Require Import ZArith List Bool Lia.
From Verif Require Import Base Lib ModelCommon CommonFacts Spec3 Orb3.
Import ListNotations.
Open Scope Z_scope.

Section Sig.
Context (f : Z -> Z -> Z) (n : Z) (K : Z -> bool).
Notation isd0 := (isd (below n)).
Notation fnext := (fnext f). Notation dopp := (dopp f). Notation dtgt := (dtgt f).
Notation same_face := (same_face f).

Definition crossb (d : dart) : bool := K (fst d) && negb (K (dtgt d)).
Definition cross (d : dart) : Prop := isd0 d /\ K (fst d) = true /\ K (dtgt d) = false.
(** first crossing dart met when following the face from [d] *)
Fixpoint nxc (k : nat) (d : dart) : dart :=
  if crossb d then d else match k with O => d | S k' => nxc k' (fnext d) end.
Definition sig (x : dart) : dart := nxc (Z.to_nat (3 * n)) (drot x).
Definition FC (d x : dart) : Prop := exists k, (S k < Z.to_nat (3 * n))%nat /\ x = iter k fnext d /\ cross x
  /\ forall j, (j < k)%nat -> K (fst (iter j fnext d)) = true /\ K (dtgt (iter j fnext d)) = true.

Lemma cross_b d : isd0 d -> crossb d = true <-> cross d.
Proof.
  intros Hd. unfold crossb, cross. rewrite andb_true_iff, negb_true_iff. tauto.
Qed.

Lemma FC_fun d x y : FC d x -> FC d y -> x = y.
Proof.
  intros (k & _ & -> & (_ & A1 & A2) & A3) (l & _ & -> & (_ & B1 & B2) & B3).
  destruct (Nat.lt_trichotomy k l) as [L|[->|L]]; auto.
  - destruct (B3 k L). congruence.
  - destruct (A3 l L). congruence.
Qed.
Lemma FC_sf d x : FC d x -> same_face d x.
Proof. intros (k & _ & -> & _). exists k. reflexivity. Qed.

Hypothesis L : links f (below n).
Lemma below_b v : below n v -> 0 <= v < n. Proof. auto. Qed.
Hint Resolve below_b : core.

Lemma cross_isd x : cross x -> isd0 x. Proof. intros (H & _); auto. Qed.
Hint Resolve cross_isd : core.
Lemma crossb_in d : isd0 d -> crossb d = true -> cross d.
Proof. intros. now apply cross_b. Qed.

Lemma nxc_iter k : forall d, crossb (iter k fnext d) = true ->
  (forall j, (j < k)%nat -> crossb (iter j fnext d) = false) ->
  forall F, (k <= F)%nat -> nxc F d = iter k fnext d.
Proof.
  induction k; intros d C N F HF.
  - destruct F; cbn; cbn in C; now rewrite C.
  - destruct F; [lia|]. cbn [nxc]. pose proof (N O ltac:(lia)) as N0. cbn in N0. rewrite N0.
    rewrite iter_S. apply IHk; [|intros j Hj|lia].
    + rewrite <- iter_S. auto.
    + rewrite <- iter_S. apply N. lia.
Qed.

Lemma FC_nxc d x : isd0 d -> FC d x -> nxc (Z.to_nat (3 * n)) d = x.
Proof.
  intros Hd (k & Hk & -> & C & N). apply nxc_iter; [| |lia].
  - apply cross_b; auto.
  - intros j Hj. destruct (N j Hj) as (A & B). unfold crossb. now rewrite A, B.
Qed.

(** From a kept dart whose face also has a removed vertex the walk ends. *)
Lemma FC_exists d e : isd0 d -> K (fst d) = true -> same_face d e -> K (fst e) = false ->
  exists x, FC d x.
Proof.
  intros Hd Kd Sf Ke. destruct (sf_bound f (below n) L n below_b d e Hd Sf) as (k & Hk & ->).
  destruct (first_true (fun j => negb (K (fst (iter j fnext d)))) k) as (m & Hm & P & Q).
  { now rewrite Ke. }
  destruct m as [|m]; [cbn in P; now rewrite Kd in P|].
  exists (iter m fnext d). exists m. split; [lia|]. split; auto. split; [|intros j Hj; split].
  - split; [apply isd_iter; auto|]. split.
    + specialize (Q m ltac:(lia)). cbv beta in Q. now apply negb_false_iff in Q.
    + cbv beta in P. apply negb_true_iff in P. exact P.
  - specialize (Q j ltac:(lia)). cbv beta in Q. now apply negb_false_iff in Q.
  - specialize (Q (S j) ltac:(lia)). cbv beta in Q. now apply negb_false_iff in Q.
Qed.

Lemma cross_opp_src x : cross x -> K (fst (dopp x)) = false.
Proof. intros (_ & _ & H). exact H. Qed.
Lemma rot_sf x : isd0 x -> same_face (dopp x) (drot x).
Proof. intros Hx. exists 1%nat. cbn. symmetry. now apply (fnext_opp f (below n) L). Qed.

Lemma sig_FC x : cross x -> FC (drot x) (sig x).
Proof.
  intros Hx. pose proof (cross_isd x Hx) as Dx.
  destruct (FC_exists (drot x) (dopp x)) as (y & Hy).
  - now apply isd_rot.
  - apply Hx.
  - apply (sf_sym f (below n) L n below_b); [now apply isd_opp|now apply rot_sf].
  - now apply cross_opp_src.
  - unfold sig. rewrite (FC_nxc _ y); auto. now apply isd_rot.
Qed.
Lemma sig_cross x : cross x -> cross (sig x).
Proof. intros Hx. destruct (sig_FC x Hx) as (k & _ & _ & C & _). exact C. Qed.
Lemma sig_face x : cross x -> same_face (dopp x) (sig x).
Proof.
  intros Hx. eapply sf_trans; [apply rot_sf; auto|]. now apply FC_sf, sig_FC.
Qed.
Lemma sig_inj x y : cross x -> cross y -> sig x = sig y -> x = y.
Proof.
  assert (G : forall x y, cross x -> cross y -> forall k k',
     iter k fnext (drot x) = iter k' fnext (drot y) -> (k <= k')%nat ->
     (forall j, (j < k')%nat -> K (fst (iter j fnext (drot y))) = true) -> x = y).
  { intros a b Ha Hb k k' E Hk N.
    replace k' with (k + (k' - k))%nat in E by lia. rewrite iter_add in E.
    apply (iter_inj f (below n) L) in E; [|now apply isd_rot; auto|apply isd_iter, isd_rot; auto].
    destruct (k' - k)%nat as [|m] eqn:Em.
    - cbn in E. apply drot_inj in E; auto; [apply (cross_isd a Ha)|apply (cross_isd b Hb)].
    - exfalso. cbn [iter] in E. rewrite <- (fnext_opp f (below n) L) in E by auto.
      apply (fnext_inj f (below n) L) in E; [|apply isd_opp; auto|apply isd_iter, isd_rot; auto].
      specialize (N m ltac:(lia)). rewrite <- E in N. rewrite cross_opp_src in N by auto. discriminate. }
  intros Hx Hy E.
  destruct (sig_FC x Hx) as (k & _ & Ek & _ & Nk). destruct (sig_FC y Hy) as (l & _ & El & _ & Nl).
  destruct (le_lt_dec k l).
  - apply (G x y Hx Hy k l); [congruence|lia|apply Nl].
  - symmetry. apply (G y x Hy Hx l k); [congruence|lia|apply Nk].
Qed.

(** the crossing darts as a list *)
Definition crosses : list dart := filter crossb (darts 3 n).
Lemma in_crosses x : In x crosses <-> cross x.
Proof.
  unfold crosses. rewrite filter_In. destruct x as [v i]. rewrite in_darts.
  split.
  - intros ((Hv & Hi) & C). apply crossb_in; auto. split; auto.
  - intros H. split; [apply (cross_isd _ H)|]. apply cross_b; auto.
Qed.
Lemma NoDup_crosses : 0 <= n -> NoDup crosses.
Proof. intros. apply NoDup_filter, NoDup_darts; lia. Qed.
Lemma sig_surj y : 0 <= n -> cross y -> exists x, cross x /\ sig x = y.
Proof.
  intros Hn Hy.
  assert (I : incl crosses (map sig crosses)).
  { apply NoDup_length_incl.
    - assert (G : forall l, (forall x, In x l -> cross x) -> NoDup l -> NoDup (map sig l)).
      { induction l as [|a l IH]; intros HC HD; cbn; constructor.
        - intros Hin. apply in_map_iff in Hin as (b & E & Hb). inversion HD; subst.
          apply sig_inj in E; [subst; auto|apply HC; cbn; auto|apply HC; cbn; auto].
        - inversion HD; subst. apply IH; auto. intros; apply HC; cbn; auto. }
      apply G; [intros x Hx; now apply in_crosses|apply NoDup_crosses; auto].
    - rewrite map_length. lia.
    - intros z Hz. apply in_map_iff in Hz as (x & <- & Hx). apply in_crosses.
      apply sig_cross. now apply in_crosses. }
  destruct (proj1 (in_map_iff sig crosses y) (I y (proj2 (in_crosses y) Hy))) as (x & E & Hx).
  exists x. split; auto. now apply in_crosses.
Qed.

Hypothesis P : simple_faces f (below n).
Lemma sig_ne x : cross x -> sig x <> x.
Proof.
  intros Hx E. apply (sf_opp f (below n) L n below_b x P); auto.
  apply (sf_sym f (below n) L n below_b); [now apply isd_opp; auto|].
  rewrite <- E at 2. now apply sig_face.
Qed.
Lemma sig_sig_ne x : cross x -> sig (sig x) <> x.
Proof.
  intros Hx E. pose proof (sig_cross x Hx) as Hy.
  assert (X : dopp x = sig x).
  { apply P; auto; [apply isd_opp; auto|now apply sig_face|].
    rewrite (opp_opp f (below n) L) by auto.
    apply (sf_sym f (below n) L n below_b); [now apply isd_opp; auto|].
    rewrite <- E at 2. now apply sig_face. }
  pose proof (cross_opp_src x Hx) as A. rewrite X in A. destruct Hy as (_ & B & _). congruence.
Qed.
End Sig.

Section Cut.
Context (f f' : Z -> Z -> Z) (n : Z) (K : Z -> bool) (M : dart -> Z).
Notation cross := (cross f n K). Notation sig := (sig f n K).
Notation isd0 := (isd (below n)).

Record cutg : Prop := {
  c_in : forall d, isd0 d -> K (fst d) = true -> K (dtgt f d) = true -> f' (fst d) (snd d) = dtgt f d;
  c_new : forall x, cross x -> n <= M x /\ f' (fst x) (snd x) = M x /\ f' (M x) 0 = fst x;
  c_inj : forall x y, cross x -> cross y -> M x = M y -> x = y;
  c_cap : forall x, cross x -> f' (M x) 2 = M (sig x) /\ f' (M (sig x)) 1 = M x }.

Definition Dom' (v : Z) : Prop := (below n v /\ K v = true) \/ exists x, cross x /\ v = M x.

Hypothesis Hn : 0 <= n.
Hypothesis L : links f (below n).
Hypothesis P : simple_faces f (below n).
Hypothesis C : cutg.
Notation fnext' := (fnext f'). Notation dopp' := (dopp f').
Notation isd' := (isd Dom').

Lemma old_case v i : below n v -> K v = true -> 0 <= i < 3 ->
  (K (f v i) = true /\ f' v i = f v i /\ below n (f v i)) \/ (cross (v, i) /\ f' v i = M (v, i)).
Proof.
  intros Hv Kv Hi. assert (D : isd0 (v, i)) by (split; auto).
  destruct (K (f v i)) eqn:E.
  - left. split; auto. split; [apply (c_in C (v, i)); auto|apply (l_rng _ _ L); auto].
  - right. assert (X : cross (v, i)) by (split; auto). split; auto. apply (c_new C (v, i) X).
Qed.
Lemma new_links x : cross x -> exists y, cross y /\ sig y = x
  /\ f' (M x) 0 = fst x /\ f' (M x) 1 = M y /\ f' (M x) 2 = M (sig x).
Proof.
  intros Hx. destruct (sig_surj f n K L x Hn Hx) as (y & Hy & <-). exists y.
  pose proof (sig_cross f n K L y Hy). split; auto. split; auto.
  split; [apply (c_new C); auto|]. split; [apply (c_cap C y Hy)|apply (c_cap C); auto].
Qed.
Lemma cross_old x : cross x -> below n (fst x) /\ K (fst x) = true /\ 0 <= snd x < 3.
Proof. intros ((A & B) & Q & _). auto. Qed.

Lemma cut_links : links f' Dom'.
Proof.
  constructor.
  - intros v i [(Hv & Kv)|(x & Hx & ->)] Hi.
    + destruct (old_case v i Hv Kv Hi) as [(Kt & -> & B)|(X & ->)]; [left; auto|right; eauto].
    + destruct (new_links x Hx) as (y & Hy & E & E0 & E1 & E2).
      destruct (slot3 i Hi) as [->|[->| ->]]; [rewrite E0; left|rewrite E1; right|rewrite E2; right].
      * pose proof (cross_old x Hx). tauto.
      * eauto.
      * exists (sig x). split; auto. apply sig_cross; auto.
  - intros v i [(Hv & Kv)|(x & Hx & ->)] Hi.
    + destruct (old_case v i Hv Kv Hi) as [(Kt & -> & B)|(X & ->)]; [apply (l_self _ _ L); auto|].
      pose proof (c_new C _ X). unfold below in Hv. lia.
    + destruct (new_links x Hx) as (y & Hy & E & E0 & E1 & E2). pose proof (c_new C _ Hx) as N.
      pose proof (cross_old x Hx) as (O & _). unfold below in O.
      destruct (slot3 i Hi) as [->|[->| ->]]; [rewrite E0; lia|rewrite E1|rewrite E2]; intros EE.
      * apply (c_inj C) in EE; auto. subst y. apply (sig_ne f n K L P x Hx E).
      * apply (c_inj C) in EE; auto; [|apply sig_cross; auto]. apply (sig_ne f n K L P x Hx EE).
  - intros v i j [(Hv & Kv)|(x & Hx & ->)] Hi Hj EE.
    + unfold below in Hv.
      destruct (old_case v i Hv Kv Hi) as [(Ki & Ei & Bi)|(Xi & Ei)],
               (old_case v j Hv Kv Hj) as [(Kj & Ej & Bj)|(Xj & Ej)]; rewrite Ei, Ej in EE.
      * apply (l_dist _ _ L v); auto.
      * pose proof (c_new C _ Xj). unfold below in Bi. lia.
      * pose proof (c_new C _ Xi). unfold below in Bj. lia.
      * apply (c_inj C) in EE; auto. congruence.
    + destruct (new_links x Hx) as (y & Hy & E & E0 & E1 & E2).
      pose proof (cross_old x Hx) as (O & _). unfold below in O.
      pose proof (c_new C _ Hy) as Ny. pose proof (sig_cross f n K L x Hx) as Hz.
      pose proof (c_new C _ Hz) as Nz.
      assert (X : M y = M (sig x) -> False).
      { intros X. apply (c_inj C) in X; auto. rewrite X in E. apply (sig_sig_ne f n K L P x Hx E). }
      destruct (slot3 i Hi) as [->|[->| ->]], (slot3 j Hj) as [->|[->| ->]]; auto; exfalso;
        rewrite ?E0, ?E1, ?E2 in EE; try lia; apply X; congruence.
  - intros v i [(Hv & Kv)|(x & Hx & ->)] Hi.
    + destruct (old_case v i Hv Kv Hi) as [(Kt & E & B)|(X & E)]; rewrite E.
      * assert (D : isd0 (v, i)) by (split; auto).
        pose proof (isd_opp f (below n) L _ D) as Do.
        exists (snd (dopp f (v, i))). split; [apply Do|].
        pose proof (dtgt_opp f (below n) L (v, i) D) as T.
        transitivity (dtgt f (dopp f (v, i))); [|exact T].
        apply (c_in C (dopp f (v, i))); auto. rewrite T. auto.
      * exists 0. split; [lia|]. apply (c_new C _ X).
    + destruct (new_links x Hx) as (y & Hy & E & E0 & E1 & E2).
      destruct (slot3 i Hi) as [->|[->| ->]]; rewrite ?E0, ?E1, ?E2.
      * exists (snd x). split; [apply (cross_old x Hx)|]. apply (c_new C _ Hx).
      * exists 2. split; [lia|]. subst x. apply (c_cap C y Hy).
      * exists 1. split; [lia|]. apply (c_cap C x Hx).
Qed.
Notation L' := cut_links.

Lemma in_old d : isd0 d -> K (fst d) = true -> isd' d.
Proof. intros (A & B) Kd. split; auto. left; auto. Qed.
Lemma in_new x i : cross x -> 0 <= i < 3 -> isd' (M x, i).
Proof. intros Hx Hi. split; auto. right. eauto. Qed.
Lemma isd'_cases d : isd' d -> (isd0 d /\ K (fst d) = true) \/
  exists x, cross x /\ (d = (M x, 0) \/ d = (M x, 1) \/ d = (M x, 2)).
Proof.
  destruct d as [v i]. intros ([(Hv & Kv)|(x & Hx & E)] & Hi); cbn in *.
  - left. split; auto. split; auto.
  - right. exists x. split; auto. subst v. destruct (slot3 i Hi) as [->|[->| ->]]; auto.
Qed.

Lemma opp_in d : isd0 d -> K (fst d) = true -> K (dtgt f d) = true -> dopp' d = dopp f d.
Proof.
  intros Dd Kd Kt. unfold Spec3.dopp. unfold Spec3.dtgt at 1 2. rewrite (c_in C d) by auto. f_equal.
  apply (slot_eq f' Dom' L').
  - left. split; auto. apply (l_rng _ _ L); apply Dd.
  - apply slot_range.
  - pose proof (dtgt_opp f (below n) L d Dd) as T.
    transitivity (dtgt f (dopp f d)); [|exact T].
    apply (c_in C (dopp f d)); auto; [apply isd_opp; auto|]. rewrite T. auto.
Qed.
Lemma opp_cross x : cross x -> dopp' x = (M x, 0).
Proof.
  intros Hx. unfold Spec3.dopp, Spec3.dtgt. destruct (c_new C x Hx) as (_ & E & E0). rewrite E. f_equal.
  apply (slot_eq f' Dom' L'); auto; [right; eauto|lia].
Qed.
Lemma opp_new0 x : cross x -> dopp' (M x, 0) = x.
Proof.
  intros Hx. rewrite <- (opp_cross x Hx). apply (opp_opp f' Dom' L').
  apply in_old; [apply Hx|apply (cross_old x Hx)].
Qed.
Lemma opp_new2 x : cross x -> dopp' (M x, 2) = (M (sig x), 1).
Proof.
  intros Hx. unfold Spec3.dopp, Spec3.dtgt. cbn [fst snd]. destruct (c_cap C x Hx) as (E & E1).
  rewrite E. f_equal. apply (slot_eq f' Dom' L'); auto; [right|lia].
  exists (sig x). split; auto. apply sig_cross; auto.
Qed.
Lemma opp_new1 x : cross x -> dopp' (M (sig x), 1) = (M x, 2).
Proof.
  intros Hx. rewrite <- (opp_new2 x Hx). apply (opp_opp f' Dom' L'). apply in_new; auto; lia.
Qed.

Lemma fn_in d : isd0 d -> K (fst d) = true -> K (dtgt f d) = true -> fnext' d = fnext f d.
Proof. intros. unfold Spec3.fnext. now rewrite opp_in. Qed.
Lemma fn_cross x : cross x -> fnext' x = (M x, 1).
Proof. intros. unfold Spec3.fnext. rewrite opp_cross by auto. reflexivity. Qed.
Lemma fn_new0 x : cross x -> fnext' (M x, 0) = drot x.
Proof. intros. unfold Spec3.fnext. now rewrite opp_new0. Qed.
Lemma fn_new1 x : cross x -> fnext' (M (sig x), 1) = (M x, 0).
Proof. intros. unfold Spec3.fnext. rewrite opp_new1 by auto. reflexivity. Qed.
Lemma fn_new2 x : cross x -> fnext' (M x, 2) = (M (sig x), 2).
Proof. intros. unfold Spec3.fnext. rewrite opp_new2 by auto. reflexivity. Qed.

(** Faces of the result: [arc d x] for the part of an old face that ends in the
    crossing [x], [cap d] for the faces in the cut. *)
Definition arc (d x : dart) : Prop :=
  (isd0 d /\ K (fst d) = true /\ FC f n K d x)
  \/ (exists y, cross y /\ d = (M y, 0) /\ x = sig y)
  \/ (cross x /\ d = (M x, 1)).
Definition cap (d : dart) : Prop := exists y, cross y /\ d = (M y, 2).
(** darts of faces that the cut does not touch *)
Definition whole (d : dart) : Prop :=
  isd0 d /\ forall e, Spec3.same_face f d e -> K (fst e) = true.

Lemma arc_step d x : arc d x -> arc (fnext' d) x.
Proof.
  intros [(Dd & Kd & k & Hk & Ex & Cx & N)|[(y & Hy & -> & ->)|(Hx & ->)]].
  - destruct k as [|k].
    + cbn in Ex. subst d. rewrite fn_cross by auto. right. right. auto.
    + destruct (N O ltac:(lia)) as (_ & Kt). cbn in Kt.
      left. rewrite fn_in by auto. split; [apply isd_fnext; auto|]. split; [auto|].
      exists k. split; [lia|]. rewrite <- iter_S. split; auto. split; auto.
      intros j Hj. rewrite <- iter_S. apply N. lia.
  - rewrite fn_new0 by auto. left. split; [apply isd_rot; apply Hy|].
    split; [apply (cross_old y Hy)|]. apply sig_FC; auto.
  - destruct (sig_surj f n K L x Hn Hx) as (y & Hy & <-). rewrite fn_new1 by auto.
    right. left. exists y. auto.
Qed.
Lemma cap_step d : cap d -> cap (fnext' d).
Proof.
  intros (y & Hy & ->). rewrite fn_new2 by auto. exists (sig y). split; auto. apply sig_cross; auto.
Qed.
Lemma whole_step d : whole d -> whole (fnext' d).
Proof.
  intros (Dd & W). pose proof (W d (sf_refl f d)) as Kd.
  pose proof (W _ (sf_step f d)) as Kt.
  rewrite fn_in by auto. split; [apply isd_fnext; auto|].
  intros e He. apply W. eapply sf_trans; [apply sf_step|exact He].
Qed.
Lemma face_inv (Q : dart -> Prop) d e : (forall d, Q d -> Q (fnext' d)) -> Q d ->
  Spec3.same_face f' d e -> Q e.
Proof. intros S Qd (k & ->). induction k; cbn; auto. Qed.

Lemma arc_not_cap d x : arc d x -> cap d -> False.
Proof.
  intros A (y & Hy & ->). destruct A as [((B & _) & _)|[(z & Hz & E & _)|(_ & E)]]; try congruence.
  cbn in B. unfold below in B. pose proof (c_new C y Hy). lia.
Qed.
Lemma arc_new1 y x : cross y -> arc (M y, 1) x -> x = y.
Proof.
  intros Hy [((B & _) & _)|[(z & Hz & E & _)|(Hx & E)]]; try congruence.
  - cbn in B. unfold below in B. pose proof (c_new C y Hy). lia.
  - apply pair_equal_spec in E as (E & _). symmetry. apply (c_inj C); auto.
Qed.
Lemma arc_new0 y x : cross y -> arc (M y, 0) x -> x = sig y.
Proof.
  intros Hy [((B & _) & _)|[(z & Hz & E & ->)|(Hx & E)]]; try congruence.
  - cbn in B. unfold below in B. pose proof (c_new C y Hy). lia.
  - apply pair_equal_spec in E as (E & _). f_equal. symmetry. apply (c_inj C); auto.
Qed.

(** The old dart that a non-closing dart of the result is part of. *)
Definition rho (d' d : dart) : Prop :=
  (isd0 d' /\ K (fst d') = true /\ d = d') \/ (exists y, cross y /\ d' = (M y, 0) /\ d = dopp f y).
Lemma rho_isd d' d : rho d' d -> isd0 d.
Proof. intros [(A & _ & ->)|(y & Hy & _ & ->)]; auto. apply isd_opp; auto. apply Hy. Qed.
Lemma rho_inj d' e' d : rho d' d -> rho e' d -> d' = e'.
Proof.
  intros [(A & Ka & ->)|(y & Hy & -> & ->)] [(B & Kb & E)|(z & Hz & -> & E)].
  - auto.
  - subst d'. rewrite (cross_opp_src f n K) in Ka by auto. discriminate.
  - subst e'. rewrite (cross_opp_src f n K) in Kb by auto. discriminate.
  - apply (opp_inj f (below n) L) in E; [congruence|apply Hy|apply Hz].
Qed.
Lemma rho_opp d' d : rho d' d -> rho (dopp' d') (dopp f d).
Proof.
  intros [(A & Ka & ->)|(y & Hy & -> & ->)].
  - destruct (K (dtgt f d')) eqn:Kt.
    + left. rewrite opp_in by auto. split; [apply isd_opp; auto|]. split; auto.
    + assert (X : cross d') by (split; auto). rewrite opp_cross by auto. right. eauto.
  - rewrite opp_new0 by auto. left. split; [apply Hy|]. split; [apply (cross_old y Hy)|].
    apply (opp_opp f (below n) L). apply Hy.
Qed.
Lemma FC_or_whole d : isd0 d -> K (fst d) = true -> (exists x, FC f n K d x) \/ whole d.
Proof.
  intros Dd Kd.
  destruct (existsb (fun k => negb (K (fst (iter k (fnext f) d)))) (seq 0 (Z.to_nat (3 * n)))) eqn:E.
  - left. apply existsb_exists in E as (k & _ & Hk). apply negb_true_iff in Hk.
    apply (FC_exists f n K L d (iter k (fnext f) d)); auto. exists k. auto.
  - right. split; auto. intros e He.
    destruct (sf_bound f (below n) L n (below_b n) d e Dd He) as (k & Hk & ->).
    destruct (K (fst (iter k (fnext f) d))) eqn:Kk; auto. exfalso.
    assert (X : existsb (fun k => negb (K (fst (iter k (fnext f) d)))) (seq 0 (Z.to_nat (3 * n))) = true).
    { apply existsb_exists. exists k. split; [apply in_seq; lia|]. now rewrite Kk. }
    congruence.
Qed.
Lemma rho_arc d' d : rho d' d -> (exists x, arc d' x /\ Spec3.same_face f d x) \/ (whole d' /\ d = d').
Proof.
  intros [(A & Ka & ->)|(y & Hy & -> & ->)].
  - destruct (FC_or_whole d' A Ka) as [(x & Hx)|W]; [left|right; auto].
    exists x. split; [left; auto|]. eapply FC_sf; eauto.
  - left. exists (sig y). split; [right; left; eauto|]. apply sig_face; auto.
Qed.
Lemma whole_arc d x : whole d -> arc d x -> False.
Proof.
  intros (Dd & W) [(_ & _ & k & _ & -> & (_ & _ & Kt) & _)|[(y & Hy & -> & _)|(Hx & ->)]].
  - pose proof (W (fnext f (iter k (fnext f) d)) (ex_intro _ (S k) eq_refl)) as X.
    rewrite (fst_fnext f) in X. congruence.
  - destruct Dd as (B & _). cbn in B. unfold below in B. pose proof (c_new C y Hy). lia.
  - destruct Dd as (B & _). cbn in B. unfold below in B. pose proof (c_new C x Hx). lia.
Qed.
(** a face that the cut does not touch is the same face of the result *)
Lemma whole_sf d e : whole d -> Spec3.same_face f' d e -> Spec3.same_face f d e.
Proof.
  intros W (k & ->). exists k. induction k; cbn; auto. rewrite <- IHk.
  assert (X : whole (iter k fnext' d)).
  { clear IHk. induction k; cbn; auto. apply whole_step; auto. }
  destruct X as (A & B). apply fn_in; auto; [apply B, sf_refl|].
  apply (B (fnext f (iter k fnext' d))). apply sf_step.
Qed.
Lemma rho_sf d' e' d e : rho d' d -> rho e' e -> Spec3.same_face f' d' e' -> Spec3.same_face f d e.
Proof.
  intros Rd Re S. destruct (rho_arc _ _ Rd) as [(x & Ax & Sx)|(W & ->)].
  - assert (Ae : arc e' x) by (revert S; apply (face_inv (fun d => arc d x)); auto; intros; now apply arc_step).
    destruct (rho_arc _ _ Re) as [(z & Az & Sz)|(W & ->)]; [|exfalso; eapply whole_arc; eauto].
    assert (z = x).
    { destruct Re as [(B & Kb & ->)|(y & Hy & -> & ->)].
      - destruct Ae as [(_ & _ & F1)|[(y & Hy & -> & _)|(Hx & ->)]].
        + destruct Az as [(_ & _ & F2)|[(y & Hy & -> & _)|(Hx & ->)]].
          * eapply FC_fun; eauto.
          * exfalso. destruct B as (B & _). cbn in B. unfold below in B. pose proof (c_new C y Hy). lia.
          * exfalso. destruct B as (B & _). cbn in B. unfold below in B. pose proof (c_new C z Hx). lia.
        + exfalso. destruct B as (B & _). cbn in B. unfold below in B. pose proof (c_new C y Hy). lia.
        + exfalso. destruct B as (B & _). cbn in B. unfold below in B. pose proof (c_new C x Hx). lia.
      - apply arc_new0 in Ae, Az; congruence. }
    subst z. eapply sf_trans; [exact Sx|].
    apply (sf_sym f (below n) L n (below_b n)); auto. eapply rho_isd; eauto.
  - pose proof (whole_sf _ _ W S) as S2.
    destruct Re as [(B & Kb & ->)|(y & Hy & -> & ->)]; auto.
    exfalso. apply (whole_arc (M y, 0) (sig y)); [|right; left; eauto].
    revert S. apply (face_inv whole); auto. intros; now apply whole_step.
Qed.

(** Each dart of the result: a piece of an old dart, a closing dart, a cap dart. *)
Lemma dart_kinds d : isd' d -> (exists d0, rho d d0) \/ (exists x, cross x /\ d = (M x, 1)) \/ cap d.
Proof.
  intros D. destruct (isd'_cases d D) as [(A & B)|(x & Hx & [->|[->| ->]])].
  - left. exists d. left. auto.
  - left. exists (dopp f x). right. eauto.
  - right. left. eauto.
  - right. right. exists x. auto.
Qed.
Lemma rho_not_closing d d0 x : rho d d0 -> cross x -> d <> (M x, 1).
Proof.
  intros [((A & _) & _ & _)|(y & Hy & -> & _)] Hx E; [|congruence].
  subst d. cbn in A. unfold below in A. pose proof (c_new C x Hx). lia.
Qed.
Lemma rho_not_cap d d0 : rho d d0 -> ~ cap d.
Proof.
  intros [((A & _) & _ & _)|(y & Hy & -> & _)] (x & Hx & E); [|congruence].
  subst d. cbn in A. unfold below in A. pose proof (c_new C x Hx). lia.
Qed.
Lemma closing_arc x : cross x -> arc (M x, 1) x.
Proof. intros. right. right. auto. Qed.
Lemma sf_arc d e x : Spec3.same_face f' d e -> arc d x -> arc e x.
Proof. intros S A. revert S. apply (face_inv (fun d => arc d x)); auto. intros; now apply arc_step. Qed.
Lemma sf_cap d e : Spec3.same_face f' d e -> cap d -> cap e.
Proof. intros S A. revert S. apply (face_inv cap); auto. intros; now apply cap_step. Qed.

Lemma cap_opp d : cap d -> exists x, cross x /\ dopp' d = (M (sig x), 1) /\ d = (M x, 2).
Proof. intros (x & Hx & ->). exists x. split; auto. split; auto. apply opp_new2; auto. Qed.
Lemma closing_opp x : cross x -> exists y, cross y /\ sig y = x /\ dopp' (M x, 1) = (M y, 2).
Proof.
  intros Hx. destruct (sig_surj f n K L x Hn Hx) as (y & Hy & <-). exists y. split; auto. split; auto.
  apply opp_new1; auto.
Qed.

Lemma cut_simple : simple_faces f' Dom'.
Proof.
  intros d e Dd De S1 S2.
  destruct (dart_kinds d Dd) as [(d0 & Rd)|[(x & Hx & ->)|Cd]].
  - assert (Re : exists e0, rho e e0).
    { destruct (dart_kinds e De) as [Re|[(y & Hy & ->)|Ce]]; auto; exfalso.
      - destruct (closing_opp y Hy) as (z & Hz & _ & E). rewrite E in S2.
        pose proof (rho_opp _ _ Rd) as Ro.
        destruct (rho_arc _ _ Ro) as [(w & Aw & _)|(W & _)].
        + apply (arc_not_cap (M z, 2) w); [eapply sf_arc; eauto|exists z; auto].
        + assert (W2 : whole (M z, 2)) by (revert S2; apply (face_inv whole); auto; intros; now apply whole_step).
          destruct W2 as ((B & _) & _). cbn in B. unfold below in B. pose proof (c_new C z Hz). lia.
      - destruct (rho_arc _ _ Rd) as [(w & Aw & _)|(W & _)].
        + apply (arc_not_cap e w); auto. eapply sf_arc; eauto.
        + assert (W2 : whole e) by (revert S1; apply (face_inv whole); auto; intros; now apply whole_step).
          destruct Ce as (z & Hz & ->).
          destruct W2 as ((B & _) & _). cbn in B. unfold below in B. pose proof (c_new C z Hz). lia. }
    destruct Re as (e0 & Re).
    assert (d0 = e0); [|subst; eapply rho_inj; eauto].
    apply P; [eapply rho_isd; eauto|eapply rho_isd; eauto|eapply rho_sf; eauto|].
    eapply rho_sf; [apply rho_opp; eauto|apply rho_opp; eauto|auto].
  - destruct (closing_opp x Hx) as (z & Hz & Ez & E). rewrite E in S2.
    assert (Ce : cap (dopp' e)) by (eapply sf_cap; eauto; exists z; auto).
    destruct (cap_opp _ Ce) as (w & Hw & E1 & _).
    rewrite (opp_opp f' Dom' L') in E1 by auto. subst e.
    pose proof (sf_arc _ _ _ S1 (closing_arc x Hx)) as A.
    apply arc_new1 in A; [|apply sig_cross; auto]. now rewrite A.
  - pose proof (sf_cap _ _ S1 Cd) as Ce.
    destruct (cap_opp _ Cd) as (x & Hx & Ex & ->). destruct (cap_opp _ Ce) as (y & Hy & Ey & ->).
    rewrite Ex, Ey in S2.
    pose proof (sig_cross f n K L x Hx) as Hsx. pose proof (sig_cross f n K L y Hy) as Hsy.
    pose proof (sf_arc _ _ _ S2 (closing_arc _ Hsx)) as A. apply arc_new1 in A; auto.
    apply (sig_inj f n K L) in A; auto. congruence.
Qed.
End Cut.

(** ** Renumbering the kept vertices *)
Section Renum.
Context (f' g : Z -> Z -> Z) (D : Z -> Prop) (N : Z) (K : Z -> bool).
Hypothesis HN : 0 <= N.
Hypothesis HD : forall v, D v <-> 0 <= v < N /\ K v = true.
Hypothesis L : links f' D.
Hypothesis Hg : forall u i, D u -> 0 <= i < 3 -> g (cnt K u) i = cnt K (f' u i).
Definition ren (d : dart) : dart := (cnt K (fst d), snd d).

Lemma ren_dom v : D v -> below (cnt K N) (cnt K v).
Proof. intros H. apply HD in H as (H & E). split; [apply cnt_nonneg|]. apply cnt_lt; auto. Qed.
Lemma ren_inj_v u v : D u -> D v -> cnt K u = cnt K v -> u = v.
Proof. intros Hu Hv. apply HD in Hu, Hv. destruct Hu, Hv. apply cnt_inj; auto; lia. Qed.
Lemma ren_surj_v i : below (cnt K N) i -> exists u, D u /\ cnt K u = i.
Proof.
  intros H. destruct (cnt_surj K N i HN H) as (u & Hu & Ku & E). exists u. split; auto. now apply HD.
Qed.
Lemma ren_links : links g (below (cnt K N)).
Proof.
  constructor; intros v i Hv.
  - intros Hi. destruct (ren_surj_v v Hv) as (u & Du & <-). rewrite Hg by auto.
    apply ren_dom, (l_rng _ _ L); auto.
  - intros Hi. destruct (ren_surj_v v Hv) as (u & Du & <-). rewrite Hg by auto. intros E.
    apply ren_inj_v in E; auto; [|apply (l_rng _ _ L); auto]. revert E. apply (l_self _ _ L); auto.
  - rename Hv into j. intros Hv Hi Hj. destruct (ren_surj_v v Hv) as (u & Du & <-). rewrite !Hg by auto. intros E.
    apply ren_inj_v in E; auto; try (apply (l_rng _ _ L); auto). revert E. apply (l_dist _ _ L); auto.
  - intros Hi. destruct (ren_surj_v v Hv) as (u & Du & <-). rewrite Hg by auto.
    destruct (l_mut _ _ L u i Du Hi) as (j & Hj & E). exists j. split; auto.
    rewrite Hg by (auto; apply (l_rng _ _ L); auto). now rewrite E.
Qed.
Lemma ren_isd d : isd D d -> isd (below (cnt K N)) (ren d).
Proof. intros (A & B). split; auto. apply ren_dom; auto. Qed.
Lemma ren_inj d e : isd D d -> isd D e -> ren d = ren e -> d = e.
Proof.
  destruct d, e. intros (A & _) (B & _) E. unfold ren in E. cbn in *.
  apply pair_equal_spec in E as (E & ->). apply ren_inj_v in E; auto. now subst.
Qed.
Lemma ren_surj d : isd (below (cnt K N)) d -> exists e, isd D e /\ ren e = d.
Proof.
  destruct d as [v i]. intros (A & B). cbn in A. destruct (ren_surj_v v A) as (u & Du & <-).
  exists (u, i). split; [split; auto|reflexivity].
Qed.
Lemma ren_opp d : isd D d -> dopp g (ren d) = ren (dopp f' d).
Proof.
  intros Dd. pose proof (isd_opp f' D L d Dd) as Do. destruct d as [v i]. destruct Dd as (A & B). cbn in A, B.
  unfold Spec3.dopp, Spec3.dtgt, ren. cbn [fst snd Spec3.dsrc]. rewrite Hg by auto. f_equal.
  apply (slot_eq g _ ren_links).
  - apply ren_dom, (l_rng _ _ L); auto.
  - apply slot_range.
  - rewrite Hg; [|apply (l_rng _ _ L); auto|apply slot_range]. f_equal.
    apply (slot_back f' D L (v, i)). split; auto.
Qed.
Lemma ren_fnext d : isd D d -> fnext g (ren d) = ren (fnext f' d).
Proof. intros. unfold Spec3.fnext. rewrite ren_opp by auto. reflexivity. Qed.
Lemma ren_iter k d : isd D d -> iter k (fnext g) (ren d) = ren (iter k (fnext f') d).
Proof.
  intros. induction k; cbn; auto. rewrite IHk. apply ren_fnext. apply isd_iter; auto.
Qed.
Lemma ren_sf d e : isd D d -> isd D e -> same_face g (ren d) (ren e) <-> same_face f' d e.
Proof.
  intros Dd De. split.
  - intros (k & E). exists k. rewrite ren_iter in E by auto. apply ren_inj; auto. apply isd_iter; auto.
  - intros (k & ->). exists k. now rewrite ren_iter.
Qed.
Lemma ren_simple : simple_faces f' D -> simple_faces g (below (cnt K N)).
Proof.
  intros P d e Hd He S1 S2. destruct (ren_surj d Hd) as (d1 & D1 & <-). destruct (ren_surj e He) as (e1 & E1 & <-).
  f_equal. apply P; auto; [now apply ren_sf|].
  rewrite !ren_opp in S2 by auto. apply ren_sf in S2; auto; apply isd_opp; auto.
Qed.
End Renum.
