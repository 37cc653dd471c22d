(** * ThreeConn: a valid polyhedron is 3-vertex-connected, component by component.

    Faces give the argument: a face walk that leaves a set of vertices has to come
    back, so a set with at most two outgoing edges would make two faces share two
    edges.  Counting edges then turns this into vertex connectivity. *)
From Coq Require Import ZArith List Bool Lia Permutation.
From Verif Require Import Base Lib ModelCommon CommonFacts Clip2 Spec3 Orb3 Face3 ModelGood SpecGood Conn Good3.
Import ListNotations.
Open Scope Z_scope.

Section TC.
Context (f : Z -> Z -> Z) (n : Z).
Hypothesis Hn : 0 <= n.
Hypothesis L : links f (below n).
Notation isd := (isd (below n)).
Notation tgt := (dtgt f).
Notation ds := (darts 3 n).

Definition cntd (P : dart -> bool) : Z := Z.of_nat (length (filter P ds)).
Lemma ds_isd d : In d ds <-> isd d.
Proof. destruct d as (v, i). rewrite in_darts. unfold isd, below. cbn. tauto. Qed.
Lemma ds_NoDup P : NoDup (filter P ds). Proof. apply NoDup_filter, NoDup_darts; lia. Qed.

Lemma cntd_or P P1 P2 : (forall d, isd d -> P d = true -> P1 d = true \/ P2 d = true) -> cntd P <= cntd P1 + cntd P2.
Proof.
  intros H. unfold cntd. rewrite <- Nat2Z.inj_add, <- app_length. apply inj_le, NoDup_incl_length; [apply ds_NoDup|].
  intros d Hd. apply filter_In in Hd as (Hd & Pd). apply in_app_iff. rewrite !filter_In.
  destruct (H d); auto. now apply ds_isd.
Qed.
Lemma cntd_disj P P1 P2 : (forall d, isd d -> P1 d = true -> P2 d = true -> False) ->
  (forall d, isd d -> P1 d = true \/ P2 d = true -> P d = true) -> cntd P1 + cntd P2 <= cntd P.
Proof.
  intros H1 H2. unfold cntd. rewrite <- Nat2Z.inj_add, <- app_length. apply inj_le, NoDup_incl_length.
  - apply NoDup_app'; try apply ds_NoDup. intros d A B. apply filter_In in A as (A & PA). apply filter_In in B as (_ & PB).
    apply (H1 d); auto. now apply ds_isd.
  - intros d Hd. apply in_app_iff in Hd. rewrite !filter_In in Hd. apply filter_In. split; [tauto|].
    apply H2; [apply ds_isd; tauto|tauto].
Qed.

(** links from [v] into [S] *)
Definition out (v : Z) (S : Z -> bool) : Z := cntd (fun d => (fst d =? v) && S (tgt d)).
(** links that leave [S] *)
Definition leaving (S : Z -> bool) : Z := cntd (fun d => S (fst d) && negb (S (tgt d))).

Lemma into_out v S : cntd (fun d => S (fst d) && (tgt d =? v)) <= out v S.
Proof.
  unfold out, cntd. rewrite <- (map_length (dopp f)). apply inj_le, NoDup_incl_length.
  - apply NoDup_map_inj; [|apply ds_NoDup]. intros x y Hx Hy. apply filter_In in Hx as (Hx & _). apply filter_In in Hy as (Hy & _).
    apply (opp_inj f (below n) L); now apply ds_isd.
  - intros e He. apply in_map_iff in He as (d & <- & Hd). apply filter_In in Hd as (Hd & Pd). apply ds_isd in Hd.
    apply andb_true_iff in Pd as (Sd & Td). apply filter_In. split; [apply ds_isd, isd_opp; auto|].
    rewrite (dtgt_opp f (below n) L) by auto. unfold dopp. cbn [fst]. rewrite Td. exact Sd.
Qed.

Lemma out_3 v S S' : (forall x, S x = true -> S' x = true -> False) -> out v S + out v S' <= 3.
Proof.
  intros H. transitivity (cntd (fun d => fst d =? v)).
  - apply cntd_disj.
    + intros d _ A B. apply andb_true_iff in A, B. apply (H (tgt d)); tauto.
    + intros d _ [A|A]; apply andb_true_iff in A; tauto.
  - unfold cntd. change 3 with (Z.of_nat (length [(v, 0); (v, 1); (v, 2)])). apply inj_le, NoDup_incl_length; [apply ds_NoDup|].
    intros (u, i) Hd. apply filter_In in Hd as (Hd & E). apply in_darts in Hd as (_ & Hi). cbn [fst] in E. apply Z.eqb_eq in E. subst u.
    destruct (slot3 i Hi) as [->|[->| ->]]; cbn; auto.
Qed.

Hypothesis SF : simple_faces f (below n).
Lemma below_rng v : below n v -> 0 <= v < n. Proof. auto. Qed.
Lemma lk_rng v i : 0 <= v < n -> 0 <= i < 3 -> 0 <= f v i < n. Proof. intros. now apply (l_rng f (below n) L). Qed.

(** A face that leaves [S] comes back through another edge. *)
Lemma face_returns S d : isd d -> S (fst d) = true -> S (tgt d) = false ->
  exists e, isd e /\ S (fst e) = true /\ S (tgt e) = false /\ same_face f d (dopp f e) /\ e <> d.
Proof.
  intros Hd Sd Td. destruct (orbit_period f (below n) L n below_rng d Hd) as (p & Hp & Ep).
  destruct (first_true (fun j => S (fst (iter j (fnext f) (fnext f d)))) (p - 1)) as (m & Hm & P & Q).
  { rewrite <- iter_S. replace (Datatypes.S (p - 1)) with p by lia. now rewrite Ep. }
  destruct m as [|m].
  { change (S (fst (fnext f d)) = true) in P. rewrite fst_fnext in P. congruence. }
  set (x := iter m (fnext f) (fnext f d)) in *.
  assert (Ix : isd x) by (apply isd_iter, isd_fnext; auto).
  assert (Kx : S (fst x) = false) by (apply Q; lia).
  assert (Tx : S (tgt x) = true).
  { change (S (fst (fnext f x)) = true) in P. rewrite fst_fnext in P. exact P. }
  exists (dopp f x). split; [apply isd_opp; auto|]. rewrite (dtgt_opp f (below n) L), (opp_opp f (below n) L) by auto.
  assert (SFx : same_face f d x).
  { exists (Datatypes.S m). now rewrite iter_S. }
  repeat split; auto. intros E. apply (sf_opp f (below n) L n below_rng d SF Hd). rewrite <- E at 2. now rewrite (opp_opp f (below n) L).
Qed.

Theorem three_edges S u w : 0 <= u < n -> conn f 3 u w -> S u = true -> S w = false -> 3 <= leaving S.
Proof.
  intros Hu C Su Sw. destruct (walk_leaves f 3 S _ u w C Su Sw) as (v & i & Wv & Sv & Hi & St & _).
  assert (Hv : 0 <= v < n) by (apply (walk_rng f 3 n lk_rng _ u v Hu Wv)).
  set (d := (v, i)). assert (Id : isd d) by (split; auto).
  destruct (face_returns S d Id Sv St) as (e & Ie & Se & Te & Fe & Ne).
  destruct (face_returns S e Ie Se Te) as (g & Ig & Sg & Tg & Fg & Ng).
  assert (Nd : g <> d).
  { intros ->. assert (E : d = dopp f e).
    { apply SF; auto; [apply isd_opp; auto|]. rewrite (opp_opp f (below n) L) by auto.
      apply (sf_sym f (below n) L n below_rng); auto. }
    assert (X : fst d = tgt e) by (rewrite E; reflexivity). rewrite X in Sg. congruence. }
  unfold leaving, cntd. change 3 with (Z.of_nat (length [d; e; g])). apply inj_le, NoDup_incl_length.
  - repeat constructor; cbn; intuition congruence.
  - intros x Hx. apply filter_In. rewrite ds_isd. cbn in Hx. destruct Hx as [<-|[<-|[<-|[]]]]; split; auto;
      apply andb_true_iff; rewrite negb_true_iff; auto.
Qed.

Lemma links_mutual : mutual f 3 n.
Proof. intros v i Hv Hi. apply (l_mut f (below n) L v i Hv Hi). Qed.

Theorem three_vertices a b u w : 0 <= u < n -> conn f 3 u w ->
  u <> a -> u <> b -> w <> a -> w <> b -> walk f 3 (fun x => x = a \/ x = b) u w.
Proof.
  intros Hu C Nua Nub Nwa Nwb.
  set (X := fun x : Z => (x =? a) || (x =? b)).
  assert (XE : forall x, X x = true <-> x = a \/ x = b) by (intros x; unfold X; rewrite orb_true_iff, !Z.eqb_eq; tauto).
  destruct (walk_dec f 3 n lk_rng ltac:(lia) X u Hu) as (A & HA0).
  assert (HA : forall x, A x = true <-> walk f 3 (fun x => x = a \/ x = b) u x).
  { intros x. rewrite HA0. split; apply walk_mono; intros y; apply XE. }
  apply HA. destruct (A w) eqn:Aw; auto. exfalso.
  assert (Au : A u = true) by (apply HA; constructor; tauto).
  destruct (conn_dec f 3 n lk_rng ltac:(lia) u Hu) as (K & HK).
  set (B := fun x => K x && negb (A x) && negb (X x)).
  assert (Hw : 0 <= w < n) by (apply (walk_rng f 3 n lk_rng _ u w Hu C)).
  (* a link from A leads to A, a or b *)
  assert (CA : forall d, isd d -> A (fst d) = true -> A (tgt d) = true \/ tgt d = a \/ tgt d = b).
  { intros d (Hd & Hi) Ad. destruct (X (tgt d)) eqn:Xt; [right; now apply XE|]. left. apply HA.
    unfold dtgt. apply walk_step; auto; [now apply HA|]. rewrite <- XE. unfold dtgt in Xt. congruence. }
  assert (CB : forall d, isd d -> B (fst d) = true -> B (tgt d) = true \/ tgt d = a \/ tgt d = b).
  { intros d Id Bd. unfold B in Bd. rewrite !andb_true_iff, !negb_true_iff in Bd. destruct Bd as ((Kd & Ad) & Xd).
    destruct (X (tgt d)) eqn:Xt; [right; now apply XE|]. left. unfold B. rewrite Xt. cbn [negb]. rewrite andb_true_r.
    apply andb_true_iff. split.
    - apply HK. apply HK in Kd. unfold dtgt. apply walk_step; auto. apply Id.
    - apply negb_true_iff. destruct (A (tgt d)) eqn:At; auto. exfalso.
      destruct (CA (dopp f d)) as [C1|C1]; [apply isd_opp; auto|exact At| |]; rewrite (dtgt_opp f (below n) L) in C1 by auto; unfold dsrc in C1.
      + congruence.
      + apply XE in C1. congruence. }
  set (NA := fun x => negb (A x)).
  assert (E1 : 3 <= out a A + out b A).
  { transitivity (leaving A); [apply (three_edges A u w); auto|]. unfold leaving.
    etransitivity; [apply (cntd_or _ (fun d => A (fst d) && (tgt d =? a)) (fun d => A (fst d) && (tgt d =? b)))|].
    - intros d Id P. apply andb_true_iff in P as (P1 & P2). apply negb_true_iff in P2.
      rewrite !andb_true_iff, !Z.eqb_eq. destruct (CA d Id P1); [congruence|tauto].
    - pose proof (into_out a A). pose proof (into_out b A). lia. }
  assert (Step : forall y z, (forall x, X x = true <-> x = y \/ x = z) -> 3 <= out y NA + out z A).
  { intros y z XE'. assert (XE'' : forall x, x = a \/ x = b <-> x = y \/ x = z) by (intros x; rewrite <- XE; apply XE').
    set (S := fun x => A x || (x =? y)). transitivity (leaving S).
    - apply (three_edges S u w); auto; unfold S; [now rewrite Au|]. rewrite Aw. apply Z.eqb_neq.
      intros ->. destruct (proj2 (XE'' y) (or_introl eq_refl)); congruence.
    - unfold leaving. etransitivity; [apply (cntd_or _ (fun d => (fst d =? y) && NA (tgt d)) (fun d => A (fst d) && (tgt d =? z)))|].
      + intros d Id P. apply andb_true_iff in P as (P1 & P2). apply negb_true_iff in P2. unfold S in *.
        apply orb_false_iff in P2 as (P2 & P3). apply orb_true_iff in P1 as [P1|P1].
        * right. rewrite P1. destruct (CA d Id P1) as [Q|Q]; [congruence|]. apply XE'' in Q as [Q|Q]; [apply Z.eqb_neq in P3; congruence|].
          rewrite Q. cbn. apply Z.eqb_refl.
        * left. unfold NA. now rewrite P1, P2.
      + pose proof (into_out z A). unfold out at 1. lia. }
  assert (E2 : 3 <= out a NA + out b A) by (apply Step; auto).
  assert (E3 : 3 <= out b NA + out a A) by (apply Step; intros x; rewrite XE; tauto).
  assert (E4 : 3 <= out a NA + out b NA).
  { assert (BNA : forall v, out v B <= out v NA).
    { intros v. unfold out at 1. transitivity (out v NA + cntd (fun _ => false)).
      - apply cntd_or. intros d _ P. left. apply andb_true_iff in P as (P1 & P2). apply andb_true_iff. split; auto.
        unfold B in P2. rewrite !andb_true_iff in P2. unfold NA. tauto.
      - unfold cntd. replace (filter (fun _ => false) ds) with (@nil dart); [cbn; lia|]. induction ds; auto. }
    transitivity (leaving B).
    - apply (three_edges B w u); auto.
      + apply (walk_sym f 3 n lk_rng links_mutual _ u w Hu C).
      + unfold B. rewrite (proj2 (HK w) C), Aw. cbn. apply negb_true_iff. destruct (X w) eqn:Xw; auto. apply XE in Xw. tauto.
      + unfold B. rewrite Au. cbn. now rewrite andb_false_r.
    - unfold leaving. etransitivity; [apply (cntd_or _ (fun d => B (fst d) && (tgt d =? a)) (fun d => B (fst d) && (tgt d =? b)))|].
      + intros d Id P. apply andb_true_iff in P as (P1 & P2). apply negb_true_iff in P2.
        rewrite !andb_true_iff, !Z.eqb_eq. destruct (CB d Id P1); [congruence|tauto].
      + pose proof (into_out a B). pose proof (into_out b B). pose proof (BNA a). pose proof (BNA b). lia. }
  assert (D : forall x, A x = true -> NA x = true -> False) by (intros x; unfold NA; destruct (A x); discriminate).
  pose proof (out_3 a A NA D). pose proof (out_3 b A NA D). lia.
Qed.

(** links of a valid polyhedron: three in, three out *)
Lemma links_regular : regular f 3 n.
Proof.
  intros v Hv. split; [|split].
  - intros i Hi. now apply lk_rng.
  - intros i j Hi Hj. apply (l_dist f (below n) L v i j Hv Hi Hj).
  - unfold indeg. set (l := filter _ _).
    assert (ND : NoDup l).
    { unfold l. apply NoDup_filter. unfold zrange. rewrite <- (darts_list_prod 3 n) by lia. apply NoDup_darts; lia. }
    assert (Hl : forall d, In d l <-> isd d /\ tgt d = v).
    { intros (x, i). unfold l. rewrite filter_In, in_prod_iff, !in_zrange, Z.eqb_eq. unfold Spec3.isd, below, dtgt. cbn. tauto. }
    assert (E : Permutation.Permutation l (map (dopp f) [(v, 0); (v, 1); (v, 2)])).
    { apply NoDup_Permutation; auto.
      - apply NoDup_map_inj; [|repeat constructor; cbn; intuition congruence].
        intros x y Hx Hy. apply (opp_inj f (below n) L); cbn in Hx, Hy;
          [destruct Hx as [<-|[<-|[<-|[]]]]|destruct Hy as [<-|[<-|[<-|[]]]]]; split; cbn; auto; lia.
      - intros d. rewrite Hl, in_map_iff. split.
        + intros (Id & E). exists (dopp f d). rewrite (opp_opp f (below n) L) by auto. split; auto.
          pose proof (isd_opp f (below n) L d Id) as Io. destruct (dopp f d) as (x, i) eqn:Ed. unfold dopp in Ed. inversion Ed; subst.
          destruct Io as (_ & Hi). cbn [snd] in Hi. destruct (slot3 _ Hi) as [->|[->| ->]]; cbn; auto.
        + intros (x & <- & Hx). assert (Ix : isd x /\ fst x = v).
          { cbn in Hx. destruct Hx as [<-|[<-|[<-|[]]]]; split; auto; split; cbn; auto; lia. }
          destruct Ix as (Ix & Ex). split; [apply isd_opp; auto|]. rewrite (dtgt_opp f (below n) L); auto. }
    apply Permutation.Permutation_length in E. rewrite E. reflexivity.
Qed.

Lemma wf_conn3 : conn3 f n.
Proof. intros a b u w; intros. apply three_vertices; auto. Qed.
End TC.

Theorem wf3_is_good {V} MX (p : poly V) : wf3 p -> nv p <= MX ->
  r3d_is_good MX p = OK 1 \/ (r3d_is_good MX p = Err OutOfBounds /\ MX < 1 + 2 * nv p).
Proof.
  intros (Hn & L & SF) HM. pose proof (lk_rng _ _ L) as R.
  destruct (is_good3_spec MX p ltac:(lia) (fun v i Hv Hi => proj1 (R v i Hv Hi))) as [(r & E & _ & I)|Q]; [|auto]. left. rewrite E. f_equal. apply I.
  split; [now apply links_regular|]. apply conn3_mutual; auto; [now apply links_mutual|]. now apply wf_conn3.
Qed.
