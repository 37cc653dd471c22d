(** * Struct3: linkage of the 3D operations, for every arithmetic. *)
From Coq Require Import ZArith List Bool Lia.
From Verif Require Import Base Lib ModelCommon Model3 CommonFacts Spec2 Spec3 Orb3 Cut3 Clip2.
Import ListNotations.
Open Scope Z_scope.

(** position of a dart in a list *)
Fixpoint didx (x : dart) (l : list dart) : nat :=
  match l with
  | [] => O
  | y :: l => if (fst x =? fst y) && (snd x =? snd y) then O else S (didx x l)
  end.
Lemma didx_nth x l : In x l -> nth_error l (didx x l) = Some x.
Proof.
  induction l as [|y l IH]; cbn [didx In]; [tauto|]. intros H.
  destruct x as [a i], y as [c j]. cbn [fst snd].
  destruct (Z.eqb_spec a c), (Z.eqb_spec i j); cbn [andb nth_error]; try (subst; reflexivity);
    (apply IH; destruct H as [H|H]; auto; apply pair_equal_spec in H as (? & ?); congruence).
Qed.
Lemma didx_lt x l : In x l -> (didx x l < length l)%nat.
Proof. intros H. apply nth_error_Some. rewrite didx_nth by auto. discriminate. Qed.
Lemma didx_inj x y l : In x l -> In y l -> didx x l = didx y l -> x = y.
Proof. intros Hx Hy E. apply didx_nth in Hx, Hy. rewrite E in Hx. congruence. Qed.
Lemma nth_didx l k x : NoDup l -> nth_error l k = Some x -> didx x l = k.
Proof.
  intros ND E. pose proof (nth_error_In _ _ E) as I. apply didx_nth in I as E2.
  eapply NoDup_nth_error; eauto; [apply didx_lt; auto|congruence].
Qed.

Lemma NoDup_snoc3 (x : dart) l : NoDup l -> ~ In x l -> NoDup (l ++ [x]).
Proof.
  intros ND NI. apply (NoDup_rev (A := dart)) in ND. rewrite <- (rev_involutive (l ++ [x])).
  apply NoDup_rev. rewrite rev_app_distr. cbn. constructor; auto. now rewrite <- in_rev.
Qed.

(** ** Walks between new vertices and the relinking loop *)
Section Walk.
Context {NN : num} (MX : Z).
Notation buf := (vbuf (rvec3 (T NN))).

Lemma find_slot_ok (b : buf) v w i : 0 <= v < MX -> 0 <= i < 3 -> nb b v i = w ->
  (forall j, 0 <= j < 3 -> nb b v j = w -> j = i) -> find_slot NN MX b v w = OK i.
Proof.
  intros Hv Hi E U. unfold find_slot.
  rewrite rd_nb_ok by lia. cbn [bind]. destruct (Z.eqb_spec (nb b v 0) w) as [E0|E0].
  { rewrite (U 0); auto; lia. }
  rewrite rd_nb_ok by lia. cbn [bind]. destruct (Z.eqb_spec (nb b v 1) w) as [E1|E1].
  { rewrite (U 1); auto; lia. }
  rewrite rd_nb_ok by lia. cbn [bind]. destruct (Z.eqb_spec (nb b v 2) w) as [E2|E2].
  { rewrite (U 2); auto; lia. }
  exfalso. destruct (slot3 i Hi) as [->|[->| ->]]; auto.
Qed.
Lemma find_slot_0 (b : buf) v w : 0 <= v < MX -> nb b v 0 = w -> find_slot NN MX b v w = OK 0.
Proof.
  intros Hv E. unfold find_slot. rewrite rd_nb_ok by lia. cbn [bind]. rewrite E, Z.eqb_refl. reflexivity.
Qed.

(** [b'] differs from [b] only in slots 1 and 2 of vertices from [n] on *)
Definition base_eq (n : Z) (b b' : buf) : Prop :=
  ps b' = ps b /\ (forall v i, 0 <= v < n -> nb b' v i = nb b v i)
  /\ (forall e, n <= e -> nb b' e 0 = nb b e 0).

Lemma relink3_spec (b : buf) n N nxt : 0 <= n <= N -> N <= MX ->
  (forall e, n <= e < N -> n <= nxt e < N) ->
  (forall e e', n <= e < N -> n <= e' < N -> nxt e = nxt e' -> e = e') ->
  (forall e b', n <= e < N -> base_eq n b b' ->
      exists c, relink3_walk NN MX b' n (e, nb b' e 0) = OK (nxt e, c)) ->
  exists b', relink3 NN MX n N b = OK b' /\ base_eq n b b'
    /\ forall e, n <= e < N -> nb b' e 2 = nxt e /\ nb b' (nxt e) 1 = e.
Proof.
  intros Hn HN Hr Hi Hw.
  destruct (for_inv (fun s (b' : buf) => base_eq n b b'
     /\ forall e, n <= e < s -> nb b' e 2 = nxt e /\ nb b' (nxt e) 1 = e)
     n N (relink3_body NN MX n) b) as (b' & E & B & H); try lia.
  - split; [split; auto|intros; lia].
  - intros s b1 Hs (B & H). unfold relink3_body. rewrite rd_nb_ok by lia. cbn [bind].
    destruct (Hw s b1 Hs B) as (c & ->). cbn [bind]. pose proof (Hr s Hs).
    rewrite wr_nb_ok by lia. cbn [bind]. rewrite wr_nb_ok by lia.
    eexists. split; [reflexivity|]. cbn [ps nb]. destruct B as (B1 & B2 & B3).
    split; [split; [auto|split]|].
    + intros v i Hv. cbn [nb]. rewrite !set_nb_neq_v by lia. auto.
    + intros e He. cbn [nb]. rewrite !set_nb_neq_p by lia. auto.
    + intros e He. destruct (Z.eq_dec e s) as [->|Ne].
      * split; [rewrite set_nb_neq_p by lia; apply set_nb_eq|apply set_nb_eq].
      * destruct (H e ltac:(lia)) as (H1 & H2). split.
        { rewrite set_nb_neq_p by lia. rewrite set_nb_neq_v by auto. auto. }
        rewrite set_nb_neq_v; [rewrite set_nb_neq_p by lia; auto|].
        intros EE. apply Ne, Hi; auto; lia.
  - exists b'. auto.
Qed.

(** Buffer after insertion, seen from the side [K]: [M x] is the vertex put on the
    crossing dart [x]. *)
Record half (f fb : Z -> Z -> Z) (n N : Z) (K : Z -> bool) (M : dart -> Z) : Prop := {
  h_in : forall d, isd (below n) d -> K (fst d) = true -> K (dtgt f d) = true ->
     fb (fst d) (snd d) = dtgt f d;
  h_new : forall x, cross f n K x -> n <= M x < N /\ fb (fst x) (snd x) = M x /\ fb (M x) 0 = fst x;
  h_inj : forall x y, cross f n K x -> cross f n K y -> M x = M y -> x = y }.

Section H.
Context (f : Z -> Z -> Z) (b : buf) (n N : Z) (K : Z -> bool) (M : dart -> Z).
Hypothesis Hn : 0 <= n <= N.
Hypothesis HN : N <= MX.
Hypothesis L : links f (below n).
Hypothesis Hh : half f (nb b) n N K M.

Lemma half_old v i : below n v -> K v = true -> 0 <= i < 3 ->
  (K (f v i) = true /\ nb b v i = f v i /\ below n (f v i)) \/
  (cross f n K (v, i) /\ nb b v i = M (v, i) /\ n <= M (v, i) < N).
Proof.
  intros Hv Kv Hi. assert (D : isd (below n) (v, i)) by (split; auto).
  destruct (K (f v i)) eqn:E.
  - left. split; auto. split; [apply (h_in _ _ _ _ _ _ Hh (v, i)); auto|apply (l_rng _ _ L); auto].
  - right. assert (X : cross f n K (v, i)) by (split; auto). split; auto.
    pose proof (h_new _ _ _ _ _ _ Hh (v, i) X) as (? & ? & ?). auto.
Qed.

Lemma walk_from b' y : base_eq n b b' -> forall m d fuel, isd (below n) d ->
  y = iter m (fnext f) d -> cross f n K y ->
  (forall j, (j < m)%nat -> K (fst (iter j (fnext f) d)) = true /\ K (dtgt f (iter j (fnext f) d)) = true) ->
  (m < fuel)%nat ->
  exists c, dowhile fuel
    (fun s => let* (vcur, _, vnext) := next_edge NN MX b' (fst s) (snd s) in
              OK ((vcur, vnext), vcur <? n)) (fst d, nb b' (fst d) (snd d)) = OK (M y, c).
Proof.
  intros (B1 & B2 & B3). induction m; intros d fuel Hd Ey Cy HK HF;
    (destruct fuel as [|fuel]; [lia|]); cbn [dowhile].
  - cbn in Ey. subst d. pose proof (h_new _ _ _ _ _ _ Hh y Cy) as (R & E & E0).
    destruct Hd as (Hv & Hi). unfold below in Hv.
    rewrite B2 by lia. rewrite E. unfold next_edge. cbn [fst snd].
    rewrite find_slot_0; [|lia|rewrite B3 by lia; auto]. cbn [bind].
    rewrite rd_nb_ok by (try apply mod3_range; lia). cbn [bind].
    destruct (Z.ltb_spec (M y) n); [lia|]. eauto.
  - destruct (HK O ltac:(lia)) as (Ks & Kt). cbn in Ks, Kt.
    pose proof (isd_opp f (below n) L d Hd) as Ho. pose proof (dtgt_opp f (below n) L d Hd) as T.
    assert (Hs : below n (fst d)) by apply Hd. unfold below in Hs.
    assert (Ht : below n (dtgt f d)) by apply Ho. unfold below in Ht.
    assert (E1 : nb b' (fst d) (snd d) = dtgt f d).
    { rewrite B2 by lia. apply (h_in _ _ _ _ _ _ Hh); auto. }
    rewrite E1. unfold next_edge. cbn [fst snd].
    rewrite (find_slot_ok b' (dtgt f d) (fst d) (snd (dopp f d))); [|lia|apply Ho| |].
    + cbn [bind]. rewrite rd_nb_ok by (try apply mod3_range; lia). cbn [bind].
      destruct (Z.ltb_spec (dtgt f d) n); [|lia].
      apply (IHm (fnext f d) fuel); auto; [apply isd_fnext; auto|now rewrite <- iter_S| |lia].
      intros j Hj. rewrite <- !iter_S. apply HK. lia.
    + rewrite B2 by lia. transitivity (dtgt f (dopp f d)); [|exact T].
      apply (h_in _ _ _ _ _ _ Hh (dopp f d)); auto. rewrite T. auto.
    + intros j Hj E. rewrite B2 in E by lia.
      destruct (half_old (dtgt f d) j Ht Kt Hj) as [(_ & Ej & _)|(_ & Ej & R)]; [|lia].
      rewrite Ej in E. symmetry. apply (slot_eq f (below n) L); auto.
Qed.

Lemma half_walk b' x : base_eq n b b' -> cross f n K x ->
  exists c, relink3_walk NN MX b' n (M x, nb b' (M x) 0) = OK (M (sig f n K x), c).
Proof.
  intros B Hx. pose proof B as (B1 & B2 & B3).
  destruct (h_new _ _ _ _ _ _ Hh x Hx) as (R & E & E0).
  destruct (sig_FC f n K L x Hx) as (k & Hk & Ek & Ck & HK).
  pose proof Hx as ((Hv & Hi) & Kx & Kt). unfold below in Hv.
  unfold relink3_walk. rewrite Nat.add_1_r. cbn [dowhile]. rewrite B3, E0 by lia.
  unfold next_edge at 1. cbn [fst snd].
  rewrite (find_slot_ok b' (fst x) (M x) (snd x)); auto; try lia.
  - cbn [bind]. rewrite rd_nb_ok by (try apply mod3_range; lia). cbn [bind].
    destruct (Z.ltb_spec (fst x) n); [|lia].
    apply (walk_from b' (sig f n K x) B k (drot x)); auto; [|lia].
    apply isd_rot. apply Hx.
  - rewrite B2 by lia. auto.
  - intros j Hj EE. rewrite B2 in EE by lia.
    destruct (half_old (fst x) j Hv Kx Hj) as [(_ & Ej & Bj)|(Cj & Ej & R')]; [unfold below in Bj; lia|].
    rewrite Ej in EE. apply (h_inj _ _ _ _ _ _ Hh) in EE; auto. now rewrite <- EE.
Qed.
End H.

Lemma half_cutg f (b b' : buf) n N K M : 0 <= n <= N -> links f (below n) ->
  half f (nb b) n N K M -> base_eq n b b' ->
  (forall x, cross f n K x -> nb b' (M x) 2 = M (sig f n K x) /\ nb b' (M (sig f n K x)) 1 = M x) ->
  cutg f (nb b') n K M.
Proof.
  intros Hn L Hh (B1 & B2 & B3) HC. constructor.
  - intros d Hd Ks Kt. rewrite B2 by apply Hd. apply (h_in _ _ _ _ _ _ Hh); auto.
  - intros x Hx. destruct (h_new _ _ _ _ _ _ Hh x Hx) as (R & E & E0).
    split; [lia|]. split; [rewrite B2 by apply Hx; auto|rewrite B3 by lia; auto].
  - apply (h_inj _ _ _ _ _ _ Hh).
  - auto.
Qed.
End Walk.

(** ** What one cut achieves on the side [K] *)
Record cut3 {V} (b0 : vbuf V) (n N : Z) (K : Z -> bool) (newpos : dart -> V) (M : dart -> Z)
    (b' : vbuf V) : Prop := {
  cu_n : 0 <= n <= N;
  cu_g : cutg (nb b0) (nb b') n K M;
  cu_ps : forall v, 0 <= v < n -> ps b' v = ps b0 v;
  cu_new : forall x, cross (nb b0) n K x -> M x < N /\ ps b' (M x) = newpos x;
  cu_dom : forall v, n <= v < N -> (K v = true <-> exists x, cross (nb b0) n K x /\ v = M x) }.

Lemma cut3_dom {V} b0 n N K np M (b' : vbuf V) : cut3 b0 n N K np M b' ->
  forall v, Dom' (nb b0) n K M v <-> 0 <= v < N /\ K v = true.
Proof.
  intros C v. pose proof (cu_n _ _ _ _ _ _ _ C) as Hn. split.
  - intros [((Hv & Hv') & Kv)|(x & Hx & ->)]; [split; auto; lia|].
    pose proof (cu_new _ _ _ _ _ _ _ C x Hx) as (R & _).
    pose proof (Cut3.c_new _ _ _ _ _ (cu_g _ _ _ _ _ _ _ C) x Hx) as (R' & _).
    split; [lia|]. apply (cu_dom _ _ _ _ _ _ _ C); eauto; lia.
  - intros (Hv & Kv). destruct (Z.lt_ge_cases v n); [left; split; auto; unfold below; lia|right].
    apply (cu_dom _ _ _ _ _ _ _ C); auto; lia.
Qed.

Lemma cut3_closed {V} b0 n N K np M (b' : vbuf V) : links (nb b0) (below n) ->
  simple_faces (nb b0) (below n) -> cut3 b0 n N K np M b' -> closed_links 3 K N b'.
Proof.
  intros L P C u q Hu HK Hq. apply (cut3_dom _ _ _ _ _ _ _ C).
  pose proof (cu_n _ _ _ _ _ _ _ C).
  apply (l_rng _ _ (cut_links (nb b0) (nb b') n K M ltac:(lia) L P (cu_g _ _ _ _ _ _ _ C))); auto.
  apply (cut3_dom _ _ _ _ _ _ _ C). auto.
Qed.

Lemma compressed_wf3 {V} b0 n N K np M (b' : vbuf V) p : links (nb b0) (below n) ->
  simple_faces (nb b0) (below n) -> cut3 b0 n N K np M b' -> compressed 3 K N b' p -> wf3 p.
Proof.
  intros L P C (En & Hc). pose proof (cu_n _ _ _ _ _ _ _ C).
  pose proof (cut3_dom _ _ _ _ _ _ _ C) as HD.
  pose proof (cut_links (nb b0) (nb b') n K M ltac:(lia) L P (cu_g _ _ _ _ _ _ _ C)) as L'.
  pose proof (cut_simple (nb b0) (nb b') n K M ltac:(lia) L P (cu_g _ _ _ _ _ _ _ C)) as P'.
  assert (Hg : forall u i, Dom' (nb b0) n K M u -> 0 <= i < 3 ->
     nb (vb p) (cnt K u) i = cnt K (nb b' u i)).
  { intros u i Du Hi. apply HD in Du as (Hu & Ku). apply (Hc u Hu Ku). auto. }
  split; [rewrite En; apply cnt_nonneg|]. rewrite En. split.
  - eapply ren_links; eauto; lia.
  - eapply ren_simple; eauto; lia.
Qed.

(** number of bisected edges *)
Lemma ncross_exits3 f n K keep : 0 <= n -> links f (below n) ->
  (forall v, 0 <= v < n -> K v = keep v) ->
  Z.of_nat (length (crosses f n K)) = exits 3 keep f n.
Proof.
  intros Hn L HK. unfold crosses, exits. rewrite darts_list_prod by lia.
  change (Z.to_nat 3) with 3%nat. do 2 f_equal. apply filter_ext_in.
  intros [v i] Hi. rewrite <- (darts_list_prod 3) in Hi by lia. apply in_darts in Hi as (Hv & Hi).
  unfold crossb, dtgt. cbn [fst snd].
  assert (below n (f v i)) by (apply (l_rng _ _ L); auto). unfold below in *. rewrite !HK by auto.
  destruct (keep v), (keep (f v i)); reflexivity.
Qed.

(** ** r3d_clip: inserting vertices *)
Section Clip.
Context (NN : num) (MX : Z).
Notation rv := (rvec3 (T NN)).
Notation buf := (vbuf rv).

Section Ins.
Variables (b0 : buf) (n : Z) (sds : Z -> option (T NN)) (sd : Z -> T NN) (cl : Z -> Z).
Hypothesis Hn : 0 <= n <= MX.
Hypothesis L : links (nb b0) (below n).
Hypothesis P : simple_faces (nb b0) (below n).
Hypothesis Hsd : forall v, 0 <= v < n -> sds v = Some (sd v).
Let f0 := nb b0.
Definition newpos3 (d : dart) : rv :=
  wav3 NN (ps b0 (fst d)) (nopp NN (sd (dtgt (nb b0) d))) (ps b0 (dtgt (nb b0) d)) (sd (fst d)).
Definition keep0 (v : Z) : bool := cl v =? 0.
Notation xs0 := (crosses f0 n keep0).
Definition ncr : Z := Z.of_nat (length xs0).

Lemma rng0 v i : 0 <= v < n -> 0 <= i < 3 -> 0 <= f0 v i < n.
Proof. intros. apply (l_rng _ _ L); auto. Qed.

Definition DescC (xs : list dart) (s : buf * Z * bool) : Prop :=
  let '(b, N, ok) := s in
  N <= MX /\ NoDup xs /\
  if ok : bool then
  N = n + Z.of_nat (length xs)
  /\ (forall d, isd (below n) d -> ~ In d xs -> nb b (fst d) (snd d) = f0 (fst d) (snd d))
  /\ (forall v, 0 <= v < n -> ps b v = ps b0 v)
  /\ (forall k x, nth_error xs k = Some x -> nb b (fst x) (snd x) = n + Z.of_nat k
       /\ nb b (n + Z.of_nat k) 0 = fst x /\ ps b (n + Z.of_nat k) = newpos3 x)
  else MX < n + Z.of_nat (length xs).

Lemma clip3_ins_spec :
  exists b N ok, for_ 0 n (clip3_ins_v NN MX sds cl) (b0, n, true) = OK (b, N, ok)
     /\ DescC xs0 (b, N, ok).
Proof.
  destruct (ins_loop 3 n (fun v => cl v =? 0) (crossb f0 keep0) DescC
    (fun e => False)
    (clip3_ins_v NN MX sds cl) (clip3_ins_np NN MX sds cl) (b0, n, true)) as [([[b N] ok] & E & HD)|(e & E & [])];
    try lia; eauto 6.
  - intros v np Hk. unfold crossb, keep0. cbn [fst snd]. now rewrite Hk.
  - intros v xs s Hv HD. unfold clip3_ins_v. rewrite rd_ok by lia. reflexivity.
  - intros v np xs [[b N] ok] Hv Hnp Hk Hxs (HM & ND & HD).
    assert (Hni : ~ In (v, np) xs).
    { intros Hi. apply Hxs in Hi. cbn in Hi. lia. }
    assert (ND' : NoDup (xs ++ [(v, np)])).
    { apply NoDup_snoc3; auto. }
    assert (Hlen : Z.of_nat (length (xs ++ [(v, np)])) = Z.of_nat (length xs) + 1).
    { rewrite app_length. cbn [length]. lia. }
    assert (Dv : isd (below n) (v, np)) by (split; auto).
    pose proof (rng0 v np Hv Hnp) as Hr.
    unfold crossb, keep0, dtgt. cbn [fst snd]. rewrite Hk. cbn [andb].
    destruct ok; cbn [clip3_ins_np negb].
    2: { destruct (cl (f0 v np) =? 0); cbn [negb]; [|left]; eexists; (split; [reflexivity|]);
         unfold DescC; split; auto; split; auto. lia. }
    destruct HD as (HN & H1 & H2 & H3).
    rewrite rd_nb_ok by lia. cbn [bind].
    pose proof (H1 (v, np) Dv Hni) as Ev. cbn [fst snd] in Ev. rewrite Ev. rewrite rd_ok by lia. cbn [bind].
    destruct (Z.eqb_spec (cl (f0 v np)) 0) as [E0|E0]; cbn [negb].
    { eexists. split; [reflexivity|]. unfold DescC. auto 10. }
    left. destruct (Z.eqb_spec N MX) as [EM|EM].
    { eexists. split; [reflexivity|]. unfold DescC. split; auto. split; auto. lia. }
    rewrite wr_nb_ok by lia. cbn [bind]. rewrite wr_nb_ok by lia. cbn [bind].
    rewrite rd_ps_ok by lia. cbn [bind].
    unfold rdi. rewrite !inb_true by lia. rewrite !Hsd by lia. cbn [bind].
    rewrite rd_ps_ok by lia. cbn [bind]. rewrite wr_ps_ok by lia. cbn [bind].
    eexists. split; [reflexivity|]. unfold DescC. cbn [nb ps].
    split; [lia|]. split; auto. split; [lia|]. split; [|split].
    + intros [u i] (Hu & Hi) NI. cbn [fst snd] in *. unfold below in Hu.
      assert (NE : (u, i) <> (v, np)) by (intros EE; apply NI, in_app_iff; right; left; auto).
      rewrite set_nb_neq by auto. rewrite set_nb_neq_v by lia.
      apply (H1 (u, i)); [split; auto|]. intros X. apply NI, in_app_iff. auto.
    + intros u Hu. rewrite upd_neq by lia. auto.
    + intros k x Ex. destruct (Nat.lt_ge_cases k (length xs)) as [Lk|Lk].
      * rewrite nth_error_app1 in Ex by auto. pose proof (H3 k x Ex) as (A & B & C).
        assert (Ix : In x xs) by (eapply nth_error_In; eauto).
        pose proof (Hxs x Ix) as (Dx & _). destruct x as [u i]. apply in_darts in Dx. cbn [fst snd] in *.
        assert (NE : (u, i) <> (v, np)) by (intros EE; apply Hni; rewrite <- EE; auto).
        rewrite set_nb_neq by auto. rewrite set_nb_neq_v by lia.
        rewrite set_nb_neq_v by lia. rewrite set_nb_neq_v by lia. rewrite upd_neq by lia. auto.
      * assert (k = length xs).
        { assert (k < length (xs ++ [(v, np)]))%nat by (apply nth_error_Some; congruence).
          rewrite app_length in *. cbn [length] in *. lia. }
        subst k. rewrite nth_error_app2, Nat.sub_diag in Ex by lia. cbn in Ex. inversion Ex; subst x.
        cbn [fst snd]. rewrite set_nb_eq. split; [auto|]. rewrite <- HN.
        rewrite set_nb_neq_v by lia. rewrite set_nb_eq. split; auto.
        rewrite upd_eq. unfold newpos3, dtgt. cbn [fst snd]. now rewrite !H2 by lia.
  - unfold DescC. split; [lia|]. split; [constructor|]. cbn [length]. split; [lia|]. split; auto.
    split; auto. intros [|k] x Ex; discriminate.
Qed.

Definition Mc (x : dart) : Z := n + Z.of_nat (didx x xs0).

Lemma descC_half b N : DescC xs0 (b, N, true) ->
  half f0 (nb b) n N keep0 Mc.
Proof.
  intros (HM & ND & HN & H1 & H2 & H3). constructor.
  - intros d Hd Ks Kt. apply H1; auto. intros I. apply in_crosses in I as (_ & _ & X); auto. congruence.
  - intros x Hx. apply in_crosses in Hx as I; auto. pose proof (didx_lt x xs0 I). pose proof (didx_nth x xs0 I) as E.
    destruct (H3 _ _ E) as (A & B & _). unfold Mc. split; [lia|]. auto.
  - intros x y Hx Hy E. apply in_crosses in Hx, Hy; auto. unfold Mc in E. eapply didx_inj; eauto. lia.
Qed.

(** the new vertices are exactly the [Mc x] *)
Lemma Mc_surj e N : N = n + Z.of_nat (length xs0) -> n <= e < N -> exists x, cross f0 n keep0 x /\ e = Mc x.
Proof.
  intros EN He. destruct (nth_error xs0 (Z.to_nat (e - n))) as [x|] eqn:E.
  - exists x. split; [apply in_crosses; auto; eapply nth_error_In; eauto|].
    unfold Mc. rewrite (nth_didx xs0 (Z.to_nat (e - n)) x); auto; [lia|]. apply NoDup_crosses; lia.
  - apply nth_error_None in E. lia.
Qed.

(** r3d.c:82-128 *)
Lemma clip3_cut_spec : (forall v, n <= v -> cl v = 0) ->
  (exists p' b', clip3_cut NN MX b0 n sds cl = OK (p', true)
     /\ n + ncr <= MX /\ cut3 b0 n (n + ncr) keep0 newpos3 Mc b' /\ compressed 3 keep0 (n + ncr) b' p')
  \/ (exists p', clip3_cut NN MX b0 n sds cl = OK (p', false) /\ MX < n + ncr).
Proof.
  intros Hcl. destruct clip3_ins_spec as (b & N & ok & E & HD). unfold clip3_cut. rewrite E. cbn [bind].
  destruct ok; cbn [negb].
  2: { right. destruct HD as (_ & _ & HD). eexists. split; [reflexivity|]. exact HD. }
  left. pose proof (descC_half b N HD) as Hh. pose proof HD as (HM & ND & HN & H1 & H2 & H3).
  assert (EN : N = n + ncr) by exact HN. assert (HnN : 0 <= n <= N) by (unfold ncr in EN; lia).
  assert (SX : forall x, cross f0 n keep0 x -> cross f0 n keep0 (sig f0 n keep0 x)) by (intros; apply sig_cross; auto).
  set (nxt := fun e => Mc (sig f0 n keep0 (nth (Z.to_nat (e - n)) xs0 (0, 0)))).
  assert (NX : forall x, cross f0 n keep0 x -> nxt (Mc x) = Mc (sig f0 n keep0 x)).
  { intros x Hx. unfold nxt, Mc at 2. replace (Z.to_nat _) with (didx x xs0) by lia.
    apply in_crosses in Hx; auto. rewrite (nth_error_nth _ _ _ (didx_nth x xs0 Hx)). reflexivity. }
  destruct (relink3_spec MX b n N nxt) as (b' & E' & B & HC); auto.
  { intros e He. destruct (Mc_surj e N HN He) as (x & Hx & ->). rewrite NX by auto.
    apply (h_new _ _ _ _ _ _ Hh); auto. }
  { intros e e' He He'. destruct (Mc_surj e N HN He) as (x & Hx & ->).
    destruct (Mc_surj e' N HN He') as (y & Hy & ->). rewrite !NX by auto. intros X.
    apply (h_inj _ _ _ _ _ _ Hh) in X; auto. apply sig_inj in X; auto. now subst. }
  { intros e b1 He B1. destruct (Mc_surj e N HN He) as (x & Hx & ->). rewrite NX by auto.
    eapply half_walk; eauto. }
  rewrite E'. cbn [bind].
  assert (C : cut3 b0 n N keep0 newpos3 Mc b').
  { constructor; auto.
    - eapply half_cutg; eauto. intros x Hx. rewrite <- NX by auto.
      apply HC. apply (h_new _ _ _ _ _ _ Hh); auto.
    - intros v Hv. destruct B as (-> & _). auto.
    - intros x Hx. split; [apply (h_new _ _ _ _ _ _ Hh); auto|]. destruct B as (-> & _).
      apply in_crosses in Hx; auto. apply (H3 _ _ (didx_nth x xs0 Hx)).
    - intros v Hv. split; [intros _; apply (Mc_surj v N HN Hv)|]. intros _. unfold keep0.
      rewrite Hcl by lia. reflexivity. }
  destruct (compress_reindex_spec MX 3 b' cl N) as (p' & Ep & Hc); try lia.
  { eapply cut3_closed; eauto. }
  rewrite Ep. cbn [bind]. exists p', b'. rewrite <- EN. auto.
Qed.
End Ins.
End Clip.

Lemma dart_dec (d e : dart) : {d = e} + {d <> e}.
Proof. decide equality; apply Z.eq_dec. Qed.
Lemma cross_ext f n K K' x : links f (below n) -> (forall v, 0 <= v < n -> K v = K' v) ->
  cross f n K x -> cross f n K' x.
Proof.
  intros L H (A & B & C). pose proof (isd_opp f _ L x A) as (D & _). cbn in D.
  split; auto. rewrite <- !H by (apply A || apply D). auto.
Qed.
Lemma cross_neg f n K K' x : links f (below n) -> (forall v, 0 <= v < n -> K v = negb (K' v)) ->
  cross f n K x -> cross f n K' (dopp f x).
Proof.
  intros L H (A & B & C). pose proof (isd_opp f _ L x A) as D.
  split; [exact D|]. rewrite (dtgt_opp f _ L x A). rewrite H in B by apply A.
  rewrite H in C by apply D. apply negb_true_iff in B. apply negb_false_iff in C. auto.
Qed.

(** ** r3d_split and r3d_split_coord: inserting pairs of vertices *)
Section Split.
Context (NN : num) (MX : Z).
Notation rv := (rvec3 (T NN)).
Notation buf := (vbuf rv).
Variables (chk : bool) (b0 : buf) (n : Z) (sds : Z -> option (T NN)) (sd : Z -> T NN) (side0 : Z -> Z).
Hypothesis Hn : 0 <= n <= MX.
Hypothesis L : links (nb b0) (below n).
Hypothesis P : simple_faces (nb b0) (below n).
Hypothesis Hsd : forall v, 0 <= v < n -> sds v = Some (sd v).
Hypothesis Hs01 : forall v, 0 <= v < n -> side0 v = 0 \/ side0 v = 1.
Hypothesis Hs0 : forall v, n <= v -> side0 v = 0.
Let f0 := nb b0.
Notation keep := (keep0 side0).
Notation xs0 := (crosses f0 n keep).
Notation newp := (newpos3 NN b0 sd).
Notation ncs := (Z.of_nat (length xs0)).

Definition DescS (xs : list dart) (s : buf * (Z -> Z) * Z * bool) : Prop :=
  let '(b, side, N, ok) := s in
  N <= MX /\ NoDup xs /\ (forall v, 0 <= v < n -> side v = side0 v) /\
  if ok : bool then
  N = n + 2 * Z.of_nat (length xs)
  /\ (forall d, isd (below n) d -> ~ In d xs -> ~ In (dopp f0 d) xs -> nb b (fst d) (snd d) = f0 (fst d) (snd d))
  /\ (forall v, 0 <= v < n -> ps b v = ps b0 v)
  /\ (forall v, N <= v -> side v = 0)
  /\ (forall k x, nth_error xs k = Some x -> let m := n + 2 * Z.of_nat k in
       (nb b (fst x) (snd x) = m /\ nb b m 0 = fst x /\ ps b m = newp x /\ side m = 0)
       /\ (nb b (dtgt f0 x) (snd (dopp f0 x)) = m + 1 /\ nb b (m + 1) 0 = dtgt f0 x
           /\ ps b (m + 1) = newp x /\ side (m + 1) = 1))
  else chk = true /\ MX < n + 2 * Z.of_nat (length xs).

Lemma split3_ins_spec :
  (exists b side N ok, for_ 0 n (split3_ins_v NN MX chk sds) (b0, side0, n, true) = OK (b, side, N, ok)
     /\ DescS xs0 (b, side, N, ok))
  \/ (for_ 0 n (split3_ins_v NN MX chk sds) (b0, side0, n, true) = Err OutOfBounds
      /\ chk = false /\ MX < n + 2 * ncs).
Proof.
  destruct (ins_loop 3 n (fun v => side0 v =? 0) (crossb f0 keep) DescS
    (fun e => e = OutOfBounds /\ chk = false /\ MX < n + 2 * ncs)
    (split3_ins_v NN MX chk sds) (split3_ins_np NN MX chk sds) (b0, side0, n, true))
    as [([[[b side] N] ok] & E & HD)|(e & E & -> & HQ)]; try lia.
  - intros v np Hk. unfold crossb, keep0. cbn [fst snd]. now rewrite Hk.
  - intros v xs [[[b side] N] ok] Hv HD. unfold split3_ins_v. rewrite rd_ok by lia. cbn [bind].
    destruct HD as (_ & _ & H & _). rewrite H by lia. reflexivity.
  - intros v np xs [[[b side] N] ok] Hv Hnp Hk Hxs (HM & ND & HS & HD).
    assert (Hni : ~ In (v, np) xs).
    { intros Hi. apply Hxs in Hi. cbn in Hi. lia. }
    assert (ND' : NoDup (xs ++ [(v, np)])) by (apply NoDup_snoc3; auto).
    assert (Hlen : Z.of_nat (length (xs ++ [(v, np)])) = Z.of_nat (length xs) + 1).
    { rewrite app_length. cbn [length]. lia. }
    assert (Dv : isd (below n) (v, np)) by (split; auto).
    pose proof (isd_opp f0 _ L _ Dv) as Do.
    assert (Hr : 0 <= f0 v np < n) by (apply Do).
    assert (XK : forall d, In d xs -> isd (below n) d /\ side0 (fst d) = 0 /\ side0 (dtgt f0 d) <> 0).
    { intros d Hd. destruct (Hxs d Hd) as (I & C & _). destruct d as [u i]. apply in_darts in I.
      split; [split; apply I|]. unfold crossb, keep0 in C. cbn [fst snd] in C.
      apply andb_true_iff in C as (C1 & C2). apply negb_true_iff in C2.
      apply Z.eqb_eq in C1. apply Z.eqb_neq in C2. auto. }
    assert (EC : crossb f0 keep (v, np) = negb (side0 (f0 v np) =? 0)).
    { unfold crossb, keep0, dtgt. cbn [fst snd]. now rewrite Hk. }
    rewrite EC. clear EC. destruct ok; cbn [split3_ins_np negb].
    2: { destruct (side0 (f0 v np) =? 0); cbn [negb]; [|left]; eexists; (split; [reflexivity|]);
         unfold DescS; split; auto; split; auto; split; auto. destruct HD; split; auto. lia. }
    destruct HD as (HN & H1 & H2 & H4 & H3).
    rewrite rd_nb_ok by lia. cbn [bind].
    destruct (Z.eqb_spec (side0 (f0 v np)) 0) as [E0|E0]; cbn [negb].
    { assert (NO : ~ In (dopp f0 (v, np)) xs).
      { intros I. destruct (XK _ I) as (_ & _ & X). rewrite (dtgt_opp f0 _ L _ Dv) in X.
        cbn in X. apply Z.eqb_eq in Hk. auto. }
      pose proof (H1 (v, np) Dv Hni NO) as Ev. cbn [fst snd] in Ev. rewrite Ev. rewrite rd_ok by lia.
      cbn [bind]. rewrite HS by lia. rewrite E0. cbn [Z.eqb].
      eexists. split; [reflexivity|]. unfold DescS. auto 12. }
    assert (Cx : cross f0 n keep (v, np)).
    { split; [exact Dv|]. unfold keep0. cbn [fst]. split; auto. now apply Z.eqb_neq. }
    assert (NI : ~ In (dopp f0 (v, np)) xs).
    { intros I. destruct (XK _ I) as (_ & X & _). cbn in X. auto. }
    pose proof (H1 (v, np) Dv Hni NI) as Ev. cbn [fst snd] in Ev. rewrite Ev. rewrite rd_ok by lia.
    cbn [bind]. rewrite HS by lia. destruct (Z.eqb_spec (side0 (f0 v np)) 0); [congruence|].
    rewrite rd_ps_ok by lia. cbn [bind].
    unfold rdi. rewrite !inb_true by lia. rewrite !Hsd by lia. cbn [bind].
    rewrite rd_ps_ok by lia. cbn [bind].
    assert (EP : wav3 NN (ps b v) (nopp NN (sd (f0 v np))) (ps b (f0 v np)) (sd v) = newp (v, np)).
    { unfold newpos3, dtgt. cbn [fst snd]. now rewrite !H2 by lia. }
    rewrite EP. clear EP.
    assert (XLEN : Z.of_nat (length xs) + 1 <= ncs).
    { rewrite <- Hlen. apply inj_le. apply NoDup_incl_length; auto.
      intros d Hd. apply in_app_iff in Hd as [Hd|[<-|[]]].
      - unfold crosses. apply filter_In. split; [apply Hxs; auto|]. apply Hxs; auto.
      - apply in_crosses; auto. }
    destruct (Z.eqb_spec N MX) as [EM|EM].
    { destruct chk eqn:CK; cbn [andb].
      - left. eexists. split; [reflexivity|]. unfold DescS. split; [auto|]. split; auto. split; auto. split; auto. lia.
      - right. eexists. rewrite wr_ps_oob by lia. split; [reflexivity|]. split; auto. split; auto. lia. }
    rewrite andb_false_r.
    rewrite wr_ps_ok by lia. cbn [bind]. rewrite wr_nb_ok by lia. cbn [bind].
    rewrite wr_nb_ok by lia. cbn [bind].
    destruct (Z.eqb_spec (N + 1) MX) as [EM1|EM1].
    { destruct chk eqn:CK; cbn [andb].
      - left. eexists. split; [reflexivity|]. unfold DescS. split; [lia|]. split; auto. split; auto. split; auto. lia.
      - right. eexists. rewrite wr_ps_oob by lia. split; [reflexivity|]. split; auto. split; auto. lia. }
    rewrite andb_false_r.
    rewrite wr_ps_ok by lia. cbn [bind]. rewrite wr_ok by lia. cbn [bind]. rewrite wr_nb_ok by lia. cbn [bind nb ps].
    set (w := f0 v np) in *. set (q := snd (dopp f0 (v, np))) in *.
    assert (Hq : 0 <= q < 3) by apply Do.
    assert (Hwv : w <> v) by (apply (l_self _ _ L); auto).
    assert (Dwq : dopp f0 (v, np) = (w, q)) by reflexivity.
    assert (Ewq : f0 w q = v).
    { pose proof (dtgt_opp f0 _ L _ Dv) as T. rewrite Dwq in T. exact T. }
    assert (OW : forall j, 0 <= j < 3 -> nb b w j = v -> j = q).
    { intros j Hj EE. assert (Dw : isd (below n) (w, j)) by (split; auto).
      destruct (in_dec dart_dec (dopp f0 (w, j)) xs) as [I|I].
      - destruct (In_nth_error _ _ I) as (k & Ek). destruct (H3 k _ Ek) as (_ & X & _).
        rewrite (dtgt_opp f0 _ L _ Dw), (opp_opp f0 _ L _ Dw) in X. cbn [dsrc fst snd] in X. lia.
      - assert (X : ~ In (w, j) xs) by (intros X; apply XK in X as (_ & X & _); cbn in X; auto).
        pose proof (H1 (w, j) Dw X I) as Y. cbn [fst snd] in Y. rewrite Y, <- Ewq in EE.
        apply (l_dist _ _ L w); auto. }
    assert (EQ : nb b w q = v).
    { transitivity (f0 w q); [|exact Ewq]. rewrite Dwq in NI, Do.
      apply (H1 (w, q)); auto. rewrite <- Dwq. rewrite (opp_opp f0 _ L _ Dv). auto. }
    rewrite (find_slot_ok MX _ w v q); cbn [nb]; [|lia|auto| |].
    2: { rewrite set_nb_neq_v by lia. rewrite set_nb_neq_v by lia. rewrite set_nb_neq_v by lia. auto. }
    2: { intros j Hj. rewrite set_nb_neq_v by lia. rewrite set_nb_neq_v by lia. rewrite set_nb_neq_v by lia. auto. }
    cbn [bind]. rewrite wr_nb_ok by lia. cbn [bind nb ps]. left.
    eexists. split; [reflexivity|]. unfold DescS. cbn [nb ps].
    split; [lia|]. split; auto. split; [intros; rewrite upd_neq by lia; auto|]. split; [lia|].
    split; [|split; [|split]].
    + intros [u i] Du N1 N2. cbn [fst snd] in *. pose proof Du as (Hu & Hi). cbn [fst snd] in *. unfold below in Hu.
      assert (NE : (u, i) <> (v, np)) by (intros EE; apply N1, in_app_iff; right; left; auto).
      assert (NE2 : (u, i) <> (w, q)).
      { intros EE. apply N2, in_app_iff. right. left. rewrite EE, <- Dwq. now rewrite (opp_opp f0 _ L _ Dv). }
      rewrite set_nb_neq by auto. rewrite set_nb_neq_v by lia. rewrite set_nb_neq by auto.
      rewrite set_nb_neq_v by lia.
      apply (H1 (u, i)); auto; intros X; [apply N1|apply N2]; apply in_app_iff; auto.
    + intros u Hu. rewrite !upd_neq by lia. auto.
    + intros u Hu. rewrite upd_neq by lia. apply H4. lia.
    + intros k x Ex. cbv zeta. destruct (Nat.lt_ge_cases k (length xs)) as [Lk|Lk].
      * rewrite nth_error_app1 in Ex by auto.
        pose proof (H3 k x Ex) as ((A & B & C & D) & (A' & B' & C' & D')).
        assert (Ix : In x xs) by (eapply nth_error_In; eauto).
        pose proof (XK x Ix) as (Dx & K1 & K2). pose proof (isd_opp f0 _ L _ Dx) as Dox.
        assert (Hx1 : 0 <= fst x < n) by apply Dx. assert (Hx2 : 0 <= dtgt f0 x < n) by apply Dox.
        assert (NE : x <> (v, np)) by (intros EE; apply Hni; rewrite <- EE; auto).
        assert (NE2 : x <> (w, q)) by (intros EE; subst x; cbn in K1; auto).
        assert (NE3 : dopp f0 x <> (w, q)).
        { rewrite <- Dwq. intros EE. apply (opp_inj f0 _ L) in EE; auto. }
        assert (NE4 : dopp f0 x <> (v, np)).
        { intros EE. apply Z.eqb_eq in Hk. apply K2. change (dtgt f0 x) with (fst (dopp f0 x)). rewrite EE. auto. }
        assert (X1 : forall u i, (u, i) <> (v, np) -> (u, i) <> (w, q) -> 0 <= u < n ->
          set_nb (set_nb (set_nb (set_nb (nb b) N 0 v) v np N) (N + 1) 0 w) w q (N + 1) u i = nb b u i).
        { intros u i U1 U2 U3. rewrite set_nb_neq by auto. rewrite set_nb_neq_v by lia.
          rewrite set_nb_neq by auto. rewrite set_nb_neq_v by lia. auto. }
        assert (X2 : forall u i, n <= u < N ->
          set_nb (set_nb (set_nb (set_nb (nb b) N 0 v) v np N) (N + 1) 0 w) w q (N + 1) u i = nb b u i).
        { intros u i U. rewrite !set_nb_neq_v by lia. auto. }
        split.
        { rewrite X1 by (auto; rewrite <- surjective_pairing; auto).
          rewrite X2 by lia. rewrite !upd_neq by lia. auto. }
        { rewrite X1; auto. rewrite X2 by lia. rewrite !upd_neq by lia. auto. }
      * assert (k = length xs).
        { assert (k < length (xs ++ [(v, np)]))%nat by (apply nth_error_Some; congruence).
          rewrite app_length in *. cbn [length] in *. lia. }
        subst k. rewrite nth_error_app2, Nat.sub_diag in Ex by lia. cbn in Ex. inversion Ex; subst x.
        rewrite <- HN. rewrite Dwq. cbn [fst snd]. change (dtgt f0 (v, np)) with w. split.
        { split; [|split; [|split]].
          - rewrite set_nb_neq_v by lia. rewrite set_nb_neq_v by lia. apply set_nb_eq.
          - rewrite set_nb_neq_v by lia. rewrite set_nb_neq_v by lia. rewrite set_nb_neq_v by lia. apply set_nb_eq.
          - rewrite upd_neq by lia. apply upd_eq.
          - rewrite upd_neq by lia. apply H4. lia. }
        { split; [apply set_nb_eq|split; [|split]].
          - rewrite set_nb_neq_v by lia. apply set_nb_eq.
          - apply upd_eq.
          - apply upd_eq. }
  - unfold DescS. split; [lia|]. split; [constructor|]. split; auto. cbn [length]. split; [lia|]. split; auto.
    split; auto. split; auto. intros [|k] x Ex; discriminate.
  - left. exists b, side, N, ok. auto.
  - right. auto.
Qed.

Definition Ma (x : dart) : Z := n + 2 * Z.of_nat (didx x xs0).
Definition Mb (y : dart) : Z := n + 2 * Z.of_nat (didx (dopp f0 y) xs0) + 1.
Definition newpos3' (y : dart) : rv := newp (dopp (nb b0) y).

(** both sides of the cut after relinking *)
Lemma split3_relink_spec b side N : DescS xs0 (b, side, N, true) ->
  exists b', relink3 NN MX n N b = OK b'
   /\ N = n + 2 * ncs
   /\ (forall v, 0 <= v < N -> side v = 0 \/ side v = 1)
   /\ (forall v, 0 <= v < n -> side v = side0 v)
   /\ cut3 b0 n N (K0 side) newp Ma b'
   /\ cut3 b0 n N (K1 side) newpos3' Mb b'.
Proof.
  intros (HM & ND & HS & HN & H1 & H2 & H4 & H3). pose proof Hn as (Hn0 & HnM).
  assert (HnN : 0 <= n <= N) by lia.
  assert (EA : forall v, 0 <= v < n -> K0 side v = keep v) by (intros v Hv; unfold K0, keep0; now rewrite HS).
  assert (EB : forall v, 0 <= v < n -> K1 side v = negb (keep v)).
  { intros v Hv. unfold K1, keep0. rewrite HS by auto. destruct (Hs01 v Hv) as [-> | ->]; reflexivity. }
  assert (CA : forall x, cross f0 n (K0 side) x <-> In x xs0).
  { intros x. rewrite in_crosses by auto. split; apply cross_ext; auto. intros; symmetry; auto. }
  assert (CB : forall y, cross f0 n (K1 side) y <-> isd (below n) y /\ In (dopp f0 y) xs0).
  { intros y. rewrite in_crosses by auto. split.
    - intros Hy. split; [apply Hy|]. eapply cross_neg; eauto.
    - intros (Dy & Hy). rewrite <- (opp_opp f0 _ L y Dy). eapply cross_neg; eauto.
      intros v Hv. rewrite EB by auto. now rewrite negb_involutive. }
  assert (FA : forall x, In x xs0 -> n <= Ma x < N /\ nb b (fst x) (snd x) = Ma x /\ nb b (Ma x) 0 = fst x
     /\ ps b (Ma x) = newp x /\ side (Ma x) = 0).
  { intros x Hx. pose proof (didx_lt x _ Hx). destruct (H3 _ _ (didx_nth x _ Hx)) as ((A & B & C & D) & _).
    unfold Ma. split; [lia|]. auto. }
  assert (FB : forall y, isd (below n) y -> In (dopp f0 y) xs0 ->
     n <= Mb y < N /\ nb b (fst y) (snd y) = Mb y /\ nb b (Mb y) 0 = fst y
     /\ ps b (Mb y) = newp (dopp f0 y) /\ side (Mb y) = 1).
  { intros y Dy Hy. pose proof (didx_lt _ _ Hy). destruct (H3 _ _ (didx_nth _ _ Hy)) as (_ & (A & B & C & D)).
    rewrite (dtgt_opp f0 _ L y Dy), (opp_opp f0 _ L y Dy) in *. unfold Mb. split; [lia|]. auto. }
  assert (HA : half f0 (nb b) n N (K0 side) Ma).
  { constructor.
    - intros d Hd Ks Kt. pose proof (isd_opp f0 _ L d Hd) as Do. apply H1; auto.
      + intros I. apply CA in I. destruct I as (_ & _ & X). congruence.
      + intros I. apply CA in I. destruct I as (_ & _ & X).
        rewrite (dtgt_opp f0 _ L d Hd) in X. unfold dsrc in X. congruence.
    - intros x Hx. apply CA in Hx. destruct (FA x Hx) as (? & ? & ? & _). auto.
    - intros x y Hx Hy E. apply CA in Hx, Hy. unfold Ma in E. eapply didx_inj; eauto. lia. }
  assert (HB : half f0 (nb b) n N (K1 side) Mb).
  { constructor.
    - intros d Hd Ks Kt. pose proof (isd_opp f0 _ L d Hd) as Do. apply H1; auto.
      + intros I. apply in_crosses in I as (_ & X & _); auto. rewrite EB in Ks by apply Hd.
        rewrite X in Ks. discriminate.
      + intros I. apply in_crosses in I as (_ & X & _); auto. rewrite EB in Kt by apply Do.
        cbn [fst Spec3.dopp] in X. rewrite X in Kt. discriminate.
    - intros y Hy. apply CB in Hy as (Dy & Hy). destruct (FB y Dy Hy) as (? & ? & ? & _). auto.
    - intros x y Hx Hy E. apply CB in Hx as (Dx & Hx), Hy as (Dy & Hy). unfold Mb in E.
      apply (opp_inj f0 _ L); auto. eapply didx_inj; eauto. lia. }
  assert (SURJ : forall e, n <= e < N -> (exists x, cross f0 n (K0 side) x /\ e = Ma x)
     \/ (exists y, cross f0 n (K1 side) y /\ e = Mb y)).
  { intros e He. destruct (nth_error xs0 (Z.to_nat ((e - n) / 2))) as [x|] eqn:E.
    - pose proof (nth_error_In _ _ E) as I. pose proof (nth_didx _ _ _ ND E) as EI.
      assert (Dx : isd (below n) x) by (apply in_crosses in I; auto; apply I).
      pose proof (Z.div_mod (e - n) 2 ltac:(lia)). pose proof (Z.mod_pos_bound (e - n) 2 ltac:(lia)).
      pose proof (Z.div_pos (e - n) 2 ltac:(lia) ltac:(lia)).
      destruct (Z.eq_dec ((e - n) mod 2) 0).
      + left. exists x. split; [now apply CA|]. unfold Ma. rewrite EI. lia.
      + right. exists (dopp f0 x). split.
        * apply CB. split; [apply isd_opp; auto|]. now rewrite (opp_opp f0 _ L x Dx).
        * unfold Mb. rewrite (opp_opp f0 _ L x Dx), EI. lia.
    - apply nth_error_None in E. exfalso.
      pose proof (Z.div_lt_upper_bound (e - n) 2 ncs ltac:(lia) ltac:(lia)). lia. }
  set (ix := fun e => nth (Z.to_nat ((e - n) / 2)) xs0 (0, 0)).
  set (nxt := fun e => if side e =? 0 then Ma (sig f0 n (K0 side) (ix e))
                       else Mb (sig f0 n (K1 side) (dopp f0 (ix e)))).
  assert (NA : forall x, cross f0 n (K0 side) x -> nxt (Ma x) = Ma (sig f0 n (K0 side) x)).
  { intros x Hx. apply CA in Hx. destruct (FA x Hx) as (_ & _ & _ & _ & S). unfold nxt. rewrite S. cbn [Z.eqb].
    do 2 f_equal. unfold ix, Ma. replace ((n + 2 * Z.of_nat (didx x xs0) - n) / 2) with (Z.of_nat (didx x xs0)).
    - rewrite Nat2Z.id. apply nth_error_nth, didx_nth; auto.
    - replace (n + 2 * Z.of_nat (didx x xs0) - n) with (Z.of_nat (didx x xs0) * 2) by lia. now rewrite Z.div_mul. }
  assert (NB : forall y, cross f0 n (K1 side) y -> nxt (Mb y) = Mb (sig f0 n (K1 side) y)).
  { intros y Hy. apply CB in Hy as (Dy & Hy). destruct (FB y Dy Hy) as (_ & _ & _ & _ & S). unfold nxt. rewrite S.
    cbn [Z.eqb]. do 2 f_equal. unfold ix, Mb.
    replace ((n + 2 * Z.of_nat (didx (dopp f0 y) xs0) + 1 - n) / 2) with (Z.of_nat (didx (dopp f0 y) xs0)).
    - rewrite Nat2Z.id. rewrite (nth_error_nth _ _ _ (didx_nth _ _ Hy)). apply (opp_opp f0 _ L y Dy).
    - apply Z.div_unique with 1; lia. }
  assert (SA : forall x, cross f0 n (K0 side) x -> cross f0 n (K0 side) (sig f0 n (K0 side) x)) by (intros; apply sig_cross; auto).
  assert (SB : forall x, cross f0 n (K1 side) x -> cross f0 n (K1 side) (sig f0 n (K1 side) x)) by (intros; apply sig_cross; auto).
  assert (SdA : forall x, cross f0 n (K0 side) x -> side (Ma x) = 0) by (intros x Hx; apply FA, CA; auto).
  assert (SdB : forall x, cross f0 n (K1 side) x -> side (Mb x) = 1) by (intros x Hx; apply CB in Hx as (? & ?); apply FB; auto).
  destruct (relink3_spec MX b n N nxt) as (b' & E' & B & HC); auto.
  { intros e He. destruct (SURJ e He) as [(x & Hx & ->)|(x & Hx & ->)]; [rewrite NA by auto|rewrite NB by auto].
    - apply (h_new _ _ _ _ _ _ HA); auto.
    - apply (h_new _ _ _ _ _ _ HB); auto. }
  { intros e e' He He' EE.
    destruct (SURJ e He) as [(x & Hx & ->)|(x & Hx & ->)], (SURJ e' He') as [(y & Hy & ->)|(y & Hy & ->)];
      rewrite ?NA, ?NB in EE by auto.
    - apply (h_inj _ _ _ _ _ _ HA) in EE; auto. apply sig_inj in EE; auto. now subst.
    - pose proof (SdA _ (SA _ Hx)). pose proof (SdB _ (SB _ Hy)). rewrite EE in *. lia.
    - pose proof (SdB _ (SB _ Hx)). pose proof (SdA _ (SA _ Hy)). rewrite EE in *. lia.
    - apply (h_inj _ _ _ _ _ _ HB) in EE; auto. apply sig_inj in EE; auto. now subst. }
  { intros e b1 He B1. destruct (SURJ e He) as [(x & Hx & ->)|(x & Hx & ->)].
    - rewrite NA by auto. eapply half_walk; eauto.
    - rewrite NB by auto. eapply half_walk; eauto. }
  exists b'. split; auto. split; auto. split; [|split; [auto|split]].
  - intros v Hv. destruct (Z.lt_ge_cases v n).
    + rewrite HS by lia. apply Hs01. lia.
    + destruct (SURJ v ltac:(lia)) as [(x & Hx & ->)|(x & Hx & ->)]; auto.
  - constructor; auto.
    + eapply half_cutg; eauto. intros x Hx. rewrite <- NA by auto. apply HC. apply (h_new _ _ _ _ _ _ HA); auto.
    + intros v Hv. destruct B as (-> & _). auto.
    + intros x Hx. split; [apply (h_new _ _ _ _ _ _ HA); auto|]. destruct B as (-> & _). apply FA, CA; auto.
    + intros v Hv. split.
      * intros Kv. destruct (SURJ v Hv) as [?|(y & Hy & ->)]; auto. unfold K0 in Kv. rewrite SdB in Kv by auto. discriminate.
      * intros (x & Hx & ->). unfold K0. rewrite SdA by auto. reflexivity.
  - constructor; auto.
    + eapply half_cutg; eauto. intros x Hx. rewrite <- NB by auto. apply HC. apply (h_new _ _ _ _ _ _ HB); auto.
    + intros v Hv. destruct B as (-> & _). auto.
    + intros x Hx. split; [apply (h_new _ _ _ _ _ _ HB); auto|]. destruct B as (-> & _).
      apply CB in Hx as (? & ?). apply FB; auto.
    + intros v Hv. split.
      * intros Kv. destruct (SURJ v Hv) as [(y & Hy & ->)|?]; auto. unfold K1 in Kv. rewrite SdA in Kv by auto. discriminate.
      * intros (x & Hx & ->). unfold K1. rewrite SdB by auto. reflexivity.
Qed.
End Split.
