(** * InitP3: [r3d_init_poly], the general case: the duplicates and their links. *)
From Coq Require Import ZArith List Bool Lia Permutation.
From Verif Require Import Base Lib ModelCommon CommonFacts Model3 ModelB Spec3 SpecB InitP InitP2 Face3.
Import ListNotations.
Open Scope Z_scope.

(** a loop whose steps keep an invariant, never undo what is done, and each do their part *)
Lemma for_prog {S} (I : S -> Prop) (ext : S -> S -> Prop) (G : Z -> S -> Prop) lo hi (body : Z -> S -> res S) s :
  (forall s, ext s s) -> (forall a b c, ext a b -> ext b c -> ext a c) ->
  (forall i a b, G i a -> ext a b -> G i b) ->
  lo <= hi -> I s -> (forall i s, lo <= i < hi -> I s -> exists s', body i s = OK s' /\ I s' /\ ext s s' /\ G i s') ->
  exists s', for_ lo hi body s = OK s' /\ I s' /\ ext s s' /\ forall i, lo <= i < hi -> G i s'.
Proof.
  intros Er Et EG Hl HI Hs.
  destruct (for_inv (fun k s' => I s' /\ ext s s' /\ forall i, lo <= i < k -> G i s') lo hi body s) as (s' & E & H); auto.
  - split; auto. split; auto. lia.
  - intros k a Hk (I1 & I2 & I3). destruct (Hs k a Hk I1) as (b & E & J1 & J2 & J3). exists b. split; auto. split; auto.
    split; [eauto|]. intros i Hi. destruct (Z.eq_dec i k) as [->|]; auto. apply (EG i a); auto. apply I3. lia.
  - exists s'. auto.
Qed.

Lemma rdi_ok {A} sz (a : Z -> option A) i x : 0 <= i < sz -> a i = Some x -> rdi sz a i = OK x.
Proof. intros H E. unfold rdi. rewrite inb_true, E by auto. auto. Qed.

Section Desc.
Context (nf : Z) (nvf : Z -> Z) (fi : Z -> Z -> Z).
Notation corner := (corner nf nvf).
Notation corners := (corners nf nvf).
Notation vat := (vat fi).
Notation csucc := (csucc nvf).
Notation cpred := (cpred nvf).
Notation vdeg := (vdeg nf nvf fi).
Context (n : Z) (CS : closed_surface nf nvf fi n).

(** ** the corner across an edge, and turning about a vertex *)
Definition copp (c : Z * Z) : Z * Z :=
  match find (fun d => (vat d =? vat (csucc c)) && (vat (csucc d) =? vat c)) corners with Some d => d | None => c end.
Definition rs (c : Z * Z) : Z * Z := copp (cpred c).
Definition rsi (c : Z * Z) : Z * Z := csucc (copp c).
Lemma copp_spec c : corner c -> corner (copp c) /\ vat (copp c) = vat (csucc c) /\ vat (csucc (copp c)) = vat c.
Proof.
  intros Hc. unfold copp. destruct (find _ _) as [d|] eqn:E.
  - apply find_some in E as (E1 & E2). apply andb_true_iff in E2 as (E2 & E3). apply Z.eqb_eq in E2, E3. apply in_corners in E1. auto.
  - exfalso. destruct (cs_back _ _ _ _ CS c Hc) as (d & Hd & E1 & E2). apply in_corners in Hd.
    apply (find_none _ _ E) in Hd. rewrite E1, E2, !Z.eqb_refl in Hd. discriminate.
Qed.
Lemma copp_corner c : corner c -> corner (copp c). Proof. apply copp_spec. Qed.
Lemma copp_vat c : corner c -> vat (copp c) = vat (csucc c). Proof. apply copp_spec. Qed.
Lemma copp_vats c : corner c -> vat (csucc (copp c)) = vat c. Proof. apply copp_spec. Qed.
Lemma copp_uniq c d : corner c -> corner d -> vat d = vat (csucc c) -> vat (csucc d) = vat c -> d = copp c.
Proof.
  intros Hc Hd E1 E2. apply (cs_once _ _ _ _ CS); auto using copp_corner.
  - rewrite copp_vat; auto.
  - rewrite copp_vats; auto.
Qed.
Lemma copp_copp c : corner c -> copp (copp c) = c.
Proof.
  intros Hc. symmetry. apply copp_uniq; auto using copp_corner.
  - rewrite copp_vats; auto.
  - rewrite copp_vat; auto.
Qed.
Lemma copp_ne c : corner c -> vat (copp c) <> vat c.
Proof. intros Hc. rewrite copp_vat by auto. intros E. apply (cs_loop _ _ _ _ CS c Hc). auto. Qed.
Lemma rs_corner c : corner c -> corner (rs c). Proof. intros. apply copp_corner, cpred_corner. auto. Qed.
Lemma rsi_corner c : corner c -> corner (rsi c). Proof. intros. apply csucc_corner, copp_corner. auto. Qed.
Lemma rs_vat c : corner c -> vat (rs c) = vat c.
Proof. intros H. unfold rs. rewrite copp_vat by auto using cpred_corner. now rewrite (csucc_cpred nf). Qed.
Lemma rsi_vat c : corner c -> vat (rsi c) = vat c.
Proof. intros H. apply copp_vats. auto. Qed.
Lemma rs_rsi c : corner c -> rs (rsi c) = c.
Proof. intros H. unfold rs, rsi. rewrite (cpred_csucc nf), copp_copp; auto using copp_corner. Qed.
Lemma rsi_rs c : corner c -> rsi (rs c) = c.
Proof. intros H. unfold rs, rsi. rewrite copp_copp by auto using cpred_corner. now rewrite (csucc_cpred nf). Qed.
Lemma rs_uniq c d : corner c -> corner d -> vat d = vat c -> vat (csucc d) = vat (cpred c) -> d = rs c.
Proof.
  intros Hc Hd E1 E2. apply copp_uniq; auto using cpred_corner. rewrite (csucc_cpred nf); auto.
Qed.
Lemma rs_vats c : corner c -> vat (csucc (rs c)) = vat (cpred c).
Proof. intros H. unfold rs. apply copp_vats, cpred_corner. auto. Qed.

(** ** numbering the duplicates *)
Notation st := (st vdeg).
Lemma succ_count v : Z.of_nat (length (filter (fun c => vat (csucc c) =? v) corners)) = vdeg v.
Proof.
  assert (P : Permutation (map csucc corners) corners).
  { apply NoDup_Permutation.
    - apply NoDup_map_inj; [|apply NoDup_corners]. intros a b Ha Hb E. apply in_corners in Ha, Hb.
      rewrite <- (cpred_csucc nf nvf a), <- (cpred_csucc nf nvf b), E; auto.
    - apply NoDup_corners.
    - intros c. rewrite in_map_iff, in_corners. split.
      + intros (d & <- & Hd). apply in_corners in Hd. apply csucc_corner. auto.
      + intros Hc. exists (cpred c). rewrite in_corners. split; [apply (csucc_cpred nf); auto|apply cpred_corner; auto]. }
  unfold vdeg. f_equal.
  assert (G : forall l, length (filter (fun c => vat (csucc c) =? v) l) = length (filter (fun c => vat c =? v) (map csucc l))).
  { induction l as [|x l IH]; cbn; auto. destruct (_ =? _); cbn; auto. }
  rewrite G. assert (Q : forall l l', Permutation l l' -> length (filter (fun c => vat c =? v) l) = length (filter (fun c => vat c =? v) l')).
  { induction 1; cbn; auto.
    - destruct (vat x =? v); cbn; auto.
    - destruct (vat x =? v), (vat y =? v); cbn; auto.
    - congruence. }
  apply Q, P.
Qed.
Record numbering (D : Z * Z -> Z) : Prop := {
  nu_rng : forall c, corner c -> st (vat c) <= D c < st (vat c + 1);
  nu_inj : forall c d, corner c -> corner d -> D c = D d -> c = d;
  nu_surj : forall v j, 0 <= v < n -> st v <= j < st (v + 1) -> exists c, corner c /\ vat c = v /\ D c = j }.
Lemma st_u u v : 0 <= u < v -> v <= n -> st (u + 1) <= st v.
Proof. intros. apply (st_mono vdeg n); try lia. intros. apply vdeg_nonneg. Qed.
Lemma st_pos v : 0 <= v <= n -> 0 <= st v.
Proof. intros. apply (st_nonneg vdeg n); auto. intros. apply vdeg_nonneg. Qed.

Lemma block u v j : 0 <= u < n -> 0 <= v < n -> st u <= j < st (u + 1) -> st v <= j < st (v + 1) -> u = v.
Proof.
  intros Hu Hv H1 H2. destruct (Z.lt_trichotomy u v) as [L|[L|L]]; auto.
  - pose proof (st_u u v). lia.
  - pose proof (st_u v u). lia.
Qed.

Context {V : Type} (MX : Z) (HN : 0 <= n <= MX) (HF : 0 <= nf).
Notation buf := (vbuf V).
Context (vs : Z -> option Z) (VS : forall v, 0 <= v < n -> vs v = Some (st v)) (HS : st n <= MX).

Definition cntu (l : list (Z * Z)) (v : Z) : Z := Z.of_nat (length (filter (fun c => vat (csucc c) =? v) l)).
Lemma cntu_app l c v : cntu (l ++ [c]) v = cntu l v + (if vat (csucc c) =? v then 1 else 0).
Proof. unfold cntu. rewrite filter_app, app_length. cbn [filter]. destruct (_ =? _); cbn [length]; lia. Qed.
Lemma cntu_le l c r v : corners = l ++ c :: r -> cntu l v + (if vat (csucc c) =? v then 1 else 0) <= vdeg v.
Proof.
  intros E. rewrite <- succ_count, E. replace (l ++ c :: r) with ((l ++ [c]) ++ r) by now rewrite <- app_assoc.
  rewrite filter_app, app_length. pose proof (cntu_app l c v). unfold cntu in *. lia.
Qed.
Lemma fill_spec (t : buf) : exists t' D, ip_fill MX nf nvf fi vs t = OK t' /\ numbering D /\ ps t' = ps t
  /\ forall c, corner c -> nb t' (D c) 1 = vat (csucc c) /\ nb t' (D c) 2 = vat (cpred c).
Proof.
  unfold ip_fill.
  match goal with |- context [for_ 0 nf (fun f => for_ 0 (nvf f) (@?bd f)) _] => set (body := bd) end.
  destruct (corners_inv nf nvf (fun l (s : buf * (Z -> Z)) => ps (fst s) = ps t /\ (forall v, snd s v = cntu l v) /\ exists D,
     (forall c, In c l -> st (vat (csucc c)) <= D (csucc c) < st (vat (csucc c)) + cntu l (vat (csucc c))
        /\ nb (fst s) (D (csucc c)) 1 = vat (csucc (csucc c)) /\ nb (fst s) (D (csucc c)) 2 = vat c)
     /\ (forall c d, In c l -> In d l -> D (csucc c) = D (csucc d) -> c = d)) body (t, fun _ => 0)) as ((t' & ut) & E & I0 & I1 & D & I2 & I3).
  - auto.
  - intros f Hf. pose proof (cs_size _ _ _ _ CS f Hf). lia.
  - cbn. split; auto. split; auto. exists (fun _ => 0). split; [intros ? []|intros ? ? []].
  - intros l c r (t1 & ut) El (I0 & I1 & D & I2 & I3). cbn [fst snd] in *.
    assert (Hc : corner c) by (rewrite <- in_corners, El; apply in_or_app; cbn; auto).
    assert (Hl : forall d, In d l -> corner d) by (intros d Hd; rewrite <- in_corners, El; apply in_or_app; auto).
    pose proof (csucc_corner nf nvf c Hc) as Hc'. pose proof (cs_rng _ _ _ _ CS _ Hc') as R1.
    assert (Nc : ~ In c l). { pose proof (NoDup_corners nf nvf) as ND. rewrite El in ND. apply NoDup_remove_2 in ND. intros X. apply ND, in_or_app; auto. }
    set (v := vat (csucc c)) in *.
    assert (Ef1 : fi (fst c) ((snd c + 1) mod nvf (fst c)) = v) by reflexivity.
    assert (Ef2 : fi (fst c) ((snd c + 2) mod nvf (fst c)) = vat (csucc (csucc c))).
    { rewrite (csucc_2 nf) by auto. reflexivity. }
    unfold body. rewrite Ef1, Ef2. rewrite (rdi_ok _ _ _ (st v)) by (auto; lia). cbn [bind].
    pose proof (cntu_le l c r v El) as B. fold v in B. rewrite Z.eqb_refl in B. pose proof (st_succ vdeg v ltac:(lia)) as SS.
    pose proof (st_pos v ltac:(lia)). pose proof (st_u v n ltac:(lia) ltac:(lia)). assert (0 <= cntu l v) by (unfold cntu; lia).
    rewrite rd_ok by lia. cbn [bind]. rewrite wr_ok by lia. cbn [bind]. rewrite I1. do 2 (rewrite wr_nb_ok by lia; cbn [bind]).
    eexists. split; [reflexivity|]. cbn [fst snd nb ps]. split; auto. split.
    { intros w. rewrite cntu_app. fold v. unfold upd. destruct (Z.eqb_spec w v) as [->|N].
      - rewrite Z.eqb_refl. lia.
      - destruct (Z.eqb_spec v w); [congruence|]. rewrite I1. lia. }
    set (D' := fun x => if (fst x =? fst (csucc c)) && (snd x =? snd (csucc c)) then st v + cntu l v else D x).
    assert (D1 : D' (csucc c) = st v + cntu l v) by (unfold D'; now rewrite !Z.eqb_refl).
    assert (D2 : forall d, In d l -> D' (csucc d) = D (csucc d)).
    { intros d Hd. unfold D'. destruct (Z.eqb_spec (fst (csucc d)) (fst (csucc c))) as [A1|]; auto.
      destruct (Z.eqb_spec (snd (csucc d)) (snd (csucc c))) as [A2|]; auto. exfalso.
      assert (E : csucc d = csucc c) by (rewrite (surjective_pairing (csucc d)), (surjective_pairing (csucc c)), A1, A2; auto).
      assert (d = c) by (rewrite <- (cpred_csucc nf nvf d), <- (cpred_csucc nf nvf c), E; auto). subst d. auto. }
    assert (D3 : forall d, In d l -> D (csucc d) <> st v + cntu l v).
    { intros d Hd E. destruct (I2 d Hd) as (B1 & _). rewrite E in B1. pose proof (cs_rng _ _ _ _ CS _ (csucc_corner nf nvf d (Hl d Hd))) as R2.
      pose proof (cntu_le l c r (vat (csucc d)) El) as B2. pose proof (st_succ vdeg (vat (csucc d)) ltac:(lia)).
      assert (X : vat (csucc d) = v).
      { apply (block _ _ (st v + cntu l v)); auto; try lia. destruct (_ =? _) in B2; lia. }
      rewrite X in B1. lia. }
    exists D'. split.
    + intros d Hd. apply in_app_or in Hd as [Hd|[<-|[]]].
      * rewrite D2 by auto. destruct (I2 d Hd) as (B1 & B2 & B3). rewrite cntu_app. split; [destruct (_ =? _); lia|].
        rewrite !set_nb_neq_v by auto. auto.
      * rewrite D1. fold v. rewrite cntu_app. fold v. rewrite Z.eqb_refl. split; [lia|].
        rewrite set_nb_eq, set_nb_neq_p, set_nb_eq by lia. auto.
    + intros a b Ha Hb. apply in_app_or in Ha as [Ha|[<-|[]]], Hb as [Hb|[<-|[]]]; rewrite ?D1, ?D2 by auto; auto.
      * intros E. exfalso. apply (D3 a Ha E).
      * intros E. exfalso. apply (D3 b Hb). auto.
  - unfold body in E. rewrite E. cbn [bind]. exists t', D. cbn [fst snd] in *. split; auto.
    assert (Q : forall c, corner c -> st (vat c) <= D c < st (vat c + 1) /\ nb t' (D c) 1 = vat (csucc c) /\ nb t' (D c) 2 = vat (cpred c)).
    { intros c Hc. pose proof (cpred_corner nf nvf c Hc) as Hp. destruct (I2 (cpred c)) as (B1 & B2 & B3); [apply in_corners; auto|].
      rewrite (csucc_cpred nf) in * by auto. split; auto. rewrite st_succ; [|pose proof (cs_rng _ _ _ _ CS c Hc); lia].
      rewrite <- succ_count. exact B1. }
    assert (J : forall c d, corner c -> corner d -> D c = D d -> c = d).
    { intros c d Hc Hd E1. rewrite <- (csucc_cpred nf nvf c), <- (csucc_cpred nf nvf d) by auto. f_equal.
      apply I3; try (apply in_corners, cpred_corner; auto). rewrite !(csucc_cpred nf) by auto. auto. }
    split; [|split; [auto|]].
    2:{ intros c Hc. apply (Q c Hc). }
    constructor; auto.
    + intros c Hc. apply (Q c Hc).
    + intros v j Hv Hj.
      set (L := map D (filter (fun c => vat c =? v) corners)).
      assert (HL : incl (map (fun i => st v + i) (zrange (vdeg v))) L).
      { apply NoDup_length_incl.
        - unfold L. apply NoDup_map_inj; [|apply NoDup_filter, NoDup_corners]. intros a b Ha Hb.
          apply filter_In in Ha as (Ha & _), Hb as (Hb & _). apply in_corners in Ha, Hb. auto.
        - unfold L. rewrite !map_length, length_zrange_nat. unfold vdeg. lia.
        - intros x Hx. apply in_map_iff in Hx as (c & <- & Hc). apply filter_In in Hc as (Hc & Hv'). apply in_corners in Hc.
          apply Z.eqb_eq in Hv'. destruct (Q c Hc) as (B & _). rewrite Hv', st_succ in B by lia.
          apply in_map_iff. exists (D c - st v). split; [lia|]. apply in_zrange. lia. }
      rewrite st_succ in Hj by lia. specialize (HL j). unfold L in HL. rewrite in_map_iff in HL.
      assert (P : In j (map D (filter (fun c => vat c =? v) corners))).
      { apply HL. exists (j - st v). split; [lia|]. apply in_zrange. lia. }
      apply in_map_iff in P as (c & E1 & Hc). apply filter_In in Hc as (Hc & Hv'). apply in_corners in Hc. apply Z.eqb_eq in Hv'. eauto.
Qed.

(** ** ring and pairs *)
Context (D : Z * Z -> Z) (ND : numbering D) (e : Z -> Z) (EV : forall v, e v = vdeg v).
Lemma D_rng c : corner c -> 0 <= D c < st n.
Proof.
  intros Hc. pose proof (cs_rng _ _ _ _ CS c Hc) as R. pose proof (nu_rng _ ND c Hc). pose proof (st_pos (vat c) ltac:(lia)).
  pose proof (st_u (vat c) n ltac:(lia) ltac:(lia)). lia.
Qed.
Lemma D_ne c d : corner c -> corner d -> c <> d -> D c <> D d.
Proof. intros Hc Hd N E. apply N, (nu_inj _ ND); auto. Qed.
Lemma D_of j : 0 <= j < st n -> exists c, corner c /\ D c = j.
Proof.
  intros H. assert (X : forall k, 0 <= k -> k <= n -> 0 <= j < st k -> exists v, 0 <= v < k /\ st v <= j < st (v + 1)).
  { intros k Hk. pattern k. apply zrange_ind; [rewrite st_0; lia| |lia]. intros m Hm IH Hmn Hj.
    destruct (Z.lt_ge_cases j (st m)) as [L|L].
    - destruct IH as (v & Hv & B); [lia|lia|]. exists v. split; [lia|auto].
    - exists m. split; lia. }
  destruct (X n) as (v & Hv & B); try lia. destruct (nu_surj _ ND v j Hv B) as (c & Hc & _ & E). eauto.
Qed.
Lemma e_block v : 0 <= v < n -> st v + e v = st (v + 1).
Proof. intros H. rewrite EV, st_succ; lia. Qed.

Lemma ring_spec (t : buf) : (forall c, corner c -> nb t (D c) 1 = vat (csucc c) /\ nb t (D c) 2 = vat (cpred c)) ->
  exists t', ip_ring MX n vs e t = OK t' /\ ps t' = ps t
   /\ forall c, corner c -> nb t' (D c) 0 = D (rsi c) /\ nb t' (D c) 1 = vat (csucc c) /\ nb t' (D c) 2 = D (rs c).
Proof.
  intros H. unfold ip_ring.
  set (I := fun s : buf * (Z -> Z) => ps (fst s) = ps t /\ forall c, corner c -> nb (fst s) (D c) 1 = vat (csucc c)
    /\ ((snd s (D c) = 0 /\ nb (fst s) (D c) 2 = vat (cpred c))
       \/ (snd s (D c) <> 0 /\ nb (fst s) (D c) 2 = D (rs c) /\ nb (fst s) (D (rs c)) 0 = D c))).
  set (ext := fun s s' : buf * (Z -> Z) => forall c, corner c -> snd s (D c) <> 0 -> snd s' (D c) <> 0).
  assert (Er : forall s, ext s s) by (intros s c; auto).
  assert (Et : forall a b c, ext a b -> ext b c -> ext a c) by (intros a b c H1 H2 x Hx; auto).
  match goal with |- context [for_ 0 n ?bd _] => set (body := bd) end.
  destruct (for_prog I ext (fun v s => forall c, corner c -> vat c = v -> snd s (D c) <> 0) 0 n body (t, fun _ => 0)) as ((t' & ut) & E & I1 & _ & I2); auto; try lia.
  - split; auto. cbn. intros c Hc. destruct (H c Hc). auto.
  - intros v s Hv Is. unfold body. rewrite (rdi_ok _ _ _ (st v)) by (auto; lia). cbn [bind]. rewrite rd_ok by lia. cbn [bind]. rewrite e_block by auto.
    destruct (for_prog I ext (fun j s => forall c, corner c -> D c = j -> snd s (D c) <> 0) (st v) (st (v + 1))
      (fun v0 => for_ (st v) (st (v + 1)) (ip_ring_body MX v0)) s) as (s' & E & I1 & I2 & I3); auto.
    + rewrite st_succ by lia. pose proof (vdeg_nonneg nf nvf fi v). lia.
    + intros v0 s0 Hv0 Is0.
      destruct (nu_surj _ ND v v0 Hv Hv0) as (x & Hx & Vx & Dx).
      destruct (for_prog I ext (fun j s => D (rs x) = j -> snd s (D x) <> 0) (st v) (st (v + 1)) (ip_ring_body MX v0) s0) as (s' & E & I1 & I2 & I3); auto.
      * rewrite st_succ by lia. pose proof (vdeg_nonneg nf nvf fi v). lia.
      * intros v1 (t1 & ut) Hv1 (P & Q). destruct (nu_surj _ ND v v1 Hv Hv1) as (y & Hy & Vy & Dy). cbn [fst snd] in *.
        unfold ip_ring_body. subst v0 v1. pose proof (D_rng x Hx). pose proof (D_rng y Hy). pose proof (rs_corner x Hx) as Hr.
        rewrite !rd_nb_ok by lia. cbn [bind]. destruct (Q x Hx) as (Q1 & Q2). destruct (Q y Hy) as (Q3 & Q4). rewrite Q3.
        destruct Q2 as [(U & Q2)|(U & Q2 & Q5)].
        -- rewrite Q2. destruct (Z.eqb_spec (vat (cpred x)) (vat (csucc y))) as [Eq|Nq].
           ++ assert (Ey : y = rs x) by (apply rs_uniq; auto; congruence).
              rewrite rd_ok by lia. cbn [bind]. rewrite U, Z.eqb_refl. do 2 (rewrite wr_nb_ok by lia; cbn [bind]). rewrite wr_ok by lia. cbn [bind].
              eexists. split; [reflexivity|]. unfold I, ext. cbn [fst snd nb ps].
              split; [split; auto|split; [|intros _; rewrite upd_eq; lia]].
              ** intros c Hc. destruct (Q c Hc) as (R1 & R2). rewrite (set_nb_neq_p _ _ 0 _ _ 1), (set_nb_neq_p _ _ 2 _ _ 1), (set_nb_neq_p _ _ 0 _ _ 2) by lia. split; auto.
                 destruct (Z.eq_dec (D c) (D x)) as [E|N].
                 --- apply (nu_inj _ ND) in E; auto. subst c. right. rewrite upd_eq. split; [lia|]. rewrite <- Ey.
                     rewrite !set_nb_eq. auto.
                 --- rewrite upd_neq by auto. rewrite (set_nb_neq_v _ (D x) 2 _ (D c)) by auto.
                     destruct R2 as [R2|(R2 & R3 & R4)]; [left; auto|right]. split; auto. split; auto.
                     rewrite (set_nb_neq_v _ (D y)). { rewrite (set_nb_neq_p _ _ 2 _ _ 0) by lia. auto. }
                     rewrite Ey. apply D_ne; auto using rs_corner. intros E. apply N. f_equal.
                     rewrite <- (rsi_rs c), <- (rsi_rs x), E; auto.
              ** intros c Hc R. destruct (Z.eq_dec (D c) (D x)) as [->|N]; [rewrite upd_eq; lia|rewrite upd_neq; auto].
           ++ eexists. split; [reflexivity|]. split; [split; auto|]. split; auto. intros E. exfalso. apply Nq.
              apply (nu_inj _ ND) in E; auto. subst y. rewrite rs_vats; auto.
        -- assert (G : (if nb t1 (D x) 2 =? vat (csucc y) then
              let* u := rd (3 * MX) ut (D x) in if u =? 0 then
                let* t0 := wr_nb (3 * MX) 3 t1 (D x) 2 (D y) in
                let* t0 := wr_nb (3 * MX) 3 t0 (D y) 0 (D x) in
                let* ut0 := wr (3 * MX) ut (D x) 1 in OK (t0, ut0) else OK (t1, ut) else OK (t1, ut)) = OK (t1, ut)).
           { destruct (_ =? _); auto. rewrite rd_ok by lia. cbn [bind]. destruct (Z.eqb_spec (ut (D x)) 0); [contradiction|auto]. }
           rewrite G. eexists. split; [reflexivity|]. split; [split; auto|]. split; auto.
      * exists s'. split; auto. split; auto. split; auto. intros c Hc E1. subst v0. apply (nu_inj _ ND) in E1; auto. subst c.
        apply (I3 (D (rs x))); auto. pose proof (nu_rng _ ND (rs x) (rs_corner x Hx)) as R. rewrite rs_vat, Vx in R by auto. auto.
    + exists s'. split; auto. split; auto. split; auto. intros c Hc Vc. apply (I3 (D c)); auto. pose proof (nu_rng _ ND c Hc) as R. rewrite Vc in R. auto.
  - rewrite E. cbn [bind]. destruct I1 as (P & Q). cbn [fst snd] in *. exists t'. split; auto. split; auto.
    intros c Hc.
    assert (X : forall c, corner c -> ut (D c) <> 0) by (intros d Hd; apply (I2 (vat d)); auto; apply (cs_rng _ _ _ _ CS); auto).
    pose proof (rsi_corner c Hc) as Hr. destruct (Q c Hc) as (Q1 & [(U & _)|(U & Q2 & Q3)]); [exfalso; apply (X c); auto|].
    destruct (Q _ Hr) as (_ & [(U' & _)|(_ & _ & Q4)]); [exfalso; apply (X _ Hr); auto|]. rewrite rs_rsi in Q4 by auto. auto.
Qed.

Lemma pairs_spec (t : buf) :
  (forall c, corner c -> nb t (D c) 0 = D (rsi c) /\ nb t (D c) 1 = vat (csucc c) /\ nb t (D c) 2 = D (rs c)) ->
  exists t', ip_pairs MX n vs e t = OK t' /\ ps t' = ps t
   /\ forall c, corner c -> nb t' (D c) 0 = D (rsi c) /\ nb t' (D c) 1 = D (copp c) /\ nb t' (D c) 2 = D (rs c).
Proof.
  intros H. unfold ip_pairs.
  set (I := fun s : buf * (Z -> Z) => ps (fst s) = ps t /\ forall c, corner c -> nb (fst s) (D c) 0 = D (rsi c) /\ nb (fst s) (D c) 2 = D (rs c)
    /\ (snd s (D c) = 0 <-> snd s (D (copp c)) = 0)
    /\ ((snd s (D c) = 0 /\ nb (fst s) (D c) 1 = vat (csucc c)) \/ (snd s (D c) <> 0 /\ nb (fst s) (D c) 1 = D (copp c)))).
  set (ext := fun s s' : buf * (Z -> Z) => forall c, corner c -> snd s (D c) <> 0 -> snd s' (D c) <> 0).
  assert (Er : forall s, ext s s) by (intros s c; auto).
  assert (Et : forall a b c, ext a b -> ext b c -> ext a c) by (intros a b c H1 H2 x Hx; auto).
  match goal with |- context [for_ 0 n ?bd _] => set (body := bd) end.
  destruct (for_prog I ext (fun v s => forall c, corner c -> vat c = v -> v < vat (csucc c) -> snd s (D c) <> 0) 0 n body (t, fun _ => 0)) as ((t' & ut) & E & I1 & _ & I2); auto; try lia.
  - split; auto. cbn. intros c Hc. destruct (H c Hc) as (H1 & H2 & H3). split; auto. split; auto. tauto.
  - intros v0 s Hv0 Is. unfold body.
    destruct (for_prog I ext (fun v1 s => forall c, corner c -> vat c = v0 -> vat (csucc c) = v1 -> snd s (D c) <> 0) (v0 + 1) n
      (fun v1 s =>
        let* s0 := rdi MX vs v0 in let* e0 := rd MX e v0 in let* s1 := rdi MX vs v1 in let* e1 := rd MX e v1 in
        for_ s0 (s0 + e0) (fun v00 => for_ s1 (s1 + e1) (ip_pair_body MX v0 v1 v00)) s) s) as (s' & E & I1 & I2 & I3); auto; try lia.
    + intros v1 s1 Hv1 Is1.
      do 2 (rewrite (rdi_ok _ _ _ (st _)) by (try apply VS; lia); cbn [bind]; rewrite rd_ok by lia; cbn [bind]). rewrite !e_block by lia.
      destruct (for_prog I ext (fun v00 s => forall c, corner c -> vat c = v0 -> vat (csucc c) = v1 -> D c = v00 -> snd s (D c) <> 0) (st v0) (st (v0 + 1))
        (fun v00 => for_ (st v1) (st (v1 + 1)) (ip_pair_body MX v0 v1 v00)) s1) as (s' & E & I1 & I2 & I3); auto.
      * rewrite st_succ by lia. pose proof (vdeg_nonneg nf nvf fi v0). lia.
      * intros v00 s2 Hv00 Is2. destruct (nu_surj _ ND v0 v00 Hv0 Hv00) as (x & Hx & Vx & Dx).
        destruct (for_prog I ext (fun v11 s => forall y, corner y -> vat y = v1 -> y = copp x -> D y = v11 -> snd s (D x) <> 0) (st v1) (st (v1 + 1))
           (ip_pair_body MX v0 v1 v00) s2) as (s' & E & I1 & I2 & I3); auto.
        -- intros i a b G Hab y Hy E1 E2 E3. apply Hab; eauto.
        -- rewrite st_succ by lia. pose proof (vdeg_nonneg nf nvf fi v1). lia.
        -- intros v11 (t1 & ut) Hv11 (P & Q). destruct (nu_surj _ ND v1 v11 ltac:(lia) Hv11) as (y & Hy & Vy & Dy). cbn [fst snd] in *.
           unfold ip_pair_body. subst v00 v11. pose proof (D_rng x Hx). pose proof (D_rng y Hy). pose proof (copp_corner x Hx) as Hr.
           rewrite rd_nb_ok by lia. cbn [bind].
           assert (K : ut (D x) <> 0 \/ y <> copp x -> exists s', (if nb t1 (D x) 1 =? v1 then
    let* c := rd_nb (3 * MX) 3 t1 (D y) 1 in
    if c =? v0 then
      let* u0 := rd (3 * MX) ut (D x) in
      let* u1 := rd (3 * MX) ut (D y) in
      if (u0 =? 0) && (u1 =? 0) then
        let* t := wr_nb (3 * MX) 3 t1 (D x) 1 (D y) in
        let* t := wr_nb (3 * MX) 3 t (D y) 1 (D x) in
        let* ut := wr (3 * MX) ut (D x) 1 in
        let* ut := wr (3 * MX) ut (D y) 1 in
        OK (t, ut)
      else OK (t1, ut)
    else OK (t1, ut)
  else OK (t1, ut)) = OK s' /\ I s' /\ ext (t1, ut) s' /\ (forall z, corner z -> vat z = v1 -> z = copp x -> D z = D y -> snd s' (D x) <> 0)).
           { intros U. exists (t1, ut). split; [|split; [split; auto|]; split; [auto|]].
             2:{ intros z Hz _ -> E. apply (nu_inj _ ND) in E; auto. cbn [snd]. destruct U; auto. }
             destruct (Z.eqb_spec (nb t1 (D x) 1) v1) as [A1|]; auto. rewrite rd_nb_ok by lia. cbn [bind].
             destruct (Z.eqb_spec (nb t1 (D y) 1) v0) as [A2|]; auto. rewrite !rd_ok by lia. cbn [bind].
             destruct (Z.eqb_spec (ut (D x)) 0) as [A3|]; auto. destruct (Z.eqb_spec (ut (D y)) 0) as [A4|]; auto. exfalso.
             destruct U as [U|U]; [auto|]. apply U.
             destruct (Q x Hx) as (_ & _ & _ & [(_ & Q1)|(Q1 & _)]); [|contradiction].
             destruct (Q y Hy) as (_ & _ & _ & [(_ & Q2)|(Q2 & _)]); [|contradiction].
             apply copp_uniq; auto; congruence. }
           destruct (Z.eq_dec (ut (D x)) 0) as [U|U]; [|apply K; auto].
           assert (Dec : {y = copp x} + {y <> copp x}) by (decide equality; apply Z.eq_dec).
           destruct Dec as [Ey|Ny]; [|apply K; auto]. clear K.
           destruct (Q x Hx) as (Q1 & Q2 & Q3 & [(_ & Q4)|(U' & _)]); [|contradiction]. rewrite <- Ey in Q3. pose proof (proj1 Q3 U) as U2.
           destruct (Q y Hy) as (R1 & R2 & R3 & [(_ & R4)|(U' & _)]); [|contradiction].
           assert (C1 : vat (csucc x) = v1) by (rewrite <- copp_vat by auto; congruence).
           assert (C2 : vat (csucc y) = v0) by (rewrite Ey, copp_vats; auto).
           assert (C3 : D x <> D y). { apply D_ne; auto. intros E. rewrite Ey in E. apply (copp_ne x Hx). congruence. }
           assert (C4 : copp y = x) by (rewrite Ey; apply copp_copp; auto).
           rewrite Q4, C1, Z.eqb_refl, rd_nb_ok by lia. cbn [bind]. rewrite R4, C2, Z.eqb_refl, !rd_ok by lia. cbn [bind]. rewrite U, U2, Z.eqb_refl. cbn [andb].
           do 2 (rewrite wr_nb_ok by lia; cbn [bind]). do 2 (rewrite wr_ok by lia; cbn [bind]).
           eexists. split; [reflexivity|]. unfold I, ext. cbn [fst snd nb ps].
           assert (UX : forall z, corner z -> upd (upd ut (D x) 1) (D y) 1 (D z) = if (D z =? D y) || (D z =? D x) then 1 else ut (D z)).
           { intros z Hz. unfold upd. destruct (D z =? D y), (D z =? D x); auto. }
           split; [split; auto|split].
           ++ intros c Hc. destruct (Q c Hc) as (S1 & S2 & S3 & S4). rewrite !(set_nb_neq_p _ _ 1 _ _ 0), !(set_nb_neq_p _ _ 1 _ _ 2) by lia.
              split; auto. split; auto. rewrite !UX by auto using copp_corner.
              assert (Z1 : D (copp c) = D y <-> D c = D x).
              { split; intros E; apply (nu_inj _ ND) in E; auto using copp_corner.
                - rewrite <- (copp_copp c), E, C4; auto.
                - rewrite E, Ey. auto. }
              assert (Z2 : D (copp c) = D x <-> D c = D y).
              { split; intros E; apply (nu_inj _ ND) in E; auto using copp_corner.
                - rewrite <- (copp_copp c), E, Ey; auto.
                - rewrite E, C4. auto. }
              destruct (Z.eqb_spec (D c) (D y)) as [E1|N1]; cbn [orb].
              ** assert (E2 : D (copp c) = D x) by tauto. rewrite E2, Z.eqb_refl, orb_true_r. split; [lia|]. right. split; [lia|]. rewrite E1, set_nb_eq. auto.
              ** destruct (Z.eqb_spec (D c) (D x)) as [E1|N2].
                 --- assert (E2 : D (copp c) = D y) by tauto. rewrite E2, Z.eqb_refl. cbn [orb]. split; [lia|]. right. split; [lia|].
                     rewrite set_nb_neq_v by auto. rewrite E1, set_nb_eq. auto.
                 --- destruct (Z.eqb_spec (D (copp c)) (D y)) as [|N3]; [tauto|]. destruct (Z.eqb_spec (D (copp c)) (D x)) as [|N4]; [tauto|]. cbn [orb].
                     split; auto. rewrite !set_nb_neq_v by auto. auto.
           ++ intros c Hc R. rewrite UX by auto. destruct (_ || _); [lia|auto].
           ++ intros z Hz _ Ez _. rewrite UX by auto. rewrite Z.eqb_refl, orb_true_r. lia.
        -- exists s'. split; auto. split; auto. split; auto. intros c Hc V1 V2 E1. subst v00. apply (nu_inj _ ND) in E1; auto. subst c.
           pose proof (copp_corner x Hx) as Hr. pose proof (nu_rng _ ND _ Hr) as R. rewrite copp_vat, V2 in R by auto.
           apply (I3 (D (copp x)) R (copp x)); auto. rewrite copp_vat; auto.
      * exists s'. split; auto. split; auto. split; auto. intros c Hc V1 V2. apply (I3 (D c)); auto. pose proof (nu_rng _ ND c Hc) as R. rewrite V1 in R. auto.
    + exists s'. split; auto. split; auto. split; auto. intros c Hc V1 V2. apply (I3 (vat (csucc c))); auto.
      pose proof (cs_rng _ _ _ _ CS _ (csucc_corner nf nvf c Hc)). lia.
  - rewrite E. cbn [bind]. destruct I1 as (P & Q). cbn [fst snd] in *. exists t'. split; auto. split; auto.
    intros c Hc. destruct (Q c Hc) as (Q1 & Q2 & Q3 & Q4). split; auto. split; auto.
    destruct Q4 as [(U & _)|(_ & Q4)]; auto. exfalso.
    pose proof (copp_corner c Hc) as Hr. pose proof (cs_loop _ _ _ _ CS c Hc) as L. pose proof (cs_rng _ _ _ _ CS c Hc) as R.
    pose proof (cs_rng _ _ _ _ CS _ Hr) as R2.
    destruct (Z.lt_ge_cases (vat c) (vat (csucc c))) as [L1|L1].
    + apply (I2 (vat c) R c Hc eq_refl L1 U).
    + apply Q3 in U. apply (I2 (vat (copp c)) R2 (copp c) Hr eq_refl); auto. rewrite copp_vats, copp_vat by auto. lia.
Qed.
End Desc.
