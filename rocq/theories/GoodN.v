(** * GoodN: what [rNd_is_good] computes. *)
From Coq Require Import ZArith List Bool Lia Permutation.
From Verif Require Import Base Lib ModelCommon CommonFacts ModelGood ModelN SpecGood Flood Conn Good3.
Import ListNotations.
Open Scope Z_scope.

Lemma while_inv3 {S} (I : S -> Prop) (mu : S -> Z) (Q : err -> Prop) cond body :
  (forall s, I s -> cond s = true -> 0 < mu s
     /\ ((exists s', body s = OK s' /\ I s' /\ mu s' < mu s) \/ exists e, body s = Err e /\ Q e)) ->
  forall fuel s, I s -> mu s <= Z.of_nat fuel ->
  (exists s', while_ fuel cond body s = OK s' /\ I s' /\ cond s' = false) \/ exists e, while_ fuel cond body s = Err e /\ Q e.
Proof.
  intros H. induction fuel as [|fuel IH]; intros s Is Ms; cbn [while_]; destruct (cond s) eqn:C.
  - destruct (H s Is C) as (M & _). lia.
  - left. eauto.
  - destruct (H s Is C) as (M & [(s' & E & I' & M')|(e & E & Qe)]); rewrite E; cbn [bind].
    + apply IH; auto; lia.
    + right. eauto.
  - left. eauto.
Qed.

(** ** subsets in colexicographic order *)
Section Colex.
Variable m : Z.
Hypothesis Hm : 1 <= m.
Definition inc (s : Z -> Z) : Prop := 0 <= s 0 /\ forall i, 0 <= i -> i + 1 < m -> s i < s (i + 1).
Definition clt (s t : Z -> Z) : Prop := exists k, 0 <= k < m /\ s k < t k /\ forall i, k < i < m -> s i = t i.
Definition ceq (s t : Z -> Z) : Prop := forall i, 0 <= i < m -> s i = t i.

Lemma inc_lt s : inc s -> forall i j, 0 <= i -> i < j -> j < m -> s i < s j.
Proof.
  intros (_ & H) i j Hi Hj Hjm. replace j with (i + 1 + Z.of_nat (Z.to_nat (j - i - 1))) in * by lia.
  induction (Z.to_nat (j - i - 1)) as [|k IH]; [rewrite Z.add_0_r; apply H; lia|].
  specialize (IH ltac:(lia) ltac:(lia)). specialize (H (i + 1 + Z.of_nat k) ltac:(lia) ltac:(lia)).
  replace (i + 1 + Z.of_nat (Datatypes.S k)) with (i + 1 + Z.of_nat k + 1) by lia. lia.
Qed.
Lemma inc_ge s : inc s -> forall i, 0 <= i < m -> i <= s i.
Proof.
  intros I i Hi. replace i with (Z.of_nat (Z.to_nat i)) in * by lia. induction (Z.to_nat i) as [|k IH]; [apply I|].
  specialize (IH ltac:(lia)). destruct I as (_ & I). specialize (I (Z.of_nat k) ltac:(lia) ltac:(lia)).
  replace (Z.of_nat (Datatypes.S k)) with (Z.of_nat k + 1) by lia. lia.
Qed.

(** the successor of [s]: bump position [v], reset those below *)
Definition bump (s : Z -> Z) (v : Z) : Z -> Z := fun i => if i <? v then i else if i =? v then s v + 1 else s i.
Definition runs_to (s : Z -> Z) (v : Z) : Prop :=
  0 <= v < m /\ (forall i, 0 <= i < v -> s (i + 1) = s i + 1) /\ (v + 1 < m -> s v + 1 < s (v + 1)).
Lemma bump_inc s v : inc s -> runs_to s v -> inc (bump s v).
Proof.
  intros I (Hv & R & G). split.
  - unfold bump. destruct (Z.ltb_spec 0 v); [lia|]. destruct (Z.eqb_spec 0 v) as [<-|]; [|lia]. destruct I. lia.
  - intros i Hi Him. pose proof (inc_ge s I v Hv). unfold bump.
    destruct (Z.ltb_spec i v), (Z.ltb_spec (i + 1) v); try lia.
    + destruct (Z.eqb_spec (i + 1) v); lia.
    + destruct (Z.eqb_spec i v), (Z.eqb_spec (i + 1) v); try lia.
      * subst i. apply G. lia.
      * apply I; lia.
Qed.
Lemma bump_lt s v : runs_to s v -> clt s (bump s v).
Proof.
  intros (Hv & _ & _). exists v. split; [lia|]. unfold bump. split.
  - rewrite Z.ltb_irrefl, Z.eqb_refl. lia.
  - intros i Hi. destruct (Z.ltb_spec i v), (Z.eqb_spec i v); lia.
Qed.
Lemma bump_next s v t : inc s -> inc t -> runs_to s v -> clt s t -> ceq t (bump s v) \/ clt (bump s v) t.
Proof.
  intros I It (Hv & R & G) (k & Hk & L & E). destruct (Z.lt_total k v) as [Lt|[->|Gt]].
  - exfalso. specialize (R k ltac:(lia)). assert (t k < t (k + 1)) by (apply It; lia). rewrite <- (E (k + 1)) in H by lia. lia.
  - destruct (Z.eq_dec (t v) (s v + 1)) as [Ev|Nv].
    + assert (Hi : forall i, v <= i < m -> t i = bump s v i).
      { intros i Hi. unfold bump. destruct (Z.ltb_spec i v); [lia|]. destruct (Z.eqb_spec i v) as [->|]; auto. symmetry. apply E. lia. }
      (* compare below v *)
      assert (Q : forall q, Z.of_nat q <= v -> (forall i, Z.of_nat q <= i < m -> t i = bump s v i) -> ceq t (bump s v) \/ clt (bump s v) t).
        { induction q as [|q IH]; intros Hq Hi'; [left; intros i Hi2; apply Hi'; lia|].
          destruct (Z.eq_dec (t (Z.of_nat q)) (bump s v (Z.of_nat q))) as [Eq|Nq].
          - apply IH; [lia|]. intros i Hi2. destruct (Z.eq_dec i (Z.of_nat q)) as [->|]; auto. apply Hi'. lia.
          - right. exists (Z.of_nat q). split; [lia|]. split.
            + pose proof (inc_ge t It (Z.of_nat q) ltac:(lia)). unfold bump in *. destruct (Z.ltb_spec (Z.of_nat q) v); lia.
            + intros i Hi2. symmetry. apply Hi'. lia. }
      apply (Q (Z.to_nat v)); [lia|]. intros i Hi2. apply Hi. lia.
    + right. exists v. split; auto. unfold bump at 1. rewrite Z.ltb_irrefl, Z.eqb_refl. split; [lia|].
      intros i Hi. unfold bump. destruct (Z.ltb_spec i v), (Z.eqb_spec i v); try lia. apply E. lia.
  - right. exists k. split; auto. split.
    + unfold bump. destruct (Z.ltb_spec k v), (Z.eqb_spec k v); lia.
    + intros i Hi. unfold bump. destruct (Z.ltb_spec i v), (Z.eqb_spec i v); try lia. apply E. lia.
Qed.

Lemma clt_asym s t : clt s t -> clt t s -> False.
Proof.
  intros (k & Hk & L & E) (j & Hj & L' & E'). destruct (Z.lt_total k j) as [C|[C|C]].
  - rewrite (E j) in L' by lia. lia.
  - subst j. lia.
  - rewrite (E' k) in L by lia. lia.
Qed.
Lemma clt_ceq s t : clt s t -> ceq s t -> False.
Proof. intros (k & Hk & L & E) C. rewrite C in L by auto. lia. Qed.
Lemma clt_total s t : clt s t \/ ceq s t \/ clt t s.
Proof.
  assert (Q : forall q, Z.of_nat q <= m -> (forall i, Z.of_nat q <= i < m -> s i = t i) -> clt s t \/ ceq s t \/ clt t s).
  { induction q as [|q IH]; intros Hq H; [right; left; intros i Hi; apply H; lia|].
    destruct (Z.lt_total (s (Z.of_nat q)) (t (Z.of_nat q))) as [C|[C|C]].
    - left. exists (Z.of_nat q). split; [lia|]. split; auto. intros i Hi. apply H. lia.
    - apply IH; [lia|]. intros i Hi. destruct (Z.eq_dec i (Z.of_nat q)) as [->|]; auto. apply H. lia.
    - right. right. exists (Z.of_nat q). split; [lia|]. split; auto. intros i Hi. symmetry. apply H. lia. }
  apply (Q (Z.to_nat m)); [lia|]. intros i Hi. lia.
Qed.
Lemma clt_ext s t t' : ceq t t' -> clt s t -> clt s t'.
Proof. intros E (k & Hk & L & A). exists k. rewrite <- E by lia. split; auto. split; auto. intros i Hi. rewrite A, E by lia. auto. Qed.

(** position in the order, for entries in [0, B) *)
Fixpoint rank (B : Z) (s : Z -> Z) (k : nat) : Z :=
  match k with O => 0 | Datatypes.S k' => rank B s k' + s (Z.of_nat k') * B ^ Z.of_nat k' end.
Lemma rank_bound B s k : 0 < B -> (forall i, 0 <= i < Z.of_nat k -> 0 <= s i < B) -> 0 <= rank B s k < B ^ Z.of_nat k.
Proof.
  intros HB. induction k as [|k IH]; intros H; cbn [rank]; [change (Z.of_nat 0) with 0; cbn; lia|].
  specialize (IH ltac:(intros; apply H; lia)). specialize (H (Z.of_nat k) ltac:(lia)).
  replace (Z.of_nat (Datatypes.S k)) with (Z.of_nat k + 1) by lia. rewrite Z.pow_add_r, Z.pow_1_r by lia.
  set (P := B ^ Z.of_nat k) in *. assert (s (Z.of_nat k) * P <= (B - 1) * P) by (apply Z.mul_le_mono_nonneg_r; lia).
  assert (0 <= s (Z.of_nat k) * P) by (apply Z.mul_nonneg_nonneg; lia). lia.
Qed.
Lemma rank_lt B s t k j : 0 < B -> (forall i, 0 <= i < Z.of_nat k -> 0 <= s i < B) -> (forall i, 0 <= i < Z.of_nat k -> 0 <= t i < B) ->
  0 <= j < Z.of_nat k -> s j < t j -> (forall i, j < i < Z.of_nat k -> s i = t i) -> rank B s k < rank B t k.
Proof.
  intros HB. induction k as [|k IH]; intros Hs Ht Hj L E; [lia|]. cbn [rank].
  destruct (Z.eq_dec j (Z.of_nat k)) as [->|].
  - pose proof (rank_bound B s k HB ltac:(intros; apply Hs; lia)). pose proof (rank_bound B t k HB ltac:(intros; apply Ht; lia)).
    assert ((s (Z.of_nat k) + 1) * B ^ Z.of_nat k <= t (Z.of_nat k) * B ^ Z.of_nat k) by (apply Z.mul_le_mono_nonneg_r; lia). lia.
  - rewrite (E (Z.of_nat k)) by lia. specialize (IH ltac:(intros; apply Hs; lia) ltac:(intros; apply Ht; lia) ltac:(lia) L ltac:(intros; apply E; lia)). lia.
Qed.
End Colex.

Lemma next_subset_spec D s : 2 <= D -> inc (D - 1) s -> exists s' v, next_subset D s = OK s'
  /\ runs_to (D - 1) s v /\ ceq (D - 1) s' (bump s v).
Proof.
  intros HD I. unfold next_subset.
  match goal with |- context [for_ 0 (D - 2) ?bd _] => set (body := bd) end.
  destruct (for_inv (fun k (o : option Z * (Z -> Z)) => match o with
     | (None, s') => s' = s /\ forall i, 0 <= i < k -> s (i + 1) = s i + 1
     | (Some v, s') => runs_to (D - 1) s v /\ v < D - 2 /\ s' = upd s v (s v + 1) end) 0 (D - 2) body (None, s)) as ((o, s1) & E & J).
  - lia.
  - split; auto. intros; lia.
  - intros k ([v|], s') Hk J; unfold body.
    + eexists; split; [reflexivity|]. exact J.
    + destruct J as (-> & J). rewrite rd_ok by lia. cbn [bind]. rewrite rd_ok by lia. cbn [bind].
      destruct (Z.ltb_spec (s k) (s (k + 1) - 1)).
      * rewrite wr_ok by lia. cbn [bind]. eexists; split; [reflexivity|]. split; [|split; [lia|auto]].
        split; [lia|]. split; auto. lia.
      * eexists; split; [reflexivity|]. split; auto. intros i Hi. destruct (Z.eq_dec i k) as [->|]; [|apply J; lia].
        destruct I as (_ & I). specialize (I k ltac:(lia) ltac:(lia)). lia.
  - rewrite E. cbn [bind].
    set (v := match o with Some v => v | None => D - 2 end).
    assert (R : runs_to (D - 1) s v /\ (match o with None => let* a := rd (D - 1) s1 v in wr (D - 1) s1 v (a + 1) | Some _ => OK s1 end)
         = OK (upd s v (s v + 1))).
    { unfold v. destruct o as [w|].
      - destruct J as (J1 & J2 & ->). auto.
      - destruct J as (-> & J). split; [split; [lia|]; split; [intros; apply J; lia|lia]|].
        rewrite rd_ok by lia. cbn [bind]. rewrite wr_ok by lia. reflexivity. }
    destruct R as (R & ->). cbn [bind]. pose proof R as (Hv & _).
    match goal with |- context [for_ 0 v ?bd _] => set (b2 := bd) end.
    destruct (for_inv (fun k s' => forall i, 0 <= i < D - 1 -> s' i = if (v - k <=? i) && (i <? v) then i else upd s v (s v + 1) i)
       0 v b2 (upd s v (s v + 1))) as (s2 & E2 & J2).
    + lia.
    + intros i Hi. destruct (Z.leb_spec (v - 0) i), (Z.ltb_spec i v); auto; lia.
    + intros k s' Hk J'. unfold b2. eexists. split; [apply wr_ok; lia|]. intros i Hi. unfold upd at 1.
      destruct (Z.eqb_spec i (v - 1 - k)) as [->|].
      * destruct (Z.leb_spec (v - (k + 1)) (v - 1 - k)), (Z.ltb_spec (v - 1 - k) v); auto; lia.
      * rewrite J' by auto. destruct (Z.leb_spec (v - (k + 1)) i), (Z.leb_spec (v - k) i), (Z.ltb_spec i v); auto; lia.
    + exists s2, v. split; [exact E2|]. split; auto. intros i Hi. rewrite J2 by auto. unfold bump, upd.
      destruct (Z.leb_spec (v - v) i), (Z.ltb_spec i v); try lia; cbn [andb]; auto.
Qed.

Lemma inc_ceq m s s' : 1 <= m -> ceq m s s' -> inc m s' -> inc m s.
Proof. intros Hm E (A & B). split; [rewrite E by lia; auto|]. intros i Hi Hj. rewrite !E by lia. apply B; lia. Qed.

Section GN.
Variable N : num.
Variable MX D : Z.
Hypothesis HD : 2 <= D.
Variable p : polyN N.
Notation n := (nvN N p).
Notation b := (vbN N p).
Notation f := (nb (vbN N p)).
Hypothesis Hn : 0 <= n <= MX.
Hypothesis NN : forall v i, 0 <= v < n -> 0 <= i < D -> 0 <= f v i.

(** out- and in-degree [D], no vertex linked to itself *)
Definition regularN : Prop := regular f D n /\ forall v i, 0 <= v < n -> 0 <= i < D -> f v i <> v.

Definition okN (v : Z) : Prop := forall i, 0 <= i < D -> f v i <> v /\ f v i < n /\ forall j, i < j < D -> f v i <> f v j.
Definition cnt_to (v k x : Z) : Z := Z.of_nat (length (filter (fun i => f v i =? x) (zrange k))).

Lemma linksN_spec v vct : 0 <= v < n -> exists s, linksN_body N MX D p v (Some vct) = OK s /\
  match s with None => ~ okN v | Some vct' => okN v /\ forall x, vct' x = vct x + cnt_to v D x end.
Proof.
  intros Hv. unfold linksN_body. match goal with |- context [for_ 0 D ?bd _] => set (body := bd) end.
  destruct (for_inv (fun k s => match s with
     | None => ~ okN v
     | Some vct' => (forall i, 0 <= i < k -> f v i <> v /\ f v i < n /\ forall j, i < j < D -> f v i <> f v j)
          /\ forall x, vct' x = vct x + cnt_to v k x end) 0 D body (Some vct)) as (s & E & J).
  - lia.
  - split; [intros; lia|]. intros x. unfold cnt_to. cbn. lia.
  - intros k [vc|] Hk J; unfold body; [|eexists; split; [reflexivity|]; exact J].
    destruct J as (J1 & J2). rewrite rd_nb_ok by lia. cbn [bind].
    destruct (Z.eqb_spec (f v k) v) as [Es|Ns].
    { eexists; split; [reflexivity|]. intros C. destruct (C k Hk) as (A & _). auto. }
    destruct (Z.leb_spec n (f v k)) as [G|G].
    { eexists; split; [reflexivity|]. intros C. destruct (C k Hk) as (_ & A & _). lia. }
    match goal with |- context [for_ (k + 1) D ?bd _] => set (b2 := bd) end.
    destruct (for_inv (fun q (dup : bool) => dup = true <-> exists j, k < j < q /\ f v k = f v j) (k + 1) D b2 false) as (dup & Ed & Jd).
    { lia. } { split; [discriminate|]. intros (j & Hj & _). lia. }
    { intros q [|] Hq Jq; unfold b2.
      - eexists; split; [reflexivity|]. split; auto. intros _. destruct (proj1 Jq eq_refl) as (j & Hj & Ej). exists j. split; auto. lia.
      - rewrite rd_nb_ok by lia. cbn [bind]. eexists; split; [reflexivity|]. rewrite Z.eqb_eq. split.
        + intros Eq. exists q. split; auto. lia.
        + intros (j & Hj & Ej). destruct (Z.eq_dec j q) as [->|]; auto. assert (false = true); [|discriminate].
          apply Jq. exists j. split; auto. lia. }
    rewrite Ed. cbn [bind]. destruct dup.
    { eexists; split; [reflexivity|]. intros C. destruct (C k Hk) as (_ & _ & A). destruct (proj1 Jd eq_refl) as (j & Hj & Ej).
      apply (A j); auto. }
    pose proof (NN v k Hv Hk).
    unfold count_link. rewrite rd_nb_ok by lia. cbn [bind]. rewrite rd_ok by lia. cbn [bind]. rewrite wr_ok by lia. cbn [bind].
    eexists; split; [reflexivity|]. split.
    + intros i Hi. destruct (Z.eq_dec i k) as [->|]; [|apply J1; lia]. split; auto. split; auto.
      intros j Hj Ej. assert (false = true); [|discriminate]. apply Jd. exists j. auto.
    + intros x. unfold cnt_to. rewrite zrange_succ, filter_app, app_length by lia. cbn [filter].
      unfold upd. rewrite !J2. unfold cnt_to. rewrite (Z.eqb_sym (f v k) x).
      destruct (Z.eqb_spec x (f v k)) as [->|]; cbn [length]; lia.
  - exists s. split; auto.
Qed.

Lemma linksN_all : exists s, for_ 0 n (linksN_body N MX D p) (Some (fun _ => 0)) = OK s /\
  match s with
  | None => exists v, 0 <= v < n /\ ~ okN v
  | Some vct => (forall v, 0 <= v < n -> okN v) /\ forall x, vct x = indeg f D n x
  end.
Proof.
  apply (for_inv (fun k s => match s with
    | None => exists v, 0 <= v < n /\ ~ okN v
    | Some vct => (forall v, 0 <= v < k -> okN v) /\ forall x, vct x = indeg f D k x end)); try lia.
  - split; [lia|]. intros x. now rewrite indeg_0.
  - intros v [vct|] Hv J.
    + destruct J as (J1 & J2). destruct (linksN_spec v vct Hv) as (s & E & H). exists s. split; auto. destruct s as [vct'|].
      * destruct H as (H1 & H2). split.
        -- intros u Hu. destruct (Z.eq_dec u v) as [->|]; auto. apply J1. lia.
        -- intros x. rewrite indeg_succ by lia. rewrite H2, J2. reflexivity.
      * eauto.
    + exists None. split; auto. unfold linksN_body.
      match goal with |- for_ 0 D ?bd _ = _ => set (body := bd) end.
      destruct (for_inv (fun k s => s = None) 0 D body None) as (s & E & ->); auto; try lia.
      intros i s Hi ->. exists None. auto.
Qed.

(** [x] is one of the entries of the subset *)
Definition inS (s : Z -> Z) (x : Z) : Prop := exists j, 0 <= j < D - 1 /\ s j = x.

Lemma pickN_spec s reg rcur : (forall j, 0 <= j < D - 1 -> 0 <= s j < n) ->
  exists c, pickN MX D n s reg rcur = OK c
  /\ ((0 <= c < n /\ reg c = rcur /\ ~ inS s c /\ forall x, 0 <= x < c -> reg x = rcur -> inS s x)
      \/ (c = n /\ forall x, 0 <= x < n -> reg x = rcur -> inS s x)).
Proof.
  intros Hs. unfold pickN. match goal with |- context [for_ 0 n ?bd _] => set (body := bd) end.
  destruct (for_inv (fun k (o : option Z) => match o with
     | Some c => 0 <= c < n /\ reg c = rcur /\ ~ inS s c /\ forall x, 0 <= x < c -> reg x = rcur -> inS s x
     | None => forall x, 0 <= x < k -> reg x = rcur -> inS s x end) 0 n body None) as (o & E & J).
  - lia.
  - intros; lia.
  - intros v [c|] Hv J; unfold body.
    + eexists; split; [reflexivity|]. exact J.
    + rewrite rd_ok by lia. cbn [bind]. destruct (Z.eqb_spec (reg v) rcur) as [Er|Nr]; cbn [negb].
      2: { eexists; split; [reflexivity|]. intros x Hx Ex. destruct (Z.eq_dec x v) as [->|]; [congruence|]. apply J; auto. lia. }
      match goal with |- context [for_ 0 (D - 1) ?bd _] => set (b2 := bd) end.
      destruct (for_inv (fun q (i : bool) => i = true <-> exists j, 0 <= j < q /\ s j = v) 0 (D - 1) b2 false) as (i & Ei & Ji).
      { lia. } { split; [discriminate|]. intros (j & Hj & _). lia. }
      { intros q [|] Hq Jq; unfold b2.
        - eexists; split; [reflexivity|]. split; auto. intros _. destruct (proj1 Jq eq_refl) as (j & Hj & Ej). exists j. split; auto. lia.
        - rewrite rd_ok by lia. cbn [bind]. eexists; split; [reflexivity|]. rewrite Z.eqb_eq. split.
          + intros Eq. exists q. split; auto. lia.
          + intros (j & Hj & Ej). destruct (Z.eq_dec j q) as [->|]; auto. assert (false = true); [|discriminate].
            apply Jq. exists j. split; auto. lia. }
      rewrite Ei. cbn [bind]. eexists; split; [reflexivity|]. destruct i.
      * intros x Hx Ex. destruct (Z.eq_dec x v) as [->|]; [apply Ji; auto|]. apply J; auto. lia.
      * split; auto. split; auto. split; auto. intros C. apply Ji in C. discriminate.
  - rewrite E. cbn [bind]. eexists; split; [reflexivity|]. destruct o; auto.
Qed.

Hypothesis Reg : regularN.
Lemma regN_rng v i : 0 <= v < n -> 0 <= i < D -> 0 <= f v i < n.
Proof. intros Hv Hi. split; [apply NN; auto|]. destruct Reg as (R & _). destruct (R v Hv) as (A & _). auto. Qed.
Lemma regN_in v : 0 <= v < n -> indeg f D n v = D. Proof. intros Hv. apply Reg; auto. Qed.
Lemma csN u w : 0 <= u < n -> conn f D u w -> conn f D w u.
Proof. apply (conn_sym f D n ltac:(lia) regN_rng regN_in). Qed.

(** the component of [a] is larger than a subset *)
Lemma outside a s : 0 <= a < n -> (forall x, 0 <= x < n -> conn f D a x -> inS s x) -> False.
Proof.
  intros Ha H. destruct Reg as (R & Self). destruct (R a Ha) as (_ & O & _).
  assert (ND : NoDup (a :: map (f a) (zrange D))).
  { constructor.
    - rewrite in_map_iff. intros (i & E & Hi). apply in_zrange in Hi. apply (Self a i); auto.
    - assert (Hl : forall l, NoDup l -> (forall i, In i l -> 0 <= i < D) -> NoDup (map (f a) l)).
      { induction l as [|i l IH]; intros Nl Hl; cbn [map]; constructor.
        - rewrite in_map_iff. intros (j & E & Hj). inversion Nl; subst. apply O in E; [|apply Hl; cbn; auto..]. now subst.
        - inversion Nl; subst. apply IH; auto. intros; apply Hl; cbn; auto. }
      apply Hl; [apply NoDup_zrange|]. intros i. apply in_zrange. }
  assert (Inc : incl (a :: map (f a) (zrange D)) (map s (zrange (D - 1)))).
  { intros x Hx. assert (HS : inS s x).
    { cbn [In] in Hx. destruct Hx as [<-|Hx]; [apply H; auto; apply conn_refl|].
      apply in_map_iff in Hx. destruct Hx as (i & <- & Hi). apply in_zrange in Hi. apply H; [now apply regN_rng|now apply conn_link]. }
    destruct HS as (j & Hj & <-). apply in_map. now apply in_zrange. }
  pose proof (NoDup_incl_length ND Inc) as L. cbn [length] in L. rewrite !map_length, !length_zrange_nat in L. lia.
Qed.

(** what the test on one subset decides *)
Definition set_conn (s : Z -> Z) : Prop := (forall j, 0 <= j < D - 1 -> conn f D (s 0) (s j)) ->
  forall u w, 0 <= u < n -> 0 <= w < n -> conn f D (s 0) u -> conn f D (s 0) w -> ~ inS s u -> ~ inS s w ->
    (forall x, 0 <= x < u -> conn f D (s 0) x -> inS s x) -> walk f D (inS s) u w.

Lemma subset_in_spec s reg : (forall j, 0 <= j < D - 1 -> 0 <= s j < n) ->
  exists ok, subset_in MX D s reg (reg (s 0)) = OK ok /\ (ok = true <-> forall j, 0 <= j < D - 1 -> reg (s j) = reg (s 0)).
Proof.
  intros Hs. unfold subset_in. match goal with |- context [for_ 1 (D - 1) ?bd _] => set (body := bd) end.
  apply (for_inv (fun k (ok : bool) => ok = true <-> forall j, 0 <= j < k -> reg (s j) = reg (s 0))); try lia.
  - split; auto. intros _ j Hj. replace j with 0 by lia. auto.
  - intros k [|] Hk J; unfold body.
    + rewrite rd_ok by lia. cbn [bind]. specialize (Hs k ltac:(lia)). rewrite rd_ok by lia. cbn [bind].
      eexists; split; [reflexivity|]. rewrite Z.eqb_eq. split.
      * intros E j Hj. destruct (Z.eq_dec j k) as [->|]; auto. apply J; auto. lia.
      * intros A. apply A. lia.
    + exists false. split; auto. split; [discriminate|]. intros A. apply J. intros; apply A; lia.
Qed.
Lemma mask_spec s : (forall j, 0 <= j < D - 1 -> 0 <= s j < n) ->
  exists vct, mask_subset MX D s = OK vct /\ forall x, vct x <> 0 <-> inS s x.
Proof.
  intros Hs. unfold mask_subset, inS. match goal with |- context [for_ 0 (D - 1) ?bd _] => set (body := bd) end.
  apply (for_inv (fun k (vct : Z -> Z) => forall x, vct x <> 0 <-> exists j, 0 <= j < k /\ s j = x)); try lia.
  - intros x. split; [lia|]. intros (j & Hj & _). lia.
  - intros k vct Hk J. unfold body. rewrite rd_ok by lia. cbn [bind]. specialize (Hs k Hk). eexists. split; [apply wr_ok; lia|].
    intros x. unfold upd. destruct (Z.eqb_spec x (s k)) as [->|].
    + split; [|lia]. intros _. exists k. split; auto. lia.
    + rewrite J. split; intros (j & Hj & Ej).
      * exists j. split; auto. lia.
      * exists j. split; auto. destruct (Z.eq_dec j k) as [->|]; [congruence|lia].
Qed.

Lemma subset_ok_spec reg s : (forall x y, 0 <= x < n -> 0 <= y < n -> (reg x = reg y <-> conn f D x y)) ->
  (forall j, 0 <= j < D - 1 -> 0 <= s j < n) ->
  (exists ok, subset_ok N MX D p reg s = OK ok /\ (ok = true <-> set_conn s))
  \/ (subset_ok N MX D p reg s = Err OutOfBounds /\ MX < 1 + (D - 1) * n).
Proof.
  intros HR Hs. unfold subset_ok. pose proof (Hs 0 ltac:(lia)) as H0. rewrite rd_ok by lia. cbn [bind]. rewrite rd_ok by lia. cbn [bind].
  destruct (subset_in_spec s reg Hs) as (same & Es & Hsame). rewrite Es. cbn [bind]. destruct same; cbn [negb].
  2: { left. eexists; split; [reflexivity|]. split; auto. intros _ C. exfalso. assert (false = true); [|discriminate]. apply Hsame.
       intros j Hj. symmetry. apply HR; auto. }
  destruct (mask_spec s Hs) as (mk0 & Em & XE). rewrite Em. cbn [bind].
  destruct (pickN_spec s reg (reg (s 0)) Hs) as (c & Ec & Hc). rewrite Ec. cbn [bind].
  destruct Hc as [(Hc & Rc & Nc & Least)|(_ & None)].
  2: { exfalso. apply (outside (s 0) s H0). intros x Hx Cx. apply None; auto. symmetry. apply HR; auto. }
  assert (WE : forall x, walk f D (fun x => mk0 x <> 0) c x <-> walk f D (inS s) c x).
  { intros x. split; apply walk_mono; intros y; apply XE. }
  destruct (flood_spec MX D b n ltac:(lia) Hn regN_rng 1 ltac:(lia) mk0 c Hc) as [(mk & Ef & H)|(Ef & Q)]; rewrite Ef; cbn [bind].
  2: { right. split; [auto|lia]. }
  left. destruct (all_touched_spec MX n Hn reg mk (reg (s 0))) as (ok & Ea & Hok).
  exists ok. split; [exact Ea|]. rewrite Hok. clear Ec Ef Ea Em Es. split.
  - intros A _ u w Hu Hw Cu Cw Nu Nw Lu.
    assert (u = c).
    { destruct (Z.lt_total u c) as [Lt|[->|Lt]]; auto.
      - elim Nu. apply (Least u ltac:(lia)). symmetry; apply HR; auto.
      - elim Nc. apply (Lu c ltac:(lia)). apply HR; auto. }
    subst u. destruct (H w) as (_ & H2).
    assert (M0 : mk0 w = 0). { destruct (Z.eq_dec (mk0 w) 0) as [|C]; auto. apply XE in C. tauto. }
    destruct (H2 M0) as [(_ & _ & W)|(M & _)]; [now apply WE|]. elim (A w Hw); auto. symmetry. apply HR; auto.
  - intros PC w Hw Rw. destruct (H w) as (H1 & H2). destruct (Z.eq_dec (mk0 w) 0) as [M0|M0]; [|now rewrite H1].
    assert (Nw : ~ inS s w) by (rewrite <- XE; lia).
    assert (W : walk f D (fun x => mk0 x <> 0) c w).
    { apply WE. apply PC; auto; try (apply HR; auto; fail).
      - intros j Hj. apply HR; auto. symmetry. apply (proj1 Hsame); auto.
      - intros x Hx Cx. apply Least; auto. symmetry. apply HR; auto. lia. }
    destruct (H2 M0) as [(M & _)|(_ & NW)]; [lia|]. now elim NW.
Qed.

Lemma set_conn_ext s t : ceq (D - 1) s t -> set_conn s -> set_conn t.
Proof.
  intros E H C u w Hu Hw Cu Cw Nu Nw L.
  assert (IE : forall x, inS s x <-> inS t x).
  { intros x. split; intros (j & Hj & Ej); exists j; split; auto; [rewrite <- E|rewrite E]; auto. }
  assert (E0 : s 0 = t 0) by (apply E; lia).
  assert (W : walk f D (inS s) u w).
  { apply H; auto; rewrite ?E0, ?IE; auto.
    - intros j Hj. rewrite E by auto. auto.
    - intros x Hx Cx. apply IE. auto. }
  revert W. apply walk_mono. intros x. apply IE.
Qed.

(** subsets as increasing sequences *)
Definition all_subsets : Prop := forall s, inc (D - 1) s -> s (D - 2) < n -> set_conn s.

Lemma inc_rng s : inc (D - 1) s -> s (D - 2) < n -> forall j, 0 <= j < D - 1 -> 0 <= s j < n.
Proof.
  intros I L j Hj. pose proof (inc_ge (D - 1) s I j Hj). split; [lia|].
  destruct (Z.eq_dec j (D - 2)) as [->|]; auto. pose proof (inc_lt (D - 1) s I j (D - 2) ltac:(lia) ltac:(lia) ltac:(lia)). lia.
Qed.

Lemma subsets_spec reg fuel : (forall x y, 0 <= x < n -> 0 <= y < n -> (reg x = reg y <-> conn f D x y)) ->
  D - 1 <= n -> (n + 1) ^ (D - 1) <= Z.of_nat fuel ->
  (exists ok, subsets_ok N MX D fuel p reg = OK ok /\ (ok = true <-> all_subsets))
  \/ (subsets_ok N MX D fuel p reg = Err OutOfBounds /\ MX < 1 + (D - 1) * n).
Proof.
  intros HR Hn1 Hf. unfold subsets_ok.
  match goal with |- context [while_ _ ?c ?bd _] => set (cond := c); set (body := bd) end.
  set (B := n + 1). set (mm := Z.to_nat (D - 1)).
  assert (Emm : Z.of_nat mm = D - 1) by lia.
  assert (PB : 0 < B ^ (D - 1)) by (apply Z.pow_pos_nonneg; lia).
  destruct (while_inv3 (fun s : bool * (Z -> Z) =>
      inc (D - 1) (snd s) /\ snd s (D - 2) <= n
      /\ (fst s = true -> forall t, inc (D - 1) t -> t (D - 2) < n -> clt (D - 1) t (snd s) -> set_conn t)
      /\ (fst s = false -> exists t, inc (D - 1) t /\ t (D - 2) < n /\ ~ set_conn t))
    (fun s => if fst s then B ^ (D - 1) - rank B (snd s) mm else 0) (fun e => e = OutOfBounds /\ MX < 1 + (D - 1) * n) cond body)
    with (fuel := fuel) (s := (true, fun v : Z => v)) as [((ok, s) & E & (I & L & J1 & J2) & C)|(e & E & -> & Q)].
  - intros (ok, s) (I & L & J1 & J2) C. unfold cond in C. cbn [fst snd] in *. apply andb_true_iff in C. destruct C as (-> & C).
    apply Z.ltb_lt in C. pose proof (inc_rng s I C) as Rs.
    assert (Rk : 0 <= rank B s mm < B ^ (D - 1)). { rewrite <- Emm. apply rank_bound; [lia|]. intros i Hi. specialize (Rs i ltac:(lia)). lia. }
    split; [lia|]. unfold body. cbn [fst snd].
    destruct (subset_ok_spec reg s HR Rs) as [(ok & E & Hok)|(E & Q)]; rewrite E; cbn [bind].
    2: { right. eexists; split; [reflexivity|]. auto. }
    left. destruct ok.
    + destruct (next_subset_spec D s HD I) as (s' & v & En & R & Ce). rewrite En. cbn [bind]. eexists; split; [reflexivity|]. cbn [fst snd].
      pose proof (bump_inc (D - 1) s v I R) as Ib.
      assert (I' : inc (D - 1) s') by (apply (inc_ceq (D - 1) s' (bump s v)); auto; lia).
      assert (L' : s' (D - 2) <= n).
      { rewrite Ce by lia. unfold bump. destruct R as (Hv & _). destruct (Z.ltb_spec (D - 2) v); [lia|].
        destruct (Z.eqb_spec (D - 2) v) as [<-|]; lia. }
      split; [split; auto; split; auto; split; [|discriminate]|].
      * intros _ t It Lt Ct. apply (clt_ext _ t _ _ Ce) in Ct; auto.
        destruct (clt_total (D - 1) ltac:(lia) t s) as [C1|[C1|C1]].
        -- apply J1; auto.
        -- apply (set_conn_ext s t); [intros i Hi; symmetry; auto|]. now apply Hok.
        -- exfalso. destruct (bump_next (D - 1) ltac:(lia) s v t I It R C1) as [C2|C2].
           ++ now apply (clt_ceq _ _ _ Ct).
           ++ now apply (clt_asym _ _ _ Ct).
      * assert (Rs' : forall i, 0 <= i < D - 1 -> 0 <= s' i < B).
        { intros i Hi. pose proof (inc_ge (D - 1) s' I' i Hi). split; [lia|]. unfold B.
          destruct (Z.eq_dec i (D - 2)) as [->|]; [lia|].
          pose proof (inc_lt (D - 1) s' I' i (D - 2) ltac:(lia) ltac:(lia) ltac:(lia)). lia. }
        destruct (clt_ext _ s _ s' (fun i Hi => eq_sym (Ce i Hi)) (bump_lt (D - 1) s v R)) as (k & Hk & Lk & Ek).
        assert (rank B s mm < rank B s' mm); [|lia].
        apply (rank_lt B s s' mm k); rewrite ?Emm; auto; [unfold B; lia|].
        intros i Hi. specialize (Rs i Hi). unfold B. lia.
    + eexists; split; [reflexivity|]. cbn [fst snd]. split; [|lia]. split; auto. split; auto. split; [discriminate|].
      intros _. exists s. split; auto. split; auto. intros SC. apply Hok in SC. discriminate.
  - cbn [fst snd]. split; [split; [lia|intros; lia]|]. split; [lia|]. split; [|discriminate].
    intros _ t It Lt (k & Hk & Lk & _). pose proof (inc_ge (D - 1) t It k Hk). lia.
  - cbn [fst snd]. assert (0 <= rank B (fun v : Z => v) mm); [|fold B in Hf; lia].
    apply rank_bound; [lia|]. intros i Hi. unfold B. lia.
  - left. rewrite E. cbn [bind]. exists ok. split; auto. cbn [fst snd] in *. unfold cond in C. cbn [fst snd] in C. destruct ok.
    + split; auto. intros _ t It Lt. apply J1; auto. cbn [andb] in C. apply Z.ltb_ge in C.
      exists (D - 2). split; [lia|]. split; [lia|]. intros; lia.
    + split; [discriminate|]. intros A. destruct (J2 eq_refl) as (t & It & Lt & Nt). elim Nt. auto.
  - right. rewrite E. auto.
Qed.

(** from lists to increasing sequences and back *)
Lemma sorted_seq (S : list Z) : NoDup S -> (forall x, In x S -> 0 <= x < n) ->
  exists s, inc (Z.of_nat (length S)) s /\ (forall j, 0 <= j < Z.of_nat (length S) -> 0 <= s j < n)
  /\ forall x, In x S <-> exists j, 0 <= j < Z.of_nat (length S) /\ s j = x.
Proof.
  intros ND Rg. set (K := fun x => existsb (Z.eqb x) S).
  assert (KE : forall x, K x = true <-> In x S).
  { intros x. unfold K. rewrite existsb_exists. split.
    - intros (y & Hy & E). apply Z.eqb_eq in E. now subst.
    - intros Hx. exists x. split; auto. apply Z.eqb_refl. }
  assert (P : forall k, 0 <= k -> exists s, inc (cnt K k) s /\ (forall j, 0 <= j < cnt K k -> 0 <= s j < k)
     /\ forall x, (0 <= x < k /\ K x = true) <-> exists j, 0 <= j < cnt K k /\ s j = x).
  { intros k Hk. pattern k. apply zrange_ind; auto.
    - exists (fun _ => 0). change (cnt K 0) with 0. split; [split; intros; lia|]. split; [intros; lia|].
      intros x. split; [lia|]. intros (j & Hj & _). lia.
    - intros q Hq (s & I & R & E). pose proof (cnt_nonneg K q) as C0. rewrite cnt_succ by auto. destruct (K q) eqn:Kq.
      + exists (upd s (cnt K q) q). unfold upd. split; [split|split].
        * destruct (Z.eqb_spec 0 (cnt K q)); [lia|]. apply R. lia.
        * intros i Hi Hi1. destruct (Z.eqb_spec i (cnt K q)); [lia|]. destruct (Z.eqb_spec (i + 1) (cnt K q)).
          -- apply R. lia.
          -- apply I; lia.
        * intros j Hj. destruct (Z.eqb_spec j (cnt K q)); [lia|]. specialize (R j ltac:(lia)). lia.
        * intros x. split.
          -- intros (Hx & Kx). destruct (Z.eq_dec x q) as [->|].
             ++ exists (cnt K q). rewrite Z.eqb_refl. split; auto. lia.
             ++ destruct (proj1 (E x) ltac:(split; auto; lia)) as (j & Hj & Ej). exists j. destruct (Z.eqb_spec j (cnt K q)); [lia|].
                split; auto. lia.
          -- intros (j & Hj & Ej). destruct (Z.eqb_spec j (cnt K q)); [subst x; split; auto; lia|].
             destruct (proj2 (E x) ltac:(exists j; split; auto; lia)). split; auto. lia.
      + exists s. rewrite Z.add_0_r. split; auto. split; [intros j Hj; specialize (R j Hj); lia|].
        intros x. rewrite <- E. split; intros (Hx & Kx); split; auto; try lia. destruct (Z.eq_dec x q); [congruence|lia]. }
  destruct (P n ltac:(lia)) as (s & I & R & E).
  assert (L : cnt K n = Z.of_nat (length S)).
  { unfold cnt. f_equal. apply Permutation_length. apply NoDup_Permutation; auto.
    - apply NoDup_filter, NoDup_zrange.
    - intros x. rewrite filter_In, in_zrange, KE. split; [tauto|]. intros Hx. auto. }
  rewrite L in *. exists s. split; auto. split; auto. intros x. rewrite <- E, KE. split; [|tauto]. auto.
Qed.

Lemma all_subsets_connk : 0 < n -> (all_subsets <-> connk_least (D - 1) f D n).
Proof.
  intros Hp. split.
  - intros A S u w ND LS HS Hu Hw C Nu Nw L.
    destruct (sorted_seq S ND (fun x Hx => proj1 (HS x Hx))) as (s & I & Rs & IS). rewrite LS in *.
    assert (E : forall x, In x S <-> inS s x) by (intros x; rewrite IS; reflexivity).
    assert (S0 : In (s 0) S) by (apply E; exists 0; split; auto; lia). destruct (HS _ S0) as (R0 & C0).
    pose proof (csN _ _ Hu C0) as C0'.
    apply (walk_mono f D (inS s)); [intros x; apply E|].
    apply A; auto; rewrite <- ?E; auto.
    + apply Rs. lia.
    + intros j Hj. apply (conn_trans f D _ u); auto. apply HS. apply E. exists j. auto.
    + apply (conn_trans f D _ u); auto.
    + intros x Hx Cx. apply E. apply L; auto. apply (conn_trans f D _ (s 0)); auto.
  - intros A s I Ls Cs u w Hu Hw Cu Cw Nu Nw L. pose proof (inc_rng s I Ls) as Rs.
    set (S := map s (zrange (D - 1))).
    assert (E : forall x, In x S <-> inS s x).
    { intros x. unfold S. rewrite in_map_iff. split; intros (j & Hj & Ej).
      - exists j. split; auto. now apply in_zrange.
      - exists j. split; auto. now apply in_zrange. }
    pose proof (csN _ _ (Rs 0 ltac:(lia)) Cu) as Cu'.
    apply (walk_mono f D (fun x => In x S)); [intros x; apply E|].
    apply A; auto; rewrite ?E; auto.
    + unfold S. assert (Hl : forall l, NoDup l -> (forall i, In i l -> 0 <= i < D - 1) -> NoDup (map s l)).
      { induction l as [|i l IH]; intros Nl Hl; cbn [map]; constructor.
        - rewrite in_map_iff. intros (j & Ej & Hj). inversion Nl; subst.
          pose proof (Hl i ltac:(cbn; auto)). pose proof (Hl j ltac:(cbn; auto)).
          destruct (Z.lt_total i j) as [Q|[Q|Q]]; [|subst; auto|].
          + pose proof (inc_lt (D - 1) s I i j ltac:(lia) ltac:(lia) ltac:(lia)). lia.
          + pose proof (inc_lt (D - 1) s I j i ltac:(lia) ltac:(lia) ltac:(lia)). lia.
        - inversion Nl; subst. apply IH; auto. intros; apply Hl; cbn; auto. }
      apply Hl; [apply NoDup_zrange|]. intros i. apply in_zrange.
    + unfold S. rewrite map_length, length_zrange_nat. lia.
    + intros x Hx. apply E in Hx. destruct Hx as (j & Hj & <-). split; auto. apply (conn_trans f D _ (s 0)); auto.
    + apply (conn_trans f D _ (s 0)); auto.
    + intros x Hx Cx. apply E. apply L; auto. apply (conn_trans f D _ u); auto.
Qed.
End GN.

Lemma is_goodN_spec N MX D fuel p : 2 <= D -> 0 <= nvN N p <= MX ->
  (forall v i, 0 <= v < nvN N p -> 0 <= i < D -> 0 <= nb (vbN N p) v i) ->
  (nvN N p + 1) ^ (D - 1) <= Z.of_nat fuel ->
  (exists r, rNd_is_good N MX D fuel p = OK r /\ (r = 0 \/ r = 1)
     /\ (r = 1 <-> regularN N D p /\ connk_least (D - 1) (nb (vbN N p)) D (nvN N p)))
  \/ (rNd_is_good N MX D fuel p = Err OutOfBounds /\ MX < 1 + (D - 1) * nvN N p).
Proof.
  intros HD Hn NN Hf. unfold rNd_is_good.
  destruct (linksN_all N MX D HD p Hn NN) as (s & E & H). rewrite E. cbn [bind]. destruct s as [vct|].
  2: { left. exists 0. split; auto. split; auto. split; [lia|]. intros ((Rg & Sf) & _). destruct H as (v & Hv & H). elim H.
       intros i Hi. destruct (Rg v Hv) as (A & B & _). split; [auto|]. split; auto. intros j Hj Ej. apply B in Ej; lia. }
  destruct H as (H1 & H2). destruct (counts_ok_spec MX D (nvN N p) Hn vct) as (ok & Ec & Hok). rewrite Ec. cbn [bind]. destruct ok.
  2: { left. exists 0. split; auto. split; auto. split; [lia|]. intros ((Rg & _) & _). exfalso. assert (false = true); [|discriminate].
       apply Hok. intros v Hv. rewrite H2. apply (Rg v Hv). }
  assert (Rg : regularN N D p).
  { split.
    - intros v Hv. pose proof (H1 v Hv) as A. split; [intros i Hi; apply A; auto|]. split.
      + intros i j Hi Hj Ej. destruct (Z.lt_total i j) as [C|[C|C]]; auto; exfalso.
        * destruct (A i Hi) as (_ & _ & Q). apply (Q j); auto. lia.
        * destruct (A j Hj) as (_ & _ & Q). apply (Q i); auto. lia.
      + rewrite <- H2. now apply Hok.
    - intros v i Hv Hi. apply (H1 v Hv i Hi). }
  destruct (components_spec MX D (vbN N p) (nvN N p) ltac:(lia) Hn (regN_rng N D p NN Rg) (regN_in N D p Rg)) as [(reg & Er & HR)|(Er & Q)];
    rewrite Er; cbn [bind].
  2: { right. split; [auto|lia]. }
  destruct (Z.eq_dec (nvN N p) 0) as [Z0|NZ].
  { left. exists 1. split; [|split; auto; split; auto; intros _; split; auto].
    - unfold subsets_ok. destruct fuel as [|fuel]; cbn [while_ fst snd]; rewrite Z0; destruct (Z.ltb_spec (D - 2) 0); try lia; reflexivity.
    - intros S u w _ _ _ Hu. lia. }
  assert (D - 1 <= nvN N p).
  { (* D distinct neighbours *) destruct (proj1 Rg 0 ltac:(lia)) as (A & B & _).
    assert (Hl : forall l, NoDup l -> (forall i, In i l -> 0 <= i < D) -> NoDup (map (nb (vbN N p) 0) l)).
    { induction l as [|i l IH]; intros Nl Hl; cbn [map]; constructor.
      - rewrite in_map_iff. intros (j & Ej & Hj). inversion Nl; subst. apply B in Ej; [|apply Hl; cbn; auto..]. now subst.
      - inversion Nl; subst. apply IH; auto. intros; apply Hl; cbn; auto. }
    assert (Inc : incl (map (nb (vbN N p) 0) (zrange D)) (zrange (nvN N p))).
    { intros x Hx. apply in_map_iff in Hx. destruct Hx as (i & <- & Hi). apply in_zrange in Hi. apply in_zrange. split; [apply NN; lia|auto]. }
    pose proof (NoDup_incl_length (Hl _ (NoDup_zrange D) (fun i Hi => proj1 (in_zrange D i) Hi)) Inc) as L.
    rewrite map_length, !length_zrange_nat in L. lia. }
  destruct (subsets_spec N MX D HD p Hn NN Rg reg fuel HR ltac:(lia) Hf) as [(ok & Ep & Hp)|(Ep & Q)]; rewrite Ep; cbn [bind].
  2: { right. auto. }
  left. eexists; split; [reflexivity|]. split; [destruct ok; auto|].
  rewrite (all_subsets_connk N MX D HD p Hn NN Rg ltac:(lia)) in Hp. destruct ok.
  - split; auto. intros _. split; auto. now apply Hp.
  - split; [discriminate|]. intros (_ & C). apply Hp in C. discriminate.
Qed.

(** with mutual links the least vertex does not matter *)
Lemma connk_mutual k f D n : 1 <= D -> (forall v i, 0 <= v < n -> 0 <= i < D -> 0 <= f v i < n) -> mutual f D n ->
  (connk_least k f D n <-> connk k f D n).
Proof.
  intros HD R M. split.
  2: { intros C S u w; intros. apply C; auto. }
  intros C S u w ND LS HS Hu Hw Cw N1 N2.
  destruct (conn_dec f D n R ltac:(lia) u Hu) as (K & HK).
  set (ok := fun x => K x && negb (existsb (Z.eqb x) S)).
  assert (HO : forall x, ok x = true <-> conn f D u x /\ ~ In x S).
  { intros x. unfold ok. rewrite andb_true_iff, negb_true_iff, HK. rewrite <- not_true_iff_false, existsb_exists.
    split; intros (A & B); split; auto; intros H; apply B.
    - exists x. split; auto. apply Z.eqb_refl.
    - destruct H as (y & Hy & E). apply Z.eqb_eq in E. now subst. }
  assert (G : exists c, 0 <= c < n /\ ok c = true /\ forall x, 0 <= x < c -> ok x = false).
  { destruct (first_true (fun k => ok (Z.of_nat k)) (Z.to_nat u)) as (m & Hm & P & Q).
    - rewrite Z2Nat.id by lia. apply HO. split; auto. apply conn_refl.
    - exists (Z.of_nat m). split; [lia|]. split; auto. intros x Hx. specialize (Q (Z.to_nat x) ltac:(lia)).
      now rewrite Z2Nat.id in Q by lia. }
  destruct G as (c & Hc & Oc & Lc). apply HO in Oc as (Cc & N5).
  assert (Sy : forall x y, 0 <= x < n -> conn f D x y -> conn f D y x) by (intros x y Hx; apply (walk_sym f D n R M); auto).
  assert (Least : forall x, 0 <= x < c -> conn f D c x -> In x S).
  { intros x Hx Cx. specialize (Lc x Hx). destruct (in_dec Z.eq_dec x S); auto. exfalso.
    rewrite (proj2 (HO x)) in Lc; [discriminate|]. split; auto. now apply conn_trans with c. }
  assert (W : forall y, 0 <= y < n -> conn f D u y -> ~ In y S -> walk f D (fun x => In x S) c y).
  { intros y Hy Cy N7. apply C; auto; [|apply conn_trans with u; auto].
    intros s Hs. destruct (HS s Hs). split; auto. apply conn_trans with u; auto. }
  apply walk_trans with c; [|apply W; auto]. apply (walk_sym f D n R M); auto. apply W; auto. apply conn_refl.
Qed.
