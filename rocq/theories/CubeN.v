(** * CubeN: the graphs of the simplex and of the hypercube stay connected when
    fewer than [D] vertices are removed. *)
From Coq Require Import ZArith List Bool Lia Permutation.
From Verif Require Import Base Lib CommonFacts Clip2 SpecGood Conn SpecN.
Import ListNotations.
Open Scope Z_scope.

Lemma NoDup_map_on {A B} (g : A -> B) l : NoDup l -> (forall x y, In x l -> In y l -> g x = g y -> x = y) -> NoDup (map g l).
Proof.
  induction l as [|x l IH]; intros Nl H; cbn [map]; constructor; inversion Nl; subst.
  - rewrite in_map_iff. intros (y & E & Hy). apply H in E; cbn; auto. now subst.
  - apply IH; auto. intros; apply H; cbn; auto.
Qed.

Lemma good_mutual f D n : good_links f D n -> mutual f D n.
Proof. intros G v i Hv Hi. apply (G v i Hv Hi). Qed.

Lemma good_regular f D n : 0 <= D -> 0 <= n -> good_links f D n -> regular f D n.
Proof.
  intros HD Hn G v Hv. split; [|split].
  - intros i Hi. apply (G v i Hv Hi).
  - intros i j Hi Hj E. apply (G v i Hv Hi); auto.
  - unfold indeg. set (l := filter _ _).
    assert (Hl : forall u i, In (u, i) l <-> 0 <= u < n /\ 0 <= i < D /\ f u i = v).
    { intros u i. unfold l. rewrite filter_In, in_prod_iff, !in_zrange, Z.eqb_eq. cbn [fst snd]. tauto. }
    assert (P : Permutation (map fst l) (map (f v) (zrange D))).
    { apply NoDup_Permutation.
      - apply NoDup_map_on.
        + apply NoDup_filter. unfold zrange. rewrite <- (darts_list_prod D n) by lia. apply NoDup_darts; lia.
        + intros (u, i) (u', i') Hx Hy. cbn [fst]. intros <-. apply Hl in Hx as (Hu & Hi & E), Hy as (_ & Hi' & E').
          f_equal. apply (G u i Hu Hi); auto. congruence.
      - apply NoDup_map_on; [apply NoDup_zrange|]. intros i j Hi Hj. apply in_zrange in Hi, Hj. apply (G v i Hv Hi); auto.
      - intros u. rewrite !in_map_iff. split.
        + intros ((u', i) & <- & Hx). apply Hl in Hx as (Hu & Hi & E). cbn [fst].
          destruct (G u' i Hu Hi) as (_ & _ & _ & j & Hj & Ej). rewrite E in Ej. exists j. split; auto. now apply in_zrange.
        + intros (j & <- & Hj). apply in_zrange in Hj. destruct (G v j Hv Hj) as (Hu & _ & _ & i & Hi & Ei).
          exists (f v j, i). split; auto. now apply Hl. }
    apply Permutation_length in P. rewrite !map_length, length_zrange_nat in P. rewrite P. lia.
Qed.

(** complete graphs *)
Lemma complete_connk k f D n : (forall u w, 0 <= u < n -> 0 <= w < n -> u <> w -> exists i, 0 <= i < D /\ f u i = w) -> connk k f D n.
Proof.
  intros C S u w _ _ _ Hu Hw _ Nu Nw. destruct (Z.eq_dec u w) as [<-|N]; [now constructor|].
  destruct (C u w Hu Hw N) as (i & Hi & <-). apply walk_step; auto. now constructor.
Qed.

(** ** hypercubes *)
Section Cube.
Context (D : Z) (f : Z -> Z -> Z).
Hypothesis HD : 0 <= D.
Hypothesis Hf : forall v i, 0 <= v < 2 ^ D -> 0 <= i < D -> f v i = Z.lxor v (2 ^ i).
Variable S : list Z.
Notation X := (fun x => In x S).
Notation W := (walk f D X).

(** the subcube of dimension [d] with high bits [h] *)
Definition cin (d h x : Z) : bool := Z.shiftr x d =? h.
Definition cct (d h : Z) : Z := Z.of_nat (length (filter (cin d h) S)).

Lemma flip_rng x d : 0 <= x < 2 ^ D -> 0 <= d < D -> 0 <= Z.lxor x (2 ^ d) < 2 ^ D.
Proof.
  intros Hx Hd. assert (0 < 2 ^ d) by (apply Z.pow_pos_nonneg; lia).
  assert (H0 : 0 <= Z.lxor x (2 ^ d)) by (apply Z.lxor_nonneg; lia). split; auto.
  destruct (Z.eq_dec (Z.lxor x (2 ^ d)) 0) as [->|]; [apply Z.pow_pos_nonneg; lia|].
  assert (Lx : x = 0 \/ Z.log2 x < D) by (destruct (Z.eq_dec x 0); auto; right; apply Z.log2_lt_pow2; lia).
  apply Z.log2_lt_pow2; [lia|].
  pose proof (Z.log2_lxor x (2 ^ d) ltac:(lia) ltac:(lia)) as L. rewrite Z.log2_pow2 in L by lia.
  destruct Lx as [->|]; [change (Z.log2 0) with 0 in L|]; lia.
Qed.
Lemma flip_high x d : 0 <= d -> Z.shiftr (Z.lxor x (2 ^ d)) d = Z.lxor (Z.shiftr x d) 1.
Proof. intros Hd. rewrite Z.shiftr_lxor. f_equal. rewrite Z.shiftr_div_pow2 by auto. apply Z.div_same. apply Z.pow_nonzero; lia. Qed.
Lemma flip_low x d : 0 <= d -> Z.lxor x (2 ^ d) mod 2 ^ d = x mod 2 ^ d.
Proof.
  intros Hd. apply Z.bits_inj'. intros i Hi.
  destruct (Z.ltb_spec i d).
  - rewrite !Z.mod_pow2_bits_low by lia. rewrite Z.lxor_spec, Z.pow2_bits_false by lia. apply xorb_false_r.
  - rewrite !Z.mod_pow2_bits_high by lia. auto.
Qed.
Lemma xor1_even h : Z.lxor (2 * h) 1 = 2 * h + 1.
Proof.
  symmetry. apply Z.add_nocarry_lxor. change 1 with (Z.ones 1). rewrite Z.land_ones by lia.
  rewrite Z.mul_comm. apply Z.mod_mul. lia.
Qed.
Lemma xor1_odd h : Z.lxor (2 * h + 1) 1 = 2 * h.
Proof. rewrite <- xor1_even. now rewrite Z.lxor_assoc, Z.lxor_nilpotent, Z.lxor_0_r. Qed.
Lemma shiftr_succ x d : 0 <= d -> Z.shiftr x (d + 1) = Z.shiftr x d / 2.
Proof. intros Hd. rewrite <- Z.shiftr_shiftr by lia. now rewrite (Z.shiftr_div_pow2 _ 1) by lia. Qed.
Lemma halves x d h : 0 <= d -> (Z.shiftr x (d + 1) = h <-> Z.shiftr x d = 2 * h \/ Z.shiftr x d = 2 * h + 1).
Proof.
  intros Hd. rewrite shiftr_succ by auto. pose proof (Z.div_mod (Z.shiftr x d) 2 ltac:(lia)).
  pose proof (Z.mod_pos_bound (Z.shiftr x d) 2 ltac:(lia)). split; [lia|].
  intros [->| ->].
  - rewrite Z.mul_comm. apply Z.div_mul. lia.
  - replace (2 * h + 1) with (1 + h * 2) by ring. rewrite Z.div_add by lia. reflexivity.
Qed.
Lemma cct_halves d h : 0 <= d -> cct (d + 1) h = cct d (2 * h) + cct d (2 * h + 1).
Proof.
  intros Hd. unfold cct. induction S as [|x l IH]; [reflexivity|]. cbn [filter].
  assert (E : cin (d + 1) h x = cin d (2 * h) x || cin d (2 * h + 1) x).
  { unfold cin. apply eq_iff_eq_true. rewrite orb_true_iff, !Z.eqb_eq. apply halves; auto. }
  rewrite E. destruct (cin d (2 * h) x) eqn:A, (cin d (2 * h + 1) x) eqn:B; cbn [orb length]; try lia.
  unfold cin in A, B. apply Z.eqb_eq in A, B. lia.
Qed.
Lemma cct_0 d h x : cct d h = 0 -> Z.shiftr x d = h -> ~ In x S.
Proof.
  intros C E I. assert (In x (filter (cin d h) S)) by (apply filter_In; split; auto; now apply Z.eqb_eq).
  unfold cct in C. destruct (filter (cin d h) S); [auto|cbn in C; lia].
Qed.

Lemma pow_gt d : 0 <= d -> d < 2 ^ d. Proof. intros. apply Z.pow_gt_lin_r; lia. Qed.

(** a pair of opposite vertices not removed *)
Lemma free_pair d h : 0 <= d < D -> 0 <= h -> 2 ^ (d + 1) * (h + 1) <= 2 ^ D -> cct (d + 1) h <= d ->
  exists x, 0 <= x < 2 ^ D /\ Z.shiftr x d = 2 * h /\ ~ In x S /\ ~ In (Z.lxor x (2 ^ d)) S.
Proof.
  intros Hd Hh HB C. set (l := map (fun s => s mod 2 ^ d) (filter (cin (d + 1) h) S)).
  assert (P2 : 0 < 2 ^ d) by (apply Z.pow_pos_nonneg; lia).
  assert (Q : exists y, 0 <= y < 2 ^ d /\ ~ In y l).
  { destruct (forallb (fun y => existsb (Z.eqb y) l) (zrange (2 ^ d))) eqn:F.
    - exfalso. rewrite forallb_forall in F.
      assert (I : incl (zrange (2 ^ d)) l).
      { intros y Hy. specialize (F y Hy). apply existsb_exists in F as (z & Hz & E). apply Z.eqb_eq in E. now subst. }
      pose proof (NoDup_incl_length (NoDup_zrange _) I) as L. unfold l in L. rewrite map_length, length_zrange_nat in L.
      unfold cct in C. pose proof (pow_gt d ltac:(lia)). lia.
    - rewrite <- not_true_iff_false, forallb_forall in F.
      assert (G : exists y, In y (zrange (2 ^ d)) /\ existsb (Z.eqb y) l = false).
      { destruct (existsb (fun y => negb (existsb (Z.eqb y) l)) (zrange (2 ^ d))) eqn:G.
        - apply existsb_exists in G as (y & Hy & E). exists y. split; auto. now apply negb_true_iff.
        - exfalso. apply F. intros y Hy. destruct (existsb (Z.eqb y) l) eqn:E; auto.
          rewrite <- not_true_iff_false in G. elim G. apply existsb_exists. exists y. split; auto. now rewrite E. }
      destruct G as (y & Hy & E). exists y. split; [now apply in_zrange|]. intros I. rewrite <- not_true_iff_false in E. apply E.
      apply existsb_exists. exists y. split; auto. apply Z.eqb_refl. }
  destruct Q as (y & Hy & Ny). exists (y + (2 * h) * 2 ^ d).
  assert (E1 : Z.shiftr (y + 2 * h * 2 ^ d) d = 2 * h).
  { rewrite Z.shiftr_div_pow2 by lia. rewrite Z.div_add by lia. rewrite Z.div_small by lia. lia. }
  assert (E2 : (y + 2 * h * 2 ^ d) mod 2 ^ d = y).
  { rewrite Z.mod_add by lia. apply Z.mod_small. lia. }
  split; [|split; [auto|]].
  - rewrite Z.pow_add_r in HB by lia. change (2 ^ 1) with 2 in HB. split; [|nia]. apply Z.add_nonneg_nonneg; [lia|]. apply Z.mul_nonneg_nonneg; lia.
  - assert (G : forall x, x mod 2 ^ d = y -> Z.shiftr x (d + 1) = h -> ~ In x S).
    { intros x Ex Ec I. apply Ny. unfold l. apply in_map_iff. exists x. split; auto. apply filter_In. split; auto. now apply Z.eqb_eq. }
    split; apply G; auto.
    + apply halves; [lia|]. auto.
    + rewrite flip_low by lia. auto.
    + apply halves; [lia|]. rewrite flip_high by lia. rewrite E1, xor1_even. auto.
Qed.

Lemma W_sym u w : 0 <= u < 2 ^ D -> W u w -> W w u.
Proof.
  apply (walk_sym f D (2 ^ D)).
  - intros v i Hv Hi. rewrite Hf by auto. now apply flip_rng.
  - intros v i Hv Hi. exists i. split; auto. rewrite (Hf v i) by auto. rewrite Hf by (auto; now apply flip_rng).
    now rewrite Z.lxor_assoc, Z.lxor_nilpotent, Z.lxor_0_r.
Qed.
Lemma W_flip u d : 0 <= u < 2 ^ D -> 0 <= d < D -> ~ In u S -> ~ In (Z.lxor u (2 ^ d)) S -> W u (Z.lxor u (2 ^ d)).
Proof. intros Hu Hd Nu Nw. rewrite <- Hf by auto. apply walk_step; auto; [now constructor|]. now rewrite Hf. Qed.

Lemma cube_conn (k : nat) : forall h, Z.of_nat k <= D -> 0 <= h -> 2 ^ Z.of_nat k * (h + 1) <= 2 ^ D ->
  cct (Z.of_nat k) h < Z.max 1 (Z.of_nat k) ->
  forall u w, 0 <= u < 2 ^ D -> 0 <= w < 2 ^ D -> Z.shiftr u (Z.of_nat k) = h -> Z.shiftr w (Z.of_nat k) = h -> ~ In u S -> ~ In w S -> W u w.
Proof.
  induction k as [|k IH]; intros h Hk Hh HB C u w Hu Hw Eu Ew Nu Nw.
  - change (Z.of_nat 0) with 0 in *. rewrite Z.shiftr_0_r in Eu, Ew. subst u w. now constructor.
  - set (d := Z.of_nat k) in *. replace (Z.of_nat (Datatypes.S k)) with (d + 1) in * by lia.
    assert (Hd : 0 <= d < D) by lia. rewrite cct_halves in C by lia.
    assert (P2 : 0 < 2 ^ d) by (apply Z.pow_pos_nonneg; lia).
    assert (B0 : 2 ^ d * (2 * h + 1) <= 2 ^ D) by (rewrite Z.pow_add_r in HB by lia; change (2 ^ 1) with 2 in HB; nia).
    assert (B1 : 2 ^ d * (2 * h + 1 + 1) <= 2 ^ D) by (rewrite Z.pow_add_r in HB by lia; change (2 ^ 1) with 2 in HB; nia).
    assert (C0 : 0 <= cct d (2 * h)) by (unfold cct; lia). assert (C1 : 0 <= cct d (2 * h + 1)) by (unfold cct; lia).
    apply halves in Eu; [|lia]. apply halves in Ew; [|lia].
    assert (Fe : forall x, Z.shiftr x d = 2 * h -> Z.shiftr (Z.lxor x (2 ^ d)) d = 2 * h + 1).
    { intros x E. rewrite flip_high, E by lia. apply xor1_even. }
    assert (Fo : forall x, Z.shiftr x d = 2 * h + 1 -> Z.shiftr (Z.lxor x (2 ^ d)) d = 2 * h).
    { intros x E. rewrite flip_high, E by lia. apply xor1_odd. }
    (* a half without removed vertices *)
    assert (Full : forall h', h' = 2 * h \/ h' = 2 * h + 1 -> cct d h' = 0 -> W u w).
    { intros h' Hh' Z0.
      assert (T : forall x, 0 <= x < 2 ^ D -> (Z.shiftr x d = 2 * h \/ Z.shiftr x d = 2 * h + 1) -> ~ In x S ->
                  exists y, 0 <= y < 2 ^ D /\ Z.shiftr y d = h' /\ ~ In y S /\ W x y).
      { intros x Hx Ex Nx. destruct (Z.eq_dec (Z.shiftr x d) h') as [E|N].
        - exists x. split; auto. split; auto. split; auto. now constructor.
        - exists (Z.lxor x (2 ^ d)). assert (E' : Z.shiftr (Z.lxor x (2 ^ d)) d = h').
          { destruct Hh' as [->| ->]; destruct Ex as [Ex|Ex]; try congruence; [now apply Fo|now apply Fe]. }
          assert (N' : ~ In (Z.lxor x (2 ^ d)) S) by (apply (cct_0 d h'); auto).
          split; [now apply flip_rng|]. split; auto. split; auto. now apply W_flip. }
      destruct (T u Hu Eu Nu) as (u' & Hu' & Eu' & Nu' & Wu), (T w Hw Ew Nw) as (w' & Hw' & Ew' & Nw' & Ww).
      apply (walk_trans f D _ u u'); auto. apply (walk_trans f D _ u' w'); [|now apply W_sym].
      apply (IH h'); auto; try lia. }
    destruct (Z.eq_dec (cct d (2 * h)) 0) as [Z0|Z0]; [apply (Full (2 * h)); auto|].
    destruct (Z.eq_dec (cct d (2 * h + 1)) 0) as [Z1|Z1]; [apply (Full (2 * h + 1)); auto|].
    (* both halves connected *)
    assert (I0 : forall x y, 0 <= x < 2 ^ D -> 0 <= y < 2 ^ D -> Z.shiftr x d = 2 * h -> Z.shiftr y d = 2 * h -> ~ In x S -> ~ In y S -> W x y).
    { intros x y Hx Hy Ex Ey. apply (IH (2 * h)); auto; lia. }
    assert (I1 : forall x y, 0 <= x < 2 ^ D -> 0 <= y < 2 ^ D -> Z.shiftr x d = 2 * h + 1 -> Z.shiftr y d = 2 * h + 1 -> ~ In x S -> ~ In y S -> W x y).
    { intros x y Hx Hy Ex Ey. apply (IH (2 * h + 1)); auto; lia. }
    destruct (free_pair d h Hd Hh ltac:(lia) ltac:(rewrite cct_halves; lia)) as (x & Hx & Ex & Nx & Nx').
    pose proof (W_flip x d Hx Hd Nx Nx') as Wx. pose proof (flip_rng x d Hx Hd) as Hx'. pose proof (Fe x Ex) as Ex'.
    assert (Wx' : W (Z.lxor x (2 ^ d)) x) by now apply W_sym.
    assert (T : forall y, 0 <= y < 2 ^ D -> (Z.shiftr y d = 2 * h \/ Z.shiftr y d = 2 * h + 1) -> ~ In y S -> W y x).
    { intros y Hy [Ey|Ey] Ny; [now apply I0|]. apply (walk_trans f D _ y (Z.lxor x (2 ^ d))); auto. }
    apply (walk_trans f D _ u x); [now apply T|]. apply W_sym; auto.
Qed.
End Cube.

Lemma cube_connk D f : 0 <= D -> (forall v i, 0 <= v < 2 ^ D -> 0 <= i < D -> f v i = Z.lxor v (2 ^ i)) ->
  connk (D - 1) f D (2 ^ D).
Proof.
  intros HD Hf S u w ND LS HS Hu Hw _ Nu Nw.
  destruct (Z.eq_dec D 0) as [->|].
  { cbn in Hu, Hw. assert (u = w) by lia. subst. now constructor. }
  apply (cube_conn D f HD Hf S (Z.to_nat D) 0); auto; rewrite ?Z2Nat.id by lia; try lia.
  - assert (cct S D 0 <= Z.of_nat (length S)); [|lia]. unfold cct.
    assert (length (filter (cin D 0) S) <= length S)%nat; [|lia]. clear. induction S as [|x l IH]; cbn [filter length]; [lia|]. destruct (cin D 0 x); cbn [length]; lia.
  - rewrite Z.shiftr_div_pow2 by lia. apply Z.div_small. auto.
  - rewrite Z.shiftr_div_pow2 by lia. apply Z.div_small. auto.
Qed.
