(** * Mom2: edge sums over cut polygons, and the exact 2D moments. *)
From Coq Require Import Reals ZArith List Bool Lia Lra Permutation.
From Verif Require Import Base Lib ModelCommon CommonFacts Model2 Spec2 Struct2 Clip2 HPoly HShift HInt
  RealNum SumR Reduce2.
Import ListNotations.
Open Scope Z_scope.

(** ** Edge sums of a cut polygon, for any edge functional *)
Section Cut.
Context {V : Type} (f : V -> V -> R) (On : V -> Prop) (Phi : V -> R).
Hypothesis f_on : forall q q', On q -> On q' -> f q q' = (Phi q' - Phi q)%R.

Definition esumR (b : vbuf V) (n : Z) : R :=
  lsum (zrange n) (fun v => f (ps b v) (ps b (nb b v 0))).

Context (b0 b' : vbuf V) (n N : Z) (K : Z -> bool) (newpos : Z -> Z -> V).
Hypothesis HL : linked (nb b0) n.
Hypothesis C : cut2 b0 n N K newpos b'.
Hypothesis HOn : forall v np, 0 <= v < n -> 0 <= np < 2 -> K v = true -> K (nb b0 v np) = false -> On (newpos v np).

(** contribution of the edge leaving [v], seen from the side [K] *)
Definition edge_part (v : Z) : R :=
  let w := nb b0 v 0 in
  if K v then
    if K w then f (ps b0 v) (ps b0 w) else (f (ps b0 v) (newpos v 0) - Phi (newpos v 0))%R
  else
    if K w then (f (newpos w 1) (ps b0 w) + Phi (newpos w 1))%R else 0%R.

Local Notation F u := (if u <? n then 0%R else Phi (ps b' u)).

Lemma compressed_esum (p : poly V) : compressed 2 K N b' p ->
  esumR (vb p) (nv p) = lsum (filter K (zrange N)) (fun u => f (ps b' u) (ps b' (nb b' u 0))).
Proof.
  intros (Hn & Hc). unfold esumR. rewrite Hn.
  pose proof (c_n _ _ _ _ _ _ C).
  rewrite <- map_cnt_filter by lia. rewrite lsum_map. apply lsum_ext.
  intros u Hu. apply filter_In in Hu as (Hu & Ku). apply in_zrange in Hu.
  destruct (Hc u Hu Ku) as (E1 & E2). rewrite E1, E2 by lia.
  destruct (c_mut _ _ _ _ _ _ C u 0 Hu ltac:(lia) Ku) as (A & B & _).
  destruct (Hc _ A B) as (E3 & _). now rewrite E3.
Qed.

Lemma cut_esum : lsum (filter K (zrange N)) (fun u => f (ps b' u) (ps b' (nb b' u 0)))
  = lsum (zrange n) edge_part.
Proof.
  pose proof (c_n _ _ _ _ _ _ C) as Hn.
  set (KN := filter K (zrange N)).
  assert (InK : forall u, In u KN <-> 0 <= u < N /\ K u = true).
  { intros u. unfold KN. now rewrite filter_In, in_zrange. }
  assert (ND : NoDup KN) by (apply NoDup_filter, NoDup_zrange).
  (* subtract the coboundary of F *)
  assert (P : lsum KN (fun u => F (nb b' u 0)) = lsum KN (fun u => F u)).
  { apply (lsum_bij (fun u => nb b' u 0) KN KN (fun u => F u)); auto.
    - intros u Hu. apply InK in Hu as (Hu & Ku). apply InK.
      destruct (c_mut _ _ _ _ _ _ C u 0 Hu ltac:(lia) Ku) as (A & B & _). auto.
    - intros u w Hu Hw E. apply InK in Hu as (Hu & Ku). apply InK in Hw as (Hw & Kw).
      destruct (c_mut _ _ _ _ _ _ C u 0 Hu ltac:(lia) Ku) as (_ & _ & X).
      destruct (c_mut _ _ _ _ _ _ C w 0 Hw ltac:(lia) Kw) as (_ & _ & Y). congruence.
    - intros u Hu. apply InK in Hu as (Hu & Ku). exists (nb b' u 1).
      destruct (c_mut _ _ _ _ _ _ C u 1 Hu ltac:(lia) Ku) as (A & B & X). rewrite InK. auto. }
  transitivity (lsum KN (fun u => (f (ps b' u) (ps b' (nb b' u 0)) - F (nb b' u 0) + F u)%R)).
  { rewrite (lsum_add KN (fun u => (f (ps b' u) (ps b' (nb b' u 0)) - F (nb b' u 0))%R) (fun u => F u)).
    rewrite (lsum_sub KN (fun u => f (ps b' u) (ps b' (nb b' u 0))) (fun u => F (nb b' u 0))).
    rewrite P. ring. }
  (* old / new *)
  rewrite (lsum_split (fun u => u <? n) KN).
  assert (OLD : filter (fun u => u <? n) KN = filter K (zrange n)).
  { unfold KN. assert (HN0 : 0 <= N) by lia. clear - Hn HN0. revert Hn. pattern N. apply zrange_ind; [| |exact HN0].
    - intros. assert (n = 0) by lia. subst. reflexivity.
    - intros m Hm IH HN. rewrite zrange_succ, filter_app, filter_app by lia.
      destruct (Z.eq_dec n (m + 1)) as [E|E].
      + subst n. rewrite zrange_succ, filter_app by lia.
        f_equal.
        * transitivity (filter K (zrange m)); auto.
          rewrite <- (filter_ext_in (fun _ => true)).
          { clear. induction (filter K (zrange m)); cbn; f_equal; auto. }
          intros a Ha. apply filter_In in Ha as (Ha & _). apply in_zrange in Ha. symmetry. apply Z.ltb_lt. lia.
        * cbn. destruct (K m); cbn; auto. destruct (Z.ltb_spec m (m + 1)); auto. lia.
      + rewrite IH by lia. cbn. destruct (K m); cbn; rewrite ?app_nil_r; auto.
        destruct (Z.ltb_spec m n); [lia|]. now rewrite app_nil_r. }
  rewrite OLD, (lsum_filter K (zrange n)).
  (* new vertices with an old successor *)
  set (NEW := filter (fun u => negb (u <? n)) KN).
  assert (InN : forall u, In u NEW <-> n <= u < N /\ K u = true).
  { intros u. unfold NEW. rewrite filter_In, InK, negb_true_iff, Z.ltb_ge. intuition lia. }
  assert (NW : lsum NEW (fun u => (f (ps b' u) (ps b' (nb b' u 0)) - F (nb b' u 0) + F u)%R)
     = lsum (filter (fun u => nb b' u 0 <? n) NEW) (fun u => (f (ps b' u) (ps b' (nb b' u 0)) + Phi (ps b' u))%R)).
  { rewrite (lsum_split (fun u => nb b' u 0 <? n) NEW).
    rewrite (lsum_0 (filter (fun u => negb (nb b' u 0 <? n)) NEW)).
    - rewrite Rplus_0_r. apply lsum_ext. intros u Hu. apply filter_In in Hu as (Hu & X).
      rewrite X. apply InN in Hu. destruct (Z.ltb_spec u n); [lia|]. ring.
    - intros u Hu. apply filter_In in Hu as (Hu & X). apply negb_true_iff in X. rewrite X.
      apply InN in Hu as (Hu & Ku). destruct (Z.ltb_spec u n); [lia|].
      apply Z.ltb_ge in X.
      assert (OnNew : forall w, n <= w < N -> K w = true -> On (ps b' w)).
      { intros w Hw Kw. destruct (c_src _ _ _ _ _ _ C w Hw Kw) as (v & np & Hv & Hnp & K1 & K2 & E & _).
        destruct (c_new _ _ _ _ _ _ C v np Hv Hnp K1 K2) as (_ & Y). rewrite <- E, Y. auto. }
      destruct (c_mut _ _ _ _ _ _ C u 0 ltac:(lia) ltac:(lia) Ku) as (A & B & _).
      rewrite f_on; [ring| |]; apply OnNew; auto; lia. }
  rewrite NW.
  (* reindex by the clipped predecessor *)
  assert (RE : lsum (filter (fun u => nb b' u 0 <? n) NEW) (fun u => (f (ps b' u) (ps b' (nb b' u 0)) + Phi (ps b' u))%R)
    = lsum (filter (fun v => negb (K v) && K (nb b0 v 0)) (zrange n))
        (fun v => (f (newpos (nb b0 v 0) 1) (ps b0 (nb b0 v 0)) + Phi (newpos (nb b0 v 0) 1))%R)).
  { symmetry.
    transitivity (lsum (filter (fun v => negb (K v) && K (nb b0 v 0)) (zrange n))
        (fun v => let u := nb b' (nb b0 v 0) 1 in (f (ps b' u) (ps b' (nb b' u 0)) + Phi (ps b' u))%R)).
    - apply lsum_ext. intros v Hv. apply filter_In in Hv as (Hv & X). apply in_zrange in Hv.
      apply andb_true_iff in X as (X1 & X2). apply negb_true_iff in X1. cbv zeta.
      destruct (HL v Hv) as (L0 & _ & L1 & _).
      destruct (c_new _ _ _ _ _ _ C (nb b0 v 0) 1 L0 ltac:(lia) X2) as (Y1 & Y2); [now rewrite L1|].
      destruct (c_mut _ _ _ _ _ _ C (nb b0 v 0) 1 ltac:(lia) ltac:(lia) X2) as (_ & _ & Z1).
      change (1 - 1) with 0 in Z1. rewrite Z1, Y2, (c_ps _ _ _ _ _ _ C) by lia. reflexivity.
    - apply (lsum_bij (fun v => nb b' (nb b0 v 0) 1) _ _ (fun u => (f (ps b' u) (ps b' (nb b' u 0)) + Phi (ps b' u))%R)).
      + apply NoDup_filter, NoDup_zrange.
      + apply NoDup_filter, NoDup_filter, ND.
      + intros v Hv. apply filter_In in Hv as (Hv & X). apply in_zrange in Hv.
        apply andb_true_iff in X as (X1 & X2). apply negb_true_iff in X1.
        destruct (HL v Hv) as (L0 & _ & L1 & _).
        destruct (c_new _ _ _ _ _ _ C (nb b0 v 0) 1 L0 ltac:(lia) X2) as (Y1 & Y2); [now rewrite L1|].
        destruct (c_mut _ _ _ _ _ _ C (nb b0 v 0) 1 ltac:(lia) ltac:(lia) X2) as (_ & Z0 & Z1).
        change (1 - 1) with 0 in Z1. apply filter_In. rewrite InN, Z1, Z.ltb_lt. intuition lia.
      + intros v w Hv Hw E.
        apply filter_In in Hv as (Hv & X). apply in_zrange in Hv. apply andb_true_iff in X as (X1 & X2).
        apply filter_In in Hw as (Hw & Y). apply in_zrange in Hw. apply andb_true_iff in Y as (Y1 & Y2).
        destruct (HL v Hv) as (L0 & _ & L1 & _). destruct (HL w Hw) as (M0 & _ & M1 & _).
        destruct (c_mut _ _ _ _ _ _ C (nb b0 v 0) 1 ltac:(lia) ltac:(lia) X2) as (_ & _ & Z1).
        destruct (c_mut _ _ _ _ _ _ C (nb b0 w 0) 1 ltac:(lia) ltac:(lia) Y2) as (_ & _ & Z2).
        congruence.
      + intros u Hu. apply filter_In in Hu as (Hu & X). apply InN in Hu as (Hu & Ku). apply Z.ltb_lt in X.
        destruct (c_src _ _ _ _ _ _ C u Hu Ku) as (w & np & Hw & Hnp & Kw & Kx & E1 & E2 & E3).
        assert (np = 1) as ->.
        { destruct (slot2 np Hnp); auto. subst np. change (1 - 0) with 1 in E2. lia. }
        change (1 - 1) with 0 in E2.
        destruct (HL w Hw) as (_ & L1 & _ & L0). exists (nb b0 w 1). rewrite L0. split; auto.
        apply filter_In. rewrite in_zrange, L0, Kw, Kx. auto. }
  rewrite RE, (lsum_filter _ (zrange n)), <- lsum_add. apply lsum_ext.
  intros v Hv. apply in_zrange in Hv. unfold edge_part.
  destruct (HL v Hv) as (L0 & _).
  destruct (K v) eqn:Kv; cbn [negb andb].
  - destruct (Z.ltb_spec v n); [|lia]. rewrite (c_ps _ _ _ _ _ _ C v Hv).
    destruct (K (nb b0 v 0)) eqn:Kw.
    + rewrite (c_keep _ _ _ _ _ _ C v 0 Hv ltac:(lia) Kv Kw). destruct (Z.ltb_spec (nb b0 v 0) n); [|lia].
      rewrite (c_ps _ _ _ _ _ _ C) by lia. ring.
    + destruct (c_new _ _ _ _ _ _ C v 0 Hv ltac:(lia) Kv Kw) as (Y1 & Y2).
      destruct (Z.ltb_spec (nb b' v 0) n); [lia|]. rewrite Y2. ring.
  - destruct (K (nb b0 v 0)); ring.
Qed.
End Cut.

(** ** The coefficient tables over the reals *)
From Verif Require Import Spec2R.
Open Scope R_scope.

Lemma cpas_H (x y : R) : forall i j, cpas RN (Rmult x) (Rmult y) i j = H [P3 x y 0] i j 0%nat.
Proof.
  set (g := cpas RN (Rmult x) (Rmult y)).
  induction i; induction j.
  - cbn. ring.
  - change (g 0%nat (S j)) with (0 + y * g 0%nat j). rewrite IHj. cbn. ring.
  - change (g (S i) 0%nat) with (0 + x * g i 0%nat). rewrite IHi. cbn. ring.
  - change (g (S i) (S j)) with (0 + x * g i (S j) + y * g (S i) j). rewrite IHi, IHj. cbn. ring.
Qed.
Lemma Cg_H (v : rvec2 R) i j : Cg RN v i j = H [pt2 v] i j 0%nat.
Proof. exact (cpas_H (vx v) (vy v) i j). Qed.

Lemma dpas_H (x y : R) b : forall i j, dpas RN (Rmult x) (Rmult y) (Cg RN b) i j = H [P3 x y 0; pt2 b] i j 0%nat.
Proof.
  set (g := dpas RN (Rmult x) (Rmult y) (Cg RN b)).
  induction i; induction j.
  - cbn. ring.
  - change (g 0%nat (S j)) with (0 + y * g 0%nat j + Cg RN b 0%nat (S j)). rewrite IHj, Cg_H. cbn. ring.
  - change (g (S i) 0%nat) with (0 + x * g i 0%nat + Cg RN b (S i) 0%nat). rewrite IHi, Cg_H. cbn. ring.
  - change (g (S i) (S j)) with (0 + x * g i (S j) + y * g (S i) j + Cg RN b (S i) (S j)).
    rewrite IHi, IHj, Cg_H. cbn. ring.
Qed.
Lemma Dg_H (a b : rvec2 R) i j : Dg RN a b i j = H [pt2 a; pt2 b] i j 0%nat.
Proof. exact (dpas_H (vx a) (vy a) b i j). Qed.

Lemma Bg_binom : forall i j, @eq R (Bg RN i j) (INR (fact (i + j)) / (INR (fact i) * INR (fact j))).
Proof.
  set (g := Bg RN : nat -> nat -> R).
  induction i; induction j.
  - cbn. field.
  - change (g 0%nat (S j)) with (0 + g 0%nat j).
    rewrite IHj. cbn [Nat.add]. change (fact 0) with 1%nat. change (INR 1) with 1. field. split; apply fact_neq.
  - change (g (S i) 0%nat) with (0 + g i 0%nat).
    rewrite IHi. rewrite !Nat.add_0_r. change (fact 0) with 1%nat. change (INR 1) with 1. field. split; apply fact_neq.
  - change (g (S i) (S j)) with (0 + g i (S j) + g (S i) j).
    rewrite IHi, IHj. replace (S i + S j)%nat with (S (S (i + j))) by lia.
    replace (i + S j)%nat with (S (i + j)) by lia. replace (S i + j)%nat with (S (i + j)) by lia.
    pose proof (fact_neq (i + j)). pose proof (fact_neq i). pose proof (fact_neq j).
    rewrite (fact_simpl (S (i + j))), (fact_simpl (i + j)), (fact_simpl i), (fact_simpl j), !mult_INR.
    rewrite !S_INR, !plus_INR. pose proof (pos_INR i). pose proof (pos_INR j).
    field. repeat split; auto; lra.
Qed.

Lemma bdiv_edge (a b : rvec2 R) i j : (0 <= i)%Z -> (0 <= j)%Z ->
  @eq R (bdiv RN (eg RN a b i j) i j) (edge2 (Z.to_nat i) (Z.to_nat j) a b).
Proof.
  intros Hi Hj. destruct (Z_of_nat_complete i Hi) as (k & ->). destruct (Z_of_nat_complete j Hj) as (l & ->).
  clear. unfold bdiv, eg, edge2, zz. rewrite !Nat2Z.id, tri_int_Hn, Dg_H, Bg_binom. unfold Hn.
  destruct (Z.eqb_spec (Z.of_nat k + Z.of_nat l) 0) as [E|E].
  - assert (k = 0%nat) as -> by lia. assert (l = 0%nat) as -> by lia.
    rewrite H_000. unfold cross, pt2. cbn. field.
  - unfold deg. rewrite Nat.add_0_r.
    replace (k + l + 2)%nat with (S (S (k + l))) by lia.
    change (nofZ RN) with IZR. change (nmul RN) with Rmult. change (ndiv RN) with Rdiv. change (nsub RN) with Rminus.
    rewrite !plus_IZR, <- !INR_IZR_INZ.
    rewrite (fact_simpl (S (k + l))), (fact_simpl (k + l)), !mult_INR, !S_INR, !plus_INR.
    unfold cross, pt2. cbn [px py]. change (T RN) with R.
    pose proof (fact_neq (k + l)). pose proof (fact_neq k). pose proof (fact_neq l).
    pose proof (pos_INR k). pose proof (pos_INR l).
    field. repeat split; auto; lra.
Qed.

Lemma bdiv_lin i j (f : Z -> R) l : @eq R (bdiv RN (lsum l f) i j) (lsum l (fun v => bdiv RN (f v) i j)).
Proof.
  unfold bdiv. destruct (i + j =? 0)%Z; auto. change (ndiv RN) with Rdiv. unfold Rdiv.
  rewrite Rmult_comm, <- lsum_scal. apply lsum_ext. intros. ring.
Qed.

Lemma mom_entry_R sh (b : vbuf (rvec2 R)) n i j : (0 <= i)%Z -> (0 <= j)%Z ->
  @eq R (mom_entry RN sh b n i j)
   (lsum (zrange n) (fun v => edge2 (Z.to_nat i) (Z.to_nat j) (sh (ps b v)) (sh (ps b (nb b v 0%Z))))).
Proof.
  intros Hi Hj. unfold mom_entry, esum. change (nadd RN) with Rplus. change (n0 RN) with 0.
  rewrite fold_left_lsum, Rplus_0_l, bdiv_lin. apply lsum_ext. intros v _. now apply bdiv_edge.
Qed.

(** [r2d_reduce] computes the exact moments. *)
Lemma reduce_moment2 MX (p : poly (rvec2 R)) mom po : (0 <= po)%Z -> wf2 p -> (nv p <= MX)%Z ->
  exists mom', r2d_reduce RN MX false p mom po = OK mom'
  /\ (forall i j, (i + j <= Z.to_nat po)%nat -> mom' (idx2 (Z.of_nat i) (Z.of_nat j)) = moment2 p i j)
  /\ (forall m, ~ (0 <= m < num_moments2 po)%Z -> mom' m = mom m).
Proof.
  intros Hpo Hw HM. destruct (reduce_spec RN MX po p mom) as (mom' & E & R1 & R2); auto.
  change (T RN) with R in *. exists mom'. split; auto. split; auto. intros i j L. rewrite R1 by lia. unfold moment2.
  destruct (Z.eqb_spec (nv p) 0) as [E0|E0].
  - rewrite E0. reflexivity.
  - rewrite mom_entry_R by lia. rewrite !Nat2Z.id. reflexivity.
Qed.

(** ** Laws of the edge functional *)
Lemma edge2_cocycle i j a b c :
  cross (psub (pt2 b) (pt2 a)) (psub (pt2 c) (pt2 a)) = 0 ->
  edge2 i j a b + edge2 i j b c + edge2 i j c a = 0.
Proof.
  intros E. unfold edge2. rewrite !tri_int_Hn. unfold Hn.
  pose proof (cross_cocycle (pt2 a) (pt2 b) (pt2 c) i j) as C. rewrite E, Rmult_0_l in C.
  transitivity (INR (fact i) * INR (fact j) / INR (fact (deg i j 0 + 2)) *
    (cross (pt2 a) (pt2 b) * H [pt2 a; pt2 b] i j 0%nat + cross (pt2 b) (pt2 c) * H [pt2 b; pt2 c] i j 0%nat
     + cross (pt2 c) (pt2 a) * H [pt2 c; pt2 a] i j 0%nat)).
  - field. apply fact_neq.
  - rewrite C. ring.
Qed.
Lemma edge2_anti i j a b : edge2 i j b a = - edge2 i j a b.
Proof.
  unfold edge2. rewrite !tri_int_Hn. unfold Hn. rewrite (H_swap (pt2 b) (pt2 a) [] i j 0%nat).
  unfold cross. field. apply fact_neq.
Qed.
Lemma edge2_same i j a : edge2 i j a a = 0.
Proof. pose proof (edge2_anti i j a a). lra. Qed.
Lemma edge2_mid i j a m b :
  cross (psub (pt2 m) (pt2 a)) (psub (pt2 b) (pt2 a)) = 0 -> edge2 i j a m + edge2 i j m b = edge2 i j a b.
Proof. intros E. pose proof (edge2_cocycle i j a m b E). pose proof (edge2_anti i j a b). lra. Qed.

(** ** A dividing line *)
Section Line.
Context (pl : plane2 R).
Hypothesis Hnz : vx (pn pl) <> 0 \/ vy (pn pl) <> 0.
Notation s := (sdist pl).

(** a point on the line *)
Definition base_pt : rvec2 R :=
  let n := pn pl in let q := vx n * vx n + vy n * vy n in
  V2 (- pd pl * vx n / q) (- pd pl * vy n / q).
Lemma nz_sq : 0 < vx (pn pl) * vx (pn pl) + vy (pn pl) * vy (pn pl).
Proof. clear - Hnz. nra. Qed.
Lemma base_on : s base_pt = 0.
Proof. unfold sdist, base_pt. cbn. pose proof nz_sq. field. lra. Qed.

Lemma on_line_col a b c : s a = 0 -> s b = 0 -> s c = 0 ->
  cross (psub (pt2 b) (pt2 a)) (psub (pt2 c) (pt2 a)) = 0.
Proof.
  unfold sdist, cross, pt2. cbn. intros A B C.
  set (nx := vx (pn pl)) in *. set (ny := vy (pn pl)) in *.
  assert (E1 : nx * (vx b - vx a) + ny * (vy b - vy a) = 0) by lra.
  assert (E2 : nx * (vx c - vx a) + ny * (vy c - vy a) = 0) by lra.
  assert (nx * ((vx b - vx a) * (vy c - vy a) - (vy b - vy a) * (vx c - vx a)) = 0).
  { transitivity ((nx * (vx b - vx a) + ny * (vy b - vy a)) * (vy c - vy a)
      - (nx * (vx c - vx a) + ny * (vy c - vy a)) * (vy b - vy a)); [ring|]. rewrite E1, E2. ring. }
  assert (ny * ((vx b - vx a) * (vy c - vy a) - (vy b - vy a) * (vx c - vx a)) = 0).
  { transitivity ((nx * (vx c - vx a) + ny * (vy c - vy a)) * (vx b - vx a)
      - (nx * (vx b - vx a) + ny * (vy b - vy a)) * (vx c - vx a)); [ring|]. rewrite E1, E2. ring. }
  destruct Hnz as [X|X].
  - apply Rmult_integral in H. destruct H; auto; contradiction.
  - apply Rmult_integral in H0. destruct H0; auto; contradiction.
Qed.

Definition Phi2 (i j : nat) (q : rvec2 R) : R := edge2 i j base_pt q.
Lemma edge2_on i j q q' : s q = 0 -> s q' = 0 -> edge2 i j q q' = Phi2 i j q' - Phi2 i j q.
Proof.
  intros A B. unfold Phi2. pose proof (edge2_cocycle i j base_pt q q' (on_line_col _ _ _ base_on A B)).
  pose proof (edge2_anti i j base_pt q'). lra.
Qed.

(** the point where the line meets an edge *)
Definition meet (a b : rvec2 R) : rvec2 R := wav2 RN a (- s b) b (s a).
Lemma meet_on a b : s a <> s b -> s (meet a b) = 0.
Proof. intros E. unfold meet, wav2, sdist in *. cbn. field. lra. Qed.
Lemma meet_col a b : s a <> s b -> cross (psub (pt2 (meet a b)) (pt2 a)) (psub (pt2 b) (pt2 a)) = 0.
Proof. intros E. unfold meet, wav2, cross, pt2, psub in *. cbn. field. lra. Qed.
Lemma meet_comm a b : s a <> s b -> meet b a = meet a b.
Proof.
  intros E. unfold meet, wav2. cbn. f_equal; field; lra.
Qed.
Lemma meet_on_l a b : s a = 0 -> s a <> s b -> meet a b = a.
Proof.
  intros E X. unfold meet, wav2. cbn. rewrite E. destruct a; cbn in *. f_equal; field; lra.
Qed.
Lemma meet_split i j a b : s a <> s b -> edge2 i j a (meet a b) + edge2 i j (meet a b) b = edge2 i j a b.
Proof. intros. now apply edge2_mid, meet_col. Qed.
End Line.
