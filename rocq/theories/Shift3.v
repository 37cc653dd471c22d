(** * Shift3: [r3d_shift_moments] and [r3d_reduce] with SHIFT_POLY, exact arithmetic. *)
From Coq Require Import Reals ZArith List Bool Lia Lra Permutation.
From Verif Require Import Base Lib ModelCommon CommonFacts Model2 Model3 Spec3 Orb3 Cut3 FaceSpec3 HPoly HShift HInt
  RealNum SumR Reduce2 Reduce3 Face3 Spec3R Mom3 Geo3 Shift2.
Import ListNotations.
Open Scope Z_scope.

Lemma pascal3_eq N po : pascal3 N po = pascal N po.
Proof. reflexivity. Qed.

Lemma NoDup_prod {A B} (l : list A) (l' : list B) : NoDup l -> NoDup l' -> NoDup (list_prod l l').
Proof.
  intros Hl Hl'. induction Hl as [|a l Ha Hl IH]; cbn; [constructor|].
  assert (NA : forall (a b : list (A * B)), NoDup a -> NoDup b -> (forall x, In x a -> ~ In x b) -> NoDup (a ++ b)).
  { clear. induction a; cbn; intros b Na Nb D; auto. inversion Na; subst. constructor.
    - rewrite in_app_iff. intros [?|?]; auto. eapply D; eauto.
    - apply IHa; auto. }
  apply NA; auto.
  - apply FinFun.Injective_map_NoDup; auto. intros x y E. congruence.
  - intros [x y] Hx Hy. apply in_map_iff in Hx as (z & E & _). inversion E; subst.
    apply in_prod_iff in Hy. tauto.
Qed.
Lemma lsum_prod {A B} (l : list A) (l' : list B) (F : A * B -> R) :
  lsum (list_prod l l') F = lsum l (fun a => lsum l' (fun b => F (a, b))).
Proof. induction l as [|a l IH]; cbn; auto. now rewrite lsum_app, lsum_map, IH. Qed.

(** triples of exponents *)
Definition box3 (i j k : Z) : list (Z * (Z * Z)) := list_prod (zrange (i + 1)) (list_prod (zrange (j + 1)) (zrange (k + 1))).
Lemma in_box3 i j k a b c : In (a, (b, c)) (box3 i j k) <-> 0 <= a <= i /\ 0 <= b <= j /\ 0 <= c <= k.
Proof. unfold box3. rewrite !in_prod_iff, !in_zrange. lia. Qed.
Lemma NoDup_box3 i j k : NoDup (box3 i j k).
Proof. repeat apply NoDup_prod; apply NoDup_zrange. Qed.
Definition i3of (t : Z * (Z * Z)) : Z := idx3 (fst t) (fst (snd t)) (snd (snd t)).
Definition dec3 (po m : Z) : Z * (Z * Z) :=
  match find (fun t => i3of t =? m) (box3 po po po) with Some t => t | None => (0, (0, 0)) end.
Lemma dec3_idx po a b c : 0 <= a -> 0 <= b -> 0 <= c -> a + b + c <= po -> dec3 po (idx3 a b c) = (a, (b, c)).
Proof.
  intros Ha Hb Hc Hs. unfold dec3. destruct (find _ (box3 po po po)) as [[a' [b' c']]|] eqn:E.
  - apply find_some in E as (HI & HE). apply in_box3 in HI. apply Z.eqb_eq in HE. unfold i3of in HE. cbn [fst snd] in HE.
    destruct (idx3_inj a' b' c' a b c) as (-> & -> & ->); auto; lia.
  - pose proof (find_none _ _ E (a, (b, c))) as X. cbn beta in X. unfold i3of in X. cbn [fst snd] in X.
    rewrite Z.eqb_refl in X. discriminate X. apply in_box3. lia.
Qed.

Section Shift.
Context (po : Z).
Hypothesis Hpo : 0 <= po.
Context (mom : Z -> R) (c : rvec3 R).

Definition sterm3 (i j k : Z) (t : Z * (Z * Z)) : R :=
  let a := fst t in let b := fst (snd t) in let d := snd (snd t) in
  if (a <=? i) && (b <=? j) && (d <=? k)
  then (Cz i a * Cz j b * Cz k d * x3 c ^ Z.to_nat (i - a) * y3 c ^ Z.to_nat (j - b) * z3 c ^ Z.to_nat (k - d)
        * mom (idx3 a b d))%R else 0%R.
(** the first [M] entries of the moment array *)
Definition ssum3 (i j k M : Z) : R := lsum (zrange M) (fun m => sterm3 i j k (dec3 po m)).

Lemma num3_order q r k : 0 <= k <= r -> r <= q -> q <= po -> 0 <= tri3 q + tri2 r + k < num_moments3 po.
Proof.
  intros. pose proof (idx3_range po (q - r) (r - k) k ltac:(lia) ltac:(lia) ltac:(lia) ltac:(lia)) as X.
  unfold idx3 in X. replace (q - r + (r - k) + k) with q in X by lia. replace (r - k + k) with r in X by lia. exact X.
Qed.
Lemma dec3_pos q r k : 0 <= k <= r -> r <= q -> q <= po -> dec3 po (tri3 q + tri2 r + k) = (q - r, (r - k, k)).
Proof.
  intros. rewrite <- (dec3_idx po (q - r) (r - k) k) by lia. f_equal. unfold idx3.
  replace (q - r + (r - k) + k) with q by lia. now replace (r - k + k) with r by lia.
Qed.

Lemma shift3_ij_spec B q r kk (mom2 : Z -> R) :
  (forall k i, 0 <= i <= k -> k <= po -> B i k = Some (Cz k i)) ->
  1 <= q <= po -> 0 <= kk <= r -> r <= q ->
  let m := tri3 q + tri2 r + kk in
  exists mom3 : Z -> R, shift3_ij RN po B mom c q (q - r) (r - kk) (m, mom2) = OK (m + 1, mom3)
  /\ mom3 m = (mom2 m + ssum3 (q - r) (r - kk) kk (tri3 (q + 1)))%R
  /\ (forall x, x <> m -> mom3 x = mom2 x).
Proof.
  intros HB Hq Hk Hr m. unfold shift3_ij. replace (q - (q - r) - (r - kk)) with kk by lia.
  set (i := q - r). set (j := r - kk).
  assert (Hm : 0 <= m < num_moments3 po) by (apply num3_order; lia).
  destruct (for_inv (fun Q s => fst s = tri3 Q /\ snd s m = (mom2 m + ssum3 i j kk (tri3 Q))%R
     /\ (forall x, x <> m -> snd s x = mom2 x)) 0 (q + 1)
    (fun mcorder => loop_ij mcorder (shift3_inner RN po B mom c m i j kk mcorder)) (0, mom2))
    as ([mm mom3] & E & I1 & I2 & I3); try lia.
  - cbn [fst snd]. split; auto. split; auto. unfold ssum3. cbn. ring.
  - intros Q [mm mo] HQ (I1 & I2 & I3). cbn [fst snd] in *.
    destruct (loop_ij_inv (fun y s => fst s = tri3 Q + y
        /\ snd s m = (mom2 m + ssum3 i j kk (tri3 Q + y))%R
        /\ (forall x, x <> m -> snd s x = mom2 x)) Q (shift3_inner RN po B mom c m i j kk Q) (mm, mo))
      as ([mm' mo'] & E & J1 & J2 & J3); try lia.
    + cbn [fst snd]. rewrite Z.add_0_r. auto.
    + intros r' k' [m1 mo1] Hk' Hr' (J1 & J2 & J3). cbn [fst snd] in *. unfold shift3_inner.
      replace (Q - (Q - r') - (r' - k')) with k' by lia.
      assert (Hmm : 0 <= m1 < num_moments3 po).
      { rewrite J1. rewrite Z.add_assoc. apply num3_order; lia. }
      assert (STEP : ssum3 i j kk (tri3 Q + (tri2 r' + k' + 1))
        = (ssum3 i j kk (tri3 Q + (tri2 r' + k'))%Z + sterm3 i j kk (Q - r', (r' - k', k'))%Z)%R).
      { unfold ssum3. rewrite Z.add_assoc, zrange_succ by lia. rewrite lsum_app. cbn [lsum].
        rewrite !Z.add_assoc, (dec3_pos Q r' k') by lia. rn. ring. }
      destruct ((Q - r' <=? i) && (r' - k' <=? j) && (k' <=? kk)) eqn:EB.
      * pose proof EB as EB'. apply andb_true_iff in EB' as (EB' & L3). apply andb_true_iff in EB' as (L1 & L2).
        apply Z.leb_le in L1. apply Z.leb_le in L2. apply Z.leb_le in L3.
        pose proof (rd_b_ok po B (Q - r') i _ ltac:(lia) ltac:(lia) (HB i (Q - r') ltac:(lia) ltac:(lia))) as X1.
        pose proof (rd_b_ok po B (r' - k') j _ ltac:(lia) ltac:(lia) (HB j (r' - k') ltac:(lia) ltac:(lia))) as X2.
        pose proof (rd_b_ok po B k' kk _ ltac:(lia) ltac:(lia) (HB kk k' ltac:(lia) ltac:(lia))) as X3.
        change (rd_b RN) with (rd_b3 RN) in X1, X2, X3.
        rewrite X1. cbn [bind]. rewrite X2. cbn [bind]. rewrite X3. cbn [bind].
        rewrite !rd_ok by auto. cbn [bind]. rewrite wr_ok by auto. cbn [bind].
        eexists. split; [reflexivity|]. cbn [fst snd]. split; [lia|]. split.
        -- rewrite upd_eq. rn. rewrite J2. etransitivity; [|rewrite STEP; reflexivity].
           unfold sterm3. cbn [fst snd]. rewrite EB.
           unfold idx3. replace (Q - r' + (r' - k') + k') with Q by lia. replace (r' - k' + k') with r' by lia.
           rewrite J1, Z.add_assoc.
           change (nadd RN) with Rplus. change (nmul RN) with Rmult.
           change (npow RN) with (fun (x : R) (n : Z) => (x ^ Z.to_nat n)%R). cbv beta. rn. ring.
        -- intros x Hx. rewrite upd_neq by auto. auto.
      * eexists. split; [reflexivity|]. cbn [fst snd]. split; [lia|]. split; auto.
        rewrite J2, STEP. unfold sterm3. cbn [fst snd]. rewrite EB. ring.
    + exists (mm', mo'). split; auto. cbn [fst snd] in *. rewrite tri3_succ by lia. auto.
  - rn. rewrite E. cbn [bind]. eexists. split; [reflexivity|]. cbn [fst snd] in *. auto.
Qed.

Lemma shift3_spec : exists mom' : Z -> R, r3d_shift_moments RN mom po c = OK mom'
  /\ (forall i j k, 0 <= i -> 0 <= j -> 0 <= k -> 0 < i + j + k <= po ->
        mom' (idx3 i j k) = ssum3 i j k (tri3 (i + j + k + 1)))
  /\ (forall m, ~ 1 <= m < num_moments3 po -> mom' m = mom m).
Proof.
  unfold r3d_shift_moments. rewrite pascal3_eq.
  assert (Hnm : 0 <= num_moments3 po) by (rewrite num_moments3_tri; apply tri3_nonneg; lia).
  destruct (zero_loop RN (num_moments3 po) (fun _ => n0 RN) Hnm) as (mom2 & E0 & Z1 & Z2).
  rewrite E0. cbn [bind]. destruct (pascal_R po Hpo) as (B & EB & HB). rn. rewrite EB. cbn [bind].
  set (W := fun (M : Z) (s : Z * (Z -> R)) => fst s = M
     /\ (forall i j k, 0 <= i -> 0 <= j -> 0 <= k -> 0 < i + j + k -> idx3 i j k < M ->
           snd s (idx3 i j k) = ssum3 i j k (tri3 (i + j + k + 1)))
     /\ (forall m, M <= m -> snd s m = mom2 m)).
  destruct (for_inv (fun q => W (tri3 q)) 1 (po + 1)
     (fun corder => loop_ij corder (shift3_ij RN po B mom c corder)) (1, mom2))
    as ([mf mom3] & E & I1 & I2 & I3); try lia.
  - split; auto. cbn [fst snd]. split; auto. intros i j k Hi Hj Hk Hs Hx.
    pose proof (idx3_order i j k Hi Hj Hk) as X. change (tri3 1) with 1 in Hx.
    pose proof (tri3_mono 1 (i + j + k) ltac:(lia)) as Y. change (tri3 1) with 1 in Y. lia.
  - intros q s Hq HW.
    destruct (loop_ij_inv (fun y => W (tri3 q + y)) q (shift3_ij RN po B mom c q) s) as (s' & E & HW'); try lia.
    + now rewrite Z.add_0_r.
    + intros r kk [m1 mo1] Hk Hr (J1 & J2 & J3). cbn [fst snd] in *. rewrite Z.add_assoc in J1. subst m1.
      destruct (shift3_ij_spec B q r kk mo1 HB) as (mo3 & E & K1 & K2); try lia.
      eexists. split; [exact E|]. split; [cbn [fst snd]; lia|]. cbn [fst snd]. split.
      * intros i j k Hi Hj Hk' Hs Hx. destruct (Z.eq_dec (idx3 i j k) (tri3 q + tri2 r + kk)) as [Q|Q].
        -- assert (QQ : idx3 i j k = idx3 (q - r) (r - kk) kk).
           { rewrite Q. unfold idx3. replace (q - r + (r - kk) + kk) with q by lia. now replace (r - kk + kk) with r by lia. }
           apply idx3_inj in QQ as (-> & -> & ->); try lia.
           rewrite Q, K1, J3 by lia. rewrite Z1 by (apply num3_order; lia).
           replace (q - r + (r - kk) + kk) with q by lia. cbn. ring.
        -- rewrite K2 by auto. apply J2; auto. lia.
      * intros x Hx. rewrite K2 by lia. apply J3. lia.
    + exists s'. split; auto. now rewrite tri3_succ by lia.
  - rn. rewrite E. cbn [bind fst snd] in *. rewrite <- num_moments3_tri in *.
    assert (Hnm1 : 1 <= num_moments3 po).
    { rewrite num_moments3_tri. pose proof (tri3_mono 1 (po + 1) ltac:(lia)) as X. change (tri3 1) with 1 in X. lia. }
    destruct (for_inv (fun k a => (forall m, 1 <= m < k -> a m = mom3 m) /\ (forall m, ~ 1 <= m < k -> a m = mom m))
      1 (num_moments3 po) (fun m a => let* x := rd (num_moments3 po) mom3 m in wr (num_moments3 po) a m x) mom)
      as (mom' & E' & R1 & R2); try lia.
    + split; auto. intros. lia.
    + intros k a Hk (R1 & R2). rewrite rd_ok by lia. cbn [bind]. rewrite wr_ok by lia. eexists. split; [reflexivity|].
      split; intros m Hm.
      * destruct (Z.eq_dec m k); [subst; now rewrite upd_eq|]. rewrite upd_neq by lia. apply R1. lia.
      * rewrite upd_neq by lia. apply R2. lia.
    + rn. exists mom'. split; auto. split; auto.
      intros i j k Hi Hj Hk Hs. pose proof (idx3_range po i j k Hi Hj Hk ltac:(lia)). rewrite R1.
      * apply I2; lia.
      * pose proof (idx3_order i j k Hi Hj Hk) as X.
        pose proof (tri3_mono 1 (i + j + k) ltac:(lia)) as Y. change (tri3 1) with 1 in Y. lia.
Qed.

Lemma ssum3_rect i j k : 0 <= i -> 0 <= j -> 0 <= k -> i + j + k <= po ->
  ssum3 i j k (tri3 (i + j + k + 1)) = lsum (box3 i j k) (sterm3 i j k).
Proof.
  intros Hi Hj Hk Hs. unfold ssum3.
  set (F := fun m => let t := dec3 po m in (fst t <=? i) && (fst (snd t) <=? j) && (snd (snd t) <=? k)).
  transitivity (lsum (filter F (zrange (tri3 (i + j + k + 1)))) (fun m => sterm3 i j k (dec3 po m))).
  { rewrite lsum_filter. apply lsum_ext. intros m _. unfold sterm3, F. cbv zeta.
    destruct ((fst (dec3 po m) <=? i) && (fst (snd (dec3 po m)) <=? j) && (snd (snd (dec3 po m)) <=? k)); auto. }
  set (z := zrange _). set (l := filter F z).
  assert (HI : forall m, In m l -> exists a b d, 0 <= a <= i /\ 0 <= b <= j /\ 0 <= d <= k /\ m = idx3 a b d).
  { intros m Hm. apply filter_In in Hm as (H1 & H2). apply in_zrange in H1.
    destruct (idx3_surj (i + j + k) m) as (a & b & d & Ha & Hb & Hd & Hs' & ->); [rewrite num_moments3_tri; lia|].
    unfold F in H2. rewrite dec3_idx in H2 by lia. cbn [fst snd] in H2. rewrite !andb_true_iff, !Z.leb_le in H2.
    exists a, b, d. lia. }
  apply (lsum_bij (dec3 po) l (box3 i j k) (sterm3 i j k)).
  - apply NoDup_filter, NoDup_zrange.
  - apply NoDup_box3.
  - intros m Hm. destruct (HI m Hm) as (a & b & d & Ha & Hb & Hd & ->). rewrite dec3_idx by lia. apply in_box3. lia.
  - intros m m' Hm Hm' E. destruct (HI m Hm) as (a & b & d & Ha & Hb & Hd & ->).
    destruct (HI m' Hm') as (a' & b' & d' & Ha' & Hb' & Hd' & ->).
    rewrite !dec3_idx in E by lia. apply pair_equal_spec in E as (-> & E). apply pair_equal_spec in E as (-> & ->). auto.
  - intros (a & b & d) Hx. apply in_box3 in Hx. exists (idx3 a b d). split; [|apply dec3_idx; lia].
    apply filter_In. split.
    + apply in_zrange. pose proof (idx3_range (i + j + k) a b d ltac:(lia) ltac:(lia) ltac:(lia) ltac:(lia)) as X.
      rewrite num_moments3_tri in X. auto.
    + unfold F. rewrite dec3_idx by lia. cbn [fst snd]. rewrite !andb_true_iff, !Z.leb_le. lia.
Qed.
End Shift.

Open Scope R_scope.

(** ** The change of origin *)
Definition vsb (c q : rvec3 R) : rvec3 R := V3 (x3 q - x3 c) (y3 q - y3 c) (z3 q - z3 c).
(** moments of the polyhedron translated by [-c] *)
Definition moment3_at (c : rvec3 R) (p : pol3) (i j k : nat) : R := moment3_of (vsb c) p i j k.

Definition bsum3 (c : rvec3 R) (i j k : nat) (A : nat -> nat -> nat -> R) : R :=
  sum_f_R0 (fun a => sum_f_R0 (fun b => sum_f_R0 (fun d =>
     Binomial.C i a * Binomial.C j b * Binomial.C k d * x3 c ^ (i - a) * y3 c ^ (j - b) * z3 c ^ (k - d) * A a b d) k) j) i.

Lemma SS_full (c : rvec3 R) A i j k :
  SS (pt3 c) A i j k = sum_f_R0 (fun a => sum_f_R0 (fun b => sum_f_R0 (fun d =>
     x3 c ^ (i - a) / INR (fact (i - a)) * (y3 c ^ (j - b) / INR (fact (j - b)))
     * (z3 c ^ (k - d) / INR (fact (k - d))) * A a b d) k) j) i.
Proof.
  unfold SS, S1, S2, S3. cbn [px py pz pt3].
  rewrite sum_rev. apply sum_eq. intros a Ha.
  rewrite sum_rev, scal_sum. apply sum_eq. intros b Hb.
  rewrite sum_rev, scal_sum, (Rmult_comm (sum_f_R0 _ _)), scal_sum. apply sum_eq. intros d Hd.
  replace (i - (i - a))%nat with a by lia. replace (j - (j - b))%nat with b by lia. replace (k - (k - d))%nat with d by lia.
  unfold ex. field. repeat split; apply fact_neq.
Qed.

Lemma tet3_shift (c a b d : rvec3 R) i j k :
  bsum3 c i j k (fun x y z => tet3 x y z (vsb c a) (vsb c b) (vsb c d))
  = tet3 i j k a b d - tet3 i j k c b d + tet3 i j k c a d - tet3 i j k c a b.
Proof.
  set (ps := [pt3 (vsb c a); pt3 (vsb c b); pt3 (vsb c d)]).
  set (A := Hn 3 (P3 0 0 0 :: ps)).
  set (X := det3 (pt3 (vsb c a)) (pt3 (vsb c b)) (pt3 (vsb c d))).
  transitivity (INR (fact i) * INR (fact j) * INR (fact k) * X * SS (pt3 c) A i j k).
  - rewrite SS_full. unfold bsum3. rewrite scal_sum. apply sum_eq. intros x Hx.
    rewrite (Rmult_comm (sum_f_R0 _ _)), scal_sum. apply sum_eq. intros y Hy.
    rewrite (Rmult_comm (sum_f_R0 _ _)), scal_sum. apply sum_eq. intros z Hz.
    unfold tet3. rewrite tet_int_Hn. fold X. unfold A, Hn.
    rewrite (H_zero ps x y z). fold ps.
    unfold Binomial.C. field. repeat split; apply fact_neq.
  - pose proof (Hn_shift (pt3 c) ps (P3 0 0 0) i j k) as E. unfold ps in E. cbn [length map] in E.
    unfold A, ps. rewrite <- E. clear E.
    assert (E0 : padd (pt3 c) (P3 0 0 0) = pt3 c) by (unfold padd, pt3; cbn; apply pt_eq; ring).
    assert (E1 : forall q, padd (pt3 c) (pt3 (vsb c q)) = pt3 q) by (intros q; unfold padd, pt3, vsb; cbn; apply pt_eq; ring).
    rewrite E0, !E1. unfold tet3. rewrite !tet_int_Hn. unfold Hn.
    pose proof (det_cocycle (pt3 c) (pt3 a) (pt3 b) (pt3 d) i j k) as CC.
    replace (det3 (psub (pt3 a) (pt3 c)) (psub (pt3 b) (pt3 c)) (psub (pt3 d) (pt3 c))) with X in CC
      by (unfold X, det3, psub, pt3, vsb; cbn; ring).
    transitivity (INR (fact i) * INR (fact j) * INR (fact k) / INR (fact (deg i j k + 3))
       * - (- X * H [pt3 c; pt3 a; pt3 b; pt3 d] i j k)).
    + field. apply fact_neq.
    + rewrite <- CC. field. apply fact_neq.
Qed.

Lemma bsum3_lsum {A} c i j k (l : list A) (F : A -> nat -> nat -> nat -> R) :
  bsum3 c i j k (fun x y z => lsum l (fun d => F d x y z)) = lsum l (fun d => bsum3 c i j k (F d)).
Proof.
  unfold bsum3. induction l as [|d l IH]; cbn [lsum].
  - apply sum_eq_R0. intros. apply sum_eq_R0. intros. apply sum_eq_R0. intros. ring.
  - rewrite <- IH, <- plus_sum. apply sum_eq. intros x Hx. rewrite <- plus_sum. apply sum_eq. intros y Hy.
    rewrite <- plus_sum. apply sum_eq. intros z Hz. ring.
Qed.

Lemma moment3_shift (c : rvec3 R) (p : pol3) i j k : (0 <= nv p)%Z -> links (nb (vb p)) (below (nv p)) ->
  bsum3 c i j k (moment3_at c p) = moment3 p i j k.
Proof.
  intros Hn L. set (f := nb (vb p)). set (n := nv p) in *. set (ds := darts 3 n). set (pos := ps (vb p)).
  assert (HI : forall d, isd (below n) d <-> In d ds) by (intros; apply isd_in).
  assert (ND : NoDup ds) by (apply NoDup_darts; auto).
  set (la := fun d => pos (fst (lead f n d))).
  transitivity (lsum ds (fun d => tet3 i j k (la d) (pos (dtgt f d)) (pos (fst d)) - tet3 i j k c (pos (dtgt f d)) (pos (fst d))
     + tet3 i j k c (la d) (pos (fst d)) - tet3 i j k c (la d) (pos (dtgt f d)))).
  { etransitivity; [|apply lsum_ext; intros d _; apply tet3_shift].
    unfold moment3_at, moment3_of. fold f. fold n. fold ds. fold pos.
    exact (bsum3_lsum c i j k ds (fun d x y z => tet3 x y z (vsb c (la d)) (vsb c (pos (dtgt f d))) (vsb c (pos (fst d))))). }
  assert (O : lsum ds (fun d => tet3 i j k c (pos (dtgt f d)) (pos (fst d))) = 0).
  { apply (sum_odd f (below n) ds L ND).
    - intros d. symmetry. apply HI.
    - intros d Hd. rewrite (dtgt_opp f _ L d Hd). unfold dsrc. change (fst (dopp f d)) with (dtgt f d). apply tet3_swap2. }
  assert (T : lsum ds (fun d => tet3 i j k c (la d) (pos (dtgt f d))) = lsum ds (fun d => tet3 i j k c (la d) (pos (fst d)))).
  { etransitivity; [|refine (sum_fnext f (below n) n ds L (below_b n) ND _ (fun d => tet3 i j k c (la d) (pos (fst d))))].
    2: { intros d. symmetry. apply HI. }
    apply lsum_ext. intros d Hd. apply HI in Hd. unfold la.
    rewrite <- (lead_sf f n Hn L d (fnext f d) Hd) by apply sf_step. reflexivity. }
  rewrite lsum_sub, lsum_add, lsum_sub, O, T. unfold moment3. fold f. fold n. fold ds. fold pos. unfold la. ring.
Qed.

Lemma shift_moments3_exact (p : pol3) c po mom : (0 <= po)%Z -> (0 <= nv p)%Z -> links (nb (vb p)) (below (nv p)) ->
  (forall i j k, (i + j + k <= Z.to_nat po)%nat -> mom (idx3 (Z.of_nat i) (Z.of_nat j) (Z.of_nat k)) = moment3_at c p i j k) ->
  exists mom' : Z -> R, r3d_shift_moments RN mom po c = OK mom'
  /\ (forall i j k, (i + j + k <= Z.to_nat po)%nat -> mom' (idx3 (Z.of_nat i) (Z.of_nat j) (Z.of_nat k)) = moment3 p i j k)
  /\ (forall m, ~ (0 <= m < num_moments3 po)%Z -> mom' m = mom m).
Proof.
  intros Hpo Hn HL Hm. destruct (shift3_spec po Hpo mom c) as (mom' & E & R1 & R2). rn.
  exists mom'. split; [exact E|]. split.
  2: { intros m X. apply R2. lia. }
  intros i j k Hs. rewrite <- (moment3_shift c p i j k Hn HL).
  transitivity (lsum (box3 (Z.of_nat i) (Z.of_nat j) (Z.of_nat k)) (sterm3 mom c (Z.of_nat i) (Z.of_nat j) (Z.of_nat k))).
  - destruct (Nat.eq_dec (i + j + k) 0) as [Z0|Z0].
    + assert (i = 0%nat) as -> by lia. assert (j = 0%nat) as -> by lia. assert (k = 0%nat) as -> by lia. rewrite R2.
      * change (mom 0%Z = Cz 0 0 * Cz 0 0 * Cz 0 0 * 1 * 1 * 1 * mom 0%Z + 0). rewrite Cz_0 by lia. ring.
      * cbn. lia.
    + rewrite <- (ssum3_rect po) by lia. apply R1; lia.
  - unfold box3, bsum3. rewrite lsum_prod. rewrite <- lsum_sum_f. apply lsum_ext. intros a Ha. apply in_zrange in Ha.
    rewrite lsum_prod. rewrite <- lsum_sum_f. apply lsum_ext. intros b Hb. apply in_zrange in Hb.
    rewrite <- lsum_sum_f. apply lsum_ext. intros d Hd. apply in_zrange in Hd.
    rewrite <- Hm by lia. rewrite !Z2Nat.id by lia. unfold sterm3. cbn [fst snd].
    rewrite !(proj2 (Z.leb_le _ _)) by lia. cbn [andb]. unfold Cz. rewrite !Nat2Z.id.
    replace (Z.to_nat (Z.of_nat i - a)) with (i - Z.to_nat a)%nat by lia.
    replace (Z.to_nat (Z.of_nat j - b)) with (j - Z.to_nat b)%nat by lia.
    replace (Z.to_nat (Z.of_nat k - d)) with (k - Z.to_nat d)%nat by lia. reflexivity.
Qed.

(** [r3d_reduce] with SHIFT_POLY. *)
Lemma reduce_shift_moment3 MX (p : pol3) mom po : (0 <= po)%Z -> wf3 p -> (nv p <= MX)%Z ->
  exists mom', r3d_reduce RN MX true p mom po = OK mom'
  /\ (forall i j k, (i + j + k <= Z.to_nat po)%nat ->
        mom' (idx3 (Z.of_nat i) (Z.of_nat j) (Z.of_nat k)) = moment3 p i j k)
  /\ (forall m, ~ (0 <= m < num_moments3 po)%Z -> mom' m = mom m).
Proof.
  intros Hpo Hw HM. pose proof Hw as (Hn & HL & _). rn.
  destruct (Z.eq_dec (nv p) 0) as [E0|E0].
  - destruct (reduce3_empty RN MX true po p mom) as (mom' & E & R1 & R2); [lia|rn; lia|]. rn.
    exists mom'. split; auto. split; auto. intros i j k L.
    rewrite moment3_empty by lia. apply R1. apply idx3_range; lia.
  - destruct (reduce3_spec RN MX true po p mom) as (vc & l & m1 & (c & Ec & ->) & S1 & E); auto; [rn; lia|]. rn.
    destruct (shift_moments3_exact p c po m1 Hpo Hn HL) as (mom' & E' & Q1 & Q2).
    { intros i j k L. rewrite (mom_state_R _ _ _ _ _ _ Hw S1) by lia. rewrite !Nat2Z.id. reflexivity. }
    exists mom'. rewrite E. split; auto. split; auto. intros m X. rewrite Q2 by auto. apply S1. auto.
Qed.
