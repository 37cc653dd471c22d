(** * Faces3: the 3D face constructors (r3d.c:909-1028). *)
From Coq Require Import Reals ZArith List Bool Lia Lra Psatz.
From Coquelicot Require Import Coquelicot.
From Verif Require Import Base Lib ModelCommon CommonFacts Model3 HPoly HInt
  RealNum SumR Spec3R Mom3 Geo3.
Import ListNotations.
Open Scope R_scope.

Lemma norm3_R (n : rvec3 R) : exists c, 0 < c /\ norm3 RN n = V3 (x3 n * c) (y3 n * c) (z3 n * c).
Proof.
  exists (/ (sqrt (dot3 RN n n) + ntiny RN)). split.
  - apply Rinv_0_lt_compat. pose proof (sqrt_pos (dot3 RN n n)). assert (0 < ntiny RN).
    { unfold RN, ntiny. apply Rinv_0_lt_compat. apply pow_lt. lra. }
    rn. lra.
  - reflexivity.
Qed.
Lemma face_of_R (n c0 : rvec3 R) : exists c, 0 < c /\
  (forall q, sdist3 (face_of RN (norm3 RN n) c0) q
    = c * (x3 n * (x3 q - x3 c0) + y3 n * (y3 q - y3 c0) + z3 n * (z3 q - z3 c0))).
Proof.
  destruct (norm3_R n) as (c & Hc & E). exists c. split; auto. intros q. unfold face_of, sdist3. rewrite E.
  unfold dot3. cbn. ring.
Qed.

(** ** tetrahedron *)
Lemma tet_faces_R (a b c d : rvec3 R) : exists f0 f1 f2 f3 k0 k1 k2 k3,
  r3d_tet_faces_from_verts RN a b c d = [f0; f1; f2; f3]
  /\ 0 < k0 /\ 0 < k1 /\ 0 < k2 /\ 0 < k3
  /\ forall q, sdist3 f0 q = k0 * vol6 q b c d /\ sdist3 f1 q = k1 * vol6 a q c d
            /\ sdist3 f2 q = k2 * vol6 a b q d /\ sdist3 f3 q = k3 * vol6 a b c q.
Proof.
  unfold r3d_tet_faces_from_verts.
  match goal with |- context [[face_of RN (norm3 RN ?n0) ?c0; face_of RN (norm3 RN ?n1) ?c1; face_of RN (norm3 RN ?n2) ?c2; face_of RN (norm3 RN ?n3) ?c3]] =>
    destruct (face_of_R n0 c0) as (k0 & H0 & E0); destruct (face_of_R n1 c1) as (k1 & H1 & E1);
    destruct (face_of_R n2 c2) as (k2 & H2 & E2); destruct (face_of_R n3 c3) as (k3 & H3 & E3) end.
  do 4 eexists. exists k0, k1, k2, k3. split; [reflexivity|]. do 4 (split; [auto|]).
  intros q. split; [|split; [|split]].
  - etransitivity; [apply E0|]. unfold vol6, det3, psub, pt3, third3. cbn. field.
  - etransitivity; [apply E1|]. unfold vol6, det3, psub, pt3, third3. cbn. field.
  - etransitivity; [apply E2|]. unfold vol6, det3, psub, pt3, third3. cbn. field.
  - etransitivity; [apply E3|]. unfold vol6, det3, psub, pt3, third3. cbn. field.
Qed.

(** convex combinations of four points *)
Definition in_tet (a b c d q : rvec3 R) : Prop := exists w0 w1 w2 w3,
  0 <= w0 /\ 0 <= w1 /\ 0 <= w2 /\ 0 <= w3 /\ w0 + w1 + w2 + w3 = 1
  /\ q = V3 (w0 * x3 a + w1 * x3 b + w2 * x3 c + w3 * x3 d)
            (w0 * y3 a + w1 * y3 b + w2 * y3 c + w3 * y3 d)
            (w0 * z3 a + w1 * z3 b + w2 * z3 c + w3 * z3 d).

Lemma in_tet_vol a b c d q : 0 < vol6 a b c d ->
  (in_tet a b c d q <-> 0 <= vol6 q b c d /\ 0 <= vol6 a q c d /\ 0 <= vol6 a b q d /\ 0 <= vol6 a b c q).
Proof.
  intros HV. split.
  - intros (w0 & w1 & w2 & w3 & H0 & H1 & H2 & H3 & HS & ->).
    assert (w3 = 1 - w0 - w1 - w2) by lra. subst w3. set (V := vol6 a b c d) in *.
    repeat split; (eapply Rle_trans; [|right; symmetry]).
    + apply (Rmult_le_pos w0 V); lra. + unfold V, vol6, det3, psub, pt3. cbn. ring.
    + apply (Rmult_le_pos w1 V); lra. + unfold V, vol6, det3, psub, pt3. cbn. ring.
    + apply (Rmult_le_pos w2 V); lra. + unfold V, vol6, det3, psub, pt3. cbn. ring.
    + apply (Rmult_le_pos (1 - w0 - w1 - w2) V); lra. + unfold V, vol6, det3, psub, pt3. cbn. ring.
  - intros (A & B & C & D).
    assert (HN : vol6 a b c d <> 0) by lra.
    assert (P : forall x, 0 <= x -> 0 <= x / vol6 a b c d) by (intros; apply Rdiv_le_0_compat; auto).
    assert (S : vol6 q b c d + vol6 a q c d + vol6 a b q d + vol6 a b c q = vol6 a b c d) by (unfold vol6, det3, psub, pt3; cbn; ring).
    exists (vol6 q b c d / vol6 a b c d), (vol6 a q c d / vol6 a b c d), (vol6 a b q d / vol6 a b c d), (vol6 a b c q / vol6 a b c d).
    do 4 (split; [auto|]). split.
    + transitivity ((vol6 q b c d + vol6 a q c d + vol6 a b q d + vol6 a b c q) / vol6 a b c d); [field; auto|].
      rewrite S. field. auto.
    + assert (G : forall X (f : rvec3 R -> R), X * vol6 a b c d = vol6 q b c d * f a + vol6 a q c d * f b + vol6 a b q d * f c + vol6 a b c q * f d ->
         X = vol6 q b c d / vol6 a b c d * f a + vol6 a q c d / vol6 a b c d * f b + vol6 a b q d / vol6 a b c d * f c + vol6 a b c q / vol6 a b c d * f d).
      { intros X f E. apply (Rmult_eq_reg_r (vol6 a b c d)); auto. rewrite E. field. auto. }
      assert (E : q = V3 (x3 q) (y3 q) (z3 q)) by (destruct q; reflexivity). rewrite E at 1. f_equal.
      * apply (G _ (@x3 R)). unfold vol6, det3, psub, pt3. cbn. ring.
      * apply (G _ (@y3 R)). unfold vol6, det3, psub, pt3. cbn. ring.
      * apply (G _ (@z3 R)). unfold vol6, det3, psub, pt3. cbn. ring.
Qed.

Lemma Rmul_pos_iff k x : 0 < k -> (0 <= k * x <-> 0 <= x).
Proof. intros. split; intros; nra. Qed.

Lemma tet_faces_inside a b c d q : 0 < vol6 a b c d ->
  ((forall f, In f (r3d_tet_faces_from_verts RN a b c d) -> 0 <= sdist3 f q) <-> in_tet a b c d q).
Proof.
  intros HV. destruct (tet_faces_R a b c d) as (f0 & f1 & f2 & f3 & k0 & k1 & k2 & k3 & E & K0 & K1 & K2 & K3 & S).
  destruct (S q) as (S0 & S1 & S2 & S3). rewrite E, (in_tet_vol a b c d q HV).
  rewrite <- (Rmul_pos_iff k0 (vol6 q b c d) K0), <- (Rmul_pos_iff k1 (vol6 a q c d) K1), <- (Rmul_pos_iff k2 (vol6 a b q d) K2), <- (Rmul_pos_iff k3 (vol6 a b c q) K3).
  rewrite <- S0, <- S1, <- S2, <- S3. split.
  - intros H. cbn [In] in H. repeat split; apply H; auto.
  - intros (A & B & C & D) f [<-|[<-|[<-|[<-|[]]]]]; auto.
Qed.

(** ** box *)
Lemma box_faces_inside lo hi q :
  (forall f, In f (r3d_box_faces_from_verts RN lo hi) -> 0 <= sdist3 f q) <->
  (x3 lo <= x3 q <= x3 hi /\ y3 lo <= y3 q <= y3 hi /\ z3 lo <= z3 q <= z3 hi).
Proof.
  unfold r3d_box_faces_from_verts. split.
  - intros H. cbn [In] in H.
    pose proof (H _ (or_introl eq_refl)) as H0. pose proof (H _ (or_intror (or_introl eq_refl))) as H1.
    pose proof (H _ (or_intror (or_intror (or_introl eq_refl)))) as H2.
    pose proof (H _ (or_intror (or_intror (or_intror (or_introl eq_refl))))) as H3.
    pose proof (H _ (or_intror (or_intror (or_intror (or_intror (or_introl eq_refl)))))) as H4.
    pose proof (H _ (or_intror (or_intror (or_intror (or_intror (or_intror (or_introl eq_refl))))))) as H5.
    unfold sdist3 in *. cbn in H0, H1, H2, H3, H4, H5. rn. repeat split; lra.
  - intros (A & B & C) f [<-|[<-|[<-|[<-|[<-|[<-|[]]]]]]]; unfold sdist3; cbn; rn; lra.
Qed.

(** ** faces of a polyhedron *)
Definition nthv (vs : list (rvec3 R)) (v : nat) : rvec3 R := nth (v mod length vs) vs (V3 0 0 0).
(** the sum over consecutive vertex triples of a face of six times the volume they span with [q] *)
Definition fan_vol (vs : list (rvec3 R)) (q : rvec3 R) : R :=
  lsum (seq 0 (length vs)) (fun v => vol6 (nthv vs v) (nthv vs (v + 1)) (nthv vs (v + 2)) q).

Definition cross3 (a b c : rvec3 R) : rvec3 R :=
  V3 ((y3 b - y3 a) * (z3 c - z3 a) - (z3 b - z3 a) * (y3 c - y3 a))
     ((z3 b - z3 a) * (x3 c - x3 a) - (x3 b - x3 a) * (z3 c - z3 a))
     ((x3 b - x3 a) * (y3 c - y3 a) - (y3 b - y3 a) * (x3 c - x3 a)).
Definition nsum (vs : list (rvec3 R)) (g : rvec3 R -> R) (n : nat) : R :=
  lsum (seq 0 n) (fun v => g (cross3 (nthv vs v) (nthv vs (v + 1)) (nthv vs (v + 2)))).
Definition csum (vs : list (rvec3 R)) (g : rvec3 R -> R) (n : nat) : R := lsum (seq 0 n) (fun v => g (nthv vs v)).


Lemma poly_face_spec (vs : list (rvec3 R)) : vs <> [] -> exists pl, poly_face RN vs = OK pl /\ exists c, 0 < c /\
  forall q, sdist3 pl q = c * (nsum vs (@x3 R) (length vs) * (x3 q - csum vs (@x3 R) (length vs) / INR (length vs))
                             + nsum vs (@y3 R) (length vs) * (y3 q - csum vs (@y3 R) (length vs) / INR (length vs))
                             + nsum vs (@z3 R) (length vs) * (z3 q - csum vs (@z3 R) (length vs) / INR (length vs))).
Proof.
  intros Hne. set (m := length vs). assert (Hm : (0 < m)%nat) by (destruct vs; cbn in m; [congruence|lia]).
  destruct (for_inv (fun k (s : rvec3 R * rvec3 R) =>
      s = (V3 (csum vs (@x3 R) (Z.to_nat k)) (csum vs (@y3 R) (Z.to_nat k)) (csum vs (@z3 R) (Z.to_nat k)),
           V3 (nsum vs (@x3 R) (Z.to_nat k)) (nsum vs (@y3 R) (Z.to_nat k)) (nsum vs (@z3 R) (Z.to_nat k))))
    0 (Z.of_nat m) (poly_face_body RN vs) (V3 0 0 0, V3 0 0 0)) as (s & E & I).
  - lia.
  - reflexivity.
  - intros v s Hv ->. unfold poly_face_body. fold m.
    assert (G : forall w, (0 <= w)%Z -> nth_error vs (Z.to_nat (w mod Z.of_nat m)) = Some (nthv vs (Z.to_nat w))).
    { intros w Hw. unfold nthv. fold m. rewrite <- (Nat2Z.id m) at 2. rewrite <- Z2Nat.inj_mod by lia.
      apply nth_error_nth'. fold m. pose proof (Z.mod_pos_bound w (Z.of_nat m)). lia. }
    rn. fold m. pose proof (G v ltac:(lia)) as G0. rewrite Z.mod_small in G0 by lia. rewrite G0.
    rewrite (G (v + 1)%Z), (G (v + 2)%Z) by lia.
    eexists. split; [reflexivity|].
    replace (Z.to_nat (v + 1)) with (Z.to_nat v + 1)%nat by lia. replace (Z.to_nat (v + 2)) with (Z.to_nat v + 2)%nat by lia.
    unfold csum, nsum. rewrite !seq_app, !lsum_app. cbn [seq lsum Nat.add]. unfold cross3. cbn. f_equal; f_equal; ring.
  - unfold poly_face. fold m. rewrite Nat2Z.id in I. subst s.
    match type of E with ?l = ?r => match goal with |- context [for_ ?a ?b ?c ?d] => change (for_ a b c d) with l end end.
    rewrite E. cbn [bind]. eexists. split; [reflexivity|].
    destruct (face_of_R (V3 (nsum vs (@x3 R) m) (nsum vs (@y3 R) m) (nsum vs (@z3 R) m))
      (V3 (csum vs (@x3 R) m / INR m) (csum vs (@y3 R) m / INR m) (csum vs (@z3 R) m / INR m))) as (c & Hc & F).
    exists c. split; auto. intros q. cbn [x3 y3 z3] in F. rewrite <- F. rewrite INR_IZR_INZ. reflexivity.
Qed.

Lemma lsum_div {A} (l : list A) (F : A -> R) c : lsum l F / c = lsum l (fun x => F x / c).
Proof. unfold Rdiv. rewrite Rmult_comm, <- lsum_scal. apply lsum_ext. intros. ring. Qed.

Lemma lsum_swap {A B} (l : list A) (l' : list B) (F : A -> B -> R) :
  lsum l (fun a => lsum l' (F a)) = lsum l' (fun b => lsum l (fun a => F a b)).
Proof.
  induction l as [|a l IH]; cbn [lsum].
  - induction l' as [|b l' IH']; cbn [lsum]; rewrite <- ?IH'; ring.
  - rewrite IH. rewrite <- lsum_add. reflexivity.
Qed.
Lemma lsum_const {A} (l : list A) c : lsum l (fun _ => c) = INR (length l) * c.
Proof. induction l; cbn [lsum length]; [cbn; ring|]. rewrite IHl, S_INR. ring. Qed.

Lemma vol6_cross a b c q : vol6 a b c q
  = x3 (cross3 a b c) * (x3 q - x3 a) + y3 (cross3 a b c) * (y3 q - y3 a) + z3 (cross3 a b c) * (z3 q - z3 a).
Proof. unfold vol6, cross3, det3, psub, pt3. cbn. ring. Qed.

(** for a planar face: the plane contains the vertices and its sign is that of the fan volume *)
Lemma poly_face_R (vs : list (rvec3 R)) g : vs <> [] -> proper g -> (forall v, In v vs -> sdist3 g v = 0) ->
  exists pl, poly_face RN vs = OK pl /\ (forall v, In v vs -> sdist3 pl v = 0)
  /\ exists c, 0 < c /\ forall q, sdist3 pl q = c * fan_vol vs q.
Proof.
  intros Hne Hg HP. destruct (poly_face_spec vs Hne) as (pl & E & c & Hc & S). exists pl. split; auto.
  set (m := length vs) in *. assert (Hm : (0 < m)%nat) by (destruct vs; cbn in m; [congruence|lia]).
  assert (HI : INR m <> 0) by (apply not_0_INR; lia).
  assert (GV : forall v, In (nthv vs v) vs).
  { intros v. unfold nthv. apply nth_In. apply Nat.mod_upper_bound. fold m. lia. }
  assert (F : forall q, sdist3 pl q = c * fan_vol vs q).
  { intros q. rewrite S. f_equal. unfold fan_vol. fold m.
    transitivity (lsum (seq 0 m) (fun v => lsum (seq 0 m) (fun w =>
      / INR m * vol6 (nthv vs v) (nthv vs (v + 1)) (nthv vs (v + 2)) q))).
    2: { apply lsum_ext. intros v _. rewrite lsum_const, seq_length. field. auto. }
    transitivity (lsum (seq 0 m) (fun v => lsum (seq 0 m) (fun w => / INR m *
       (let n := cross3 (nthv vs v) (nthv vs (v + 1)) (nthv vs (v + 2)) in
        x3 n * (x3 q - x3 (nthv vs w)) + y3 n * (y3 q - y3 (nthv vs w)) + z3 n * (z3 q - z3 (nthv vs w)))))).
    2: { apply lsum_ext. intros v _. apply lsum_ext. intros w _. f_equal. cbv zeta.
         assert (Z : vol6 (nthv vs v) (nthv vs (v + 1)) (nthv vs (v + 2)) (nthv vs w) = 0)
           by (apply (plane_vol6 g); auto).
         rewrite vol6_cross in Z |- *. lra. }
    assert (G1 : forall (f : rvec3 R -> R) v, lsum (seq 0 m) (fun w => / INR m * (f v * (f q - f (nthv vs w)))) = f v * (f q - csum vs f m / INR m)).
    { intros f v. unfold csum. rewrite lsum_scal, lsum_scal, lsum_sub, lsum_const, seq_length. field. auto. }
    transitivity (lsum (seq 0 m) (fun v => let n := cross3 (nthv vs v) (nthv vs (v + 1)) (nthv vs (v + 2)) in
        x3 n * (x3 q - csum vs (@x3 R) m / INR m) + y3 n * (y3 q - csum vs (@y3 R) m / INR m) + z3 n * (z3 q - csum vs (@z3 R) m / INR m))).
    2: { apply lsum_ext. intros v _. cbv zeta. rewrite <- !G1, <- !lsum_add. apply lsum_ext. intros w _. ring. }
    cbv zeta. rewrite !lsum_add. unfold nsum.
    assert (G2 : forall (h : nat -> R) k, lsum (seq 0 m) h * k = lsum (seq 0 m) (fun v => h v * k)).
    { intros h k. rewrite Rmult_comm, <- lsum_scal. apply lsum_ext. intros. ring. }
    rewrite !G2. reflexivity. }
  split; [|exists c; auto].
  intros v Hv. rewrite F. unfold fan_vol. replace (lsum _ _) with (lsum (seq 0 (length vs)) (fun _ => 0)); [rewrite lsum_const; ring|].
  apply lsum_ext. intros w _. symmetry. apply (plane_vol6 g); auto.
Qed.

(** the vertices that a face refers to *)
Lemma lookup_all_ok {A} (vs : list A) is d : (forall i, In i is -> (0 <= i < Z.of_nat (length vs))%Z) ->
  lookup_all vs is = OK (map (fun i => nth (Z.to_nat i) vs d) is).
Proof.
  induction is as [|i is IH]; intros H; cbn [lookup_all map]; auto.
  assert (Hi := H i (or_introl eq_refl)).
  unfold inb. replace ((0 <=? i)%Z && (i <? Z.of_nat (length vs))%Z)%bool with true
    by (symmetry; apply andb_true_intro; split; [apply Z.leb_le|apply Z.ltb_lt]; lia).
  rewrite (nth_error_nth' vs d) by lia. rewrite IH by (intros; apply H; now right). reflexivity.
Qed.
