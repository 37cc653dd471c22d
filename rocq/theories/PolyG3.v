(** * PolyG3: [r3d_poly_faces_from_verts] of a description of a simple convex polyhedron. *)
From Coq Require Import Reals ZArith List Bool Lia Lra Psatz.
From Verif Require Import Base Lib SumR ModelCommon Model3 ModelB RealNum Spec3 Spec3R SpecN SpecNC SpecC3 SpecF3 SpecI SpecB SpecL3 SpecH SpecQ3
  HPoly Mom3 Faces3 Cons3 Glue3 HullC3 RoomF3 Reduce3 LimC3 IntC3 FarkC InitP InitP2 BrepEx PolyQ3.
Import ListNotations.
Open Scope R_scope.

Lemma vol6_svol6 a b c q : vol6 a b c q = svol6 a b c q.
Proof. unfold vol6, svol6, HPoly.det3, psub, pt3. cbn. ring. Qed.
Lemma svol6_back a b c q : svol6 a b c q = - svol6 c b a q.
Proof. unfold svol6. ring. Qed.
Lemma lsum_pos_comb (m : nat) (G : nat -> R) : (0 < m)%nat -> (forall k, (k < m)%nat -> 0 < G k) -> 0 < lsum (seq 0 m) G.
Proof.
  intros Hm H. destruct m as [|m]; [lia|]. cbn [seq lsum]. assert (0 <= lsum (seq 1 m) G); [|pose proof (H 0%nat ltac:(lia)); lra].
  apply PolyN.lsum_nonneg. intros k Hk. apply in_seq in Hk. left. apply H. lia.
Qed.
Lemma choose_nat (m : nat) (P : nat -> R -> Prop) : (forall k, (k < m)%nat -> exists x, P k x) -> exists g, forall k, (k < m)%nat -> P k (g k).
Proof.
  induction m as [|m IH]; intros H; [exists (fun _ => 0); intros; lia|]. destruct IH as (g & Hg); [intros; apply H; lia|]. destruct (H m) as (x & Hx); [lia|].
  exists (fun k => if Nat.eqb k m then x else g k). intros k Hk. destruct (Nat.eqb_spec k m); [subst; auto|apply Hg; lia].
Qed.

Lemma plane_zero a b c : svol6 a b c b = 0.
Proof. unfold svol6. ring. Qed.

Lemma Forall2_len {A B} (P : A -> B -> Prop) l m : Forall2 P l m -> length l = length m.
Proof. induction 1; cbn; congruence. Qed.
Lemma Forall2_in_r {A B} (P : A -> B -> Prop) l m : Forall2 P l m -> forall y, In y m -> exists x, In x l /\ P x y.
Proof. induction 1 as [|a b l m H F IH]; intros y Hy; [destruct Hy|]. destruct Hy as [<-|Hy]; [exists a; cbn; auto|]. destruct (IH y Hy) as (x & Hx & Px). exists x. cbn; auto. Qed.
Lemma Forall2_in_l {A B} (P : A -> B -> Prop) l m : Forall2 P l m -> forall x, In x l -> exists y, In y m /\ P x y.
Proof. induction 1 as [|a b l m H F IH]; intros x Hx; [destruct Hx|]. destruct Hx as [<-|Hx]; [exists b; cbn; auto|]. destruct (IH x Hx) as (y & Hy & Py). exists y. cbn; auto. Qed.

Section L.
Context (F : list (list Z)) (vl : list (rvec3 R)).
Notation nf := (lnf F).
Notation nvf := (lnvf F).
Notation fi := (lfi F).
Notation n := (Z.of_nat (length vl)).
Definition lv (v : Z) : rvec3 R := nth (Z.to_nat v) vl (V3 0 0 0).
Hypothesis CS : closed_surface nf nvf fi n.
Hypothesis FM : faces_meet nf nvf fi.
Hypothesis CV : convex_desc nf nvf fi n lv.
Hypothesis DG : forall v, (0 <= v < n)%Z -> vdeg nf nvf fi v = 3%Z.
Hypothesis Hn : (0 < n)%Z.
Notation side_c := (side_c nvf fi lv).

Lemma some_b : exists b : vbuf (rvec3 R), (forall v, (0 <= v < n)%Z -> ps b v = lv v) /\ forall v, (0 <= v < n)%Z -> exists x y z, cyc nf nvf fi v x y z /\ row b v y x z.
Proof.
  destruct (ip_three nf nvf fi (Z.max 3 n) (PY (VB (fun _ _ => 0%Z) lv) 0%Z) (VB (fun _ _ => 0%Z) lv) lv n ltac:(unfold lnf; lia) CS ltac:(lia) ltac:(lia) DG) as (b & _ & P & H).
  exists b. auto.
Qed.
(** the lists of vertices of a face *)
Lemma face_nth (fc : list Z) : In fc F -> exists g, (0 <= g < nf)%Z /\ fc = nth (Z.to_nat g) F [] /\ (3 <= length fc)%nat.
Proof.
  intros H. apply In_nth with (d := []) in H as (k & Hk & E). exists (Z.of_nat k). rewrite Nat2Z.id. split; [unfold lnf; lia|]. split; auto.
  pose proof (cs_size _ _ _ _ CS (Z.of_nat k) ltac:(unfold lnf; lia)) as S. unfold lnvf in S. rewrite Nat2Z.id, E in S. lia.
Qed.
Lemma face_corner g (k : nat) : (0 <= g < nf)%Z -> (k < length (nth (Z.to_nat g) F []))%nat -> corner nf nvf (g, Z.of_nat k) /\ vat fi (g, Z.of_nat k) = nth k (nth (Z.to_nat g) F []) 0%Z.
Proof. intros Hg Hk. split; [split; auto; cbn; unfold lnvf; lia|]. unfold vat, lfi. cbn. now rewrite Nat2Z.id. Qed.

(** the vertex at position [z] around face [g], counted cyclically *)
Definition around (g z : Z) : rvec3 R := lv (nth (Z.to_nat (z mod nvf g)) (nth (Z.to_nat g) F []) 0%Z).
Lemma side_around g z q : (0 <= g < nf)%Z -> side_c (g, (z mod nvf g)%Z) q = svol6 (around g (z + 1)) (around g z) (around g (z - 1)) q.
Proof.
  intros Hg. pose proof (cs_size _ _ _ _ CS g Hg). unfold SpecQ3.side_c, around, vat, lfi, csucc, cpred. cbn [fst snd].
  now rewrite Zplus_mod_idemp_l, Zminus_mod_idemp_l.
Qed.
Lemma around_nthv g k : (0 <= g < nf)%Z -> nthv (map lv (nth (Z.to_nat g) F [])) k = around g (Z.of_nat k).
Proof.
  intros Hg. pose proof (cs_size _ _ _ _ CS g Hg) as S. unfold around. unfold lnvf in *. set (fc := nth (Z.to_nat g) F []) in *.
  unfold nthv. rewrite map_length. rewrite (nth_indep _ _ (lv 0%Z)) by (rewrite map_length; apply Nat.mod_upper_bound; lia). rewrite map_nth.
  now rewrite <- Nat2Z.inj_mod, Nat2Z.id.
Qed.
Lemma around_rev g k : (0 <= g < nf)%Z -> nthv (map lv (rev (nth (Z.to_nat g) F []))) k = around g (-1 - Z.of_nat k).
Proof.
  intros Hg. pose proof (cs_size _ _ _ _ CS g Hg) as S. unfold around. unfold lnvf in *. set (fc := nth (Z.to_nat g) F []) in *.
  unfold nthv. rewrite map_length, rev_length. pose proof (Nat.mod_upper_bound k (length fc) ltac:(lia)).
  rewrite (nth_indep _ _ (lv 0%Z)) by (rewrite map_length, rev_length; lia). rewrite map_nth, rev_nth by lia. do 2 f_equal.
  apply Nat2Z.inj. rewrite Z2Nat.id by (apply Z.mod_pos_bound; lia). apply (Z.mod_unique_pos _ _ (-1 - Z.of_nat (k / length fc))); [lia|].
  pose proof (Nat.div_mod k (length fc) ltac:(lia)). nia.
Qed.

Lemma fan_of (m : nat) (u : nat -> rvec3 R) g (s : R) : (0 <= g < nf)%Z -> (0 < m)%nat ->
  (forall k, exists z, forall q, vol6 (u k) (u (k + 1)%nat) (u (k + 2)%nat) q = s * side_c (g, (z mod nvf g)%Z) q) ->
  exists k, 0 < k /\ forall q, lsum (seq 0 m) (fun v => vol6 (u v) (u (v + 1)%nat) (u (v + 2)%nat) q) = s * (k * side_c (g, 0%Z) q).
Proof.
  intros Hg Hm H. destruct some_b as (b & HP & HB). pose proof (cs_size _ _ _ _ CS g Hg) as S.
  assert (T : forall k, (k < m)%nat -> exists c, 0 < c /\ forall q, vol6 (u k) (u (k + 1)%nat) (u (k + 2)%nat) q = s * (c * side_c (g, 0%Z) q)).
  { intros k _. destruct (H k) as (z & E). assert (Hc : corner nf nvf (g, (z mod nvf g)%Z)) by (split; cbn; auto; apply Z.mod_pos_bound; lia).
    destruct (corner_prop nf nvf fi n lv CS FM CV b HB _ Hc) as (c & Pc & E'). exists c. split; auto. intros q. rewrite E, E'. reflexivity. }
  destruct (choose_nat m _ T) as (c & Hc). exists (lsum (seq 0 m) c). split; [apply lsum_pos_comb; auto; intros; now apply Hc|].
  intros q. rewrite (lsum_ext _ _ (fun k => (s * side_c (g, 0%Z) q) * c k)).
  - rewrite lsum_scal. ring.
  - intros k Hk. apply in_seq in Hk. rewrite (proj2 (Hc k ltac:(lia))). ring.
Qed.
Lemma fan_same g : (0 <= g < nf)%Z -> exists k, 0 < k /\ forall q, fan_vol (map lv (nth (Z.to_nat g) F [])) q = (-1) * (k * side_c (g, 0%Z) q).
Proof.
  intros Hg. pose proof (cs_size _ _ _ _ CS g Hg) as S. unfold lnvf in S. unfold fan_vol. apply fan_of; auto; [rewrite map_length; lia|].
  intros k. exists (Z.of_nat k + 1)%Z. intros q. rewrite side_around, !around_nthv by auto. rewrite vol6_svol6, svol6_back.
  replace (Z.of_nat (k + 2)) with (Z.of_nat k + 1 + 1)%Z by lia. replace (Z.of_nat (k + 1)) with (Z.of_nat k + 1)%Z by lia. replace (Z.of_nat k + 1 - 1)%Z with (Z.of_nat k) by lia. ring.
Qed.
Lemma fan_rev g : (0 <= g < nf)%Z -> exists k, 0 < k /\ forall q, fan_vol (map lv (rev (nth (Z.to_nat g) F []))) q = 1 * (k * side_c (g, 0%Z) q).
Proof.
  intros Hg. pose proof (cs_size _ _ _ _ CS g Hg) as S. unfold lnvf in S. unfold fan_vol. apply fan_of; auto; [rewrite map_length, rev_length; lia|].
  intros k. exists (-1 - Z.of_nat (k + 1))%Z. intros q. rewrite side_around, !around_rev by auto. rewrite vol6_svol6.
  replace (-1 - Z.of_nat (k + 1) + 1)%Z with (-1 - Z.of_nat k)%Z by lia. replace (-1 - Z.of_nat (k + 1) - 1)%Z with (-1 - Z.of_nat (k + 2))%Z by lia. ring.
Qed.

(** ** The planes *)
Lemma pl_proper g : (0 <= g < nf)%Z -> proper (pl_f nvf fi lv g).
Proof.
  intros Hg. destruct some_b as (b & HP & HB). destruct (off_vertex nf nvf fi n CS FM b HB (g, 0%Z) (first nf nvf fi n CS g Hg)) as (w & Hw & No). cbn [fst] in No.
  pose proof (proj2 (CV (g, 0%Z) w (first nf nvf fi n CS g Hg) Hw) No) as P. rewrite <- pl_side in P.
  pose proof (pl_side nvf fi lv g (lv (vat fi (g, 0%Z)))) as Z0. unfold SpecQ3.side_c in Z0. rewrite (plane_zero _ _ _) in Z0.
  unfold proper. unfold sdist3 in *. destruct (pl_f nvf fi lv g) as [[a b' c] d]. cbn in *. nra.
Qed.
End L.

Lemma simple_L F vl : simple_convex (lnf F) (lnvf F) (lfi F) (Z.of_nat (length vl)) (lv vl) ->
  closed_surface (lnf F) (lnvf F) (lfi F) (Z.of_nat (length vl)) /\ faces_meet (lnf F) (lnvf F) (lfi F) /\ convex_desc (lnf F) (lnvf F) (lfi F) (Z.of_nat (length vl)) (lv vl)
  /\ forall v, (0 <= v < Z.of_nat (length vl))%Z -> vdeg (lnf F) (lnvf F) (lfi F) v = 3%Z.
Proof. intros (A & B & C & D & E). auto. Qed.

(** ** [r3d_init_poly] *)
Theorem init_poly_convex nf nvf fi n vs MX p t : (0 <= nf)%Z -> simple_convex nf nvf fi n vs -> (3 <= MX)%Z -> (0 < n <= MX)%Z ->
  exists p', r3d_init_poly MX nf nvf fi p t vs n = OK (p', 1%Z) /\ nv p' = n /\ (forall v, (0 <= v < n)%Z -> ps (vb p') v = vs v)
    /\ solid3 p' /\ facets3 p' nf /\ (forall x, hull3 p' x <-> desc_pts nf nvf fi vs x) /\ forall x, desc_pts nf nvf fi vs x <-> mean3 n vs x.
Proof.
  intros Hf (CS & SO & FM & DG & CV) H3 Hn. destruct (init_poly_solid nf nvf fi n vs Hf CS FM CV MX p t SO H3 Hn DG) as (p' & E & N & P & So & Fa & H).
  exists p'. do 6 (split; auto). intros x. rewrite <- H, hull3_means, N. unfold mean3.
  assert (Q : forall w (f : rvec3 R -> R), wsum n w (fun v => f (ps (vb p') v)) = wsum n w (fun v => f (vs v))).
  { intros w f. unfold wsum. apply lsum_ext. intros v Hv. apply in_zrange in Hv. now rewrite P. }
  split; intros (w & W0 & W1 & W2 & W3); exists w; (split; [exact W0|]); rewrite W1, W2, W3, !Q; auto.
Qed.
Theorem init_poly_integral nf nvf fi n vs MX p t sh (i j k : nat) po (mom : Z -> R) : (0 <= nf)%Z -> simple_convex nf nvf fi n vs -> (3 <= MX)%Z -> (0 < n <= MX)%Z ->
  (Z.of_nat i + Z.of_nat j + Z.of_nat k <= po)%Z ->
  exists p' mom', r3d_init_poly MX nf nvf fi p t vs n = OK (p', 1%Z) /\ r3d_reduce RN MX sh p' mom po = OK mom'
    /\ integral3 (desc_pts nf nvf fi vs) (fun x => x3 x ^ i * y3 x ^ j * z3 x ^ k) (mom' (idx3 (Z.of_nat i) (Z.of_nat j) (Z.of_nat k))).
Proof.
  intros Hf SC H3 Hn Hpo. destruct (init_poly_convex nf nvf fi n vs MX p t Hf SC H3 Hn) as (p' & E & N & P & So & Fa & H & _).
  destruct (reduce_integral MX i j k sh p' mom po (solid_convex3 p' So) ltac:(change (T RN) with R in *; rewrite N; lia) Hpo) as (m & Er & I). exists p', m. do 2 (split; auto).
  now apply (integral3_ext (hull3 p')).
Qed.

(** ** [r3d_poly_faces_from_verts] *)
Lemma desc_first F vl : simple_convex (lnf F) (lnvf F) (lfi F) (Z.of_nat (length vl)) (lv vl) -> (0 < length vl)%nat ->
  forall x, desc_pts (lnf F) (lnvf F) (lfi F) (lv vl) x <-> forall g, (0 <= g < lnf F)%Z -> 0 <= side_c (lnvf F) (lfi F) (lv vl) (g, 0%Z) x.
Proof.
  intros SC Hn x. destruct (simple_L F vl SC) as (CS & FM & CV & DG). destruct (some_b F vl CS DG ltac:(lia)) as (b & HP & HB). now apply (pts_first _ _ _ _ _ CS FM CV b HB).
Qed.
Lemma faces_gen F vl (r : list Z -> list Z) (s : R) : simple_convex (lnf F) (lnvf F) (lfi F) (Z.of_nat (length vl)) (lv vl) -> (0 < length vl)%nat -> s <> 0 ->
  (forall l i, In i (r l) <-> In i l) ->
  (forall g, (0 <= g < lnf F)%Z -> exists k, 0 < k /\ forall q, fan_vol (map (lv vl) (r (nth (Z.to_nat g) F []))) q = s * (k * side_c (lnvf F) (lfi F) (lv vl) (g, 0%Z) q)) ->
  exists pls, r3d_poly_faces_from_verts RN vl (map r F) = OK pls /\ length pls = length F
    /\ (forall pl, In pl pls -> proper pl /\ exists g k, (0 <= g < lnf F)%Z /\ 0 < k /\ forall q, sdist3 pl q = s * (k * side_c (lnvf F) (lfi F) (lv vl) (g, 0%Z) q))
    /\ forall g, (0 <= g < lnf F)%Z -> exists pl k, In pl pls /\ 0 < k /\ forall q, sdist3 pl q = s * (k * side_c (lnvf F) (lfi F) (lv vl) (g, 0%Z) q).
Proof.
  intros SC Hn Hs Hr HF. destruct (simple_L F vl SC) as (CS & FM & CV & DG).
  assert (IX : forall f, In f (map r F) -> exists g, (0 <= g < lnf F)%Z /\ f = r (nth (Z.to_nat g) F [])).
  { intros f Hf. apply in_map_iff in Hf as (f0 & <- & Hf). destruct (face_nth F vl CS f0 Hf) as (g & Hg & -> & _). eauto. }
  assert (ON : forall g i, (0 <= g < lnf F)%Z -> In i (nth (Z.to_nat g) F []) -> exists c, corner (lnf F) (lnvf F) c /\ fst c = g /\ vat (lfi F) c = i).
  { intros g i Hg Hi. apply In_nth with (d := 0%Z) in Hi as (k & Hk & E). destruct (face_corner F vl g k Hg Hk) as (Hc & V). exists (g, Z.of_nat k). rewrite V. auto. }
  destruct (poly_faces_list vl (map r F)) as (pls & E & FA).
  { intros f Hf. destruct (IX f Hf) as (g & Hg & ->). split; [|split].
    - intros X. pose proof (cs_size _ _ _ _ CS g Hg) as S. unfold lnvf in S. destruct (nth (Z.to_nat g) F []) as [|a t] eqn:El; [cbn in S; lia|]. pose proof (proj2 (Hr (a :: t) a) (or_introl eq_refl)) as Q. rewrite X in Q. destruct Q.
    - intros i Hi. apply (proj1 (Hr _ _)) in Hi. destruct (ON g i Hg Hi) as (c & Hc & _ & <-). apply (cs_rng _ _ _ _ CS c Hc).
    - exists (pl_f (lnvf F) (lfi F) (lv vl) g). split; [apply pl_proper; auto; lia|]. intros i Hi. apply (proj1 (Hr _ _)) in Hi. destruct (ON g i Hg Hi) as (c & Hc & Ec & Ev). change (nth (Z.to_nat i) vl (V3 0 0 0)) with (lv vl i). rewrite pl_side.
      apply (CV (g, 0%Z) i (first _ _ _ _ CS g Hg)); [rewrite <- Ev; apply (cs_rng _ _ _ _ CS c Hc)|]. exists c. auto. }
  exists pls. split; auto. split; [pose proof (Forall2_len _ _ _ FA) as Q; rewrite map_length in Q; symmetry; exact Q|].
  assert (SD : forall f pl, (exists g, (0 <= g < lnf F)%Z /\ f = r (nth (Z.to_nat g) F [])) -> (exists c, 0 < c /\ forall q, sdist3 pl q = c * fan_vol (map (lv vl) f) q) ->
    forall g, (0 <= g < lnf F)%Z -> f = r (nth (Z.to_nat g) F []) -> exists k, 0 < k /\ forall q, sdist3 pl q = s * (k * side_c (lnvf F) (lfi F) (lv vl) (g, 0%Z) q)).
  { intros f pl _ (c & Pc & Ec) g Hg ->. destruct (HF g Hg) as (k & Pk & Ek). exists (c * k). split; [now apply Rmult_lt_0_compat|]. intros q. rewrite Ec, Ek. ring. }
  split.
  - intros pl Hp. destruct (Forall2_in_r _ _ _ FA pl Hp) as (f & Hf & _ & C). destruct (IX f Hf) as (g & Hg & Ef). destruct (SD f pl ltac:(eauto) C g Hg Ef) as (k & Pk & Ek).
    split; [|eauto 6]. destruct (some_b F vl CS DG ltac:(lia)) as (b & HP & HB).
    destruct (off_vertex _ _ _ _ CS FM b HB (g, 0%Z) (first _ _ _ _ CS g Hg)) as (w & Hw & No). pose proof (proj2 (CV (g, 0%Z) w (first _ _ _ _ CS g Hg) Hw) No) as P.
    assert (N1 : sdist3 pl (lv vl w) <> 0). { rewrite Ek. apply Rmult_integral_contrapositive. split; auto. apply Rgt_not_eq. now apply Rmult_lt_0_compat. }
    assert (N2 : sdist3 pl (lv vl (vat (lfi F) (g, 0%Z))) = 0). { rewrite Ek. unfold SpecQ3.side_c. rewrite plane_zero. ring. }
    unfold proper, sdist3 in *. destruct pl as [[a b' c] d]. cbn in *. destruct (Req_dec a 0); auto. destruct (Req_dec b' 0); auto. right; right. intros ->. subst. apply N1. lra.
  - intros g Hg. destruct (Forall2_in_l _ _ _ FA (r (nth (Z.to_nat g) F []))) as (pl & Hp & _ & C); [apply in_map, nth_In; unfold lnf in Hg; lia|].
    destruct (SD _ pl ltac:(eauto) C g Hg eq_refl) as (k & Pk & Ek). exists pl, k. auto.
Qed.

Theorem poly_faces_outward F vl : simple_convex (lnf F) (lnvf F) (lfi F) (Z.of_nat (length vl)) (lv vl) -> (0 < length vl)%nat ->
  exists pls, r3d_poly_faces_from_verts RN vl F = OK pls /\ length pls = length F /\ (forall pl, In pl pls -> proper pl)
    /\ forall x, desc_pts (lnf F) (lnvf F) (lfi F) (lv vl) x <-> forall pl, In pl pls -> sdist3 pl x <= 0.
Proof.
  intros SC Hn. destruct (simple_L F vl SC) as (CS & FM & CV & DG).
  destruct (faces_gen F vl (fun l => l) (-1) SC Hn ltac:(lra) ltac:(tauto) (fan_same F vl CS FM CV DG ltac:(lia))) as (pls & E & L & A & B).
  rewrite map_id in E. exists pls. do 2 (split; auto). split; [intros pl Hp; now apply A|]. intros x. rewrite (desc_first F vl SC Hn). split.
  - intros H pl Hp. destruct (A pl Hp) as (_ & g & k & Hg & Pk & Ek). rewrite Ek. pose proof (Rmult_le_pos _ _ (Rlt_le _ _ Pk) (H g Hg)). lra.
  - intros H g Hg. destruct (B g Hg) as (pl & k & Hp & Pk & Ek). pose proof (H pl Hp) as Q. rewrite Ek in Q. nra.
Qed.
Theorem poly_faces_reversed F vl : simple_convex (lnf F) (lnvf F) (lfi F) (Z.of_nat (length vl)) (lv vl) -> (0 < length vl)%nat ->
  exists pls, r3d_poly_faces_from_verts RN vl (map (@rev Z) F) = OK pls /\ length pls = length F /\ (forall pl, In pl pls -> proper pl)
    /\ forall x, desc_pts (lnf F) (lnvf F) (lfi F) (lv vl) x <-> holds3 pls x.
Proof.
  intros SC Hn. destruct (simple_L F vl SC) as (CS & FM & CV & DG).
  destruct (faces_gen F vl (@rev Z) 1 SC Hn ltac:(lra) ltac:(intros; symmetry; apply in_rev) (fan_rev F vl CS FM CV DG ltac:(lia))) as (pls & E & L & A & B).
  exists pls. do 2 (split; auto). split; [intros pl Hp; now apply A|]. intros x. rewrite (desc_first F vl SC Hn). split.
  - intros H pl Hp. destruct (A pl Hp) as (_ & g & k & Hg & Pk & Ek). rewrite Ek. pose proof (Rmult_le_pos _ _ (Rlt_le _ _ Pk) (H g Hg)). lra.
  - intros H g Hg. destruct (B g Hg) as (pl & k & Hp & Pk & Ek). pose proof (H pl Hp) as Q. rewrite Ek in Q. nra.
Qed.
(** no point is on all faces *)
Lemma not_flat F vl : simple_convex (lnf F) (lnvf F) (lfi F) (Z.of_nat (length vl)) (lv vl) -> (0 < length vl)%nat ->
  forall x, (forall g, (0 <= g < lnf F)%Z -> side_c (lnvf F) (lfi F) (lv vl) (g, 0%Z) x = 0) -> False.
Proof.
  intros SC Hn x H. destruct (simple_L F vl SC) as (CS & FM & CV & DG). destruct (some_b F vl CS DG ltac:(lia)) as (b & HP & HB).
  apply (flat_point _ _ _ _ _ CS FM CV b HB HP x); auto. lia.
Qed.
(** clipping the polyhedron by the planes of its own face lists removes it *)
Theorem poly_faces_clip_own F vl MX p t : simple_convex (lnf F) (lnvf F) (lfi F) (Z.of_nat (length vl)) (lv vl) -> (0 < Z.of_nat (length vl) <= MX)%Z -> (3 <= MX)%Z ->
  (6 * lnf F <= MX + 7)%Z ->
  exists p' pls o, r3d_init_poly MX (lnf F) (lnvf F) (lfi F) p t (lv vl) (Z.of_nat (length vl)) = OK (p', 1%Z)
    /\ r3d_poly_faces_from_verts RN vl F = OK pls /\ r3d_clip RN MX p' pls = OK (o, 1%Z) /\ nv o = 0%Z.
Proof.
  intros SC Hn H3 Hroom. assert (Hl : (0 < length vl)%nat) by lia. destruct (simple_L F vl SC) as (CS & FM & CV & DG).
  destruct (init_poly_convex (lnf F) (lnvf F) (lfi F) _ (lv vl) MX p t ltac:(unfold lnf; lia) SC H3 Hn) as (p' & E & N & P & So & Fa & H & _).
  destruct (faces_gen F vl (fun l => l) (-1) SC Hl ltac:(lra) ltac:(tauto) (fan_same F vl CS FM CV DG ltac:(lia))) as (pls & Ef & L & A & B). rewrite map_id in Ef.
  destruct (clip_facets MX p' pls (lnf F) Fa ltac:(change (T RN) with R in *; rewrite N; lia) ltac:(change (T RN) with R in *; rewrite L; unfold lnf in *; lia)) as (o & Ec & _).
  exists p', pls, o. do 3 (split; auto).
  destruct (r3d_clip_hull MX p' o pls (solid_convex3 p' So) ltac:(change (T RN) with R in *; rewrite N; lia) Ec) as (Co & [Q|(Q & _)]); auto.
  destruct (Z.le_gt_cases (nv o) 0) as [Z0|Z0]; [pose proof (proj1 (proj1 Co)); change (T RN) with R in *; lia|]. exfalso. change (T RN) with R in *.
  destruct (proj1 (Q _) (hull3_vertex o 0 ltac:(lia))) as (Q1 & Q2). apply H in Q1. apply (not_flat F vl SC Hl (ps (vb o) 0%Z)). intros g Hg.
  pose proof (proj1 (desc_first F vl SC Hl _) Q1 g Hg) as R1. destruct (B g Hg) as (pl & k & Hp & Pk & Ek). pose proof (Q2 pl Hp) as R2. rewrite Ek in R2. nra.
Qed.
(** ** The intersection of two described polyhedra *)
Theorem poly_intersection F vl G wl MX p t : simple_convex (lnf F) (lnvf F) (lfi F) (Z.of_nat (length vl)) (lv vl) -> simple_convex (lnf G) (lnvf G) (lfi G) (Z.of_nat (length wl)) (lv wl) ->
  (0 < Z.of_nat (length vl) <= MX)%Z -> (0 < length wl)%nat -> (3 <= MX)%Z -> (3 * (lnf F + lnf G) <= MX + 7)%Z ->
  exists p' pls o, r3d_init_poly MX (lnf F) (lnvf F) (lfi F) p t (lv vl) (Z.of_nat (length vl)) = OK (p', 1%Z)
    /\ r3d_poly_faces_from_verts RN wl (map (@rev Z) G) = OK pls /\ r3d_clip RN MX p' pls = OK (o, 1%Z)
    /\ forall sh (i j k : nat) po (mom : Z -> R), (Z.of_nat i + Z.of_nat j + Z.of_nat k <= po)%Z ->
       exists mom', r3d_reduce RN MX sh o mom po = OK mom'
         /\ integral3 (fun x => desc_pts (lnf F) (lnvf F) (lfi F) (lv vl) x /\ desc_pts (lnf G) (lnvf G) (lfi G) (lv wl) x)
              (fun x => x3 x ^ i * y3 x ^ j * z3 x ^ k) (mom' (idx3 (Z.of_nat i) (Z.of_nat j) (Z.of_nat k))).
Proof.
  intros SF SG Hn Hm H3 Hroom. destruct (init_poly_convex (lnf F) (lnvf F) (lfi F) _ (lv vl) MX p t ltac:(unfold lnf; lia) SF H3 Hn) as (p' & E & N & P & So & Fa & H & _).
  destruct (poly_faces_reversed G wl SG Hm) as (pls & Ef & L & Pr & Q).
  destruct (clip_facets MX p' pls (lnf F) Fa ltac:(change (T RN) with R in *; rewrite N; lia) ltac:(change (T RN) with R in *; rewrite L; unfold lnf in *; lia)) as (o & Ec & _).
  exists p', pls, o. do 3 (split; auto). intros sh i j k po mom Hpo.
  destruct (clip_reduce_integral MX i j k sh p' o pls mom po (solid_convex3 p' So) ltac:(change (T RN) with R in *; rewrite N; lia) Pr Ec Hpo) as (m & Er & I). exists m. split; auto.
  eapply integral3_ext; [|exact I]. intros x. cbn beta. pose proof (H x). pose proof (Q x). tauto.
Qed.
Theorem poly_faces_no_point F vl : simple_convex (lnf F) (lnvf F) (lfi F) (Z.of_nat (length vl)) (lv vl) -> (0 < length vl)%nat ->
  exists pls, r3d_poly_faces_from_verts RN vl F = OK pls /\ forall x, desc_pts (lnf F) (lnvf F) (lfi F) (lv vl) x -> ~ holds3 pls x.
Proof.
  intros SC Hn. destruct (simple_L F vl SC) as (CS & FM & CV & DG).
  destruct (faces_gen F vl (fun l => l) (-1) SC Hn ltac:(lra) ltac:(tauto) (fan_same F vl CS FM CV DG ltac:(lia))) as (pls & Ef & L & A & B). rewrite map_id in Ef.
  exists pls. split; auto. intros x D Q. apply (not_flat F vl SC Hn x). intros g Hg.
  pose proof (proj1 (desc_first F vl SC Hn _) D g Hg) as R1. destruct (B g Hg) as (pl & k & Hp & Pk & Ek). pose proof (Q pl Hp) as R2. rewrite Ek in R2. nra.
Qed.
Lemma vertex_desc F vl v : simple_convex (lnf F) (lnvf F) (lfi F) (Z.of_nat (length vl)) (lv vl) -> (0 <= v < Z.of_nat (length vl))%Z -> desc_pts (lnf F) (lnvf F) (lfi F) (lv vl) (lv vl v).
Proof.
  intros SC Hv. destruct (init_poly_convex (lnf F) (lnvf F) (lfi F) _ (lv vl) (Z.max 3 (Z.of_nat (length vl))) (PY (VB (fun _ _ => 0%Z) (lv vl)) 0%Z) (VB (fun _ _ => 0%Z) (lv vl)) ltac:(unfold lnf; lia) SC ltac:(lia) ltac:(lia))
    as (p' & _ & N & P & _ & _ & H & _). rewrite <- H, <- P by auto. apply hull3_vertex. now rewrite N.
Qed.
