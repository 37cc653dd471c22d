(** * GlueRT: a connected polyhedron, described and built again. *)
From Coq Require Import Reals ZArith List Bool Lia Lra.
From Verif Require Import Base Lib ModelCommon CommonFacts Model3 ModelB ModelBR RealNum SpecB SpecGood SpecBR SpecN SpecNC Spec3R SpecC3 SpecF3 SpecRT Orb3 BrepC BrepRT RotRT GoodBal LimC3 InitC3 Reduce3 IntC3 Spec3.
Import ListNotations.
Open Scope Z_scope.

Lemma wf3_four {V} (p : poly V) : wf3 p -> 0 < nv p -> 4 <= nv p.
Proof.
  intros (_ & L & _) Hn. assert (H0 : below (nv p) 0) by (unfold below; lia). set (f := nb (vb p)) in *.
  pose proof (l_rng _ _ L 0 0 H0 ltac:(lia)) as R0. pose proof (l_rng _ _ L 0 1 H0 ltac:(lia)) as R1. pose proof (l_rng _ _ L 0 2 H0 ltac:(lia)) as R2.
  pose proof (l_self _ _ L 0 0 H0 ltac:(lia)) as S0. pose proof (l_self _ _ L 0 1 H0 ltac:(lia)) as S1. pose proof (l_self _ _ L 0 2 H0 ltac:(lia)) as S2.
  assert (D1 : f 0 0 <> f 0 1) by (intros X; pose proof (l_dist _ _ L 0 0 1 H0 ltac:(lia) ltac:(lia) X); lia).
  assert (D2 : f 0 0 <> f 0 2) by (intros X; pose proof (l_dist _ _ L 0 0 2 H0 ltac:(lia) ltac:(lia) X); lia).
  assert (D3 : f 0 1 <> f 0 2) by (intros X; pose proof (l_dist _ _ L 0 1 2 H0 ltac:(lia) ltac:(lia) X); lia).
  unfold below in *. lia.
Qed.

Section RT.
Context {V : Type} (veq : V -> V -> bool) (dv : V).
Theorem brep_round MX (p : poly V) h fuel : wf3 p -> (forall u v, 0 <= u < nv p -> 0 <= v < nv p -> conn (nb (vb p)) 3 u v) ->
  (forall w, 0 < w < nv p -> veq (ps (vb p) w) (ps (vb p) (w - 1)) = false) ->
  0 < nv p < MX -> (Z.to_nat (nv p) < fuel)%nat -> fresh h ->
  exists bs h1 br, r3d_init_brep veq MX fuel h p = OK (bs, h1) /\ bs_nc bs = 1 /\ bs_br bs 0 = Some br
  /\ forall q t, exists p', r3d_init_poly MX (b_nf br) (brep_nvf br) (brep_fi br) q t (brep_vs dv br) (b_nv br) = OK (p', 1)
       /\ turned_slots p p'.
Proof.
  intros W Cn NC Hn Hf H0. pose proof (wf3_four p W ltac:(lia)) as H4.
  destruct (init_brep_spec veq MX p W h fuel ltac:(lia) Hf H0) as [(_ & bs & h1 & roots & starts & E & B & _)|(X & _)]; [|lia].
  destruct B as (B1 & B2 & B3 & B4 & B5).
  assert (L1 : length roots = 1%nat).
  { destruct (B4 0 ltac:(lia)) as (k & Hk & _ & U). destruct roots as [|r0 [|r1 rs]]; [cbn in Hk; lia|reflexivity|exfalso].
    assert (0%nat = k) by (apply U; [cbn; lia|]; apply Cn; [|lia]; apply B3; now left).
    assert (1%nat = k) by (apply U; [cbn; lia|]; apply Cn; [|lia]; apply B3; cbn; auto). lia. }
  destruct (B5 0%nat ltac:(lia)) as (br & Eb & BR). exists bs, h1, br. split; auto. split; [lia|]. split; auto.
  intros q t. apply (brep_rebuilt veq p dv br (nth 0 roots 0) (nth 0 starts []) W ltac:(lia)); auto; try lia.
  intros v Hv. apply Cn; auto. apply B3. apply nth_In. lia.
Qed.
End RT.

(** ** Convex polyhedra *)
Section C.
Context (veq : rvec3 R -> rvec3 R -> bool) (dv : rvec3 R).
Theorem brep_round_convex MX (p : pol3) h fuel : convex3 p ->
  (forall w, 0 < w < nv p -> veq (ps (vb p) w) (ps (vb p) (w - 1)) = false) ->
  0 < nv p < MX -> (Z.to_nat (nv p) < fuel)%nat -> fresh h ->
  exists bs h1 br, r3d_init_brep veq MX fuel h p = OK (bs, h1) /\ bs_nc bs = 1 /\ bs_br bs 0 = Some br
  /\ forall q t, exists p', r3d_init_poly MX (b_nf br) (brep_nvf br) (brep_fi br) q t (brep_vs dv br) (b_nv br) = OK (p', 1)
       /\ convex3 p' /\ (solid3 p -> solid3 p') /\ (forall m, facets3 p m -> facets3 p' m) /\ (forall x, hull3 p' x <-> hull3 p x)
       /\ forall sh mom i j k po, Z.of_nat i + Z.of_nat j + Z.of_nat k <= po -> exists m m',
            r3d_reduce RN MX sh p mom po = OK m /\ r3d_reduce RN MX sh p' mom po = OK m'
            /\ m' (idx3 (Z.of_nat i) (Z.of_nat j) (Z.of_nat k)) = m (idx3 (Z.of_nat i) (Z.of_nat j) (Z.of_nat k)).
Proof.
  intros CV NC Hn Hf H0. destruct (brep_round veq dv MX p h fuel (proj1 CV) (fun u v => convex3_conn p u v CV) NC Hn Hf H0) as (bs & h1 & br & E1 & E2 & E3 & E4).
  exists bs, h1, br. split; auto. split; auto. split; auto. intros q t. destruct (E4 q t) as (p' & E & T). exists p'. split; auto.
  assert (CV' : convex3 p') by (now apply (turned_convex p)).
  split; auto. split; [now apply turned_solid|]. split; [intros m; now apply turned_facets|]. split; [intros x; now apply turned_hull|].
  intros sh mom i j k po Hp.
  destruct (reduce_integral MX i j k sh p mom po CV ltac:(lia) Hp) as (m & Em & Im).
  destruct (reduce_integral MX i j k sh p' mom po CV') as (m' & Em' & Im'); [destruct T as (-> & _); lia|auto|].
  exists m, m'. split; auto. split; auto. eapply integral3_unique; [|exact Im].
  eapply integral3_ext; [|exact Im']. intros x. now apply turned_hull.
Qed.
(** the test for equal positions is never met *)
Lemma solid_distinct (p : pol3) : (forall a b, veq a b = true -> a = b) -> solid3 p ->
  forall w, 0 < w < nv p -> veq (ps (vb p) w) (ps (vb p) (w - 1)) = false.
Proof.
  intros Hv (_ & nh & lab & l0 & l & _ & Q & _) w Hw. destruct (veq _ _) eqn:E; auto. apply Hv in E. exfalso.
  assert (w = w - 1); [|lia]. apply (re_inj _ _ _ _ _ _ _ Q); unfold upto; try lia. intros k _. unfold at3. now rewrite E.
Qed.
End C.
