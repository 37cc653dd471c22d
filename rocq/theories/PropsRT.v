(** * PropsRT: property C94.  Proofs are in RotRT, BrepRT, GlueRT. *)
From Coq Require Import Reals ZArith List Bool Lia Lra.
From Verif Require Import Base Lib ModelCommon CommonFacts Model3 ModelB ModelBR RealNum SpecGood SpecBR Spec3R SpecC3 SpecF3 SpecRT Orb3 RotRT BrepRT GlueRT LimC3 InitC3 Reduce3 Fail3 Spec3.
Import ListNotations.
Open Scope Z_scope.

(** ** C94: [r3d_init_poly] builds again what [r3d_init_brep] describes. *)
(** A connected polyhedron in which no vertex lies where the one before it lies: one
    description, and from it, in whatever buffer, the same vertices with the same
    neighbours in the same sense. *)
Theorem C94_brep_round_trip {V} (veq : V -> V -> bool) (dv : V) MX (p : poly V) h fuel :
  wf3 p -> (forall u v, 0 <= u < nv p -> 0 <= v < nv p -> conn (nb (vb p)) 3 u v) ->
  (forall w, 0 < w < nv p -> veq (ps (vb p) w) (ps (vb p) (w - 1)) = false) ->
  0 < nv p < MX -> (Z.to_nat (nv p) < fuel)%nat -> fresh h ->
  exists bs h1 br, r3d_init_brep veq MX fuel h p = OK (bs, h1) /\ bs_nc bs = 1 /\ bs_br bs 0 = Some br
  /\ forall q t, exists p', r3d_init_poly MX (b_nf br) (brep_nvf br) (brep_fi br) q t (brep_vs dv br) (b_nv br) = OK (p', 1)
       /\ turned_slots p p'.
Proof. exact (brep_round veq dv MX p h fuel). Qed.
Print Assumptions C94_brep_round_trip.

(** convex polyhedra are connected; body, validity and all integrals come back *)
Theorem C94_brep_round_trip_convex (veq : rvec3 R -> rvec3 R -> bool) (dv : rvec3 R) MX (p : pol3) h fuel : convex3 p ->
  (forall w, 0 < w < nv p -> veq (ps (vb p) w) (ps (vb p) (w - 1)) = false) ->
  0 < nv p < MX -> (Z.to_nat (nv p) < fuel)%nat -> fresh h ->
  exists bs h1 br, r3d_init_brep veq MX fuel h p = OK (bs, h1) /\ bs_nc bs = 1 /\ bs_br bs 0 = Some br
  /\ forall q t, exists p', r3d_init_poly MX (b_nf br) (brep_nvf br) (brep_fi br) q t (brep_vs dv br) (b_nv br) = OK (p', 1)
       /\ convex3 p' /\ (solid3 p -> solid3 p') /\ (forall m, facets3 p m -> facets3 p' m) /\ (forall x, hull3 p' x <-> hull3 p x)
       /\ forall sh mom i j k po, Z.of_nat i + Z.of_nat j + Z.of_nat k <= po -> exists m m',
            r3d_reduce RN MX sh p mom po = OK m /\ r3d_reduce RN MX sh p' mom po = OK m'
            /\ m' (idx3 (Z.of_nat i) (Z.of_nat j) (Z.of_nat k)) = m (idx3 (Z.of_nat i) (Z.of_nat j) (Z.of_nat k)).
Proof. exact (brep_round_convex veq dv MX p h fuel). Qed.
Print Assumptions C94_brep_round_trip_convex.

(** polyhedra with edges of positive length: the comparison of positions needs nothing
    but to be right when it says equal *)
Theorem C94_solid_distinct (veq : rvec3 R -> rvec3 R -> bool) (p : pol3) : (forall a b, veq a b = true -> a = b) -> solid3 p ->
  forall w, 0 < w < nv p -> veq (ps (vb p) w) (ps (vb p) (w - 1)) = false.
Proof. exact (solid_distinct veq p). Qed.
Print Assumptions C94_solid_distinct.

(** ** The hypotheses are met *)
Definition eqR3 (a b : rvec3 R) : bool :=
  if Req_EM_T (x3 a) (x3 b) then if Req_EM_T (y3 a) (y3 b) then if Req_EM_T (z3 a) (z3 b) then true else false else false else false.
Example cube_round p0 : exists p bs h1 br, r3d_init_box RN 512 p0 (V3 0 0 0)%R (V3 1 1 1)%R = OK p /\ solid3 p /\ nv p = 8
  /\ r3d_init_brep eqR3 512 9 (HP (fun a => (0 <=? a) && (a <? 7)) 7) p = OK (bs, h1) /\ bs_br bs 0 = Some br
  /\ exists p', r3d_init_poly 512 (b_nf br) (brep_nvf br) (brep_fi br) p0 (vb p0) (brep_vs (V3 0 0 0)%R br) (b_nv br) = OK (p', 1)
       /\ solid3 p' /\ forall x, hull3 p' x <-> hull3 p x.
Proof.
  destruct (GlueC3.cube_clip p0) as (p & _ & E & _).
  destruct (init_box_solid 512 p0 p (V3 0 0 0)%R (V3 1 1 1)%R ltac:(lia)) as (S & Hn); cbn [x3 y3 z3]; try lra; auto.
  assert (Hv : forall a b, eqR3 a b = true -> a = b).
  { intros [a1 a2 a3] [b1 b2 b3]. unfold eqR3. cbn. destruct (Req_EM_T a1 b1); [subst|discriminate]. destruct (Req_EM_T a2 b2); [subst|discriminate]. destruct (Req_EM_T a3 b3); [subst; auto|discriminate]. }
  destruct (C94_brep_round_trip_convex eqR3 (V3 0 0 0)%R 512 p (HP (fun a => (0 <=? a) && (a <? 7)) 7) 9) as (bs & h1 & br & E1 & _ & E3 & E4).
  - now apply solid_convex3.
  - now apply C94_solid_distinct.
  - rewrite Hn. lia.
  - rewrite Hn. cbn. lia.
  - intros a Ha. cbn in Ha |- *. apply andb_true_iff in Ha as (_ & Ha). now apply Z.ltb_lt in Ha.
  - destruct (E4 p0 (vb p0)) as (p' & E5 & _ & S' & _ & H & _). exists p, bs, h1, br. split; auto. split; auto. split; auto. split; auto. split; auto. exists p'. auto.
Qed.
(** any tetrahedron-shaped graph, with the numbers themselves as positions *)
Example tet_round q : exists bs h1 br p', r3d_init_brep Z.eqb 16 9 (HP (fun _ => false) 0) (tets 1 (fun v => v)) = OK (bs, h1) /\ bs_br bs 0 = Some br
  /\ r3d_init_poly 16 (b_nf br) (brep_nvf br) (brep_fi br) q (vb q) (brep_vs 0 br) (b_nv br) = OK (p', 1) /\ turned_slots (tets 1 (fun v => v)) p'.
Proof.
  destruct (C94_brep_round_trip Z.eqb 0 16 (tets 1 (fun v => v)) (HP (fun _ => false) 0) 9) as (bs & h1 & br & E1 & _ & E3 & E4).
  - apply tets_wf. lia.
  - intros u v Hu Hv. cbn [tets nv vb] in *. destruct (Z.eq_dec u v) as [->|N]; [now apply walk_refl|].
    assert (exists i, 0 <= i < 3 /\ nb (vb (tets 1 (fun v => v))) u i = v) as (i & Hi & <-).
    { assert (Cu : u = 0 \/ u = 1 \/ u = 2 \/ u = 3) by lia. assert (Cv : v = 0 \/ v = 1 \/ v = 2 \/ v = 3) by lia.
      destruct Cu as [->|[->|[->| ->]]], Cv as [->|[->|[->| ->]]]; try lia;
        first [exists 0; split; [lia|reflexivity]|exists 1; split; [lia|reflexivity]|exists 2; split; [lia|reflexivity]]. }
    apply walk_step; auto. now apply walk_refl.
  - intros w Hw. cbn in Hw |- *. apply Z.eqb_neq. lia.
  - cbn; lia.
  - cbn; lia.
  - intros a Ha. discriminate Ha.
  - destruct (E4 q (vb q)) as (p' & E5 & T). eauto 10.
Qed.
