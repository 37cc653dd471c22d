(** * PropsBal: property C95.  Proofs are in BalN, GoodBal. *)
From Coq Require Import Reals ZArith List Bool Lia Lra.
From Verif Require Import Base Lib ModelCommon Model3 ModelN ModelGood ModelNC RealNum SpecN SpecNC SpecNP SpecGood Spec3R SpecC3 PolyN HullN BalN GoodBal PropsN PropsNC PropsC3 Spec3.
Import ListNotations.
Open Scope Z_scope.

(** ** C95: the graph of a convex polytope stays connected when any [D - 1] vertices are
    taken out, in every dimension; so the validity test accepts every convex polytope. *)
Theorem C95_convex_polytope_survives D (p : polyN RN) (S : list Z) u w : 1 <= D -> convexN D p -> Z.of_nat (length S) < D ->
  0 <= u < nvN RN p -> 0 <= w < nvN RN p -> ~ In u S -> ~ In w S -> walk (nb (vbN RN p)) D (fun x => In x S) u w.
Proof. exact (fun HD => convexN_survives D HD p S u w). Qed.
Print Assumptions C95_convex_polytope_survives.

Theorem C95_rNd_is_good_convex MX D fuel (p : polyN RN) : 2 <= D -> 0 <= nvN RN p -> convexN D p -> (D - 1) * nvN RN p + 1 <= MX ->
  (nvN RN p + 1) ^ (D - 1) <= Z.of_nat fuel -> rNd_is_good RN MX D fuel p = OK 1.
Proof. exact (fun HD => convex_is_goodN D ltac:(lia) MX fuel p HD). Qed.
Print Assumptions C95_rNd_is_good_convex.

(** whatever planes a convex polytope is cut with, the result passes the test *)
Theorem C95_rNd_clip_is_good MX D fuel fuel' (p p' : polyN RN) planes : 3 <= D -> (Z.to_nat (MX * D * D * D) <= fuel)%nat ->
  0 <= nvN RN p <= MX -> convexN D p -> rNd_clip RN MX D fuel p planes = OK p' ->
  (D - 1) * nvN RN p' + 1 <= MX -> (nvN RN p' + 1) ^ (D - 1) <= Z.of_nat fuel' -> rNd_is_good RN MX D fuel' p' = OK 1.
Proof. exact (clip_is_goodN MX D fuel fuel' p p' planes). Qed.
Print Assumptions C95_rNd_clip_is_good.

(** three dimensions: one component, and 3-connected *)
Theorem C95_convex_polyhedron_survives (p : pol3) (S : list Z) u w : convex3 p -> Z.of_nat (length S) < 3 ->
  0 <= u < nv p -> 0 <= w < nv p -> ~ In u S -> ~ In w S -> walk (nb (vb p)) 3 (fun x => In x S) u w.
Proof. exact (convex3_survives p S u w). Qed.
Print Assumptions C95_convex_polyhedron_survives.

(** ** The hypotheses are met *)
(** the hypercube without three of the neighbours of corner 0 *)
Example hypercube_ok : exists p', rNd_init_box RN 1024 4 blank (fun _ => 0%R) (fun _ => 1%R) = OK p' /\ convexN 4 p'
  /\ walk (nb (vbN RN p')) 4 (fun x => In x [1; 2; 4]) 0 15
  /\ forall planes q fuel fuel', (Z.to_nat (1024 * 4 * 4 * 4) <= fuel)%nat -> rNd_clip RN 1024 4 fuel p' planes = OK q -> 3 * nvN RN q + 1 <= 1024 ->
       (nvN RN q + 1) ^ 3 <= Z.of_nat fuel' -> rNd_is_good RN 1024 4 fuel' q = OK 1.
Proof.
  destruct (C62_rNd_init_box_convex 1024 4 blank (fun _ => 0%R) (fun _ => 1%R) ltac:(lia) ltac:(cbn; lia) ltac:(intros; lra)) as (p' & E & En & CV & _).
  change (2 ^ 4) with 16 in En. exists p'. split; auto. split; auto. split.
  - apply (C95_convex_polytope_survives 4 p'); auto; try (cbn; lia); rewrite En; lia.
  - intros planes q fuel fuel' Hf Ec HM Hf'. apply (C95_rNd_clip_is_good 1024 4 fuel fuel' p' q planes); auto; try lia; rewrite En; lia.
Qed.
