(** * PropsRM3: [r3d_reduce] (src/r3d.c) in rounded arithmetic (C84).  [FN rnd] rounds after every
    operation; [accurate u rnd] bounds the relative error of one rounding by [u];
    C79_binary64_rounding shows that rounding with 53 bits is such an arithmetic. *)
From Coq Require Import Reals ZArith List Bool Lia Lra.
From Verif Require Import Base Lib SumR ModelCommon Model3 Spec3 RealNum Spec3R Reduce3 RndNum SpecR3 RndC3 RndE3 RndM3.
Import ListNotations.
Open Scope R_scope.

(** ** C84: every moment of [r3d_reduce] has a small error *)
Theorem C84_r3d_reduce_rounded u rnd MX (p : poly (rvec3 R)) mom po m : accurate u rnd -> 0 <= u <= 1 / 10 -> 0 <= m -> (0 <= po)%Z -> wf3 p -> (nv p <= MX)%Z ->
  (forall v, (0 <= v < nv p)%Z -> within_abs m (ps (vb p) v)) ->
  exists mom', r3d_reduce (FN rnd) MX false p mom po = OK mom'
  /\ (forall i j k, (i + j + k <= Z.to_nat po)%nat -> let L := INR (12 * (i + j + k) + 3 * Z.to_nat (nv p) + 22) in 2 * u * L <= 1 ->
       Rabs (mom' (idx3 (Z.of_nat i) (Z.of_nat j) (Z.of_nat k)) - moment3 p i j k)
         <= 2 * u * L * (3 * IZR (nv p) * (3 / INR (i + j + k + 3) * m ^ (i + j + k + 3))))
  /\ (forall k, ~ (0 <= k < num_moments3 po)%Z -> mom' k = mom k).
Proof. exact (reduce3_linear u rnd MX p mom po m). Qed.
Print Assumptions C84_r3d_reduce_rounded.

(** with 53 bits the condition holds for full buffers and high order; C79_cube_rounded is a
    polyhedron that meets the others *)
Example C84_condition : 2 * u53 * INR (12 * 20 + 3 * 512 + 22) <= 1.
Proof.
  assert (U : 0 <= u53 <= 1 / 10000). { unfold u53. cbn. lra. }
  rewrite INR_IZR_INZ. change (Z.of_nat (12 * 20 + 3 * 512 + 22)) with 1798%Z. lra.
Qed.
