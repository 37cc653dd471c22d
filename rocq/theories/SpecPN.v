(** * SpecPN: images of N-dimensional polytopes, independent of the routines. *)
From Coq Require Import Reals ZArith List Bool.
From Verif Require Import Lib ModelCommon ModelN ModelNC SpecNC SpecNP RealNum.
Open Scope R_scope.

(** [p'] is convex if [p] is, and its points are the images of the points of [p] *)
Definition imageN (D : Z) (g : (Z -> R) -> Z -> R) (p p' : polyN RN) : Prop :=
  (convexN D p -> convexN D p') /\ (solidN D p -> solidN D p')
  /\ forall y, hullP D p' y <-> exists x, hullP D p x /\ forall k, (0 <= k < D)%Z -> y k = g x k.
