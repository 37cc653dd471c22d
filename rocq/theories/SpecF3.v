(** * SpecF3: convex polyhedra in the buffers of [src/r3d.c] with a bound on the number of
    their facets; independent of the routines. *)
From Coq Require Import Reals ZArith List Bool.
From Verif Require Import Lib ModelCommon Model3 SpecN SpecNC Spec3 Spec3R SpecC3.
Open Scope R_scope.

(** [convex3] with at most [m] facets *)
Definition facets3 (p : pol3) (m : Z) : Prop :=
  wf3 p /\ exists nh lab, (0 <= nh <= m)%Z /\ labels (nb (vb p)) (nv p) nh lab
    /\ forall e, 0 < e -> exists q l0 l, realized 3 (nv p) nh (facet lab) q l0 l /\ turned (nv p) (facet lab) l
         /\ forall v k, (0 <= v < nv p)%Z -> (0 <= k < 3)%Z -> Rabs (q v k - at3 p v k) < e.
(** the points of an axis-aligned box *)
Definition box_pts (lo hi x : rvec3 R) : Prop := x3 lo <= x3 x <= x3 hi /\ y3 lo <= y3 x <= y3 hi /\ z3 lo <= z3 x <= z3 hi.
