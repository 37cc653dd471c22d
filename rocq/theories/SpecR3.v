(** * SpecR3: closeness of points and planes, for the statements about rounded arithmetic. *)
From Coq Require Import Reals ZArith.
From Verif Require Import Base ModelCommon Model3 Spec3R Glue3.
Open Scope R_scope.

(** no coordinate exceeds [m] in absolute value *)
Definition within_abs (m : R) (x : rvec3 R) : Prop := Rabs (x3 x) <= m /\ Rabs (y3 x) <= m /\ Rabs (z3 x) <= m.
(** every coordinate differs by at most [e] *)
Definition near3 (e : R) (x y : rvec3 R) : Prop :=
  Rabs (x3 x - x3 y) <= e /\ Rabs (y3 x - y3 y) <= e /\ Rabs (z3 x - z3 y) <= e.
(** the sum of the absolute values of the components of the normal *)
Definition normal_size (pl : plane3 R) : R := Rabs (x3 (n3 pl)) + Rabs (y3 (n3 pl)) + Rabs (z3 (n3 pl)).
(** the largest value that the terms of the signed distance of a point bounded by [m] add up to *)
Definition plane_size (pl : plane3 R) (m : R) : R := Rabs (d3 pl) + normal_size pl * m.
(** [q] is the part of [p] on one side of [pl], up to rounding: [sg] is [1] or [-1] *)
Definition side_near (u : R) (pl : plane3 R) (m : R) (p q : poly (rvec3 R)) (sg : R) : Prop :=
  (forall v, (0 <= v < nv q)%Z -> within_abs (m + 5 * u * m) (ps (vb q) v)
     /\ (exists x, in_hull3 p x /\ near3 (5 * u * m) (ps (vb q) v) x)
     /\ - (5 * u * plane_size pl m + normal_size pl * (5 * u * m)) <= sg * sdist3 pl (ps (vb q) v))
  /\ (forall v, (0 <= v < nv p)%Z -> 5 * u * plane_size pl m < sg * sdist3 pl (ps (vb p) v) ->
        exists v', (0 <= v' < nv q)%Z /\ ps (vb q) v' = ps (vb p) v).

