(** * SpecR2: closeness of points and lines in the plane, for the statements about rounded arithmetic. *)
From Coq Require Import Reals ZArith.
From Verif Require Import Base ModelCommon Model2 Spec2R SpecC2.
Open Scope R_scope.

(** no coordinate exceeds [m] in absolute value *)
Definition within_abs2 (m : R) (x : rvec2 R) : Prop := Rabs (vx x) <= m /\ Rabs (vy x) <= m.
(** every coordinate differs by at most [e] *)
Definition near2 (e : R) (x y : rvec2 R) : Prop := Rabs (vx x - vx y) <= e /\ Rabs (vy x - vy y) <= e.
(** the sum of the absolute values of the components of the normal *)
Definition normal_size2 (pl : plane2 R) : R := Rabs (vx (pn pl)) + Rabs (vy (pn pl)).
(** the largest value that the terms of the signed distance of a point bounded by [m] add up to *)
Definition plane_size2 (pl : plane2 R) (m : R) : R := Rabs (pd pl) + normal_size2 pl * m.
(** the larger of the components of the normal *)
Definition steep2 (pl : plane2 R) : R := Rmax (Rabs (vx (pn pl))) (Rabs (vy (pn pl))).
(** [q] is the part of [p] on one side of [pl], up to rounding: [sg] is [1] or [-1] *)
Definition side_near2 (u : R) (pl : plane2 R) (m : R) (p q : poly (rvec2 R)) (sg : R) : Prop :=
  (forall v, (0 <= v < nv q)%Z -> within_abs2 (m + 5 * u * m) (ps (vb q) v)
     /\ (exists x, hull2 p x /\ near2 (5 * u * m) (ps (vb q) v) x)
     /\ - (7 * u * plane_size2 pl m + normal_size2 pl * (5 * u * m)) <= sg * sdist pl (ps (vb q) v))
  /\ (forall v, (0 <= v < nv p)%Z -> 7 * u * plane_size2 pl m < sg * sdist pl (ps (vb p) v) ->
        exists v', (0 <= v' < nv q)%Z /\ ps (vb q) v' = ps (vb p) v).
