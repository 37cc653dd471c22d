(** * Spec2R: exact-arithmetic vocabulary for the 2D theorems.

    The moment of a polygon is defined from Riemann integrals over the signed
    triangles spanned by the origin and the directed edges; no part of the code
    enters this definition. *)
From Coq Require Import Reals ZArith List Bool.
From Verif Require Import ModelCommon Model2 HPoly HInt SumR Lib.
Open Scope R_scope.

Definition pt2 (q : rvec2 R) : pt := P3 (vx q) (vy q) 0.

(** integral of x^i y^j over the signed triangle (0, a, b) *)
Definition edge2 (i j : nat) (a b : rvec2 R) : R := tri_int (pt2 a) (pt2 b) i j.

(** integral of x^i y^j over the region enclosed by the directed edges *)
Definition moment2 (p : poly (rvec2 R)) (i j : nat) : R :=
  lsum (zrange (nv p)) (fun v => edge2 i j (ps (vb p) v) (ps (vb p) (nb (vb p) v 0%Z))).

(** signed distance (times the length of the normal) *)
Definition sdist (pl : plane2 R) (q : rvec2 R) : R :=
  pd pl + (vx (pn pl) * vx q + vy (pn pl) * vy q).
Definition flip (pl : plane2 R) : plane2 R := PL2 (V2 (- vx (pn pl)) (- vy (pn pl))) (- pd pl).
