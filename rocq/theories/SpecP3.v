(** * SpecP3: images of convex polyhedra and polygons under affine and projective maps;
    independent of the routines. *)
From Coq Require Import Reals ZArith List Bool.
From Verif Require Import ModelCommon Model2 Model3 Spec3R SpecC2 SpecC3 SpecF3.
Open Scope R_scope.

(** row [r] of the matrix times the homogeneous coordinates of [q] *)
Definition row4 (m : Z -> Z -> R) (r : Z) (q : rvec3 R) : R := m r 0%Z * x3 q + m r 1%Z * y3 q + m r 2%Z * z3 q + m r 3%Z.
(** the projective map of a 4 by 4 matrix *)
Definition proj4 (m : Z -> Z -> R) (q : rvec3 R) : rvec3 R := V3 (row4 m 0 q / row4 m 3 q) (row4 m 1 q / row4 m 3 q) (row4 m 2 q / row4 m 3 q).
(** its determinant, from the 2 by 2 minors of the upper and lower rows *)
Definition det4 (m : Z -> Z -> R) : R :=
  let u a b := m 0%Z a * m 1%Z b - m 0%Z b * m 1%Z a in let v a b := m 2%Z a * m 3%Z b - m 2%Z b * m 3%Z a in
  u 0%Z 1%Z * v 2%Z 3%Z - u 0%Z 2%Z * v 1%Z 3%Z + u 0%Z 3%Z * v 1%Z 2%Z + u 1%Z 2%Z * v 0%Z 3%Z - u 1%Z 3%Z * v 0%Z 2%Z + u 2%Z 3%Z * v 0%Z 1%Z.
(** [p'] is convex, with no more facets than [p], and its points are the images of the points of [p] *)
Definition image3 (g : rvec3 R -> rvec3 R) (p p' : pol3) : Prop :=
  convex3 p' /\ (forall m, facets3 p m -> facets3 p' m) /\ (solid3 p -> solid3 p')
  /\ forall y, hull3 p' y <-> exists x, hull3 p x /\ y = g x.

(** the same in two dimensions *)
Definition row3 (m : Z -> Z -> R) (r : Z) (q : rvec2 R) : R := m r 0%Z * vx q + m r 1%Z * vy q + m r 2%Z.
Definition proj3 (m : Z -> Z -> R) (q : rvec2 R) : rvec2 R := V2 (row3 m 0 q / row3 m 2 q) (row3 m 1 q / row3 m 2 q).
Definition det33 (m : Z -> Z -> R) : R :=
  m 0%Z 0%Z * (m 1%Z 1%Z * m 2%Z 2%Z - m 1%Z 2%Z * m 2%Z 1%Z)
  - m 0%Z 1%Z * (m 1%Z 0%Z * m 2%Z 2%Z - m 1%Z 2%Z * m 2%Z 0%Z)
  + m 0%Z 2%Z * (m 1%Z 0%Z * m 2%Z 1%Z - m 1%Z 1%Z * m 2%Z 0%Z).
Definition image2 (g : rvec2 R -> rvec2 R) (p p' : poly (rvec2 R)) : Prop :=
  convex_ccw p' /\ forall y, hull2 p' y <-> exists x, hull2 p x /\ y = g x.
