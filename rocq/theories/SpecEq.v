(** * SpecEq: when two runs agree, and which planes belong together under a map. *)
From Coq Require Import Reals ZArith List Bool.
From Verif Require Import Base ModelCommon Model2 Model3 ModelN RealNum Spec2R Spec3R SpecN SpecNP SpecP3.
Open Scope Z_scope.

(** the same error, or results in relation [R] *)
Definition agree {A} (R : A -> A -> Prop) (x y : res A) : Prop :=
  match x, y with OK a, OK b => R a b | Err e, Err e' => e = e' | _, _ => False end.
(** the same vertices, in the same order, with the same neighbours in the same slots *)
Definition same_verts {V} (D : Z) (p p' : poly V) : Prop :=
  nv p' = nv p /\ forall v, 0 <= v < nv p -> ps (vb p') v = ps (vb p) v /\ forall i, 0 <= i < D -> nb (vb p') v i = nb (vb p) v i.
(** and the same returned status *)
Definition same_verts_st (a b : poly (rvec3 R) * Z) : Prop := same_verts 3 (fst a) (fst b) /\ snd b = snd a.

(** [pl'] is [pl] carried along by the map [f], up to a positive factor *)
Definition carried3 (f : rvec3 R -> rvec3 R) (pl pl' : plane3 R) : Prop :=
  exists k, (0 < k)%R /\ forall x, sdist3 pl' (f x) = (k * sdist3 pl x)%R.
Definition carried2 (f : rvec2 R -> rvec2 R) (pl pl' : plane2 R) : Prop :=
  exists k, (0 < k)%R /\ forall x, sdist pl' (f x) = (k * sdist pl x)%R.
(** for the projective map of a matrix: in front of the plane that it sends to infinity *)
Definition carried4 (m : Z -> Z -> R) (pl pl' : plane3 R) : Prop :=
  exists k, (0 < k)%R /\ forall x, (0 < row4 m 3 x)%R -> (sdist3 pl' (proj4 m x) * row4 m 3 x = k * sdist3 pl x)%R.
Definition carried33 (m : Z -> Z -> R) (pl pl' : plane2 R) : Prop :=
  exists k, (0 < k)%R /\ forall x, (0 < row3 m 2 x)%R -> (sdist pl' (proj3 m x) * row3 m 2 x = k * sdist pl x)%R.

(** a factor that a rounding does not notice, such as a power of two, or -1 *)
Definition exact_factor (rnd : R -> R) (s : R) : Prop := s <> 0%R /\ forall x, rnd (s * x)%R = (s * rnd x)%R.
(** coordinates that are numbers of the format *)
Definition in_format3 (rnd : R -> R) (q : rvec3 R) : Prop := rnd (x3 q) = x3 q /\ rnd (y3 q) = y3 q /\ rnd (z3 q) = z3 q.
Definition in_format2 (rnd : R -> R) (q : rvec2 R) : Prop := rnd (vx q) = vx q /\ rnd (vy q) = vy q.
(** coordinates multiplied by factors, one for each axis; the same links *)
Definition scaled3 (sx sy sz : R) (q : rvec3 R) : rvec3 R := V3 (sx * x3 q)%R (sy * y3 q)%R (sz * z3 q)%R.
Definition scaled_verts3 (sx sy sz : R) (p p' : poly (rvec3 R)) : Prop :=
  nv p' = nv p /\ nb (vb p') = nb (vb p) /\ forall v, 0 <= v < nv p -> ps (vb p') v = scaled3 sx sy sz (ps (vb p) v).
(** the plane that belongs to the scaled points, times [c] *)
Definition scaled_plane3 (sx sy sz c : R) (pl pl' : plane3 R) : Prop :=
  (x3 (n3 pl') * sx = c * x3 (n3 pl) /\ y3 (n3 pl') * sy = c * y3 (n3 pl) /\ z3 (n3 pl') * sz = c * z3 (n3 pl) /\ d3 pl' = c * d3 pl)%R.
(** the same in the plane *)
Definition scaled2 (sx sy : R) (q : rvec2 R) : rvec2 R := V2 (sx * vx q)%R (sy * vy q)%R.
Definition scaled_verts2 (sx sy : R) (p p' : poly (rvec2 R)) : Prop :=
  nv p' = nv p /\ nb (vb p') = nb (vb p) /\ forall v, 0 <= v < nv p -> ps (vb p') v = scaled2 sx sy (ps (vb p) v).
Definition scaled_plane2 (sx sy c : R) (pl pl' : plane2 R) : Prop :=
  (vx (pn pl') * sx = c * vx (pn pl) /\ vy (pn pl') * sy = c * vy (pn pl) /\ pd pl' = c * pd pl)%R.
