(** * SpecC3: convex polyhedra in the buffers of [src/r3d.c] as sets of points, over the
    reals; independent of the routines. *)
From Coq Require Import Reals ZArith List Bool.
From Verif Require Import Lib ModelCommon Model3 ModelV SpecN SpecNC SpecNJ Spec3 Spec3R.
Import ListNotations.
Open Scope Z_scope.

(** Facet numbers below [nh] for the faces: constant along each face, and the three faces
    at a vertex have different numbers. *)
Record labels (f : Z -> Z -> Z) (n nh : Z) (lab : dart -> Z) : Prop := {
  la_rng : forall d, isd (below n) d -> 0 <= lab d < nh;
  la_face : forall d, isd (below n) d -> lab (fnext f d) = lab d;
  la_inj : forall v i j, 0 <= v < n -> 0 <= i < 3 -> 0 <= j < 3 -> lab (v, i) = lab (v, j) -> i = j }.
(** The face of [(v, i)] holds the slots [i] and [i - 1] of [v].  The facet that does not
    hold slot [i]: *)
Definition facet (lab : dart -> Z) (v i : Z) : Z := lab (v, (i + 2) mod 3).

Open Scope R_scope.
Definition det3 (a b c : Z -> R) : R :=
  a 0%Z * (b 1%Z * c 2%Z - b 2%Z * c 1%Z) - a 1%Z * (b 0%Z * c 2%Z - b 2%Z * c 0%Z) + a 2%Z * (b 0%Z * c 1%Z - b 1%Z * c 0%Z).
(** Convex position with the facets [l0 g + l g . x >= 0]; the slots of every vertex run
    around it in the same sense. *)
Definition turned (n : Z) (h : Z -> Z -> Z) (l : Z -> Z -> R) : Prop :=
  forall v, (0 <= v < n)%Z -> det3 (l (h v 0%Z)) (l (h v 1%Z)) (l (h v 2%Z)) < 0.

Definition co3 (q : rvec3 R) (k : Z) : R := if (k =? 0)%Z then x3 q else if (k =? 1)%Z then y3 q else z3 q.
Definition at3 (p : pol3) (v k : Z) : R := co3 (ps (vb p) v) k.
(** a convex polyhedron, some of whose edges may have shrunk to length zero *)
Definition convex3 (p : pol3) : Prop :=
  wf3 p /\ exists nh lab, labels (nb (vb p)) (nv p) nh lab
    /\ forall e, 0 < e -> exists q l0 l, realized 3 (nv p) nh (facet lab) q l0 l /\ turned (nv p) (facet lab) l
         /\ forall v k, (0 <= v < nv p)%Z -> (0 <= k < 3)%Z -> Rabs (q v k - at3 p v k) < e.
(** the same with edges of positive length and the exact facets *)
Definition solid3 (p : pol3) : Prop :=
  wf3 p /\ exists nh lab l0 l, labels (nb (vb p)) (nv p) nh lab
    /\ realized 3 (nv p) nh (facet lab) (at3 p) l0 l /\ turned (nv p) (facet lab) l.

(** the convex hull of the vertices: every half-space that holds them all holds [x] *)
Definition hull3 (p : pol3) (x : rvec3 R) : Prop :=
  forall pl, (forall v, (0 <= v < nv p)%Z -> 0 <= sdist3 pl (ps (vb p) v)) -> 0 <= sdist3 pl x.
(** on the inner side of every plane *)
Definition holds3 (planes : list (plane3 R)) (x : rvec3 R) : Prop := forall pl, In pl planes -> 0 <= sdist3 pl x.

(** the volume of a set of points *)
Definition content3 (K : rvec3 R -> Prop) (t : R) : Prop := content 3 (fun x => K (V3 (x 0%Z) (x 1%Z) (x 2%Z))) t.
(** the closed grid cell with the indices [a], [b], [c] *)
Definition in_cell3 (d : rvec3 R) (a b c : Z) (x : rvec3 R) : Prop :=
  x3 d * IZR a <= x3 x <= x3 d * IZR (a + 1) /\ y3 d * IZR b <= y3 x <= y3 d * IZR (b + 1) /\ z3 d * IZR c <= z3 x <= z3 d * IZR (c + 1).
(** the closed region of a box of cells *)
Definition in_cells3 (d : rvec3 R) (B : box) (x : rvec3 R) : Prop :=
  x3 d * IZR (fst B 0%Z) <= x3 x <= x3 d * IZR (snd B 0%Z) /\ y3 d * IZR (fst B 1%Z) <= y3 x <= y3 d * IZR (snd B 1%Z)
  /\ z3 d * IZR (fst B 2%Z) <= z3 x <= z3 d * IZR (snd B 2%Z).
(** [o] is the part of [p] on the inner side of [pl], or is empty and the hull of [p] has
    nothing strictly on that side *)
Definition side_of (p : pol3) (pl : plane3 R) (o : pol3) : Prop :=
  convex3 o /\ ((forall x, hull3 o x <-> hull3 p x /\ 0 <= sdist3 pl x) \/ (nv o = 0%Z /\ forall x, hull3 p x -> sdist3 pl x <= 0)).
