(** * Spec3R: exact-arithmetic vocabulary for the 3D theorems.

    The moment of a polyhedron is defined from Riemann integrals over signed
    tetrahedra spanned by the origin and the triangles of a fan of each face;
    no part of the code enters this definition. *)
From Coq Require Import Reals ZArith List Bool.
From Verif Require Import ModelCommon Model3 HPoly HInt SumR Lib CommonFacts Spec3 FaceSpec3.
Open Scope R_scope.

Notation pol3 := (poly (rvec3 R)).
Notation buf3 := (vbuf (rvec3 R)).

Definition pt3 (q : rvec3 R) : pt := P3 (x3 q) (y3 q) (z3 q).

(** integral of x^i y^j z^k over the signed tetrahedron (0, a, b, c) *)
Definition tet3 (i j k : nat) (a b c : rvec3 R) : R := tet_int (pt3 a) (pt3 b) (pt3 c) i j k.

(** integral of x^i y^j z^k over the region enclosed by the faces: each dart spans
    a triangle with the first vertex of its face *)
Definition moment3 (p : pol3) (i j k : nat) : R :=
  let f := nb (vb p) in
  lsum (darts 3 (nv p)) (fun d =>
    tet3 i j k (ps (vb p) (fst (lead f (nv p) d))) (ps (vb p) (dtgt f d)) (ps (vb p) (fst d))).

(** signed distance (times the length of the normal) *)
Definition sdist3 (pl : plane3 R) (q : rvec3 R) : R :=
  d3 pl + (x3 (n3 pl) * x3 q + y3 (n3 pl) * y3 q + z3 (n3 pl) * z3 q).
Definition flip3 (pl : plane3 R) : plane3 R := PL3 (V3 (- x3 (n3 pl)) (- y3 (n3 pl)) (- z3 (n3 pl))) (- d3 pl).
Definition proper (pl : plane3 R) : Prop := x3 (n3 pl) <> 0 \/ y3 (n3 pl) <> 0 \/ z3 (n3 pl) <> 0.

(** every face lies in a plane *)
Definition planar_faces (p : pol3) : Prop :=
  forall d, isd (below (nv p)) d -> exists g, proper g
    /\ forall e, same_face (nb (vb p)) d e -> sdist3 g (ps (vb p) (fst e)) = 0.
