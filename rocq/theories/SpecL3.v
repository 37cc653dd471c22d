(** * SpecL3: how far the faces of a polyhedron are from flat. *)
From Coq Require Import Reals ZArith.
From Verif Require Import Base ModelCommon Model3 Spec3 Spec3R.
Open Scope R_scope.

(** six times the signed volume of the tetrahedron [a b c d] *)
Definition svol6 (a b c d : rvec3 R) : R :=
  let x1 := x3 b - x3 a in let y1 := y3 b - y3 a in let z1 := z3 b - z3 a in
  let x2 := x3 c - x3 a in let y2 := y3 c - y3 a in let z2 := z3 c - z3 a in
  let x3 := x3 d - x3 a in let y3 := y3 d - y3 a in let z3 := z3 d - z3 a in
  x1 * (y2 * z3 - y3 * z2) - x2 * (y1 * z3 - y3 * z1) + x3 * (y1 * z2 - y2 * z1).
(** any four vertices of one face span a tetrahedron of at most [e / 6] *)
Definition flat_faces (e : R) (p : pol3) : Prop := let f := nb (vb p) in let q := fun x : dart => ps (vb p) (fst x) in
  forall d d1 d2 d3 d4, isd (below (nv p)) d -> same_face f d d1 -> same_face f d d2 -> same_face f d d3 -> same_face f d d4 ->
  Rabs (svol6 (q d1) (q d2) (q d3) (q d4)) <= e.
