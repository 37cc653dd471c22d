(** * SpecM2: the convex hull of a list of points of the plane. *)
From Coq Require Import Reals List.
From Verif Require Import Lib ModelCommon Model2 RealNum Spec2 Spec2R SpecC2.
Import ListNotations.
Open Scope R_scope.

(** every half-plane that holds the points of the list holds [x] *)
Definition poly_pts (l : list (rvec2 R)) (x : rvec2 R) : Prop := forall g, (forall q, In q l -> 0 <= sdist g q) -> 0 <= sdist g x.
(** the corners of a convex polygon in counterclockwise order *)
Definition corners_ok (l : list (rvec2 R)) : Prop := (3 <= length l)%nat /\ strict_ccw l.
