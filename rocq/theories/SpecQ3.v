(** * SpecQ3: boundary descriptions of convex polyhedra, independent of the routines. *)
From Coq Require Import Reals ZArith List Bool.
From Verif Require Import ModelCommon Model3 SpecB SpecL3.
Import ListNotations.
Open Scope R_scope.

Section D.
Context (nf : Z) (nvf : Z -> Z) (fi : Z -> Z -> Z).
(** vertex [w] is on face [f] *)
Definition on_face (f w : Z) : Prop := exists c, corner nf nvf c /\ fst c = f /\ vat fi c = w.
(** six times the signed volume between the corner [c] and [x]: positive on the side from
    which the corners of the face run clockwise *)
Definition side_c (vs : Z -> rvec3 R) (c : Z * Z) (x : rvec3 R) : R :=
  svol6 (vs (vat fi (csucc nvf c))) (vs (vat fi c)) (vs (vat fi (cpred nvf c))) x.
(** Strictly convex, the faces counter-clockwise from outside: every vertex that is not on
    a face is strictly inside the plane of each corner of the face, every vertex on the face
    is on that plane. *)
Definition convex_desc (n : Z) (vs : Z -> rvec3 R) : Prop := forall c w, corner nf nvf c -> (0 <= w < n)%Z ->
  (on_face (fst c) w -> side_c vs c (vs w) = 0) /\ (~ on_face (fst c) w -> 0 < side_c vs c (vs w)).
(** the points inside all faces *)
Definition desc_pts (vs : Z -> rvec3 R) (x : rvec3 R) : Prop := forall c, corner nf nvf c -> 0 <= side_c vs c x.
End D.
(** a strictly convex polyhedron, three faces at every vertex *)
Definition simple_convex (nf : Z) (nvf : Z -> Z) (fi : Z -> Z -> Z) (n : Z) (vs : Z -> rvec3 R) : Prop :=
  closed_surface nf nvf fi n /\ share_one nf nvf fi /\ faces_meet nf nvf fi /\ (forall v, (0 <= v < n)%Z -> vdeg nf nvf fi v = 3%Z) /\ convex_desc nf nvf fi n vs.
