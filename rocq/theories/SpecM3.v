(** * SpecM3: the two kinds of cell that [src/r3d.c] builds from corners, as sets of points,
    with the calls that build them and the calls that list their faces. *)
From Coq Require Import Reals ZArith List Bool.
From Verif Require Import Base Lib ModelCommon Model3 RealNum Spec3 Spec3R SpecL3 SpecF3.
Import ListNotations.
Open Scope R_scope.

Inductive body3 : Type :=
| Tet (a b c d : rvec3 R)
| Box (lo hi : rvec3 R).
(** the points of a cell: for a tetrahedron, the weighted means of its corners *)
Definition cell_pts (s : body3) (x : rvec3 R) : Prop :=
  match s with
  | Tet a b c d => exists w0 w1 w2 w3, 0 <= w0 /\ 0 <= w1 /\ 0 <= w2 /\ 0 <= w3 /\ w0 + w1 + w2 + w3 = 1
      /\ x = V3 (w0 * x3 a + w1 * x3 b + w2 * x3 c + w3 * x3 d) (w0 * y3 a + w1 * y3 b + w2 * y3 c + w3 * y3 d) (w0 * z3 a + w1 * z3 b + w2 * z3 c + w3 * z3 d)
  | Box lo hi => box_pts lo hi x
  end.
(** a tetrahedron of positive volume in the orientation of [r3d_init_tet]; a box, possibly flat *)
Definition cell_ok (s : body3) : Prop :=
  match s with
  | Tet a b c d => 0 < svol6 a b c d
  | Box lo hi => x3 lo <= x3 hi /\ y3 lo <= y3 hi /\ z3 lo <= z3 hi
  end.
(** r3d.c:645-668 [r3d_init_tet], r3d.c:670-724 [r3d_init_box] *)
Definition cell_init (MX : Z) (p : pol3) (s : body3) : res pol3 :=
  match s with Tet a b c d => r3d_init_tet RN MX p a b c d | Box lo hi => r3d_init_box RN MX p lo hi end.
(** r3d.c:909-958 [r3d_tet_faces_from_verts], r3d.c:960-985 [r3d_box_faces_from_verts] *)
Definition cell_planes (s : body3) : list (plane3 R) :=
  match s with Tet a b c d => r3d_tet_faces_from_verts RN a b c d | Box lo hi => r3d_box_faces_from_verts RN lo hi end.
