(** * PropsM3: intersections of cells, and the conservation of moments over a mesh, by
    [r3d_init_tet], [r3d_init_box], [r3d_tet_faces_from_verts], [r3d_box_faces_from_verts],
    [r3d_clip] and [r3d_reduce] (src/r3d.c) (C87). *)
From Coq Require Import Reals ZArith List Bool Lia Lra.
From Verif Require Import Base Lib SumR ModelCommon Model3 SpecN SpecNJ SpecI Spec3 RealNum Reduce3 Mom3 Spec3R SpecC3 SpecF3 SpecL3 SpecM3 MeetC3.
Import ListNotations.
Open Scope Z_scope.

(** ** C87: one cell, clipped by the faces of the other: entry [idx3 i j k] of [r3d_reduce] is
    the integral of [x^i y^j z^k] over the points of both; no call fails *)
Theorem C87_r3d_cells_intersect sh po (mom : Z -> R) (p0 : pol3) s t : 0 <= po -> cell_ok s -> cell_ok t ->
  exists p p' mom', cell_init 512 p0 s = OK p /\ r3d_clip RN 512 p (cell_planes t) = OK (p', 1) /\ r3d_reduce RN 512 sh p' mom po = OK mom'
  /\ forall i j k, (i + j + k <= Z.to_nat po)%nat ->
     integral3 (fun x => cell_pts s x /\ cell_pts t x) (fun x => x3 x ^ i * y3 x ^ j * z3 x ^ k)%R (mom' (idx3 (Z.of_nat i) (Z.of_nat j) (Z.of_nat k))).
Proof. exact (cell_meet sh po mom p0 s t). Qed.
Print Assumptions C87_r3d_cells_intersect.

(** the roles of the two cells may be exchanged *)
Theorem C87_r3d_cells_symmetric sh po (mom1 mom2 : Z -> R) (p0 q0 : pol3) s t : 0 <= po -> cell_ok s -> cell_ok t ->
  exists p p' m q q' n, cell_init 512 p0 s = OK p /\ r3d_clip RN 512 p (cell_planes t) = OK (p', 1) /\ r3d_reduce RN 512 sh p' mom1 po = OK m
  /\ cell_init 512 q0 t = OK q /\ r3d_clip RN 512 q (cell_planes s) = OK (q', 1) /\ r3d_reduce RN 512 sh q' mom2 po = OK n
  /\ forall i j k, (i + j + k <= Z.to_nat po)%nat -> m (idx3 (Z.of_nat i) (Z.of_nat j) (Z.of_nat k)) = n (idx3 (Z.of_nat i) (Z.of_nat j) (Z.of_nat k)).
Proof. exact (cell_meet_sym sh po mom1 mom2 p0 q0 s t). Qed.
Print Assumptions C87_r3d_cells_symmetric.

(** a convex polyhedron clipped by each of the cells that tile it: every moment of the parts
    adds up to that of the whole *)
Theorem C87_r3d_clips_conserve MX sh po (p : pol3) m (cells : list (list (plane3 R))) : 0 <= po -> facets3 p m -> 0 < nv p <= MX ->
  (forall c, In c cells -> 3 * (m + Z.of_nat (length c)) <= MX + 7 /\ forall pl, In pl c -> proper pl) ->
  (forall x, hull3 p x -> exists c, In c cells /\ holds3 c x) -> ForallOrdPairs (fun c c' => content3 (fun x => hull3 p x /\ holds3 c x /\ holds3 c' x) 0%R) cells ->
  forall mom : Z -> R, exists total parts, r3d_reduce RN MX sh p mom po = OK total
  /\ Forall2 (fun c part => exists p', r3d_clip RN MX p c = OK (p', 1) /\ r3d_reduce RN MX sh p' mom po = OK part) cells parts
  /\ forall i j k, (i + j + k <= Z.to_nat po)%nat -> let e := idx3 (Z.of_nat i) (Z.of_nat j) (Z.of_nat k) in lsum parts (fun part => part e) = total e.
Proof. exact (clips_conserve MX sh po p m cells). Qed.
Print Assumptions C87_r3d_clips_conserve.

(** the same with a mesh of tetrahedra and boxes and the buffers of src/r3d.h *)
Theorem C87_r3d_mesh_conserves sh po (p : pol3) m (mesh : list body3) : 0 <= po -> facets3 p m -> 0 < nv p <= 512 -> m <= 167 ->
  (forall s, In s mesh -> cell_ok s) -> (forall x, hull3 p x -> exists s, In s mesh /\ cell_pts s x) ->
  ForallOrdPairs (fun s t => content3 (fun x => cell_pts s x /\ cell_pts t x) 0%R) mesh ->
  forall mom : Z -> R, exists total parts, r3d_reduce RN 512 sh p mom po = OK total
  /\ Forall2 (fun s part => exists p', r3d_clip RN 512 p (cell_planes s) = OK (p', 1) /\ r3d_reduce RN 512 sh p' mom po = OK part) mesh parts
  /\ forall i j k, (i + j + k <= Z.to_nat po)%nat -> let e := idx3 (Z.of_nat i) (Z.of_nat j) (Z.of_nat k) in lsum parts (fun part => part e) = total e.
Proof. exact (mesh_conserves sh po p m mesh). Qed.
Print Assumptions C87_r3d_mesh_conserves.

(** cells on the two sides of a plane meet in no volume, as the mesh needs *)
Theorem C87_sides_meet_in_no_volume s t g : cell_ok s -> proper g -> (forall x, cell_pts s x -> (0 <= sdist3 g x)%R) -> (forall x, cell_pts t x -> (sdist3 g x <= 0)%R) ->
  content3 (fun x => cell_pts s x /\ cell_pts t x) 0%R.
Proof. exact (sides_null s t g). Qed.
Print Assumptions C87_sides_meet_in_no_volume.

(** a tetrahedron cut in two is a mesh for the whole; the unit cube is a cell as well *)
Example halves_mesh_ok : cell_ok whole /\ (forall s, In s [half1; half2] -> cell_ok s) /\ (forall x, cell_pts whole x -> exists s, In s [half1; half2] /\ cell_pts s x)
  /\ ForallOrdPairs (fun s t => content3 (fun x => cell_pts s x /\ cell_pts t x) 0%R) [half1; half2] /\ cell_ok (Box (V3 0 0 0)%R (V3 1 1 1)%R).
Proof. exact halves_mesh. Qed.
(** [cell_init] makes the polyhedron that the mesh theorem asks for *)
Example cell_init_facets p0 s : cell_ok s -> exists p, cell_init 512 p0 s = OK p /\ facets3 p 6 /\ 0 < nv p <= 512 /\ forall x, hull3 p x <-> cell_pts s x.
Proof. exact (cell_init_ok 512 p0 s ltac:(lia)). Qed.
