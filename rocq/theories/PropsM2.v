(** * PropsM2: intersections of convex polygons, and the conservation of moments over a mesh,
    by [r2d_init_poly], [r2d_poly_faces_from_verts], [r2d_clip] and [r2d_reduce] (src/r2d.c)
    (C88). *)
From Coq Require Import Reals ZArith List Bool Lia Lra.
From Verif Require Import Base Lib SumR ModelCommon Model2 RealNum Spec2 Spec2R SpecNJ SpecC2 SpecI SpecM2 Reduce2 Cons2 MeetC2.
Import ListNotations.
Open Scope Z_scope.

(** ** C88: the half-planes of the edges hold exactly the points of the polygon *)
Theorem C88_r2d_poly_faces_hold (l : list (rvec2 R)) : corners_ok l -> forall x, holds2 (r2d_poly_faces_from_verts RN l) x <-> poly_pts l x.
Proof. exact (poly_faces_holds l). Qed.
Print Assumptions C88_r2d_poly_faces_hold.

(** one polygon, clipped by the edges of the other: entry [idx2 i j] of [r2d_reduce] is the
    integral of [x^i y^j] over the points of both; no call fails *)
Theorem C88_r2d_polygons_intersect sh po (mom : Z -> R) (p0 : pol2) l l' : 0 <= po -> corners_ok l -> corners_ok l' -> (length l + length l' <= 255)%nat ->
  exists p p' mom', r2d_init_poly RN 256 p0 l = OK p /\ r2d_clip RN 256 p (r2d_poly_faces_from_verts RN l') = OK p' /\ r2d_reduce RN 256 sh p' mom po = OK mom'
  /\ forall i j, (i + j <= Z.to_nat po)%nat ->
     integral2 (fun x => poly_pts l x /\ poly_pts l' x) (fun x => vx x ^ i * vy x ^ j)%R (mom' (idx2 (Z.of_nat i) (Z.of_nat j))).
Proof. exact (poly_meet sh po mom p0 l l'). Qed.
Print Assumptions C88_r2d_polygons_intersect.

(** the roles of the two polygons may be exchanged *)
Theorem C88_r2d_polygons_symmetric sh po (mom1 mom2 : Z -> R) (p0 q0 : pol2) l l' : 0 <= po -> corners_ok l -> corners_ok l' -> (length l + length l' <= 255)%nat ->
  exists p p' m q q' n, r2d_init_poly RN 256 p0 l = OK p /\ r2d_clip RN 256 p (r2d_poly_faces_from_verts RN l') = OK p' /\ r2d_reduce RN 256 sh p' mom1 po = OK m
  /\ r2d_init_poly RN 256 q0 l' = OK q /\ r2d_clip RN 256 q (r2d_poly_faces_from_verts RN l) = OK q' /\ r2d_reduce RN 256 sh q' mom2 po = OK n
  /\ forall i j, (i + j <= Z.to_nat po)%nat -> m (idx2 (Z.of_nat i) (Z.of_nat j)) = n (idx2 (Z.of_nat i) (Z.of_nat j)).
Proof. exact (poly_meet_sym sh po mom1 mom2 p0 q0 l l'). Qed.
Print Assumptions C88_r2d_polygons_symmetric.

(** a convex polygon clipped by each of the cells that tile it: every moment of the parts adds
    up to that of the whole *)
Theorem C88_r2d_clips_conserve MX sh po (p : pol2) (cells : list (list (plane2 R))) : 0 <= po -> convex_ccw p ->
  (forall c, In c cells -> nv p + Z.of_nat (length c) + 1 <= MX /\ forall pl, In pl c -> proper2 pl) -> nv p <= MX ->
  (forall x, hull2 p x -> exists c, In c cells /\ holds2 c x) -> ForallOrdPairs (fun c c' => content2 (fun x => hull2 p x /\ holds2 c x /\ holds2 c' x) 0%R) cells ->
  forall mom : Z -> R, exists total parts, r2d_reduce RN MX sh p mom po = OK total
  /\ Forall2 (fun c part => exists p', r2d_clip RN MX p c = OK p' /\ r2d_reduce RN MX sh p' mom po = OK part) cells parts
  /\ forall i j, (i + j <= Z.to_nat po)%nat -> let e := idx2 (Z.of_nat i) (Z.of_nat j) in lsum parts (fun part => part e) = total e.
Proof. exact (clips_conserve2 MX sh po p cells). Qed.
Print Assumptions C88_r2d_clips_conserve.

(** the same with a mesh of convex polygons and the buffers of src/r2d.h *)
Theorem C88_r2d_mesh_conserves sh po (p : pol2) (mesh : list (list (rvec2 R))) : 0 <= po -> convex_ccw p -> nv p <= 256 ->
  (forall l, In l mesh -> corners_ok l /\ nv p + Z.of_nat (length l) <= 255) -> (forall x, hull2 p x -> exists l, In l mesh /\ poly_pts l x) ->
  ForallOrdPairs (fun l l' => content2 (fun x => poly_pts l x /\ poly_pts l' x) 0%R) mesh ->
  forall mom : Z -> R, exists total parts, r2d_reduce RN 256 sh p mom po = OK total
  /\ Forall2 (fun l part => exists p', r2d_clip RN 256 p (r2d_poly_faces_from_verts RN l) = OK p' /\ r2d_reduce RN 256 sh p' mom po = OK part) mesh parts
  /\ forall i j, (i + j <= Z.to_nat po)%nat -> let e := idx2 (Z.of_nat i) (Z.of_nat j) in lsum parts (fun part => part e) = total e.
Proof. exact (mesh_conserves2 sh po p mesh). Qed.
Print Assumptions C88_r2d_mesh_conserves.

(** polygons on the two sides of a line meet in no area, as the mesh needs *)
Theorem C88_sides_meet_in_no_area l l' g : proper2 g -> (forall x, In x l -> (0 <= sdist g x)%R) -> (forall x, In x l' -> (sdist g x <= 0)%R) ->
  content2 (fun x => poly_pts l x /\ poly_pts l' x) 0%R.
Proof. exact (sides_null2 l l' g). Qed.
Print Assumptions C88_sides_meet_in_no_area.

(** With the faces of [r2d_box_faces_from_verts] (src/r2d.c:519-524, see C20) instead, the
    intersection is wrong: the square of side 3 clipped by the faces of the square from 1 to 2
    has area 4, and the squares have a common area of 1. *)
Theorem C88_r2d_box_faces_intersect_refuted sh po (mom : Z -> R) p0 : 0 <= po ->
  exists p p' mom', r2d_init_box RN 256 p0 (V2 0 0)%R (V2 3 3)%R = OK p /\ r2d_clip RN 256 p (r2d_box_faces_from_verts RN (V2 1 1)%R (V2 2 2)%R) = OK p' /\ r2d_reduce RN 256 sh p' mom po = OK mom'
  /\ content2 (fun x => (0 <= vx x <= 3 /\ 0 <= vy x <= 3) /\ (1 <= vx x <= 2 /\ 1 <= vy x <= 2))%R 1%R /\ mom' 0 = 4%R.
Proof. exact (box_faces_clip sh po mom p0). Qed.
Print Assumptions C88_r2d_box_faces_intersect_refuted.

(** a square cut along its diagonal is a mesh for the square *)
Example square_mesh_ok : corners_ok square /\ (forall l, In l [tri1; tri2] -> corners_ok l) /\ (forall x, poly_pts square x -> exists l, In l [tri1; tri2] /\ poly_pts l x)
  /\ ForallOrdPairs (fun l l' => content2 (fun x => poly_pts l x /\ poly_pts l' x) 0%R) [tri1; tri2].
Proof. exact square_mesh. Qed.
(** [r2d_init_poly] makes the polygon that the mesh theorem asks for *)
Example poly_init_convex p0 l : corners_ok l -> Z.of_nat (length l) <= 256 -> exists p, r2d_init_poly RN 256 p0 l = OK p /\ convex_ccw p /\ nv p = Z.of_nat (length l) /\ forall x, hull2 p x <-> poly_pts l x.
Proof. exact (poly_init_ok 256 p0 l). Qed.
