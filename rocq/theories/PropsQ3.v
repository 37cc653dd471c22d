(** * PropsQ3: described convex polyhedra: [r3d_init_poly] (C92) and [r3d_poly_faces_from_verts] (C93). *)
From Coq Require Import Reals ZArith List Bool Lia Lra.
From Verif Require Import Base Lib ModelCommon Model3 ModelB SpecB SpecI SpecL3 SpecH Spec3 Spec3R SpecC3 SpecF3 SpecQ3 RealNum Reduce3 IntC3 BrepEx PolyG3 BrepQ3.
Import ListNotations.
Open Scope Z_scope.

(** ** C92: [r3d_init_poly] builds the described polyhedron *)
Theorem C92_r3d_init_poly_points nf nvf fi n vs MX p t : 0 <= nf -> simple_convex nf nvf fi n vs -> 3 <= MX -> 0 < n <= MX ->
  exists p', r3d_init_poly MX nf nvf fi p t vs n = OK (p', 1) /\ nv p' = n /\ (forall v, 0 <= v < n -> ps (vb p') v = vs v)
    /\ solid3 p' /\ facets3 p' nf /\ (forall x, hull3 p' x <-> desc_pts nf nvf fi vs x) /\ forall x, desc_pts nf nvf fi vs x <-> mean3 n vs x.
Proof. exact (init_poly_convex nf nvf fi n vs MX p t). Qed.
Print Assumptions C92_r3d_init_poly_points.
Theorem C92_r3d_init_poly_integral nf nvf fi n vs MX p t sh (i j k : nat) po (mom : Z -> R) : 0 <= nf -> simple_convex nf nvf fi n vs -> 3 <= MX -> 0 < n <= MX ->
  Z.of_nat i + Z.of_nat j + Z.of_nat k <= po ->
  exists p' mom', r3d_init_poly MX nf nvf fi p t vs n = OK (p', 1) /\ r3d_reduce RN MX sh p' mom po = OK mom'
    /\ integral3 (desc_pts nf nvf fi vs) (fun x => x3 x ^ i * y3 x ^ j * z3 x ^ k)%R (mom' (idx3 (Z.of_nat i) (Z.of_nat j) (Z.of_nat k))).
Proof. exact (init_poly_integral nf nvf fi n vs MX p t sh i j k po mom). Qed.
Print Assumptions C92_r3d_init_poly_integral.
(** a cube, a tetrahedron and a frustum with five-sided ends meet the hypotheses *)
Example C92_cases : simple_convex (lnf cubeF) (lnvf cubeF) (lfi cubeF) 8 (lv (map zpt cubeV)) /\ simple_convex (lnf tetF) (lnvf tetF) (lfi tetF) 4 (lv (map zpt tetV))
  /\ simple_convex (lnf frusF) (lnvf frusF) (lfi frusF) 10 (lv (map zpt frusV)).
Proof. exact (conj cube_simple (conj tet_simple frus_simple)). Qed.

(** ** C93: the planes of [r3d_poly_faces_from_verts] *)
(** with the face lists that [r3d_init_poly] takes, the polyhedron is on the negative side of every plane *)
Theorem C93_r3d_poly_faces_outward F vl : simple_convex (lnf F) (lnvf F) (lfi F) (Z.of_nat (length vl)) (lv vl) -> (0 < length vl)%nat ->
  exists pls, r3d_poly_faces_from_verts RN vl F = OK pls /\ length pls = length F /\ (forall pl, In pl pls -> proper pl)
    /\ forall x, desc_pts (lnf F) (lnvf F) (lfi F) (lv vl) x <-> forall pl, In pl pls -> (sdist3 pl x <= 0)%R.
Proof. exact (poly_faces_outward F vl). Qed.
Print Assumptions C93_r3d_poly_faces_outward.
(** so "the polyhedron is on the side that [r3d_clip] keeps" is false *)
Theorem C93_r3d_poly_faces_inward_refuted : exists F vl pls x, simple_convex (lnf F) (lnvf F) (lfi F) (Z.of_nat (length vl)) (lv vl) /\ (0 < length vl)%nat
  /\ r3d_poly_faces_from_verts RN vl F = OK pls /\ desc_pts (lnf F) (lnvf F) (lfi F) (lv vl) x /\ ~ holds3 pls x.
Proof.
  exists cubeF, (map zpt cubeV). destruct (poly_faces_no_point cubeF (map zpt cubeV) cube_simple ltac:(cbn; lia)) as (pls & E & H).
  pose proof (vertex_desc cubeF (map zpt cubeV) 6 cube_simple ltac:(cbn; lia)) as D.
  exists pls, (lv (map zpt cubeV) 6). exact (conj cube_simple (conj (Nat.lt_0_succ 7) (conj E (conj D (H _ D))))).
Qed.
Print Assumptions C93_r3d_poly_faces_inward_refuted.
(** and clipping a described polyhedron by the planes of its own description removes all of it *)
Theorem C93_r3d_clip_own_faces_empty F vl MX p t : simple_convex (lnf F) (lnvf F) (lfi F) (Z.of_nat (length vl)) (lv vl) -> 0 < Z.of_nat (length vl) <= MX -> 3 <= MX ->
  6 * lnf F <= MX + 7 ->
  exists p' pls o, r3d_init_poly MX (lnf F) (lnvf F) (lfi F) p t (lv vl) (Z.of_nat (length vl)) = OK (p', 1)
    /\ r3d_poly_faces_from_verts RN vl F = OK pls /\ r3d_clip RN MX p' pls = OK (o, 1) /\ nv o = 0.
Proof. exact (poly_faces_clip_own F vl MX p t). Qed.
Print Assumptions C93_r3d_clip_own_faces_empty.
(** with every face list reversed the planes hold exactly the points of the polyhedron *)
Theorem C93_r3d_poly_faces_reversed F vl : simple_convex (lnf F) (lnvf F) (lfi F) (Z.of_nat (length vl)) (lv vl) -> (0 < length vl)%nat ->
  exists pls, r3d_poly_faces_from_verts RN vl (map (@rev Z) F) = OK pls /\ length pls = length F /\ (forall pl, In pl pls -> proper pl)
    /\ forall x, desc_pts (lnf F) (lnvf F) (lfi F) (lv vl) x <-> holds3 pls x.
Proof. exact (poly_faces_reversed F vl). Qed.
Print Assumptions C93_r3d_poly_faces_reversed.
(** and clipping one described polyhedron by those of another gives the integrals over the intersection *)
Theorem C93_r3d_poly_intersection F vl G wl MX p t : simple_convex (lnf F) (lnvf F) (lfi F) (Z.of_nat (length vl)) (lv vl) ->
  simple_convex (lnf G) (lnvf G) (lfi G) (Z.of_nat (length wl)) (lv wl) ->
  0 < Z.of_nat (length vl) <= MX -> (0 < length wl)%nat -> 3 <= MX -> 3 * (lnf F + lnf G) <= MX + 7 ->
  exists p' pls o, r3d_init_poly MX (lnf F) (lnvf F) (lfi F) p t (lv vl) (Z.of_nat (length vl)) = OK (p', 1)
    /\ r3d_poly_faces_from_verts RN wl (map (@rev Z) G) = OK pls /\ r3d_clip RN MX p' pls = OK (o, 1)
    /\ forall sh (i j k : nat) po (mom : Z -> R), Z.of_nat i + Z.of_nat j + Z.of_nat k <= po ->
       exists mom', r3d_reduce RN MX sh o mom po = OK mom'
         /\ integral3 (fun x => desc_pts (lnf F) (lnvf F) (lfi F) (lv vl) x /\ desc_pts (lnf G) (lnvf G) (lfi G) (lv wl) x)
              (fun x => x3 x ^ i * y3 x ^ j * z3 x ^ k)%R (mom' (idx3 (Z.of_nat i) (Z.of_nat j) (Z.of_nat k))).
Proof. exact (poly_intersection F vl G wl MX p t). Qed.
Print Assumptions C93_r3d_poly_intersection.
(** the frustum and the cube fit the capacity of the library *)
Example C93_case : 6 * lnf frusF <= 512 + 7 /\ 3 * (lnf frusF + lnf cubeF) <= 512 + 7 /\ 0 < Z.of_nat (length (map zpt frusV)) <= 512 /\ (0 < length (map zpt cubeV))%nat.
Proof. vm_compute. repeat split; congruence || lia. Qed.
