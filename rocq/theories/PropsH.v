(** * PropsH: the hulls in the statements about [r2d_clip], [r3d_clip] and [rNd_clip] are the
    weighted means of the vertices (C89). *)
From Coq Require Import Reals ZArith List Bool Lia Lra.
From Verif Require Import Base Lib SumR ModelCommon Model2 Model3 ModelN ModelNC RealNum SpecN SpecNC SpecNP Spec2R Spec3R SpecC2 SpecC3 SpecM2 SpecH FarkC FarkG.
Import ListNotations.
Open Scope Z_scope.

(** ** C89: a point that is in every half-space around the vertices is a weighted mean of them *)
Theorem C89_hull2_weighted_means (p : poly (rvec2 R)) x : hull2 p x <-> mean2 (nv p) (ps (vb p)) x.
Proof. exact (hull2_means p x). Qed.
Print Assumptions C89_hull2_weighted_means.

Theorem C89_hull3_weighted_means (p : poly (rvec3 R)) x : hull3 p x <-> mean3 (nv p) (ps (vb p)) x.
Proof. exact (hull3_means p x). Qed.
Print Assumptions C89_hull3_weighted_means.

Theorem C89_hullN_weighted_means D n (q : Z -> Z -> R) x : hullN D n q x <-> meanN D n q x.
Proof. exact (hullN_means D n q x). Qed.
Print Assumptions C89_hullN_weighted_means.

Theorem C89_corners_weighted_means (l : list (rvec2 R)) x : poly_pts l x <-> mean2 (Z.of_nat (length l)) (fun v => nth (Z.to_nat v) l (V2 0 0)%R) x.
Proof. exact (poly_pts_means l x). Qed.
Print Assumptions C89_corners_weighted_means.

(** the weighted means of the vertices that a clip leaves are those of the input that satisfy
    the inequalities of the planes *)
Theorem C89_r2d_clip_weighted_means MX (p p' : poly (rvec2 R)) planes : convex_ccw p -> nv p <= MX -> r2d_clip RN MX p planes = OK p' ->
  (forall x, mean2 (nv p') (ps (vb p')) x <-> mean2 (nv p) (ps (vb p)) x /\ holds2 planes x)
  \/ (nv p' = 0 /\ exists pl, In pl planes /\ forall x, mean2 (nv p) (ps (vb p)) x -> holds2 planes x -> sdist pl x = 0%R).
Proof. exact (clip2_means MX p p' planes). Qed.
Print Assumptions C89_r2d_clip_weighted_means.

Theorem C89_r3d_clip_weighted_means MX (p p' : pol3) planes : convex3 p -> nv p <= MX -> r3d_clip RN MX p planes = OK (p', 1) ->
  (forall x, mean3 (nv p') (ps (vb p')) x <-> mean3 (nv p) (ps (vb p)) x /\ holds3 planes x)
  \/ (nv p' = 0 /\ exists pl, In pl planes /\ forall x, mean3 (nv p) (ps (vb p)) x -> holds3 planes x -> sdist3 pl x = 0%R).
Proof. exact (clip3_means MX p p' planes). Qed.
Print Assumptions C89_r3d_clip_weighted_means.

Theorem C89_rNd_clip_weighted_means MX D fuel (p : polyN RN) planes : 3 <= D -> (Z.to_nat (MX * D * D * D) <= fuel)%nat -> 0 <= nvN RN p <= MX -> convexN D p ->
  (exists p', rNd_clip RN MX D fuel p planes = OK p'
     /\ ((forall x, meanN D (nvN RN p') (ps (vbN RN p')) x <-> meanN D (nvN RN p) (ps (vbN RN p)) x /\ holds D planes x)
         \/ (nvN RN p' = 0 /\ forall x, meanN D (nvN RN p) (ps (vbN RN p)) x -> ~ strictly D planes x)))
  \/ (MX < nvN RN p * (D + 1) ^ Z.of_nat (length planes) /\ rNd_clip RN MX D fuel p planes = Err OutOfBounds).
Proof. exact (clipN_means MX D fuel p planes). Qed.
Print Assumptions C89_rNd_clip_weighted_means.

(** the middle of the unit cube is a weighted mean of its corners; C62, C69 and C72 give convex inputs *)
Example cube_mean_ok : mean3 8 (fun v => V3 (IZR (v mod 2)) (IZR ((v / 2) mod 2)) (IZR (v / 4))) (V3 (1/2) (1/2) (1/2))%R.
Proof. exact cube_mean. Qed.
