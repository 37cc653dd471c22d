(** * PropsNC: the properties of [rNd_clip] (src/rNd.c:26-171) (C60-C62). *)
From Coq Require Import Reals ZArith List Bool Lia Lra.
From Verif Require Import Base Lib SumR ModelCommon ModelN ModelNC SpecN SpecNC SpecNP RealNum Clip2 InitN GlueN InsN ClipN CellsN PolyN HullN ShapesN.
Import ListNotations.
Open Scope Z_scope.

(** ** C60 *)
(** One plane, any arithmetic: the polytope is unchanged, emptied, or truncated to a cell
    structure with one more facet.  [placed]: kept vertices keep position and facets; a new
    vertex is the weighted mean of its edge, on the new facet and the facets of its edge. *)
Theorem C60_rNd_clip_plane NN MX D fuel (p : polyN NN) pl nh bk h :
  3 <= D -> 0 <= nvN NN p <= MX -> 0 <= nfN NN p -> (Z.to_nat (MX * D * D * D) <= fuel)%nat ->
  let n := nvN NN p in let f := nb (vbN NN p) in let sd := sdfN NN D pl (vbN NN p) in let keep := keepvN NN D pl (vbN NN p) in
  cells D (upto n) (nfN NN p) nh f bk h (fdN NN p) -> simple_edges D (upto n) f ->
  (rNd_clip NN MX D fuel p [pl] = OK p /\ (n = 0 \/ nle NN (n0 NN) (minf NN sd n (nbig NN)) = true))
  \/ (rNd_clip NN MX D fuel p [pl] = OK (emptyN NN p) /\ nle NN (maxf NN sd n (nopp NN (nbig NN))) (n0 NN) = true)
  \/ (n + cut_edges D n keep f <= MX /\ exists p', rNd_clip NN MX D fuel p [pl] = OK p'
        /\ nvN NN p' = cnt keep n + cut_edges D n keep f /\ nfN NN p <= nfN NN p'
        /\ exists bk' h' ov nw, cells D (upto (nvN NN p')) (nfN NN p') (nh + 1) (nb (vbN NN p')) bk' h' (fdN NN p')
        /\ truncated D n (nfN NN p) keep f (fdN NN p) (nvN NN p') (nb (vbN NN p')) (fdN NN p') ov nw
        /\ placed NN D p p' pl nh h h' ov nw)
  \/ (MX < n + cut_edges D n keep f /\ rNd_clip NN MX D fuel p [pl] = Err OutOfBounds).
Proof. exact (clipN_onep NN MX D fuel p pl nh bk h). Qed.
Print Assumptions C60_rNd_clip_plane.

(** the initial polytopes are such cell structures *)
Theorem C60_rNd_init_box_cells N MX D (p : polyN N) lo hi : 0 <= D -> 2 ^ D <= MX -> exists p', rNd_init_box N MX D p lo hi = OK p'
  /\ nvN N p' = 2 ^ D /\ 0 <= nfN N p'
  /\ (forall v i, 0 <= v < 2 ^ D -> 0 <= i < D -> ps (vbN N p') v i = if Z.testbit v i then hi i else lo i)
  /\ (forall v i, 0 <= v < 2 ^ D -> 0 <= i < D -> nb (vbN N p') v i = Z.lxor v (2 ^ i))
  /\ cells D (upto (2 ^ D)) (nfN N p') (2 * D) (nb (vbN N p')) (fun _ i => i) (fun v i => 2 * i + Z.b2z (Z.testbit v i)) (fdN N p')
  /\ simple_edges D (upto (2 ^ D)) (nb (vbN N p')).
Proof. exact (box_cells N MX D p lo hi). Qed.
Print Assumptions C60_rNd_init_box_cells.

Theorem C60_rNd_init_simplex_cells N MX D (p : polyN N) verts : 1 <= D -> D + 1 <= MX -> exists p', rNd_init_simplex N MX D p verts = OK p'
  /\ nvN N p' = D + 1 /\ 0 <= nfN N p'
  /\ (forall v i, 0 <= v < D + 1 -> 0 <= i < D -> ps (vbN N p') v i = verts v i)
  /\ (forall v i, 0 <= v < D + 1 -> 0 <= i < D -> nb (vbN N p') v i = (v + i + 1) mod (D + 1))
  /\ cells D (upto (D + 1)) (nfN N p') (D + 1) (nb (vbN N p')) (fun v i => sl D (nb (vbN N p') v i) v) (nb (vbN N p')) (fdN N p')
  /\ simple_edges D (upto (D + 1)) (nb (vbN N p')).
Proof. exact (simplex_cells N MX D p verts). Qed.
Print Assumptions C60_rNd_init_simplex_cells.

(** ** C61: the buffer check is missing *)
Theorem C61_rNd_clip_overflow_refuted : exists (p : polyN RN) pl nh bk h, nvN RN p <= 1024
  /\ cells 4 (upto (nvN RN p)) (nfN RN p) nh (nb (vbN RN p)) bk h (fdN RN p) /\ simple_edges 4 (upto (nvN RN p)) (nb (vbN RN p))
  /\ forall fuel, (Z.to_nat (1024 * 4 * 4 * 4) <= fuel)%nat -> rNd_clip RN 1024 4 fuel p [pl] = Err OutOfBounds.
Proof. exact clip_overflow. Qed.
Print Assumptions C61_rNd_clip_overflow_refuted.

(** with room for the cut edges, the clip is within bounds and ends *)
Theorem C61_rNd_clip_safe NN MX D fuel (p : polyN NN) pl nh bk h :
  3 <= D -> 0 <= nvN NN p <= MX -> 0 <= nfN NN p -> (Z.to_nat (MX * D * D * D) <= fuel)%nat ->
  cells D (upto (nvN NN p)) (nfN NN p) nh (nb (vbN NN p)) bk h (fdN NN p) -> simple_edges D (upto (nvN NN p)) (nb (vbN NN p)) ->
  nvN NN p + cut_edges D (nvN NN p) (keepvN NN D pl (vbN NN p)) (nb (vbN NN p)) <= MX ->
  exists p', rNd_clip NN MX D fuel p [pl] = OK p' /\ 0 <= nvN NN p' <= MX.
Proof. exact (clipN_safe NN MX D fuel p pl nh bk h). Qed.
Print Assumptions C61_rNd_clip_safe.

(** ** C62: the clip is the intersection with the half-spaces *)
Theorem C62_rNd_clip_hull MX D fuel (p : polyN RN) planes : 3 <= D -> (Z.to_nat (MX * D * D * D) <= fuel)%nat ->
  0 <= nvN RN p <= MX -> convexN D p ->
  (exists p', rNd_clip RN MX D fuel p planes = OK p' /\ 0 <= nvN RN p' <= MX /\ nvN RN p' <= nvN RN p * (D + 1) ^ Z.of_nat (length planes) /\ convexN D p'
     /\ ((forall x, hullP D p' x <-> hullP D p x /\ holds D planes x)
         \/ (nvN RN p' = 0 /\ forall x, hullP D p x -> ~ strictly D planes x)))
  \/ (MX < nvN RN p * (D + 1) ^ Z.of_nat (length planes) /\ rNd_clip RN MX D fuel p planes = Err OutOfBounds).
Proof. exact (fun HD Hf => rNd_clip_hull MX D fuel HD Hf p planes). Qed.
Print Assumptions C62_rNd_clip_hull.

Theorem C62_rNd_init_box_convex MX D (p : polyN RN) lo hi : 1 <= D -> 2 ^ D <= MX -> (forall i, 0 <= i < D -> (lo i <= hi i)%R) ->
  exists p', rNd_init_box RN MX D p lo hi = OK p' /\ nvN RN p' = 2 ^ D /\ convexN D p'
  /\ forall x, hullP D p' x <-> in_box D lo hi x.
Proof. exact (box_convex MX D p lo hi). Qed.
Print Assumptions C62_rNd_init_box_convex.

Theorem C62_rNd_init_simplex_convex MX D (p : polyN RN) verts l0 l : 1 <= D -> D + 1 <= MX -> barycentric D verts l0 l ->
  exists p', rNd_init_simplex RN MX D p verts = OK p' /\ nvN RN p' = D + 1 /\ convexN D p'
  /\ forall x, hullP D p' x <-> forall g, 0 <= g <= D -> (0 <= linN D (l0 g) (l g) x)%R.
Proof. exact (simplex_convex MX D p verts l0 l). Qed.
Print Assumptions C62_rNd_init_simplex_convex.

(** a box cut by any number of planes, with room for it *)
Theorem C62_rNd_clip_box MX D fuel (p : polyN RN) lo hi planes : 3 <= D -> 2 ^ D * (D + 1) ^ Z.of_nat (length planes) <= MX ->
  (forall i, 0 <= i < D -> (lo i <= hi i)%R) -> (Z.to_nat (MX * D * D * D) <= fuel)%nat ->
  exists p' p2, rNd_init_box RN MX D p lo hi = OK p' /\ rNd_clip RN MX D fuel p' planes = OK p2
    /\ ((forall x, hullP D p2 x <-> in_box D lo hi x /\ holds D planes x)
        \/ (nvN RN p2 = 0 /\ forall x, in_box D lo hi x -> ~ strictly D planes x)).
Proof. exact (box_clip MX D fuel p lo hi planes). Qed.
Print Assumptions C62_rNd_clip_box.

(** the corner simplex has barycentric coordinates *)
Example corner_barycentric D : 0 <= D ->
  barycentric D (fun w k => if w =? k + 1 then 1%R else 0%R) (fun g => if g =? 0 then 1%R else 0%R)
    (fun g k => if g =? 0 then (-1)%R else if g =? k + 1 then 1%R else 0%R).
Proof. exact (corner_bary D). Qed.
