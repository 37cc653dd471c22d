(** * PropsNV: the properties of [rNd_reduce] (src/rNd.c:172-278), [rNd_split] and
    [rNd_voxelize] (src/vNd.c:53-152) (C63-C66). *)
From Coq Require Import Reals ZArith List Bool Lia Lra.
From Verif Require Import Base Lib SumR ModelCommon ModelN ModelV ModelNC ModelNV SpecN SpecNP SpecNR SpecNV SpecNaN RealNum RedN FlagR BoxVolN SplitN VoxN BoxVoxN NanN.
From Verif Require SpecNC.
Import ListNotations.
Open Scope Z_scope.

(** ** C63: [rNd_reduce] *)
(** any arithmetic: the sum over the flags of the polytope *)
Theorem C63_rNd_reduce_flags N MX D ltd0 (p : polyN N) : 0 <= D -> 0 <= nvN N p <= MX ->
  (forall v i, 0 <= v < nvN N p -> 0 <= i < D -> 0 <= nb (vbN N p) v i < nvN N p) ->
  rNd_reduce N MX D ltd0 p = OK (flag_sum N D (nvN N p) (ps (vbN N p)) (nb (vbN N p))).
Proof. exact (rNd_reduce_flags N MX D ltd0 p). Qed.
Print Assumptions C63_rNd_reduce_flags.

(** the product of the sides of a box *)
Theorem C63_rNd_reduce_box MX D (p : polyN RN) lo hi ltd0 : 0 <= D -> 2 ^ D <= MX -> (forall i, 0 <= i < D -> (lo i < hi i)%R) ->
  exists p', rNd_init_box RN MX D p lo hi = OK p' /\ rNd_reduce RN MX D ltd0 p' = OK (lprod (zrange D) (fun i => hi i - lo i)%R).
Proof. exact (box_reduce MX D p lo hi ltd0). Qed.
Print Assumptions C63_rNd_reduce_box.

(** ** C64: [rNd_split] *)
Theorem C64_rNd_split_hull MX D fuel (p : polyN RN) c ax : 3 <= D -> (Z.to_nat (MX * D * D * D) <= fuel)%nat ->
  0 <= nvN RN p <= MX -> 0 <= ax < D -> convexN D p ->
  (exists p0 p1, rNd_split RN MX D fuel p c ax = OK (p0, p1) /\ 0 <= nvN RN p0 <= MX /\ 0 <= nvN RN p1 <= MX
     /\ nvN RN p0 <= nvN RN p * (D + 1) /\ nvN RN p1 <= nvN RN p * (D + 1) /\ convexN D p0 /\ convexN D p1
     /\ ((forall x, hullP D p0 x <-> hullP D p x /\ (x ax <= c)%R) \/ (nvN RN p0 = 0 /\ forall x, hullP D p x -> (c <= x ax)%R))
     /\ ((forall x, hullP D p1 x <-> hullP D p x /\ (c <= x ax)%R) \/ (nvN RN p1 = 0 /\ forall x, hullP D p x -> (x ax <= c)%R)))
  \/ (MX < nvN RN p * (D + 1) /\ rNd_split RN MX D fuel p c ax = Err OutOfBounds).
Proof. exact (fun HD Hf => split_hull MX D fuel HD Hf p c ax). Qed.
Print Assumptions C64_rNd_split_hull.

(** a split through no vertex divides the value of [rNd_reduce] *)
Theorem C64_rNd_split_reduce MX D fuel ltd0 (p p0 p1 : polyN RN) c ax : 3 <= D -> (Z.to_nat (MX * D * D * D) <= fuel)%nat ->
  0 <= nvN RN p <= MX -> 0 <= ax < D -> solidN D p -> (forall v, 0 <= v < nvN RN p -> ps (vbN RN p) v ax <> c) ->
  rNd_split RN MX D fuel p c ax = OK (p0, p1) ->
  solidN D p0 /\ solidN D p1 /\ exists t t0 t1 : R, rNd_reduce RN MX D ltd0 p = OK t /\ rNd_reduce RN MX D ltd0 p0 = OK t0
    /\ rNd_reduce RN MX D ltd0 p1 = OK t1 /\ (t0 + t1 = t)%R.
Proof. exact (split_reduce_run MX D fuel ltd0 p p0 p1 c ax). Qed.
Print Assumptions C64_rNd_split_reduce.

(** boxes and simplices are solid *)
Theorem C64_rNd_init_box_solid MX D (p : polyN RN) lo hi : 1 <= D -> 2 ^ D <= MX -> (forall i, 0 <= i < D -> (lo i < hi i)%R) ->
  exists p', rNd_init_box RN MX D p lo hi = OK p' /\ nvN RN p' = 2 ^ D /\ solidN D p' /\ forall x, hullP D p' x <-> in_box D lo hi x.
Proof. exact (box_solid MX D p lo hi). Qed.
Print Assumptions C64_rNd_init_box_solid.

Theorem C64_rNd_init_simplex_solid MX D (p : polyN RN) verts l0 l : 1 <= D -> D + 1 <= MX -> barycentric D verts l0 l ->
  exists p', rNd_init_simplex RN MX D p verts = OK p' /\ nvN RN p' = D + 1 /\ solidN D p'
  /\ forall x, hullP D p' x <-> forall g, 0 <= g <= D -> (0 <= linN D (l0 g) (l g) x)%R.
Proof. exact (simplex_solid MX D p verts l0 l). Qed.
Print Assumptions C64_rNd_init_simplex_solid.

(** ** C65: [rNd_voxelize] *)
(** no error except a split that overflows the vertex buffer *)
Theorem C65_rNd_voxelize_only_overflow MX D fuel ltd0 stk0 mom0 (p : polyN RN) B (gr d : Z -> R) :
  3 <= D -> (Z.to_nat (MX * D * D * D) <= fuel)%nat -> 0 <= nvN RN p <= MX -> convexN D p -> box_okN D B ->
  (exists gr', rNd_voxelize RN MX D fuel stk0 mom0 ltd0 p B gr d = OK gr')
  \/ (rNd_voxelize RN MX D fuel stk0 mom0 ltd0 p B gr d = Err OutOfBounds
      /\ exists q c a, 0 < nvN RN q <= MX /\ convexN D q /\ (forall x, hullP D q x -> hullP D p x) /\ 0 <= a < D
         /\ rNd_split RN MX D fuel q c a = Err OutOfBounds /\ MX < nvN RN q * (D + 1)).
Proof. exact (vox_only MX D fuel ltd0 stk0 mom0 p B gr d). Qed.
Print Assumptions C65_rNd_voxelize_only_overflow.

Theorem C65_rNd_voxelize_room MX D fuel ltd0 stk0 mom0 (p : polyN RN) B (gr d : Z -> R) :
  3 <= D -> (Z.to_nat (MX * D * D * D) <= fuel)%nat -> 0 <= nvN RN p -> nvN RN p * (D + 1) ^ levels D B <= MX -> convexN D p -> box_okN D B ->
  exists gr', rNd_voxelize RN MX D fuel stk0 mom0 ltd0 p B gr d = OK gr'.
Proof. exact (fun HD Hf => vox_room MX D fuel HD Hf ltd0 stk0 mom0 p B gr d). Qed.
Print Assumptions C65_rNd_voxelize_room.

(** Each cell receives the value of [rNd_reduce] on the part of the polytope in the cell;
    nothing else is written; and the total is the value of the polytope when no grid plane
    passes through an extreme point. *)
Theorem C65_rNd_voxelize_cells MX D fuel ltd0 stk0 mom0 (p : polyN RN) B (gr gr' d : Z -> R) :
  3 <= D -> (Z.to_nat (MX * D * D * D) <= fuel)%nat -> 0 <= nvN RN p <= MX -> convexN D p -> box_okN D B ->
  (forall i, 0 <= i < D -> (0 < d i)%R) -> (forall x, hullP D p x -> region D d B x) ->
  rNd_voxelize RN MX D fuel stk0 mom0 ltd0 p B gr d = OK gr' ->
  exists l : list ((Z -> Z) * polyN RN), NoDup (map (fun x => cellN D B (fst x)) l)
  /\ (forall c q, In (c, q) l -> in_cells D B c /\ 0 < nvN RN q <= MX /\ convexN D q /\ (solidN D p -> off_grid D d B (hullP D p) -> solidN D q)
        /\ (forall x, hullP D q x <-> hullP D p x /\ in_cell D d c x)
        /\ exists t : R, rNd_reduce RN MX D ltd0 q = OK t /\ gr' (cellN D B c) = (gr (cellN D B c) + t)%R)
  /\ (forall c, in_cells D B c -> (exists c' q, In (c', q) l /\ forall i, 0 <= i < D -> c' i = c i) \/ forall x, hullP D p x -> ~ inside_cell D d c x)
  /\ (forall e, (forall c q, In (c, q) l -> e <> cellN D B c) -> gr' e = gr e)
  /\ (solidN D p -> off_grid D d B (hullP D p) -> forall t : R, rNd_reduce RN MX D ltd0 p = OK t ->
        lsum (zrange (ncells D B)) (fun e => gr' e - gr e)%R = t).
Proof. exact (fun HD Hf => vox_cells MX D fuel HD Hf ltd0 stk0 mom0 p B gr gr' d). Qed.
Print Assumptions C65_rNd_voxelize_cells.

(** a box with sides off the grid planes *)
Theorem C65_rNd_voxelize_box MX D fuel (p : polyN RN) stk0 mom0 ltd0 lo hi B (gr d : Z -> R) : 3 <= D -> (Z.to_nat (MX * D * D * D) <= fuel)%nat ->
  2 ^ D * (D + 1) ^ levels D B <= MX -> box_okN D B ->
  (forall i, 0 <= i < D -> (0 < d i /\ d i * IZR (fst B i) <= lo i /\ lo i < hi i /\ hi i <= d i * IZR (snd B i))%R) ->
  (forall i m, 0 <= i < D -> lo i <> (d i * IZR m)%R /\ hi i <> (d i * IZR m)%R) ->
  exists p' gr', rNd_init_box RN MX D p lo hi = OK p' /\ rNd_voxelize RN MX D fuel stk0 mom0 ltd0 p' B gr d = OK gr'
    /\ lsum (zrange (ncells D B)) (fun e => gr' e - gr e)%R = lprod (zrange D) (fun i => hi i - lo i)%R.
Proof. exact (box_voxelize MX D fuel p stk0 mom0 ltd0 lo hi B gr d). Qed.
Print Assumptions C65_rNd_voxelize_box.

(** such a grid: 2 cells along each axis in three dimensions *)
Example grid_222 : box_okN 3 (fun _ => 0, fun _ => 2) /\ levels 3 (fun _ => 0, fun _ => 2) = 3 /\ ncells 3 (fun _ => 0, fun _ => 2) = 8
  /\ forall i m : Z, (1/2 <> 1 * IZR m)%R /\ (3/2 <> 1 * IZR m)%R.
Proof. exact grid_222_ok. Qed.

(** ** C66: 0/0 in [rNd_reduce] *)
(** Real numbers with a NaN ([XN]).  A plane through a vertex with a neighbour on the
    clipped side: the clip succeeds, and [rNd_reduce] of the result is NaN. *)
Theorem C66_rNd_clip_reduce_nan MX D fuel ltd0 (p : polyN XN) pl nh bk h (q : Z -> Z -> R) c0 c v i w :
  3 <= D -> 0 <= nvN XN p -> nvN XN p * (D + 1) <= MX -> (Z.to_nat (MX * D * D * D) <= fuel)%nat -> 0 <= nfN XN p ->
  SpecNC.cells D (SpecNC.upto (nvN XN p)) (nfN XN p) nh (nb (vbN XN p)) bk h (fdN XN p) -> SpecNC.simple_edges D (SpecNC.upto (nvN XN p)) (nb (vbN XN p)) ->
  (forall v k, 0 <= v < nvN XN p -> 0 <= k < D -> ps (vbN XN p) v k = Some (q v k)) ->
  dN XN pl = Some c0 -> (forall k, 0 <= k < D -> nN XN pl k = Some (c k)) ->
  0 <= v < nvN XN p -> 0 <= i < D -> linN D c0 c (q v) = 0%R -> (linN D c0 c (q (nb (vbN XN p) v i)) < 0)%R ->
  0 <= w < nvN XN p -> (0 < linN D c0 c (q w))%R ->
  exists p', rNd_clip XN MX D fuel p [pl] = OK p' /\ rNd_reduce XN MX D ltd0 p' = OK None.
Proof. exact (clip_through MX D fuel ltd0 p pl nh bk h q c0 c v i w). Qed.
Print Assumptions C66_rNd_clip_reduce_nan.

(** the unit cube cut along a diagonal, in any dimension *)
Theorem C66_rNd_reduce_after_clip_refuted MX D fuel ltd0 (p0 : polyN XN) : 3 <= D -> 2 ^ D * (D + 1) <= MX -> (Z.to_nat (MX * D * D * D) <= fuel)%nat ->
  exists p p', rNd_init_box XN MX D p0 (fun _ => Some 0%R) (fun _ => Some 1%R) = OK p
    /\ rNd_clip XN MX D fuel p [PLN XN (fun k => if k =? 0 then Some 1%R else if k =? 1 then Some (-1)%R else Some 0%R) (Some 0%R)] = OK p'
    /\ rNd_reduce XN MX D ltd0 p' = OK None.
Proof. exact (cube_diagonal MX D fuel ltd0 p0). Qed.
Print Assumptions C66_rNd_reduce_after_clip_refuted.
