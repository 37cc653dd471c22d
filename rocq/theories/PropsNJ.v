(** * PropsNJ: [rNd_reduce] (src/rNd.c:172-278) is the volume; the volumes after [rNd_clip]
    and [rNd_voxelize] (C67, C68). *)
From Coq Require Import Reals ZArith List Bool Lia Lra.
From Verif Require Import Base Lib SumR ModelCommon ModelN ModelV ModelNC ModelNV SpecN SpecNP SpecNV SpecNJ RealNum FlagR SplitN VoxN BoxVoxN MonoN UniqJ ContN VoxJ ClipJ.
Import ListNotations.
Open Scope Z_scope.

(** ** C67: [rNd_reduce] is the volume of the convex hull *)
Theorem C67_rNd_reduce_volume MX D (p : polyN RN) ltd0 : 3 <= D -> 0 <= nvN RN p <= MX -> solidN D p ->
  exists t : R, rNd_reduce RN MX D ltd0 p = OK t /\ content D (hullP D p) t /\ forall s, content D (hullP D p) s -> s = t.
Proof. exact (reduce_content MX D p ltd0). Qed.
Print Assumptions C67_rNd_reduce_volume.

(** two polytopes: a smaller hull gives a smaller value; the same hull the same value *)
Theorem C67_rNd_reduce_monotone MX D (p q : polyN RN) ltd0 ltd1 (t s : R) : 3 <= D -> 0 <= nvN RN p <= MX -> 0 <= nvN RN q <= MX -> solidN D p -> solidN D q ->
  (forall x, hullP D p x -> hullP D q x) -> rNd_reduce RN MX D ltd0 p = OK t -> rNd_reduce RN MX D ltd1 q = OK s -> (0 <= t <= s)%R.
Proof. exact (reduce_mono MX D p q ltd0 ltd1 t s). Qed.
Print Assumptions C67_rNd_reduce_monotone.

Theorem C67_rNd_reduce_same_hull MX D (p q : polyN RN) ltd0 ltd1 : 1 <= D -> 0 <= nvN RN p <= MX -> 0 <= nvN RN q <= MX -> solidN D p -> solidN D q ->
  (forall x, hullP D p x <-> hullP D q x) -> rNd_reduce RN MX D ltd0 p = rNd_reduce RN MX D ltd1 q.
Proof. exact (reduce_same MX D p q ltd0 ltd1). Qed.
Print Assumptions C67_rNd_reduce_same_hull.

(** clipped by planes in general position: the volume of the intersection *)
Theorem C67_rNd_clip_volume MX D fuel planes (p p' : polyN RN) ltd0 : 3 <= D -> (Z.to_nat (MX * D * D * D) <= fuel)%nat ->
  0 <= nvN RN p <= MX -> solidN D p -> generic D (hullP D p) planes -> rNd_clip RN MX D fuel p planes = OK p' ->
  solidN D p' /\ exists t : R, rNd_reduce RN MX D ltd0 p' = OK t /\ content D (fun x => hullP D p x /\ holds D planes x) t.
Proof. exact (fun HD Hf => clip_content MX D fuel HD Hf planes p p' ltd0). Qed.
Print Assumptions C67_rNd_clip_volume.

(** the volume of a box is the product of its sides, and every set has at most one volume *)
Theorem C67_content_box D lo hi : 3 <= D -> (forall i, 0 <= i < D -> (lo i < hi i)%R) -> content D (in_box D lo hi) (lprod (zrange D) (fun i => hi i - lo i)%R).
Proof. exact (box_content D lo hi). Qed.
Print Assumptions C67_content_box.

Theorem C67_content_unique D (K : (Z -> R) -> Prop) (t s : R) : 0 <= D -> content D K t -> content D K s -> t = s.
Proof. exact (fun HD => content_unique D HD K t s). Qed.
Print Assumptions C67_content_unique.

(** a box (solid by [C64_rNd_init_box_solid]) and a plane across it in general position *)
Example half_box D lo hi ax c (K : (Z -> R) -> Prop) : 0 <= ax < D -> (lo ax < c < hi ax)%R -> (forall x, K x <-> in_box D lo hi x) ->
  generic D K [PLN RN (@upd R (fun _ => 0%R) ax 1%R) (- (1 * c))%R].
Proof. exact (half_box_ok D lo hi ax c K). Qed.

(** ** C68: [rNd_voxelize] adds to each cell the volume of the part of the polytope in it *)
Theorem C68_rNd_voxelize_volume MX D fuel ltd0 stk0 mom0 (p : polyN RN) B (gr gr' d : Z -> R) : 3 <= D -> (Z.to_nat (MX * D * D * D) <= fuel)%nat ->
  0 <= nvN RN p <= MX -> solidN D p -> box_okN D B -> (forall i, 0 <= i < D -> (0 < d i)%R) -> (forall x, hullP D p x -> region D d B x) ->
  off_grid D d B (hullP D p) -> rNd_voxelize RN MX D fuel stk0 mom0 ltd0 p B gr d = OK gr' ->
  forall c, in_cells D B c -> content D (fun x => hullP D p x /\ in_cell D d c x) (gr' (cellN D B c) - gr (cellN D B c))%R.
Proof. exact (vox_content MX D fuel ltd0 stk0 mom0 p B gr gr' d). Qed.
Print Assumptions C68_rNd_voxelize_volume.

(** a box of arbitrary sides off the grid planes, with room in the buffer *)
Theorem C68_rNd_voxelize_box_volume MX D fuel (p : polyN RN) stk0 mom0 ltd0 lo hi B (gr d : Z -> R) : 3 <= D -> (Z.to_nat (MX * D * D * D) <= fuel)%nat ->
  2 ^ D * (D + 1) ^ levels D B <= MX -> box_okN D B ->
  (forall i, 0 <= i < D -> (0 < d i /\ d i * IZR (fst B i) <= lo i /\ lo i < hi i /\ hi i <= d i * IZR (snd B i))%R) ->
  (forall i m, 0 <= i < D -> lo i <> (d i * IZR m)%R /\ hi i <> (d i * IZR m)%R) ->
  exists p' gr', rNd_init_box RN MX D p lo hi = OK p' /\ rNd_voxelize RN MX D fuel stk0 mom0 ltd0 p' B gr d = OK gr'
    /\ forall c, in_cells D B c -> content D (fun x => in_box D lo hi x /\ in_cell D d c x) (gr' (cellN D B c) - gr (cellN D B c))%R.
Proof. exact (box_vox_content MX D fuel p stk0 mom0 ltd0 lo hi B gr d). Qed.
Print Assumptions C68_rNd_voxelize_box_volume.
