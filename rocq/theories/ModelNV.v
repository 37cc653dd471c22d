(** * ModelNV: executable model of [rNd_voxelize] in [src/vNd.c]

    The number of axes is [D] ([RND_DIM]), the buffer size [MX] ([RND_MAX_VERTS]).  One
    round of the loop is [vox_step] of ModelV, whose text agrees with that of vNd.c. *)
From Coq Require Import ZArith List Bool.
From Verif Require Import Base ModelCommon ModelN ModelV ModelNC.
Import ListNotations.
Open Scope Z_scope.

(** Result of an [rNd_long] computation (rNd.h:59, [int64_t]). *)
Definition int64 (z : Z) : res Z :=
  if (- 9223372036854775808 <=? z) && (z <=? 9223372036854775807) then OK z else Err IntOverflow.

Section RNV.
Variable N : num.
Notation real := (T N).
Variable MX D : Z.

(** vNd.c:63-66: [gridsz], or [None] when a size is not positive. *)
Definition grid_dims (lo hi : Z -> Z) : res (option (Z -> Z)) :=
  for_ 0 D (fun i s =>
    match s with
    | None => OK None
    | Some g => let* sz := int32 (hi i - lo i) in if sz <=? 0 then OK None else OK (Some (upd g i sz))
    end) (Some (fun _ => 0)).
(** vNd.c:70-75: [ncell] and [stride]. *)
Definition strides (g : Z -> Z) : res (Z * (Z -> Z)) :=
  for_ 0 D (fun i s =>
    let* nc := int32 (fst s * g i) in
    let* k := for_ (i + 1) D (fun j k => int32 (k * g j)) 1 in
    OK (nc, upd (snd s) i k)) (1, fun _ => 0).
(** vNd.c:118-120, and the index [nmom*gind+m] of vNd.c:123, with [nmom = 1]. *)
Definition gindN (st lo0 c : Z -> Z) (m : Z) : res Z :=
  let* s := for_ 0 D (fun i s =>
    let* a := int32 (c i - lo0 i) in
    let* a := int32 (a * st i) in
    int64 (s + a)) 0 in
  let* s := int64 (1 * s) in
  int64 (s + m).
(** vNd.c:114 with vNd.c:80: [moments[0]] is assigned. *)
Definition reduceN (ltd0 : Z -> Z -> real) (p : polyN N) (mom : Z -> real) : res (Z -> real) :=
  let* t := rNd_reduce N MX D ltd0 p in wr 1 mom 0 t.

(** vNd.c:53-138 [rNd_voxelize].  [stk0], [mom0] and [ltd0] are uninitialised locals; the
    grid is taken to have one entry per cell.  [fuel] is for [rNd_clip]; [2 * ncell] rounds
    of the main loop are allowed.  As in ModelV, [ceil(log2(n))] is [Z.log2_up n], and null
    pointers are not modelled. *)
Definition rNd_voxelize (fuel : nat) (stk0 : Z -> polyN N * box) (mom0 : Z -> real) (ltd0 : Z -> Z -> real)
    (p : polyN N) (ibox : box) (grid : Z -> real) (d : Z -> real) : res (Z -> real) :=
  if nvN N p <=? 0 then OK grid else
  let* o := grid_dims (fst ibox) (snd ibox) in
  match o with
  | None => OK grid
  | Some g =>
    let* (nc, st) := strides g in
    let SS := Z.log2_up nc + D + 1 in
    let* stk := wr SS stk0 0 (p, ibox) in
    let* s := while_ (2 * Z.to_nat nc) (fun s => 0 <? v_n N (polyN N) s)
       (vox_step N D (polyN N) (nvN N) (fun p _ co ax => rNd_split N MX D fuel p co ax) (reduceN ltd0) 1 gindN SS nc (fst ibox) st d)
       (VS N (polyN N) stk 1 grid mom0) in
    OK (v_grid N (polyN N) s)
  end.
End RNV.
