(** * ModelV3: the grid routines of [src/v3d.c], as instances of ModelV

    Buffer size [MX] is [R3D_MAX_VERTS]. *)
From Coq Require Import ZArith List Bool.
From Verif Require Import Base ModelCommon Model3 ModelV.
Import ListNotations.
Open Scope Z_scope.

Section V3.
Variable N : num.
Variable MX : Z.
Notation pol := (poly (rvec3 (T N))).

(** v3d.c:106 macro [gind]; evaluated left to right, every [int] result checked. *)
Definition gind3 (nmom : Z) (g lo0 c : Z -> Z) (m : Z) : res Z :=
  let* a := int32 (c 0 - lo0 0) in
  let* a := int32 (a * g 1) in
  let* a := int32 (a * g 2) in
  let* b := int32 (c 1 - lo0 1) in
  let* b := int32 (b * g 2) in
  let* a := int32 (a + b) in
  let* b := int32 (c 2 - lo0 2) in
  let* a := int32 (a + b) in
  let* a := int32 (nmom * a) in
  int32 (a + m).

(** [d.xyz[i]]. *)
Definition dget3 (d : rvec3 (T N)) (i : Z) : T N := if i =? 0 then x3 d else if i =? 1 then y3 d else z3 d.

(** v3d.c:59-124; [sh] says whether SHIFT_POLY is defined. *)
Definition r3d_voxelize (sh : bool) (po : Z) (stk0 : Z -> pol * box) (mom0 : Z -> T N) (p : pol) (ibox : box)
    (grid : Z -> T N) (d : rvec3 (T N)) : res (Z -> T N) :=
  voxelize N 3 pol nv (r3d_split_coord N MX) (fun p mom => r3d_reduce N MX sh p mom po) (num_moments3 po)
    (gind3 (num_moments3 po)) stk0 mom0 p ibox grid (dget3 d).

(** v3d.c:218-235. *)
Definition r3d_get_ibox (p : pol) (d : rvec3 (T N)) (ibox : box) : res box :=
  get_ibox N 3 pol nv (rvec3 (T N)) (vget3 N) (fun p => rd_ps MX (vb p)) p (dget3 d) ibox.

(** v3d.c:237-262; [boxfaces[6]].  The status returned by [r3d_clip] is dropped. *)
Definition mkpl3 (i : Z) (n d : T N) : plane3 (T N) :=
  PL3 (if i =? 0 then V3 n (n0 N) (n0 N) else if i =? 1 then V3 (n0 N) n (n0 N) else V3 (n0 N) (n0 N) n) d.
Definition clip3_dropped (p : pol) (planes : list (plane3 (T N))) : res pol :=
  let* (q, _) := r3d_clip N MX p planes in OK q.
Definition r3d_clamp_ibox (p : pol) (ibox cb : box) (d : rvec3 (T N)) : res (pol * box) :=
  clamp_ibox N 3 pol (plane3 (T N)) mkpl3 clip3_dropped (fun p => PY (vb p) 0) 6 p ibox cb (dget3 d).
End V3.
