(** * ModelCommon: parts shared by [src/r2d.c], [src/v2d.c], [src/r3d.c], [src/v3d.c]

    Vertex buffers and the loops that are textually the same in 2D and 3D.
    [V] is the type of positions, [D] the number of neighbour slots. *)

From Coq Require Import ZArith List Bool.
From Verif Require Import Base.
Import ListNotations.
Open Scope Z_scope.

(** r2d.h:85-91 [r2d_vertex verts[]]: neighbours and positions. *)
Record vbuf (V : Type) := VB { nb : Z -> Z -> Z; ps : Z -> V }.
Arguments VB {V}. Arguments nb {V}. Arguments ps {V}.

(** r2d.h:93-100 [r2d_poly]. *)
Record poly (V : Type) := PY { vb : vbuf V; nv : Z }.
Arguments PY {V}. Arguments vb {V}. Arguments nv {V}.

(** Checked accesses [verts[v].pnbrs[np]], [verts[v].pos]; [D] is the number of
    neighbour slots (2 in r2d, 3 in r3d), [MX] the buffer size. *)
Section Acc.
Context {V : Type} (MX D : Z).
Definition rd_nb (b : vbuf V) (v np : Z) : res Z :=
  if inb MX v && inb D np then OK (nb b v np) else Err OutOfBounds.
Definition wr_nb (b : vbuf V) (v np x : Z) : res (vbuf V) :=
  if inb MX v && inb D np
  then OK (VB (upd (nb b) v (upd (nb b v) np x)) (ps b)) else Err OutOfBounds.
Definition rd_ps (b : vbuf V) (v : Z) : res V :=
  if inb MX v then OK (ps b v) else Err OutOfBounds.
Definition wr_ps (b : vbuf V) (v : Z) (x : V) : res (vbuf V) :=
  if inb MX v then OK (VB (nb b) (upd (ps b) v x)) else Err OutOfBounds.
(** struct copy [dst.verts[i] = src.verts[j]]. *)
Definition cp_vert (dst : vbuf V) (i : Z) (src : vbuf V) (j : Z) : res (vbuf V) :=
  if inb MX i && inb MX j
  then OK (VB (upd (nb dst) i (nb src j)) (upd (ps dst) i (ps src j)))
  else Err OutOfBounds.

(** r2d.c:108-113 and r3d.c:117-122, loop body. *)
Definition compress_body (v : Z) (s : vbuf V * (Z -> Z) * Z) : res (vbuf V * (Z -> Z) * Z) :=
  let '(b, cl, num) := s in
  let* c := rd MX cl v in
  if c =? 0 then
    let* b := cp_vert b num b v in
    let* cl := wr MX cl v num in
    OK (b, cl, num + 1)
  else OK (b, cl, num).

(** r2d.c:220-225, v2d.c:207-212, r3d.c:124-126, r3d.c:242-247, v3d.c:208-213,
    loop body with the inner loop over [np]. *)
Definition reindex_loop (side : Z -> Z) (v : Z) (b : vbuf V) : res (vbuf V) :=
  for_ 0 D (fun np b =>
    let* x := rd_nb b v np in
    let* c := rd MX side x in
    wr_nb b v np c) b.

(** r2d.c:209-218 and r3d.c:233-240, loop body: copy vertex [v] to the output of its side (the
    outputs are separate buffers). *)
Definition split_copy_body (src : vbuf V) (v : Z) (s : (poly V * poly V) * (Z -> Z))
    : res ((poly V * poly V) * (Z -> Z)) :=
  let '((o0, o1), side) := s in
  let* c := rd MX side v in
  if c =? 0 then
    let* b := cp_vert (vb o0) (nv o0) src v in
    let* side := wr MX side v (nv o0) in
    OK ((PY b (nv o0 + 1), o1), side)
  else if c =? 1 then
    let* b := cp_vert (vb o1) (nv o1) src v in
    let* side := wr MX side v (nv o1) in
    OK ((o0, PY b (nv o1 + 1)), side)
  else Err OutOfBounds.

End Acc.
