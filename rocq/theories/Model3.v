(** * Model3: executable model of [src/r3d.c] and of [r3d_split_coord] in [src/v3d.c]

    Same representation as in Model2 (r3d.h:59-104): [r3d_poly] is a vertex
    buffer of [R3D_MAX_VERTS] vertices with three neighbour slots each, and a
    count.  Entries at or past the count are arbitrary.  The buffer size is the
    parameter [MX].  Slots 1 and 2 of a vertex that was just inserted hold whatever
    the buffer held before; the walk that links the new vertices reads slot 1 of
    its last vertex but does not use the value. *)

From Coq Require Import ZArith List Bool.
From Verif Require Import Base ModelCommon.
Import ListNotations.
Open Scope Z_scope.

(** r3d.h:59-67 [r3d_rvec3]. *)
Record rvec3 (A : Type) := V3 { x3 : A; y3 : A; z3 : A }.
Arguments V3 {A}. Arguments x3 {A}. Arguments y3 {A}. Arguments z3 {A}.

(** r3d.h:83-87 [r3d_plane]. *)
Record plane3 (A : Type) := PL3 { n3 : rvec3 A; d3 : A }.
Arguments PL3 {A}. Arguments n3 {A}. Arguments d3 {A}.

Section R3D.
Variable N : num.
Variable MX : Z.                       (* R3D_MAX_VERTS, r3d.h:102 *)
Notation real := (T N).
Notation "a + b" := (nadd N a b) : num_scope.
Notation "a - b" := (nsub N a b) : num_scope.
Notation "a * b" := (nmul N a b) : num_scope.
Notation "a / b" := (ndiv N a b) : num_scope.
Notation "- a" := (nopp N a) : num_scope.
Notation "a <? b" := (nlt N a b) : num_scope.
Notation "a <=? b" := (nle N a b) : num_scope.

Notation rv := (rvec3 real).
Notation plane := (plane3 real).
Notation buf := (vbuf rv).
Notation pol := (poly rv).
Notation rd_nb := (rd_nb MX 3).
Notation wr_nb := (wr_nb MX 3).
Notation rd_ps := (rd_ps MX).
Notation wr_ps := (wr_ps MX).
Notation compress_body := (compress_body MX).
Notation split_copy_body := (split_copy_body MX).
Notation reindex_body := (reindex_loop MX 3).

(** r3d.c:28 macro [dot]. *)
Definition dot3 (a b : rv) : real := (x3 a * x3 b + y3 a * y3 b + z3 a * z3 b)%num.

(** r3d.c:29-34 macro [wav]; also v3d.c:50-54. *)
Definition wav3 (va : rv) (wa : real) (vb : rv) (wb : real) : rv :=
  V3 ((wa * x3 va + wb * x3 vb) / (wa + wb))%num
     ((wa * y3 va + wb * y3 vb) / (wa + wb))%num
     ((wa * z3 va + wb * z3 vb) / (wa + wb))%num.

(** r3d.c:35-41 macro [norm]. *)
Definition norm3 (v : rv) : rv :=
  let tmplen := nsqrt N (dot3 v v) in
  V3 (x3 v / (tmplen + ntiny N))%num (y3 v / (tmplen + ntiny N))%num
     (z3 v / (tmplen + ntiny N))%num.

(** [for (np = 0; np < 3; ++np) if (vertbuffer[v].pnbrs[np] == w) break;] as at
    r3d.c:101-102, 202-203, 216-217, 307-308, 368-369 and v3d.c:179-180, 192; the
    value of [np] afterwards (3 when no slot matches). *)
Definition find_slot (b : buf) (v w : Z) : res Z :=
  let* a := rd_nb b v 0 in
  if a =? w then OK 0 else
  let* a := rd_nb b v 1 in
  if a =? w then OK 1 else
  let* a := rd_nb b v 2 in
  if a =? w then OK 2 else OK 3.

(** r3d.c:101-105 (also 216-220, 307-312, 368-373, v3d.c:192-195): from the
    directed edge [vcur -> vnext] to the next one of the same face; returns the
    new [vcur], [pnext] and [vnext]. *)
Definition next_edge (b : buf) (vcur vnext : Z) : res (Z * Z * Z) :=
  let* np := find_slot b vnext vcur in
  let vcur := vnext in
  let pnext := (np + 1) mod 3 in
  let* vnext := rd_nb b vcur pnext in
  OK (vcur, pnext, vnext).

(** r3d.c:97-110, loop body; the same at r3d.c:212-225 and v3d.c:188-199.  The
    do-while loop is allowed [3 * onv + 1] rounds. *)
Definition relink3_walk (b : buf) (onv : Z) (s : Z * Z) : res (Z * Z) :=
  dowhile (Z.to_nat (3 * onv) + 1)
    (fun s => let* (vcur, _, vnext) := next_edge b (fst s) (snd s) in
              OK ((vcur, vnext), vcur <? onv)) s.
Definition relink3_body (onv : Z) (vstart : Z) (b : buf) : res buf :=
  let* vnext := rd_nb b vstart 0 in
  let* (vcur, _) := relink3_walk b onv (vstart, vnext) in
  let* b := wr_nb b vstart 2 vcur in
  wr_nb b vcur 1 vstart.
Definition relink3 (onv nverts : Z) (b : buf) : res buf :=
  for_ onv nverts (relink3_body onv) b.

(** ** r3d_clip, r3d.c:44-133 *)

(** State of the signed-distance loop. *)
Record sdst3 := SD3 { sdists3 : Z -> option real; smin3 : real; smax3 : real; clipped3 : Z -> Z }.

(** r3d.c:68-73, loop body. *)
Definition clip3_sd_body (b : buf) (pl : plane) (v : Z) (s : sdst3) : res sdst3 :=
  let* p := rd_ps b v in
  let sd := (d3 pl + dot3 p (n3 pl))%num in
  let* sds := wr MX (sdists3 s) v (Some sd) in
  let mn := if (sd <? smin3 s)%num then sd else smin3 s in
  let mx := if (smax3 s <? sd)%num then sd else smax3 s in
  let* cl := (if (sd <? n0 N)%num then wr MX (clipped3 s) v 1 else OK (clipped3 s)) in
  OK (SD3 sds mn mx cl).

(** r3d.c:63-73. *)
Definition clip3_sd (b : buf) (onv : Z) (pl : plane) : res sdst3 :=
  for_ 0 onv (clip3_sd_body b pl)
    (SD3 (fun _ => None) (nbig N) (- nbig N)%num (fun _ => 0)).

(** r3d.c:85-99, body of the loop over [np].  The state carries a flag that
    turns false when [return 0] is reached; the remaining rounds do nothing. *)
Definition clip3_ins_np (sds : Z -> option real) (cl : Z -> Z) (vcur np : Z)
    (s : buf * Z * bool) : res (buf * Z * bool) :=
  let '(b, nverts, ok) := s in
  if negb ok then OK s else
  let* vnext := rd_nb b vcur np in
  let* c := rd MX cl vnext in
  if c =? 0 then OK s else
  if nverts =? MX then OK (b, nverts, false) else
  let* b := wr_nb b nverts 0 vcur in
  let* b := wr_nb b vcur np nverts in
  let* pc := rd_ps b vcur in
  let* sn := rdi MX sds vnext in
  let* pnx := rd_ps b vnext in
  let* sc := rdi MX sds vcur in
  let* b := wr_ps b nverts (wav3 pc (- sn)%num pnx sc) in
  OK (b, nverts + 1, true).

(** r3d.c:83-84, body of the loop over [vcur]. *)
Definition clip3_ins_v (sds : Z -> option real) (cl : Z -> Z) (vcur : Z)
    (s : buf * Z * bool) : res (buf * Z * bool) :=
  let* c := rd MX cl vcur in
  if c =? 0 then for_ 0 3 (clip3_ins_np sds cl vcur) s else OK s.

(** r3d.c:82-128: bisect edges, relink, compress, reindex; the flag is false when
    the function returns 0 from the middle of the insertion loop. *)
Definition clip3_cut (b : buf) (onv : Z) (sds : Z -> option real) (cl : Z -> Z) : res (pol * bool) :=
  let* (b, nverts, ok) := for_ 0 onv (clip3_ins_v sds cl) (b, onv, true) in
  if negb ok then OK (PY b nverts, false) else
  let* b := relink3 onv nverts b in
  let* p := (let* (b, cl, num) := for_ 0 nverts compress_body (b, cl, 0) in
             let* b := for_ 0 num (reindex_body cl) b in OK (PY b num)) in
  OK (p, true).

(** r3d.c:61-132: loop over planes; second component is the return value. *)
Fixpoint clip3_planes (planes : list plane) (p : pol) : res (pol * Z) :=
  match planes with
  | nil => OK (p, 1)
  | pl :: rest =>
    let* s := clip3_sd (vb p) (nv p) pl in
    if (n0 N <=? smin3 s)%num then clip3_planes rest p
    else if (smax3 s <=? n0 N)%num then OK (PY (vb p) 0, 1)
    else
      let* (p', ok) := clip3_cut (vb p) (nv p) (sdists3 s) (clipped3 s) in
      if ok : bool then clip3_planes rest p' else OK (p', 0)
  end.

(** r3d.c:44-133. *)
Definition r3d_clip (p : pol) (planes : list plane) : res (pol * Z) :=
  if nv p <=? 0 then OK (p, 0) else clip3_planes planes p.

(** ** r3d_split, r3d.c:135-251, and r3d_split_coord, v3d.c:126-216 *)

(** State of the side loop: signed distances, side flags, count. *)
Record sidest3 := SI3 { s3_sd : Z -> option real; s3_side : Z -> Z; s3_nright : Z }.

(** r3d.c:161-167, loop body. *)
Definition split3_sd_body (b : buf) (pl : plane) (v : Z) (s : sidest3) : res sidest3 :=
  let* p := rd_ps b v in
  let sd := (d3 pl + dot3 p (n3 pl))%num in
  let* sds := wr MX (s3_sd s) v (Some sd) in
  if (sd <? n0 N)%num then
    let* sd' := wr MX (s3_side s) v 1 in OK (SI3 sds sd' (s3_nright s + 1))
  else OK (SI3 sds (s3_side s) (s3_nright s)).

(** v3d.c:140-146, loop body; [ax] selects [pos.xyz[ax]]. *)
Definition vget3 (v : rv) (ax : Z) : res real :=
  if ax =? 0 then OK (x3 v) else if ax =? 1 then OK (y3 v)
  else if ax =? 2 then OK (z3 v) else Err OutOfBounds.
Definition split3_coord_sd_body (b : buf) (coord : real) (ax : Z) (v : Z) (s : sidest3)
    : res sidest3 :=
  let* p := rd_ps b v in
  let* c := vget3 p ax in
  let sd := (c - coord)%num in
  let* sds := wr MX (s3_sd s) v (Some sd) in
  if (n0 N <? sd)%num then
    let* sd' := wr MX (s3_side s) v 1 in OK (SI3 sds sd' (s3_nright s + 1))
  else OK (SI3 sds (s3_side s) (s3_nright s)).

(** r3d.c:185-207 and v3d.c:166-184, body of the loop over [np].  [chk] says
    whether the two tests [*nverts == R3D_MAX_VERTS] are present (they are in
    r3d_split, not in r3d_split_coord). *)
Definition split3_ins_np (chk : bool) (sds : Z -> option real) (vcur np : Z)
    (s : buf * (Z -> Z) * Z * bool) : res (buf * (Z -> Z) * Z * bool) :=
  let '(b, side, nverts, ok) := s in
  if negb ok then OK s else
  let* vnext := rd_nb b vcur np in
  let* c := rd MX side vnext in
  if c =? 0 then OK s else
  let* pc := rd_ps b vcur in
  let* sn := rdi MX sds vnext in
  let* pnx := rd_ps b vnext in
  let* sc := rdi MX sds vcur in
  let newpos := wav3 pc (- sn)%num pnx sc in
  if chk && (nverts =? MX) then OK (b, side, nverts, false) else
  let* b := wr_ps b nverts newpos in
  let* b := wr_nb b nverts 0 vcur in
  let* b := wr_nb b vcur np nverts in
  let nverts := nverts + 1 in
  if chk && (nverts =? MX) then OK (b, side, nverts, false) else
  let* b := wr_ps b nverts newpos in
  let* side := wr MX side nverts 1 in
  let* b := wr_nb b nverts 0 vnext in
  let* npnxt := find_slot b vnext vcur in
  let* b := wr_nb b vnext npnxt nverts in
  OK (b, side, nverts + 1, true).

(** r3d.c:183-184 and v3d.c:164-165, body of the loop over [vcur]. *)
Definition split3_ins_v (chk : bool) (sds : Z -> option real) (vcur : Z)
    (s : buf * (Z -> Z) * Z * bool) : res (buf * (Z -> Z) * Z * bool) :=
  let '(b, side, nverts, ok) := s in
  let* c := rd MX side vcur in
  if c =? 0 then for_ 0 3 (split3_ins_np chk sds vcur) s else OK s.

(** One iteration of the loop r3d.c:146-248: input polyhedron and the (stale)
    output polyhedra [out_pos[p]], [out_neg[p]], assumed not to overlap the input;
    returns the overwritten input, both outputs, and a flag that is false when the
    function returns 0 there. *)
Definition zero_poly3 : pol := PY (VB (fun _ _ => 0) (fun _ => V3 (n0 N) (n0 N) (n0 N))) 0.
Definition r3d_split1 (pl : plane) (p opos oneg : pol) : res ((pol * (pol * pol)) * bool) :=
  if nv p <=? 0 then OK ((p, (zero_poly3, zero_poly3)), true) else
  let* s := for_ 0 (nv p) (split3_sd_body (vb p) pl)
              (SI3 (fun _ => None) (fun _ => 0) 0) in
  if s3_nright s =? 0 then OK ((p, (p, zero_poly3)), true) else
  if s3_nright s =? nv p then OK ((p, (zero_poly3, p)), true) else
  let onv := nv p in
  let* (b, side, nverts, ok) :=
     for_ 0 onv (split3_ins_v true (s3_sd s)) (vb p, s3_side s, onv, true) in
  if negb ok then OK ((PY b nverts, (opos, oneg)), false) else
  let* b := relink3 onv nverts b in
  let* ((o0, o1), side) :=
     for_ 0 nverts (split_copy_body b) ((PY (vb opos) 0, PY (vb oneg) 0), side) in
  let* b0 := for_ 0 (nv o0) (reindex_body side) (vb o0) in
  let* b1 := for_ 0 (nv o1) (reindex_body side) (vb o1) in
  OK ((PY b nverts, (PY b0 (nv o0), PY b1 (nv o1))), true).

(** r3d.c:135-251: loop over the polyhedra; second component is the return value. *)
Fixpoint r3d_split (pl : plane) (ps : list (pol * (pol * pol)))
    : res (list (pol * (pol * pol)) * Z) :=
  match ps with
  | nil => OK (nil, 1)
  | (p, (opos, oneg)) :: rest =>
    let* (r, ok) := r3d_split1 pl p opos oneg in
    if ok : bool then
      let* (rs, st) := r3d_split pl rest in OK (r :: rs, st)
    else OK (r :: rest, 0)
  end.

(** v3d.c:203-207, loop body.  Output 0 *is* the input buffer (call site
    v3d.c:113-115), output 1 a different one. *)
Definition split3_coord_copy_body (v : Z) (s : (pol * pol) * (Z -> Z))
    : res ((pol * pol) * (Z -> Z)) :=
  let '((o0, o1), side) := s in split_copy_body (vb o0) v ((o0, o1), side).

(** v3d.c:126-216 with [outpolys[0]] = [inpoly]; returns both outputs. *)
Definition r3d_split_coord (p o1 : pol) (coord : real) (ax : Z) : res (pol * pol) :=
  if nv p <=? 0 then OK (p, o1) else
  let* s := for_ 0 (nv p) (split3_coord_sd_body (vb p) coord ax)
              (SI3 (fun _ => None) (fun _ => 0) 0) in
  if s3_nright s =? 0 then OK (p, PY (vb o1) 0) else
  if s3_nright s =? nv p then OK (PY (vb p) 0, p) else
  let onv := nv p in
  let* (b, side, nverts, _) :=
     for_ 0 onv (split3_ins_v false (s3_sd s)) (vb p, s3_side s, onv, true) in
  let* b := relink3 onv nverts b in
  let* ((o0, o1), side) :=
     for_ 0 nverts split3_coord_copy_body ((PY b 0, PY (vb o1) 0), side) in
  let* b0 := for_ 0 (nv o0) (reindex_body side) (vb o0) in
  let* b1 := for_ 0 (nv o1) (reindex_body side) (vb o1) in
  OK (PY b0 (nv o0), PY b1 (nv o1)).

(** ** r3d_reduce, r3d.c:253-402 *)

(** r3d.h:162 [R3D_NUM_MOMENTS]. *)
Definition num_moments3 (order : Z) : Z := (order + 1) * (order + 2) * (order + 3) / 6.

(** Two-layer coefficient arrays [S/D/C[polyorder+1][polyorder+1][2]],
    r3d.c:283-287. *)
Definition lay3 := Z -> Z -> Z -> option real.
Definition rd_l3 (po : Z) (a : lay3) (i j l : Z) : res real :=
  if inb (po + 1) i && inb (po + 1) j && inb 2 l
  then match a i j l with Some x => OK x | None => Err Uninit end else Err OutOfBounds.
Definition wr_l3 (po : Z) (a : lay3) (i j l : Z) (x : real) : res lay3 :=
  if inb (po + 1) i && inb (po + 1) j && inb 2 l
  then OK (upd a i (upd (a i) j (upd (a i j) l (Some x)))) else Err OutOfBounds.

(** Entry [(i,j)] of the current layer of one array from the previous layer:
    [X[i][j][cur] = 0; if(i>0) += fx(X[i-1][j][prev]); if(j>0) += fy(X[i][j-1][prev]);
    if(k>0) += fz(X[i][j][prev])].  The statements at r3d.c:341-360 do this for the
    three separate arrays C, D, S in an interleaved order; here one array is
    finished before the next. *)
Definition pyr (po : Z) (fx fy fz : real -> real) (cur prev i j k : Z) (a : lay3) : res lay3 :=
  let* a := wr_l3 po a i j cur (n0 N) in
  let* a := (if 0 <? i then
    let* x := rd_l3 po a i j cur in
    let* y := rd_l3 po a (i - 1) j prev in
    wr_l3 po a i j cur (x + fx y)%num else OK a) in
  let* a := (if 0 <? j then
    let* x := rd_l3 po a i j cur in
    let* y := rd_l3 po a i (j - 1) prev in
    wr_l3 po a i j cur (x + fy y)%num else OK a) in
  if 0 <? k then
    let* x := rd_l3 po a i j cur in
    let* y := rd_l3 po a i j prev in
    wr_l3 po a i j cur (x + fz y)%num else OK a.

(** r3d.c:361-362: [X[i][j][cur] += Y[i][j][cur]]. *)
Definition lay_add (po : Z) (cur i j : Z) (a c : lay3) : res lay3 :=
  let* x := rd_l3 po a i j cur in
  let* y := rd_l3 po c i j cur in
  wr_l3 po a i j cur (x + y)%num.

Record redst3 := RS3 { r3_S : lay3; r3_D : lay3; r3_C : lay3; r3_m : Z; r3_mom : Z -> real;
                       r3_prev : Z; r3_cur : Z }.

(** r3d.c:338-364, innermost body: entry [(i,j)] of order [corder]; the loops run
    [i = corder .. 0], [j = corder - i .. 0]. *)
Definition pyrv (po : Z) (v : rv) (cur prev i j k : Z) (a : lay3) : res lay3 :=
  pyr po (nmul N (x3 v)) (nmul N (y3 v)) (nmul N (z3 v)) cur prev i j k a.
Definition reduce3_ij (po : Z) (v0 v1 v2 : rv) (sixv : real) (corder i j : Z) (s : redst3) : res redst3 :=
  let k := (corder - i - j)%Z in
  let* c := pyrv po v2 (r3_cur s) (r3_prev s) i j k (r3_C s) in
  let* d := pyrv po v1 (r3_cur s) (r3_prev s) i j k (r3_D s) in
  let* e := pyrv po v0 (r3_cur s) (r3_prev s) i j k (r3_S s) in
  let* d := lay_add po (r3_cur s) i j d c in
  let* e := lay_add po (r3_cur s) i j e d in
  let* a := rd_l3 po e i j (r3_cur s) in
  let* q := rd (num_moments3 po) (r3_mom s) (r3_m s) in
  let* mom := wr (num_moments3 po) (r3_mom s) (r3_m s) (q + sixv * a)%num in
  OK (RS3 e d c (r3_m s + 1) mom (r3_prev s) (r3_cur s)).
Definition loop_ij {St} (corder : Z) (body : Z -> Z -> St -> res St) (s : St) : res St :=
  for_ 0 (corder + 1) (fun t =>
    let i := corder - t in
    for_ 0 (corder - i + 1) (fun u => let j := corder - i - u in body i j)) s.

(** r3d.c:336-367, one order. *)
Definition reduce3_order (po : Z) (v0 v1 v2 : rv) (sixv : real) (corder : Z) (s : redst3) : res redst3 :=
  let* s := loop_ij corder (reduce3_ij po v0 v1 v2 sixv corder) s in
  OK (RS3 (r3_S s) (r3_D s) (r3_C s) (r3_m s) (r3_mom s) (1 - r3_prev s) (1 - r3_cur s)).

(** r3d.c:322-323. *)
Definition sixv3 (v0 v1 v2 : rv) : real :=
  (- x3 v2 * y3 v1 * z3 v0 + x3 v1 * y3 v2 * z3 v0 + x3 v2 * y3 v0 * z3 v1 -
   x3 v0 * y3 v2 * z3 v1 - x3 v1 * y3 v0 * z3 v2 + x3 v0 * y3 v1 * z3 v2)%num.

(** r3d.c:310-367: one triangle of the fan. *)
Definition reduce3_tri (po : Z) (v0 v1 v2 : rv) (s : redst3) : res redst3 :=
  let sixv := sixv3 v0 v1 v2 in
  let* e := wr_l3 po (r3_S s) 0 0 (r3_prev s) (n1 N) in
  let* d := wr_l3 po (r3_D s) 0 0 (r3_prev s) (n1 N) in
  let* c := wr_l3 po (r3_C s) 0 0 (r3_prev s) (n1 N) in
  let* q := rd (num_moments3 po) (r3_mom s) 0 in
  let* mom := wr (num_moments3 po) (r3_mom s) 0 (q + nsixth N * sixv)%num in
  for_ 1 (po + 1) (reduce3_order po v0 v1 v2 sixv) (RS3 e d c 1 mom (r3_prev s) (r3_cur s)).

Definition vsub3 (a b : rv) : rv := V3 (x3 a - x3 b)%num (y3 a - y3 b)%num (z3 a - z3 b)%num.
Definition shifted3 (shift : option rv) (v : rv) : rv :=
  match shift with Some c => vsub3 v c | None => v end.

(** State of the face loops: edge marks [emarks[nverts][3]] and the rest. *)
Definition rd_em (n : Z) (e : Z -> Z -> Z) (v p : Z) : res Z :=
  if inb n v && inb 3 p then OK (e v p) else Err OutOfBounds.
Definition wr_em (n : Z) (e : Z -> Z -> Z) (v p : Z) : res (Z -> Z -> Z) :=
  if inb n v && inb 3 p then OK (upd e v (upd (e v) p 1)) else Err OutOfBounds.

(** r3d.c:312-375: the fan loop [while (vnext != vstart)]; state [(vcur, vnext)],
    marks and moments.  [3 * nverts] rounds are allowed. *)
Definition fan_body (po : Z) (shift : option rv) (b : buf) (n : Z) (v0 : rv)
    (s : (Z * Z) * (Z -> Z -> Z) * redst3) : res ((Z * Z) * (Z -> Z -> Z) * redst3) :=
  let '((vcur, vnext), em, r) := s in
  let* v2 := rd_ps b vcur in
  let* v1 := rd_ps b vnext in
  let* r := reduce3_tri po v0 (shifted3 shift v1) (shifted3 shift v2) r in
  let* (vcur, pnext, vnext) := next_edge b vcur vnext in
  let* em := wr_em n em vcur pnext in
  OK ((vcur, vnext), em, r).

(** r3d.c:292-376, body of the loop over [pstart]; [shift] is [Some vc] when
    compiled with SHIFT_POLY. *)
Definition face_body (po : Z) (shift : option rv) (b : buf) (n vstart pstart : Z)
    (s : (Z -> Z -> Z) * redst3) : res ((Z -> Z -> Z) * redst3) :=
  let '(em, r) := s in
  let* m := rd_em n em vstart pstart in
  if negb (m =? 0) then OK s else
  let* em := wr_em n em vstart pstart in
  let* vnext := rd_nb b vstart pstart in
  let* v0 := rd_ps b vstart in
  let* (vcur, pnext, vnext) := next_edge b vstart vnext in
  let* em := wr_em n em vcur pnext in
  let* (_, em, r) := while_ (Z.to_nat (3 * n)) (fun s => negb (snd (fst (fst s)) =? vstart))
     (fan_body po shift b n (shifted3 shift v0)) ((vcur, vnext), em, r) in
  OK (em, r).

(** r3d.c:381-388, innermost body. *)
Definition multi_ij (po corder i j : Z) (s : redst3) : res redst3 :=
  let k := (corder - i - j)%Z in
  let* c := pyr po (fun a => a) (fun a => a) (fun a => a) (r3_cur s) (r3_prev s) i j k (r3_C s) in
  let* a := rd_l3 po c i j (r3_cur s) in
  let* q := rd (num_moments3 po) (r3_mom s) (r3_m s) in
  let* mom := wr (num_moments3 po) (r3_mom s) (r3_m s)
      (q / (a * nofZ N (corder + 1)%Z * nofZ N (corder + 2)%Z * nofZ N (corder + 3)%Z))%num in
  OK (RS3 (r3_S s) (r3_D s) c (r3_m s + 1) mom (r3_prev s) (r3_cur s)).

(** r3d.c:380-394, one order. *)
Definition multi_order (po corder : Z) (s : redst3) : res redst3 :=
  let* s := loop_ij corder (multi_ij po corder) s in
  OK (RS3 (r3_S s) (r3_D s) (r3_C s) (r3_m s) (r3_mom s) (1 - r3_prev s) (1 - r3_cur s)).

(** r3d.c:452-475 [r3d_poly_center]. *)
Definition r3d_poly_center (p : pol) : res rv :=
  let* s := for_ 0 (nv p) (fun vcur vc =>
     let* q := rd_ps (vb p) vcur in
     OK (V3 (x3 vc + x3 q)%num (y3 vc + y3 q)%num (z3 vc + z3 q)%num))
     (V3 (n0 N) (n0 N) (n0 N)) in
  OK (V3 (x3 s / nofZ N (nv p))%num (y3 s / nofZ N (nv p))%num (z3 s / nofZ N (nv p))%num).

(** r3d.c:414-423: Pascal's triangle [B[polyorder+1][polyorder+1]]. *)
Definition rd_b3 (po : Z) (a : Z -> Z -> option real) (i k : Z) : res real :=
  if inb (po + 1) i && inb (po + 1) k
  then match a i k with Some x => OK x | None => Err Uninit end else Err OutOfBounds.
Definition wr_b3 (po : Z) (a : Z -> Z -> option real) (i k : Z) (x : real)
    : res (Z -> Z -> option real) :=
  if inb (po + 1) i && inb (po + 1) k
  then OK (upd a i (upd (a i) k (Some x))) else Err OutOfBounds.
Definition pascal3_body (po corder t : Z) (B : Z -> Z -> option real) :=
  let i := corder - t in
  let j := corder - i in
  let* B := wr_b3 po B i corder (n1 N) in
  if (0 <? i) && (0 <? j) then
    let* a := rd_b3 po B i (corder - 1) in
    let* a' := rd_b3 po B (i - 1) (corder - 1) in
    wr_b3 po B i corder (a + a')%num
  else OK B.
Definition pascal3 (po : Z) : res (Z -> Z -> option real) :=
  let* B := wr_b3 po (fun _ _ => None) 0 0 (n1 N) in
  for_ 1 (po + 1) (fun corder => for_ 0 (corder + 1) (pascal3_body po corder)) B.

(** r3d.c:435-441, innermost body: state is ([mm], [moments2]). *)
Definition shift3_inner (po : Z) (B : Z -> Z -> option real) (mom : Z -> real) (vc : rv)
    (m i j k mcorder mi mj : Z) (s : Z * (Z -> real)) : res (Z * (Z -> real)) :=
  let '(mm, mom2) := s in
  let mk := (mcorder - mi - mj)%Z in
  if (mi <=? i) && (mj <=? j) && (mk <=? k) then
    let* b1 := rd_b3 po B mi i in
    let* b2 := rd_b3 po B mj j in
    let* b3 := rd_b3 po B mk k in
    let* q := rd (num_moments3 po) mom mm in
    let* a := rd (num_moments3 po) mom2 m in
    let* mom2 := wr (num_moments3 po) mom2 m
       (a + b1 * b2 * b3 * npow N (x3 vc) (i - mi)%Z * npow N (y3 vc) (j - mj)%Z
            * npow N (z3 vc) (k - mk)%Z * q)%num in
    OK (mm + 1, mom2)
  else OK (mm + 1, mom2).

(** r3d.c:430-444, body for one (corder, i, j): state is (m, moments2). *)
Definition shift3_ij (po : Z) (B : Z -> Z -> option real) (mom : Z -> real) (vc : rv)
    (corder i j : Z) (s : Z * (Z -> real)) : res (Z * (Z -> real)) :=
  let '(m, mom2) := s in
  let k := (corder - i - j)%Z in
  let* (_, mom2) :=
    for_ 0 (corder + 1) (fun mcorder =>
      loop_ij mcorder (shift3_inner po B mom vc m i j k mcorder)) (0, mom2) in
  OK (m + 1, mom2).

(** r3d.c:404-450 [r3d_shift_moments]. *)
Definition r3d_shift_moments (mom : Z -> real) (po : Z) (vc : rv) : res (Z -> real) :=
  let* mom2 := for_ 0 (num_moments3 po)
     (fun m a => wr (num_moments3 po) a m (n0 N)) (fun _ => n0 N) in
  let* B := pascal3 po in
  let* (_, mom2) :=
    for_ 1 (po + 1) (fun corder => loop_ij corder (shift3_ij po B mom vc corder)) (1, mom2) in
  for_ 1 (num_moments3 po)
    (fun m a => let* x := rd (num_moments3 po) mom2 m in wr (num_moments3 po) a m x) mom.

(** r3d.c:253-402 [r3d_reduce]; [shifted] says whether SHIFT_POLY is defined.
    [mom] is the caller's array. *)
Definition r3d_reduce (shifted : bool) (p : pol) (mom : Z -> real) (po : Z) : res (Z -> real) :=
  let nm := num_moments3 po in
  let* mom := for_ 0 nm (fun m a => wr nm a m (n0 N)) mom in
  if nv p <=? 0 then OK mom else
  let* vc := (if shifted then let* c := r3d_poly_center p in OK (Some c) else OK None) in
  let none : lay3 := fun _ _ _ => None in
  let* (_, s) := for_ 0 (nv p) (fun vstart => for_ 0 3 (face_body po vc (vb p) (nv p) vstart))
     ((fun _ _ => 0), RS3 none none none 1 mom 0 1) in
  let* c := wr_l3 po (r3_C s) 0 0 (r3_prev s) (n1 N) in
  let* s := for_ 1 (po + 1) (multi_order po)
     (RS3 (r3_S s) (r3_D s) c 1 (r3_mom s) (r3_prev s) (r3_cur s)) in
  match vc with
  | None => OK (r3_mom s)
  | Some c => r3d_shift_moments (r3_mom s) po c
  end.

(** ** Small functions *)

(** Loop applying a function to every vertex position (the shape of
    r3d.c:583-643). *)
Definition map_pos3 (f : rv -> res rv) (p : pol) : res pol :=
  let* b := for_ 0 (nv p) (fun v b =>
     let* q := rd_ps b v in let* q := f q in wr_ps b v q) (vb p) in
  OK (PY b (nv p)).

(** write to [pos.xyz[ax]] *)
Definition vset3 (v : rv) (ax : Z) (x : real) : res rv :=
  if ax =? 0 then OK (V3 x (y3 v) (z3 v)) else if ax =? 1 then OK (V3 (x3 v) x (z3 v))
  else if ax =? 2 then OK (V3 (x3 v) (y3 v) x) else Err OutOfBounds.

(** r3d.c:583-595 [r3d_rotate]; [%] is C remainder. *)
Definition r3d_rotate (p : pol) (theta : real) (axis : Z) : res pol :=
  let sine := nsin N theta in let cosine := ncos N theta in
  let a1 := Z.rem (axis + 1) 3 in
  let a2 := Z.rem (axis + 2) 3 in
  map_pos3 (fun tmp =>
    let* t1 := vget3 tmp a1 in
    let* t2 := vget3 tmp a2 in
    let* q := vset3 tmp a1 (cosine * t1 - sine * t2)%num in
    vset3 q a2 (sine * t1 + cosine * t2)%num) p.

(** r3d.c:597-604 [r3d_translate]. *)
Definition r3d_translate (p : pol) (sh : rv) : res pol :=
  map_pos3 (fun q => OK (V3 (x3 q + x3 sh)%num (y3 q + y3 sh)%num (z3 q + z3 sh)%num)) p.

(** r3d.c:606-613 [r3d_scale]. *)
Definition r3d_scale (p : pol) (sc : real) : res pol :=
  map_pos3 (fun q => OK (V3 (x3 q * sc)%num (y3 q * sc)%num (z3 q * sc)%num)) p.

(** r3d.c:615-620 [r3d_shear]. *)
Definition r3d_shear (p : pol) (shear : real) (axb axs : Z) : res pol :=
  map_pos3 (fun q =>
    let* a := vget3 q axb in let* s := vget3 q axs in vset3 q axb (a + shear * s)%num) p.

(** r3d.c:622-643 [r3d_affine]; [mat r c] is [mat[r][c]]. *)
Definition r3d_affine (p : pol) (mat : Z -> Z -> real) : res pol :=
  map_pos3 (fun tmp =>
    let row r := (x3 tmp * mat r 0%Z + y3 tmp * mat r 1%Z + z3 tmp * mat r 2%Z + mat r 3%Z)%num in
    let w := row 3 in
    OK (V3 (row 0 / w)%num (row 1 / w)%num (row 2 / w)%num)) p.

(** r3d.c:645-668 [r3d_init_tet]; [p] is the uninitialised target. *)
Definition set_nbs (b : buf) (v a0 a1 a2 : Z) : res buf :=
  let* b := wr_nb b v 0 a0 in
  let* b := wr_nb b v 1 a1 in
  wr_nb b v 2 a2.
Definition r3d_init_tet (p : pol) (q0 q1 q2 q3 : rv) : res pol :=
  let* b := set_nbs (vb p) 0 1 3 2 in
  let* b := set_nbs b 1 2 3 0 in
  let* b := set_nbs b 2 0 3 1 in
  let* b := set_nbs b 3 1 2 0 in
  let* b := wr_ps b 0 q0 in
  let* b := wr_ps b 1 q1 in
  let* b := wr_ps b 2 q2 in
  let* b := wr_ps b 3 q3 in
  OK (PY b 4).

(** r3d.c:670-724 [r3d_init_box]. *)
Definition r3d_init_box (p : pol) (lo hi : rv) : res pol :=
  let* b := set_nbs (vb p) 0 1 4 3 in
  let* b := set_nbs b 1 2 5 0 in
  let* b := set_nbs b 2 3 6 1 in
  let* b := set_nbs b 3 0 7 2 in
  let* b := set_nbs b 4 7 0 5 in
  let* b := set_nbs b 5 4 1 6 in
  let* b := set_nbs b 6 5 2 7 in
  let* b := set_nbs b 7 6 3 4 in
  let* b := wr_ps b 0 (V3 (x3 lo) (y3 lo) (z3 lo)) in
  let* b := wr_ps b 1 (V3 (x3 hi) (y3 lo) (z3 lo)) in
  let* b := wr_ps b 2 (V3 (x3 hi) (y3 hi) (z3 lo)) in
  let* b := wr_ps b 3 (V3 (x3 lo) (y3 hi) (z3 lo)) in
  let* b := wr_ps b 4 (V3 (x3 lo) (y3 lo) (z3 hi)) in
  let* b := wr_ps b 5 (V3 (x3 hi) (y3 lo) (z3 hi)) in
  let* b := wr_ps b 6 (V3 (x3 hi) (y3 hi) (z3 hi)) in
  let* b := wr_ps b 7 (V3 (x3 lo) (y3 hi) (z3 hi)) in
  OK (PY b 8).

(** r3d.c:909-958 [r3d_tet_faces_from_verts]: the four normals are written out
    in the C code with different but corresponding operands. *)
Definition third3 (a b c : rv) : rv :=
  V3 (nthird N * (x3 a + x3 b + x3 c))%num (nthird N * (y3 a + y3 b + y3 c))%num
     (nthird N * (z3 a + z3 b + z3 c))%num.
Definition face_of (n c : rv) : plane := PL3 n (- (dot3 n c))%num.
Definition r3d_tet_faces_from_verts (a b c d : rv) : list plane :=
  [ face_of (norm3 (V3
      ((y3 d - y3 b) * (z3 c - z3 b) - (y3 c - y3 b) * (z3 d - z3 b))
      ((x3 c - x3 b) * (z3 d - z3 b) - (x3 d - x3 b) * (z3 c - z3 b))
      ((x3 d - x3 b) * (y3 c - y3 b) - (x3 c - x3 b) * (y3 d - y3 b)))%num) (third3 b c d);
    face_of (norm3 (V3
      ((y3 c - y3 a) * (z3 d - z3 c) - (y3 c - y3 d) * (z3 a - z3 c))
      ((x3 d - x3 c) * (z3 c - z3 a) - (x3 a - x3 c) * (z3 c - z3 d))
      ((x3 c - x3 a) * (y3 d - y3 c) - (x3 c - x3 d) * (y3 a - y3 c)))%num) (third3 c d a);
    face_of (norm3 (V3
      ((y3 b - y3 d) * (z3 a - z3 d) - (y3 a - y3 d) * (z3 b - z3 d))
      ((x3 a - x3 d) * (z3 b - z3 d) - (x3 b - x3 d) * (z3 a - z3 d))
      ((x3 b - x3 d) * (y3 a - y3 d) - (x3 a - x3 d) * (y3 b - y3 d)))%num) (third3 d a b);
    face_of (norm3 (V3
      ((y3 a - y3 c) * (z3 b - z3 a) - (y3 a - y3 b) * (z3 c - z3 a))
      ((x3 b - x3 a) * (z3 a - z3 c) - (x3 c - x3 a) * (z3 a - z3 b))
      ((x3 a - x3 c) * (y3 b - y3 a) - (x3 a - x3 b) * (y3 c - y3 a)))%num) (third3 a b c) ].

(** r3d.c:960-985 [r3d_box_faces_from_verts]. *)
Definition r3d_box_faces_from_verts (lo hi : rv) : list plane :=
  [ PL3 (V3 (n0 N) (n0 N) (n1 N)) (- z3 lo)%num;
    PL3 (V3 (n0 N) (n0 N) (- n1 N)%num) (z3 hi);
    PL3 (V3 (n0 N) (n1 N) (n0 N)) (- y3 lo)%num;
    PL3 (V3 (n0 N) (- n1 N)%num (n0 N)) (y3 hi);
    PL3 (V3 (n1 N) (n0 N) (n0 N)) (- x3 lo)%num;
    PL3 (V3 (- n1 N)%num (n0 N) (n0 N)) (x3 hi) ].

(** r3d.c:987-1028 [r3d_poly_faces_from_verts]: one face with vertices [vs];
    state ([centroid], [normal]). *)
Definition poly_face_body (vs : list rv) (v : Z) (s : rv * rv) : res (rv * rv) :=
  let '(c, n) := s in
  let m := Z.of_nat (length vs) in
  match nth_error vs (Z.to_nat v), nth_error vs (Z.to_nat ((v + 1) mod m)),
        nth_error vs (Z.to_nat ((v + 2) mod m)) with
  | Some p0, Some p1, Some p2 =>
    OK (V3 (x3 c + x3 p0)%num (y3 c + y3 p0)%num (z3 c + z3 p0)%num,
        V3 (x3 n + ((y3 p1 - y3 p0) * (z3 p2 - z3 p0) - (z3 p1 - z3 p0) * (y3 p2 - y3 p0)))%num
           (y3 n + ((z3 p1 - z3 p0) * (x3 p2 - x3 p0) - (x3 p1 - x3 p0) * (z3 p2 - z3 p0)))%num
           (z3 n + ((x3 p1 - x3 p0) * (y3 p2 - y3 p0) - (y3 p1 - y3 p0) * (x3 p2 - x3 p0)))%num)
  | _, _, _ => Err OutOfBounds
  end.
Definition poly_face (vs : list rv) : res plane :=
  let m := Z.of_nat (length vs) in
  let z := V3 (n0 N) (n0 N) (n0 N) in
  let* (c, n) := for_ 0 m (poly_face_body vs) (z, z) in
  let c := V3 (x3 c / nofZ N m)%num (y3 c / nofZ N m)%num (z3 c / nofZ N m)%num in
  OK (face_of (norm3 n) c).
(** the vertex array and the index lists [faceinds] are lists *)
Fixpoint lookup_all {A} (vs : list A) (is : list Z) : res (list A) :=
  match is with
  | nil => OK nil
  | i :: rest =>
    if inb (Z.of_nat (length vs)) i then
      match nth_error vs (Z.to_nat i) with
      | Some q => let* r := lookup_all vs rest in OK (q :: r)
      | None => Err OutOfBounds
      end
    else Err OutOfBounds
  end.
Fixpoint r3d_poly_faces_from_verts (vertices : list rv) (faceinds : list (list Z)) : res (list plane) :=
  match faceinds with
  | nil => OK nil
  | f :: rest =>
    let* vs := lookup_all vertices f in
    let* pl := poly_face vs in
    let* r := r3d_poly_faces_from_verts vertices rest in OK (pl :: r)
  end.

(** r3d.c:1030-1046 [r3d_orient]. *)
Definition r3d_orient (a b c d : rv) : real :=
  let ad := vsub3 a d in let bd := vsub3 b d in let cd := vsub3 c d in
  (- nsixth N *
   (x3 ad * (y3 bd * z3 cd - z3 bd * y3 cd) + x3 bd * (y3 cd * z3 ad - z3 cd * y3 ad) +
    x3 cd * (y3 ad * z3 bd - z3 ad * y3 bd)))%num.

End R3D.
