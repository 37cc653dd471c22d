(** * Model2: executable model of [src/r2d.c]

    Representation (r2d.h:60-99): [r2d_poly] is a vertex buffer of
    [R2D_MAX_VERTS] vertices and a count.  The array of structs is represented
    as a struct of arrays ([nb v np] for [verts[v].pnbrs[np]], [ps v] for
    [verts[v].pos]).  Entries at or past the count are arbitrary.  The buffer
    size is the parameter [MX] (256 in the code, r2d.h:97).  The number of planes
    or polygons passed by pointer and count is the length of a Coq list. *)

From Coq Require Import ZArith List Bool.
From Verif Require Import Base ModelCommon.
Import ListNotations.
Open Scope Z_scope.

(** r2d.h:57-64 [r2d_rvec2]. *)
Record rvec2 (A : Type) := V2 { vx : A; vy : A }.
Arguments V2 {A}. Arguments vx {A}. Arguments vy {A}.

(** r2d.h:77-83 [r2d_plane]. *)
Record plane2 (A : Type) := PL2 { pn : rvec2 A; pd : A }.
Arguments PL2 {A}. Arguments pn {A}. Arguments pd {A}.

Section R2D.
Variable N : num.
Variable MX : Z.                       (* R2D_MAX_VERTS, r2d.h:97 *)
Notation real := (T N).
Notation "a + b" := (nadd N a b) : num_scope.
Notation "a - b" := (nsub N a b) : num_scope.
Notation "a * b" := (nmul N a b) : num_scope.
Notation "a / b" := (ndiv N a b) : num_scope.
Notation "- a" := (nopp N a) : num_scope.
Notation "a <? b" := (nlt N a b) : num_scope.
Notation "a <=? b" := (nle N a b) : num_scope.

Notation rv := (rvec2 real).
Notation plane := (plane2 real).
Notation buf := (vbuf rv).
Notation pol := (poly rv).
Notation rd_nb := (rd_nb MX 2).
Notation wr_nb := (wr_nb MX 2).
Notation rd_ps := (rd_ps MX).
Notation wr_ps := (wr_ps MX).
Notation cp_vert := (cp_vert MX).
Notation compress_body := (compress_body MX).
Notation split_copy_body := (split_copy_body MX).
Notation split_reindex_body := (reindex_loop MX 2).

(** r2d.c:28 macro [dot]. *)
Definition dot2 (a b : rv) : real := (vx a * vx b + vy a * vy b)%num.

(** r2d.c:29-32 macro [wav]; also v2d.c:49-52. *)
Definition wav2 (va : rv) (wa : real) (vb : rv) (wb : real) : rv :=
  V2 ((wa * vx va + wb * vx vb) / (wa + wb))%num
     ((wa * vy va + wb * vy vb) / (wa + wb))%num.

(** r2d.c:33-37 macro [norm]. *)
Definition norm2 (v : rv) : rv :=
  let tmplen := nsqrt N (dot2 v v) in
  V2 (vx v / (tmplen + ntiny N))%num (vy v / (tmplen + ntiny N))%num.

(** ** r2d_clip, r2d.c:40-122 *)

(** State of the signed-distance loop, r2d.c:62-67. *)
Record sdst := SD { sdists : Z -> option real; smin : real; smax : real; clipped : Z -> Z }.

(** r2d.c:62-67, loop body. *)
Definition clip_sd_body (b : buf) (pl : plane) (v : Z) (s : sdst) : res sdst :=
  let* p := rd_ps b v in
  let sd := (pd pl + dot2 p (pn pl))%num in
  let* sds := wr MX (sdists s) v (Some sd) in
  let mn := if (sd <? smin s)%num then sd else smin s in
  let mx := if (smax s <? sd)%num then sd else smax s in
  let* cl := (if (sd <? n0 N)%num then wr MX (clipped s) v 1 else OK (clipped s)) in
  OK (SD sds mn mx cl).

(** r2d.c:57-67. *)
Definition clip_sd (b : buf) (onv : Z) (pl : plane) : res sdst :=
  for_ 0 onv (clip_sd_body b pl)
    (SD (fun _ => None) (nbig N) (- nbig N)%num (fun _ => 0)).

(** r2d.c:80-90, body of the loop over [np]. *)
Definition clip_ins_np (sds : Z -> option real) (cl : Z -> Z) (vcur np : Z)
    (s : buf * Z) : res (buf * Z) :=
  let '(b, nverts) := s in
  let* vnext := rd_nb b vcur np in
  let* c := rd MX cl vnext in
  if c =? 0 then OK (b, nverts) else
  let* b := wr_nb b nverts (1 - np) vcur in
  let* b := wr_nb b nverts np (-1) in
  let* b := wr_nb b vcur np nverts in
  let* pc := rd_ps b vcur in
  let* sn := rdi MX sds vnext in
  let* pnx := rd_ps b vnext in
  let* sc := rdi MX sds vcur in
  let* b := wr_ps b nverts (wav2 pc (- sn)%num pnx sc) in
  OK (b, nverts + 1).

(** r2d.c:78-79, body of the loop over [vcur]. *)
Definition clip_ins_v (sds : Z -> option real) (cl : Z -> Z) (vcur : Z)
    (s : buf * Z) : res (buf * Z) :=
  let* c := rd MX cl vcur in
  if c =? 0 then for_ 0 2 (clip_ins_np sds cl vcur) s else OK s.

(** r2d.c:98-100, the do-while walk.  [Z.to_nat onv + 1] rounds are allowed. *)
Definition relink_walk (b : buf) (onv : Z) (vcur : Z) : res Z :=
  dowhile (Z.to_nat onv + 1)
    (fun v => let* v' := rd_nb b v 0 in OK (v', v' <? onv)) vcur.

(** r2d.c:96-103, loop body; textually the same at r2d.c:195-202, v2d.c:186-193. *)
Definition relink_body (onv : Z) (vstart : Z) (b : buf) : res buf :=
  let* q := rd_nb b vstart 1 in
  if 0 <=? q then OK b else
  let* vcur := rd_nb b vstart 0 in
  let* vcur := relink_walk b onv vcur in
  let* b := wr_nb b vstart 1 vcur in
  wr_nb b vcur 0 vstart.

(** r2d.c:95-103. *)
Definition relink (onv nverts : Z) (b : buf) : res buf :=
  for_ onv nverts (relink_body onv) b.

(** r2d.c:115-118, loop body. *)
Definition reindex_body (cl : Z -> Z) (v : Z) (b : buf) : res buf :=
  let* x := rd_nb b v 0 in
  let* c := rd MX cl x in
  let* b := wr_nb b v 0 c in
  let* x := rd_nb b v 1 in
  let* c := rd MX cl x in
  wr_nb b v 1 c.

(** r2d.c:76-119: bisect edges, relink, compress, reindex. *)
Definition clip_cut (b : buf) (onv : Z) (sds : Z -> option real) (cl : Z -> Z) : res pol :=
  let* (b, nverts) := for_ 0 onv (clip_ins_v sds cl) (b, onv) in
  let* b := relink onv nverts b in
  let* (b, cl, num) := for_ 0 nverts compress_body (b, cl, 0) in
  let* b := for_ 0 num (reindex_body cl) b in
  OK (PY b num).

(** r2d.c:54-121: loop over planes. *)
Fixpoint clip_planes (planes : list plane) (p : pol) : res pol :=
  match planes with
  | nil => OK p
  | pl :: rest =>
    let* s := clip_sd (vb p) (nv p) pl in
    if (n0 N <=? smin s)%num then clip_planes rest p
    else if (smax s <=? n0 N)%num then OK (PY (vb p) 0)
    else
      let* p' := clip_cut (vb p) (nv p) (sdists s) (clipped s) in
      clip_planes rest p'
  end.

(** r2d.c:40-122. *)
Definition r2d_clip (p : pol) (planes : list plane) : res pol :=
  if nv p <=? 0 then OK p else clip_planes planes p.

(** ** r2d_split, r2d.c:124-227, and r2d_split_coord, v2d.c:128-215 *)

(** State of the side loop: signed distances, side flags, count. *)
Record sidest := SI { s_sd : Z -> option real; s_side : Z -> Z; s_nright : Z }.

(** r2d.c:156-163, loop body. *)
Definition split_sd_body (b : buf) (pl : plane) (v : Z) (s : sidest) : res sidest :=
  let* p := rd_ps b v in
  let sd := ((pd pl + dot2 p (pn pl)) * nofZ N (-1))%num in
  let* sds := wr MX (s_sd s) v (Some sd) in
  if (sd <? n0 N)%num then
    let* sd' := wr MX (s_side s) v 1 in OK (SI sds sd' (s_nright s + 1))
  else OK (SI sds (s_side s) (s_nright s)).

(** v2d.c:141-148, loop body; [ax] selects [pos.xy[ax]]. *)
Definition vget (v : rv) (ax : Z) : res real :=
  if ax =? 0 then OK (vx v) else if ax =? 1 then OK (vy v) else Err OutOfBounds.
Definition split_coord_sd_body (b : buf) (coord : real) (ax : Z) (v : Z) (s : sidest)
    : res sidest :=
  let* p := rd_ps b v in
  let* c := vget p ax in
  let sd := (c - coord)%num in
  let* sds := wr MX (s_sd s) v (Some sd) in
  if (n0 N <? sd)%num then
    let* sd' := wr MX (s_side s) v 1 in OK (SI sds sd' (s_nright s + 1))
  else OK (SI sds (s_side s) (s_nright s)).

(** r2d.c:169-188 and v2d.c:162-181, body of the loop over [np]. *)
Definition split_ins_np (sds : Z -> option real) (vcur np : Z)
    (s : buf * (Z -> Z) * Z) : res (buf * (Z -> Z) * Z) :=
  let '(b, side, nverts) := s in
  let* vnext := rd_nb b vcur np in
  let* c := rd MX side vnext in
  if c =? 0 then OK (b, side, nverts) else
  let* pc := rd_ps b vcur in
  let* sn := rdi MX sds vnext in
  let* pnx := rd_ps b vnext in
  let* sc := rdi MX sds vcur in
  let newpos := wav2 pc (- sn)%num pnx sc in
  let* b := wr_ps b nverts newpos in
  let* b := wr_nb b vcur np nverts in
  let* b := wr_nb b nverts np (-1) in
  let* b := wr_nb b nverts (1 - np) vcur in
  let nverts := nverts + 1 in
  let* side := wr MX side nverts 1 in
  let* b := wr_ps b nverts newpos in
  let* b := wr_nb b nverts (1 - np) (-1) in
  let* b := wr_nb b nverts np vnext in
  let* b := wr_nb b vnext (1 - np) nverts in
  OK (b, side, nverts + 1).

(** r2d.c:167-189 and v2d.c:160-182, body of the loop over [vcur]. *)
Definition split_ins_v (sds : Z -> option real) (vcur : Z)
    (s : buf * (Z -> Z) * Z) : res (buf * (Z -> Z) * Z) :=
  let '(b, side, nverts) := s in
  let* c := rd MX side vcur in
  if c =? 0 then for_ 0 2 (split_ins_np sds vcur) (b, side, nverts) else OK (b, side, nverts).

(** One iteration of the loop r2d.c:137-226: input polygon and the (stale)
    output polygons [out_pos[p]], [out_neg[p]], assumed not to overlap the input;
    returns the overwritten input and both outputs. *)
Definition zero_poly : pol := PY (VB (fun _ _ => 0) (fun _ => V2 (n0 N) (n0 N))) 0.
Definition r2d_split1 (pl : plane) (p opos oneg : pol) : res (pol * (pol * pol)) :=
  if nv p <=? 0 then OK (p, (zero_poly, zero_poly)) else
  let* s := for_ 0 (nv p) (split_sd_body (vb p) pl)
              (SI (fun _ => None) (fun _ => 0) 0) in
  if s_nright s =? 0 then OK (p, (p, PY (vb oneg) 0)) else
  if s_nright s =? nv p then OK (p, (PY (vb opos) 0, p)) else
  let onv := nv p in
  let* (b, side, nverts) := for_ 0 onv (split_ins_v (s_sd s)) (vb p, s_side s, onv) in
  let* b := relink onv nverts b in
  let* ((o0, o1), side) :=
     for_ 0 nverts (split_copy_body b) ((PY (vb opos) 0, PY (vb oneg) 0), side) in
  let* b0 := for_ 0 (nv o0) (split_reindex_body side) (vb o0) in
  let* b1 := for_ 0 (nv o1) (split_reindex_body side) (vb o1) in
  OK (PY b nverts, (PY b0 (nv o0), PY b1 (nv o1))).

(** r2d.c:124-227: loop over the polygons. *)
Fixpoint r2d_split (pl : plane) (ps : list (pol * (pol * pol)))
    : res (list (pol * (pol * pol))) :=
  match ps with
  | nil => OK nil
  | (p, (opos, oneg)) :: rest =>
    let* r := r2d_split1 pl p opos oneg in
    let* rs := r2d_split pl rest in OK (r :: rs)
  end.

(** v2d.c:197-205, loop body.  Output 0 *is* the input buffer (call site
    v2d.c:111-113), output 1 a different one. *)
Definition split_coord_copy_body (v : Z) (s : (pol * pol) * (Z -> Z))
    : res ((pol * pol) * (Z -> Z)) :=
  let '((o0, o1), side) := s in split_copy_body (vb o0) v ((o0, o1), side).

(** v2d.c:128-215 with [outpolys[0]] = [inpoly]; returns both outputs. *)
Definition r2d_split_coord (p o1 : pol) (coord : real) (ax : Z) : res (pol * pol) :=
  if nv p <=? 0 then OK (p, o1) else
  let* s := for_ 0 (nv p) (split_coord_sd_body (vb p) coord ax)
              (SI (fun _ => None) (fun _ => 0) 0) in
  if s_nright s =? 0 then OK (p, PY (vb o1) 0) else
  if s_nright s =? nv p then OK (PY (vb p) 0, p) else
  let onv := nv p in
  let* (b, side, nverts) := for_ 0 onv (split_ins_v (s_sd s)) (vb p, s_side s, onv) in
  let* b := relink onv nverts b in
  let* ((o0, o1), side) :=
     for_ 0 nverts split_coord_copy_body ((PY b 0, PY (vb o1) 0), side) in
  let* b0 := for_ 0 (nv o0) (split_reindex_body side) (vb o0) in
  let* b1 := for_ 0 (nv o1) (split_reindex_body side) (vb o1) in
  OK (PY b0 (nv o0), PY b1 (nv o1)).

(** ** r2d_reduce, r2d.c:229-322 *)

(** r2d.h:160 [R2D_NUM_MOMENTS]. *)
Definition num_moments2 (order : Z) : Z := (order + 1) * (order + 2) / 2.

(** Two-layer coefficient array [D[polyorder+1][2]], r2d.c:252-255. *)
Definition lay := Z -> Z -> option real.
Definition rd_l (po : Z) (a : lay) (i l : Z) : res real :=
  if inb (po + 1) i && inb 2 l
  then match a i l with Some x => OK x | None => Err Uninit end else Err OutOfBounds.
Definition wr_l (po : Z) (a : lay) (i l : Z) (x : real) : res lay :=
  if inb (po + 1) i && inb 2 l then OK (upd a i (upd (a i) l (Some x))) else Err OutOfBounds.

Record redst := RS { r_D : lay; r_C : lay; r_m : Z; r_mom : Z -> real;
                     r_prev : Z; r_cur : Z }.

(** r2d.c:284-298, inner loop body: entry [i] of order [corder]. *)
Definition reduce_i (po : Z) (v0 v1 : rv) (twoa : real) (corder t : Z) (s : redst) : res redst :=
  let i := corder - t in
  let j := corder - i in
  let* c := wr_l po (r_C s) i (r_cur s) (n0 N) in
  let* d := wr_l po (r_D s) i (r_cur s) (n0 N) in
  let* (c, d) :=
    (if 0 <? i then
      let* a := rd_l po c i (r_cur s) in
      let* a' := rd_l po c (i - 1) (r_prev s) in
      let* c := wr_l po c i (r_cur s) (a + vx v1 * a')%num in
      let* a := rd_l po d i (r_cur s) in
      let* a' := rd_l po d (i - 1) (r_prev s) in
      let* d := wr_l po d i (r_cur s) (a + vx v0 * a')%num in
      OK (c, d)
     else OK (c, d)) in
  let* (c, d) :=
    (if 0 <? j then
      let* a := rd_l po c i (r_cur s) in
      let* a' := rd_l po c i (r_prev s) in
      let* c := wr_l po c i (r_cur s) (a + vy v1 * a')%num in
      let* a := rd_l po d i (r_cur s) in
      let* a' := rd_l po d i (r_prev s) in
      let* d := wr_l po d i (r_cur s) (a + vy v0 * a')%num in
      OK (c, d)
     else OK (c, d)) in
  let* a := rd_l po d i (r_cur s) in
  let* a' := rd_l po c i (r_cur s) in
  let* d := wr_l po d i (r_cur s) (a + a')%num in
  let* a := rd_l po d i (r_cur s) in
  let* q := rd (num_moments2 po) (r_mom s) (r_m s) in
  let* mom := wr (num_moments2 po) (r_mom s) (r_m s) (q + twoa * a)%num in
  OK (RS d c (r_m s + 1) mom (r_prev s) (r_cur s)).

(** r2d.c:283-301, one order. *)
Definition reduce_order (po : Z) (v0 v1 : rv) (twoa : real) (corder : Z) (s : redst) : res redst :=
  let* s := for_ 0 (corder + 1) (reduce_i po v0 v1 twoa corder) s in
  OK (RS (r_D s) (r_C s) (r_m s) (r_mom s) (1 - r_prev s) (1 - r_cur s)).

(** r2d.c:259-302, one edge; [shift] is [Some vc] when compiled with SHIFT_POLY. *)
Definition vsub2 (a b : rv) : rv := V2 (vx a - vx b)%num (vy a - vy b)%num.
Definition reduce_edge (po : Z) (shift : option rv) (b : buf) (vcur : Z) (s : redst) : res redst :=
  let* vnext := rd_nb b vcur 0 in
  let* v0 := rd_ps b vcur in
  let* v1 := rd_ps b vnext in
  let v0 := match shift with Some c => vsub2 v0 c | None => v0 end in
  let v1 := match shift with Some c => vsub2 v1 c | None => v1 end in
  let twoa := (vx v0 * vy v1 - vy v0 * vx v1)%num in
  let* d := wr_l po (r_D s) 0 (r_prev s) (n1 N) in
  let* c := wr_l po (r_C s) 0 (r_prev s) (n1 N) in
  let* q := rd (num_moments2 po) (r_mom s) 0 in
  let* mom := wr (num_moments2 po) (r_mom s) 0 (q + nhalf N * twoa)%num in
  for_ 1 (po + 1) (reduce_order po v0 v1 twoa) (RS d c 1 mom (r_prev s) (r_cur s)).

(** r2d.c:307-313, inner loop body. *)
Definition binom_i (po : Z) (corder t : Z) (s : redst) : res redst :=
  let i := corder - t in
  let j := corder - i in
  let* c := wr_l po (r_C s) i (r_cur s) (n0 N) in
  let* c :=
    (if 0 <? i then
       let* a := rd_l po c i (r_cur s) in
       let* a' := rd_l po c (i - 1) (r_prev s) in
       wr_l po c i (r_cur s) (a + a')%num
     else OK c) in
  let* c :=
    (if 0 <? j then
       let* a := rd_l po c i (r_cur s) in
       let* a' := rd_l po c i (r_prev s) in
       wr_l po c i (r_cur s) (a + a')%num
     else OK c) in
  let* a := rd_l po c i (r_cur s) in
  let* q := rd (num_moments2 po) (r_mom s) (r_m s) in
  let* mom := wr (num_moments2 po) (r_mom s) (r_m s)
      (q / (a * nofZ N (corder + 1)%Z * nofZ N (corder + 2)%Z))%num in
  OK (RS (r_D s) c (r_m s + 1) mom (r_prev s) (r_cur s)).

(** r2d.c:306-316, one order. *)
Definition binom_order (po : Z) (corder : Z) (s : redst) : res redst :=
  let* s := for_ 0 (corder + 1) (binom_i po corder) s in
  OK (RS (r_D s) (r_C s) (r_m s) (r_mom s) (1 - r_prev s) (1 - r_cur s)).

(** r2d.c:369-389 [r2d_poly_center]. *)
Definition r2d_poly_center (p : pol) : res rv :=
  let* s := for_ 0 (nv p) (fun vcur vc =>
     let* q := rd_ps (vb p) vcur in
     OK (V2 (vx vc + vx q)%num (vy vc + vy q)%num)) (V2 (n0 N) (n0 N)) in
  OK (V2 (vx s / nofZ N (nv p))%num (vy s / nofZ N (nv p))%num).

(** r2d.c:334-344: Pascal's triangle [B[polyorder+1][polyorder+1]]. *)
Definition rd_b (po : Z) (a : Z -> Z -> option real) (i k : Z) : res real :=
  if inb (po + 1) i && inb (po + 1) k
  then match a i k with Some x => OK x | None => Err Uninit end else Err OutOfBounds.
Definition wr_b (po : Z) (a : Z -> Z -> option real) (i k : Z) (x : real)
    : res (Z -> Z -> option real) :=
  if inb (po + 1) i && inb (po + 1) k
  then OK (upd a i (upd (a i) k (Some x))) else Err OutOfBounds.
Definition pascal_body (po corder t : Z) (B : Z -> Z -> option real) :=
  let i := corder - t in
  let j := corder - i in
  let* B := wr_b po B i corder (n1 N) in
  if (0 <? i) && (0 <? j) then
    let* a := rd_b po B i (corder - 1) in
    let* a' := rd_b po B (i - 1) (corder - 1) in
    wr_b po B i corder (a + a')%num
  else OK B.
Definition pascal (po : Z) : res (Z -> Z -> option real) :=
  let* B := wr_b po (fun _ _ => None) 0 0 (n1 N) in
  for_ 1 (po + 1) (fun corder => for_ 0 (corder + 1) (pascal_body po corder)) B.

(** r2d.c:354-361, innermost body: state is ([mm], [moments2[m]] array). *)
Definition shift_inner (po : Z) (B : Z -> Z -> option real) (mom : Z -> real) (vc : rv)
    (m i j mcorder t : Z) (s : Z * (Z -> real)) : res (Z * (Z -> real)) :=
  let '(mm, mom2) := s in
  let mi := mcorder - t in
  let mj := mcorder - mi in
  if (mi <=? i) && (mj <=? j) then
    let* b1 := rd_b po B mi i in
    let* b2 := rd_b po B mj j in
    let* q := rd (num_moments2 po) mom mm in
    let* a := rd (num_moments2 po) mom2 m in
    let* mom2 := wr (num_moments2 po) mom2 m
       (a + b1 * b2 * npow N (vx vc) (i - mi)%Z * npow N (vy vc) (j - mj)%Z * q)%num in
    OK (mm + 1, mom2)
  else OK (mm + 1, mom2).

(** r2d.c:351-363, body for one (corder, i): state is (m, moments2). *)
Definition shift_i (po : Z) (B : Z -> Z -> option real) (mom : Z -> real) (vc : rv)
    (corder t : Z) (s : Z * (Z -> real)) : res (Z * (Z -> real)) :=
  let '(m, mom2) := s in
  let i := corder - t in
  let j := corder - i in
  let* (_, mom2) :=
    for_ 0 (corder + 1) (fun mcorder =>
      for_ 0 (mcorder + 1) (shift_inner po B mom vc m i j mcorder)) (0, mom2) in
  OK (m + 1, mom2).

(** r2d.c:324-367 [r2d_shift_moments]. *)
Definition r2d_shift_moments (mom : Z -> real) (po : Z) (vc : rv) : res (Z -> real) :=
  let* mom2 := for_ 0 (num_moments2 po)
     (fun m a => wr (num_moments2 po) a m (n0 N)) (fun _ => n0 N) in
  let* B := pascal po in
  let* (_, mom2) :=
    for_ 1 (po + 1) (fun corder => for_ 0 (corder + 1) (shift_i po B mom vc corder)) (1, mom2) in
  for_ 1 (num_moments2 po)
    (fun m a => let* x := rd (num_moments2 po) mom2 m in wr (num_moments2 po) a m x) mom.

(** r2d.c:229-322 [r2d_reduce]; [shifted] says whether SHIFT_POLY is defined.
    [mom] is the caller's array. *)
Definition r2d_reduce (shifted : bool) (p : pol) (mom : Z -> real) (po : Z) : res (Z -> real) :=
  let nm := num_moments2 po in
  let* mom := for_ 0 nm (fun m a => wr nm a m (n0 N)) mom in
  if nv p <=? 0 then OK mom else
  let* vc := (if shifted then let* c := r2d_poly_center p in OK (Some c) else OK None) in
  let* s := for_ 0 (nv p) (reduce_edge po vc (vb p))
     (RS (fun _ _ => None) (fun _ _ => None) 1 mom 0 1) in
  let* c := wr_l po (r_C s) 0 (r_prev s) (n1 N) in
  let* s := for_ 1 (po + 1) (binom_order po)
     (RS (r_D s) c 1 (r_mom s) (r_prev s) (r_cur s)) in
  match vc with
  | None => OK (r_mom s)
  | Some c => r2d_shift_moments (r_mom s) po c
  end.

(** ** Small functions *)

(** r2d.c:391-419 [r2d_is_good]; [None] is an early [return 0].  The indices
    [vct[pnbrs[..]]] are checked (negative links are out of bounds). *)
Definition is_good_body (p : pol) (v : Z) (s : option (Z -> Z)) : res (option (Z -> Z)) :=
  match s with
  | None => OK None
  | Some vct =>
    let* a := rd_nb (vb p) v 0 in
    let* b := rd_nb (vb p) v 1 in
    if a =? b then OK None else
    if nv p <=? a then OK None else
    if nv p <=? b then OK None else
    let* c := rd MX vct a in
    let* vct := wr MX vct a (c + 1) in
    let* c := rd MX vct b in
    let* vct := wr MX vct b (c + 1) in
    OK (Some vct)
  end.
Definition r2d_is_good (p : pol) : res Z :=
  let* s := for_ 0 (nv p) (is_good_body p) (Some (fun _ => 0)) in
  match s with
  | None => OK 0
  | Some vct =>
    let* ok := for_ 0 (nv p) (fun v ok =>
       let* c := rd MX vct v in OK (if c =? 2 then ok else false)) true in
    OK (if ok then 1 else 0)
  end.

(** Loop applying a function to every vertex position (the shape of
    r2d.c:421-472). *)
Definition map_pos (f : rv -> res rv) (p : pol) : res pol :=
  let* b := for_ 0 (nv p) (fun v b =>
     let* q := rd_ps b v in let* q := f q in wr_ps b v q) (vb p) in
  OK (PY b (nv p)).

(** r2d.c:421-431 [r2d_rotate]: both assignments go to [pos.x]. *)
Definition r2d_rotate (p : pol) (theta : real) : res pol :=
  let sine := nsin N theta in let cosine := ncos N theta in
  map_pos (fun tmp =>
    let q := V2 (cosine * vx tmp - sine * vy tmp)%num (vy tmp) in
    OK (V2 (sine * vx tmp + cosine * vy tmp)%num (vy q))) p.

(** r2d.c:433-439 [r2d_translate]. *)
Definition r2d_translate (p : pol) (sh : rv) : res pol :=
  map_pos (fun q => OK (V2 (vx q + vx sh)%num (vy q + vy sh)%num)) p.

(** r2d.c:441-447 [r2d_scale]. *)
Definition r2d_scale (p : pol) (sc : real) : res pol :=
  map_pos (fun q => OK (V2 (vx q * sc)%num (vy q * sc)%num)) p.

(** r2d.c:449-454 [r2d_shear]. *)
Definition vset (v : rv) (ax : Z) (x : real) : res rv :=
  if ax =? 0 then OK (V2 x (vy v)) else if ax =? 1 then OK (V2 (vx v) x) else Err OutOfBounds.
Definition r2d_shear (p : pol) (shear : real) (axb axs : Z) : res pol :=
  map_pos (fun q =>
    let* a := vget q axb in let* s := vget q axs in vset q axb (a + shear * s)%num) p.

(** r2d.c:456-472 [r2d_affine]; [mat r c] is [mat[r][c]]. *)
Definition r2d_affine (p : pol) (mat : Z -> Z -> real) : res pol :=
  map_pos (fun tmp =>
    let x := (vx tmp * mat 0%Z 0%Z + vy tmp * mat 0%Z 1%Z + mat 0%Z 2%Z)%num in
    let y := (vx tmp * mat 1%Z 0%Z + vy tmp * mat 1%Z 1%Z + mat 1%Z 2%Z)%num in
    let w := (vx tmp * mat 2%Z 0%Z + vy tmp * mat 2%Z 1%Z + mat 2%Z 2%Z)%num in
    OK (V2 (x / w)%num (y / w)%num)) p.

(** r2d.c:475-499 [r2d_init_box]; [p] is the uninitialised target. *)
Definition set_vert (b : buf) (v a0 a1 : Z) (x y : real) : res buf :=
  let* b := wr_nb b v 0 a0 in
  let* b := wr_nb b v 1 a1 in
  wr_ps b v (V2 x y).
Definition r2d_init_box (p : pol) (lo hi : rv) : res pol :=
  let* b := set_vert (vb p) 0 1 3 (vx lo) (vy lo) in
  let* b := set_vert b 1 2 0 (vx hi) (vy lo) in
  let* b := set_vert b 2 3 1 (vx hi) (vy hi) in
  let* b := set_vert b 3 0 2 (vx lo) (vy hi) in
  OK (PY b 4).

(** r2d.c:502-516 [r2d_init_poly]; the vertex array is a list of length
    [numverts]. *)
Definition r2d_init_poly (p : pol) (vertices : list rv) : res pol :=
  let n := Z.of_nat (length vertices) in
  let* b := for_ 0 n (fun v b =>
     match nth_error vertices (Z.to_nat v) with
     | None => Err OutOfBounds
     | Some q =>
       let* b := wr_ps b v q in
       let* b := wr_nb b v 0 ((v + 1) mod n) in
       wr_nb b v 1 ((n + v - 1) mod n)
     end) (vb p) in
  OK (PY b n).

(** r2d.c:519-524 [r2d_box_faces_from_verts]. *)
Definition r2d_box_faces_from_verts (lo hi : rv) : list plane :=
  [ PL2 (V2 (n0 N) (n1 N)) (vy lo);
    PL2 (V2 (n1 N) (n0 N)) (vx lo);
    PL2 (V2 (n0 N) (- n1 N)%num) (vy hi);
    PL2 (V2 (- n1 N)%num (n0 N)) (vx hi) ].

(** r2d.c:526-547 [r2d_poly_faces_from_verts], one face and all faces. *)
Definition edge_face (p0 p1 : rv) : plane :=
  let n := norm2 (V2 (vy p0 - vy p1)%num (vx p1 - vx p0)%num) in
  PL2 n (- (dot2 n p0))%num.
Definition r2d_poly_faces_from_verts (vertices : list rv) : list plane :=
  map (fun f => edge_face (nth f vertices (V2 (n0 N) (n0 N)))
                          (nth (Nat.modulo (f + 1) (length vertices)) vertices (V2 (n0 N) (n0 N))))
      (seq 0 (length vertices)).

(** r2d.c:549-551 [r2d_orient]. *)
Definition r2d_orient (pa pb pc : rv) : real :=
  (nhalf N * ((vx pa - vx pc) * (vy pb - vy pc) - (vx pb - vx pc) * (vy pa - vy pc)))%num.

End R2D.
