(** * ModelB: executable model of [r3d_init_poly] (src/r3d.c:726-907)

    The face description is given by [nfaces] (C: [numfaces]), [nvf f]
    ([numvertsperface[f]]) and [fi f k] ([faceinds[f][k]]); the caller's arrays are
    taken to be as long as these numbers say, so reading them is not checked.  Accesses
    to the local arrays and to the vertex buffer are.  The messages printed to
    [stderr] are not modelled. *)
From Coq Require Import ZArith List Bool.
From Verif Require Import Base ModelCommon Model3.
Import ListNotations.
Open Scope Z_scope.

Section IP.
Context {V : Type}.
Variable MX : Z.
Notation buf := (vbuf V).
Notation pol := (poly V).

Section Desc.
Variable nfaces : Z.
Variable nvf : Z -> Z.
Variable fi : Z -> Z -> Z.

(** r3d.c:739-746: [eperv], faces per vertex. *)
Definition ip_count : res (Z -> Z) :=
  for_ 0 nfaces (fun f => for_ 0 (nvf f) (fun v e =>
    let* c := rd MX e (fi f v) in wr MX e (fi f v) (c + 1))) (fun _ => 0).
(** r3d.c:747-750: ([minvperf], [maxvperf]). *)
Definition ip_minmax (numverts : Z) (eperv : Z -> Z) : res (Z * Z) :=
  for_ 0 numverts (fun v s =>
    let* c := rd MX eperv v in
    OK (if c <? fst s then c else fst s, if snd s <? c then c else snd s)) (MX, 0).

(** r3d.c:777-791 ([break] leaves the loop over [np]), for one vertex of a face. *)
Definition ip_find (b : buf) (vprev vcur vnext : Z) : res (option (Z * bool)) :=
  for_ 0 3 (fun np o =>
    match o with
    | Some _ => OK o
    | None =>
      let* x := rd_nb MX 3 b vcur np in
      OK (if x =? vprev then Some (np, true) else if x =? vnext then Some (np, false) else None)
    end) None.
Definition ip_corner (b : buf) (vprev vcur vnext : Z) : res buf :=
  let* o := ip_find b vprev vcur vnext in
  match o with
  | Some (np, true) => wr_nb MX 3 b vcur ((np + 2) mod 3) vnext
  | Some (np, false) => wr_nb MX 3 b vcur ((np + 1) mod 3) vprev
  | None =>
    let* b := wr_nb MX 3 b vcur 1 vprev in
    wr_nb MX 3 b vcur 0 vnext
  end.
(** r3d.c:763-793: every vertex is on three faces. *)
Definition ip_simple (b : buf) (vertices : Z -> V) (numverts : Z) : res buf :=
  let* b := for_ 0 numverts (fun v b =>
    let* b := wr_ps MX b v (vertices v) in
    for_ 0 3 (fun np b => wr_nb MX 3 b v np MX) b) b in
  for_ 0 nfaces (fun f => for_ 0 (nvf f) (fun v b =>
    ip_corner b (fi f v) (fi f ((v + 1) mod nvf f)) (fi f ((v + 2) mod nvf f)))) b.

(** r3d.c:811-829: [vbtmp], [vstart] and [nverts]; the first component becomes [None]
    at the early [return 0], which leaves [nverts] as counted so far.  The entries of
    [vstart] are uninitialised at first. *)
Definition ip_dup (t : buf) (vertices : Z -> V) (numverts : Z) (eperv : Z -> Z)
    : res (option (buf * (Z -> option Z)) * Z) :=
  for_ 0 numverts (fun v s =>
    match s with
    | (None, n) => OK (None, n)
    | (Some (t, vs), n) =>
      let* e := rd MX eperv v in
      if MX <? n + e then OK (None, n) else
      let* vs := wr MX vs v (Some n) in
      let* (t, n) := for_ 0 e (fun _ s =>
        let '(t, n) := s in
        let* t := wr_ps (3 * MX) t n (vertices v) in
        let* t := for_ 0 3 (fun np t => wr_nb (3 * MX) 3 t n np MX) t in
        OK (t, n + 1)) (t, n) in
      OK (Some (t, vs), n)
    end) (Some (t, (fun _ => None)), 0).

(** r3d.c:831-843: links of the duplicates to the original vertices; state ([vbtmp],
    [util]). *)
Definition ip_fill (vs : Z -> option Z) (t : buf) : res buf :=
  let* (t, _) := for_ 0 nfaces (fun f => for_ 0 (nvf f) (fun v s =>
    let '(t, ut) := s in
    let vprev := fi f v in
    let vcur := fi f ((v + 1) mod nvf f) in
    let vnext := fi f ((v + 2) mod nvf f) in
    let* s0 := rdi MX vs vcur in
    let* u := rd (3 * MX) ut vcur in
    let* ut := wr (3 * MX) ut vcur (u + 1) in
    let* t := wr_nb (3 * MX) 3 t (s0 + u) 1 vnext in
    let* t := wr_nb (3 * MX) 3 t (s0 + u) 2 vprev in
    OK (t, ut))) (t, (fun _ => 0)) in
  OK t.

(** r3d.c:847-858: link the duplicates of each vertex in a ring; state ([vbtmp],
    [util]). *)
Definition ip_ring_body (v0 v1 : Z) (s : buf * (Z -> Z)) : res (buf * (Z -> Z)) :=
  let '(t, ut) := s in
  let* a := rd_nb (3 * MX) 3 t v0 2 in
  let* c := rd_nb (3 * MX) 3 t v1 1 in
  if a =? c then
    let* u := rd (3 * MX) ut v0 in
    if u =? 0 then
      let* t := wr_nb (3 * MX) 3 t v0 2 v1 in
      let* t := wr_nb (3 * MX) 3 t v1 0 v0 in
      let* ut := wr (3 * MX) ut v0 1 in
      OK (t, ut)
    else OK s
  else OK s.
Definition ip_ring (numverts : Z) (vs : Z -> option Z) (eperv : Z -> Z) (t : buf) : res buf :=
  let* (t, _) := for_ 0 numverts (fun v s =>
    let* s0 := rdi MX vs v in
    let* e := rd MX eperv v in
    for_ s0 (s0 + e) (fun v0 => for_ s0 (s0 + e) (ip_ring_body v0)) s) (t, (fun _ => 0)) in
  OK t.

(** r3d.c:861-874: join the duplicates that belong to the two ends of an edge. *)
Definition ip_pair_body (v0 v1 v00 v11 : Z) (s : buf * (Z -> Z)) : res (buf * (Z -> Z)) :=
  let '(t, ut) := s in
  let* a := rd_nb (3 * MX) 3 t v00 1 in
  if a =? v1 then
    let* c := rd_nb (3 * MX) 3 t v11 1 in
    if c =? v0 then
      let* u0 := rd (3 * MX) ut v00 in
      let* u1 := rd (3 * MX) ut v11 in
      if (u0 =? 0) && (u1 =? 0) then
        let* t := wr_nb (3 * MX) 3 t v00 1 v11 in
        let* t := wr_nb (3 * MX) 3 t v11 1 v00 in
        let* ut := wr (3 * MX) ut v00 1 in
        let* ut := wr (3 * MX) ut v11 1 in
        OK (t, ut)
      else OK s
    else OK s
  else OK s.
Definition ip_pairs (numverts : Z) (vs : Z -> option Z) (eperv : Z -> Z) (t : buf) : res buf :=
  let* (t, _) := for_ 0 numverts (fun v0 => for_ (v0 + 1) numverts (fun v1 s =>
    let* s0 := rdi MX vs v0 in
    let* e0 := rd MX eperv v0 in
    let* s1 := rdi MX vs v1 in
    let* e1 := rd MX eperv v1 in
    for_ s0 (s0 + e0) (fun v00 => for_ s1 (s1 + e1) (ip_pair_body v0 v1 v00)) s)) (t, (fun _ => 0)) in
  OK t.

(** r3d.c:884-889: redirect the link of [w] that leads to [old]; [np] is 3 when there
    is none, and the write is then out of bounds. *)
Definition ip_redirect (t : buf) (w old new : Z) : res buf :=
  let* o := for_ 0 3 (fun np o =>
    match o with
    | Some _ => OK o
    | None => let* x := rd_nb (3 * MX) 3 t w np in OK (if x =? old then Some np else None)
    end) None in
  wr_nb (3 * MX) 3 t w (match o with Some np => np | None => 3 end) new.
(** r3d.c:876-892: take two duplicates of each vertex out; state ([vbtmp], [util]). *)
Definition ip_drop (numverts : Z) (vs : Z -> option Z) (t : buf) : res (buf * (Z -> Z)) :=
  for_ 0 numverts (fun v s =>
    let '(t, ut) := s in
    let rn := rd_nb (3 * MX) 3 in
    let* v0 := rdi MX vs v in
    let* v1 := rn t v0 0 in
    let* v00 := rn t v0 2 in
    let* v11 := rn t v1 0 in
    let* x := rn t v0 1 in
    let* t := wr_nb (3 * MX) 3 t v00 0 x in
    let* x := rn t v1 1 in
    let* t := wr_nb (3 * MX) 3 t v11 2 x in
    let* w := rn t v0 1 in
    let* t := ip_redirect t w v0 v00 in
    let* w := rn t v1 1 in
    let* t := ip_redirect t w v1 v11 in
    let* ut := wr (3 * MX) ut v0 1 in
    let* ut := wr (3 * MX) ut v1 1 in
    OK (t, ut)) (t, (fun _ => 0)).

(** r3d.c:894-904: copy what is left to the vertex buffer and renumber. *)
Definition ip_pack (b t : buf) (ut : Z -> Z) (n : Z) : res (buf * Z) :=
  let* (b, ut, num) := for_ 0 n (fun v s =>
    let '(b, ut, num) := s in
    let* u := rd (3 * MX) ut v in
    if u =? 0 then
      let* x := rd_ps (3 * MX) t v in
      let* b := wr_ps MX b num x in
      let* b := for_ 0 3 (fun np b => let* x := rd_nb (3 * MX) 3 t v np in wr_nb MX 3 b num np x) b in
      let* ut := wr (3 * MX) ut v num in
      OK (b, ut, num + 1)
    else OK s) (b, ut, 0) in
  let* b := for_ 0 num (fun v => for_ 0 3 (fun np b =>
    let* x := rd_nb MX 3 b v np in
    let* c := rd (3 * MX) ut x in
    wr_nb MX 3 b v np c)) b in
  OK (b, num).

(** r3d.c:726-907 [r3d_init_poly]; [p] is the target, [t] the uninitialised local
    buffer [vbtmp].  Result: the polyhedron and the return value. *)
Definition r3d_init_poly (p : pol) (t : buf) (vertices : Z -> V) (numverts : Z) : res (pol * Z) :=
  if MX <? numverts then OK (p, 0) else
  let* eperv := ip_count in
  let* (mn, mx) := ip_minmax numverts eperv in
  if mn <? 3 then OK (PY (vb p) 0, 0) else
  if mx =? 3 then
    let* b := ip_simple (vb p) vertices numverts in
    OK (PY b numverts, 1)
  else
    let* (o, n) := ip_dup t vertices numverts eperv in
    match o with
    | None => OK (PY (vb p) n, 0)
    | Some (t, vs) =>
      let* t := ip_fill vs t in
      let* t := ip_ring numverts vs eperv t in
      let* t := ip_pairs numverts vs eperv t in
      let* (t, ut) := ip_drop numverts vs t in
      let* (b, n) := ip_pack (vb p) t ut n in
      OK (PY b n, 1)
    end.
End Desc.
End IP.
