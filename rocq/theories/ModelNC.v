(** * ModelNC: executable model of [rNd_clip], [rNd_reduce] (src/rNd.c) and of the
    split and index-box routines of [src/vNd.c]

    [RND_DIM] is [D], [RND_MAX_VERTS] is [MX]; see ModelN. *)
From Coq Require Import ZArith List Bool.
From Verif Require Import Base ModelCommon ModelN ModelV.
Import ListNotations.
Open Scope Z_scope.

Section RNC.
Variable N : num.
Variable MX D : Z.
Notation real := (T N).
Notation "a + b" := (nadd N a b) : num_scope.
Notation "a - b" := (nsub N a b) : num_scope.
Notation "a * b" := (nmul N a b) : num_scope.
Notation "a / b" := (ndiv N a b) : num_scope.
Notation "a <? b" := (nlt N a b) : num_scope.
Notation "a <=? b" := (nle N a b) : num_scope.
Notation rv := (Z -> real).
Notation buf := (vbuf rv).
Notation fds := (Z -> Z -> Z -> Z).
Notation rd_nb := (rd_nb MX D).
Notation wr_nb := (wr_nb MX D).
Notation rd_ps := (rd_ps MX).
Notation wr_ps := (wr_ps MX).
Notation rd_xyz := (rd_xyz N MX D).
Notation wr_xyz := (wr_xyz N MX D).
Notation rd_fd := (rd_fd MX D).
Notation wr_fd := (wr_fd MX D).
Notation first_np := (first_np D).
Notation polyN := (polyN N).
Notation planeN := (planeN N).

(** ** [rNd_clip], rNd.c:26-171 *)

(** rNd.c:49-60: state ([sdists], [smin], [smax], [clipped]). *)
Record sdN := SDN { sdistsN : Z -> option real; sminN : real; smaxN : real; clippedN : Z -> Z }.
Definition clipN_sd_body (b : buf) (pl : planeN) (v : Z) (s : sdN) : res sdN :=
  let* sd := for_ 0 D (fun i sd => let* x := rd_xyz b v i in OK (sd + x * nN N pl i)%num) (dN N pl) in
  let* sds := wr MX (sdistsN s) v (Some sd) in
  let mn := if (sd <? sminN s)%num then sd else sminN s in
  let mx := if (smaxN s <? sd)%num then sd else smaxN s in
  let* cl := (if (sd <? n0 N)%num then wr MX (clippedN s) v 1 else OK (clippedN s)) in
  OK (SDN sds mn mx cl).
Definition clipN_sd (b : buf) (onv : Z) (pl : planeN) : res sdN :=
  for_ 0 onv (clipN_sd_body b pl) (SDN (fun _ => None) (nbig N) (nopp N (nbig N)) (fun _ => 0)).

(** rNd.c:78-80: position of a new vertex. *)
Definition insN_pos (sds : Z -> option real) (vcur vnext nverts : Z) (b : buf) : res buf :=
  for_ 0 D (fun i b =>
    let* pn := rd_xyz b vnext i in
    let* sc := rdi MX sds vcur in
    let* pc := rd_xyz b vcur i in
    let* sn := rdi MX sds vnext in
    wr_xyz b nverts i ((pn * sc - pc * sn) / (sc - sn))%num) b.
(** rNd.c:81-86: the 2-faces of the bisected edge; state ([finds], [np1]). *)
Definition insN_faces (vcur np nverts : Z) (fd : fds) : res (fds * Z) :=
  for_ 0 D (fun np0 s =>
    if Z.eqb np0 np then OK s else
    let '(fd, np1) := s in
    let* f := rd_fd fd vcur np np0 in
    let* fd := wr_fd fd nverts 0 np1 f in
    let* f := rd_fd fd vcur np np0 in
    let* fd := wr_fd fd nverts np1 0 f in
    OK (fd, Z.add np1 1)) (fd, 1).
(** rNd.c:90: the other neighbours, and 91-93: the other 2-faces, are unknown. *)
Definition insN_blank (nverts : Z) (b : buf) : res buf := for_ 1 D (fun np0 b => wr_nb b nverts np0 (-1)) b.
Definition insN_nofd (nverts : Z) (fd : fds) : res fds :=
  for_ 1 D (fun np0 => for_ 1 D (fun np1 fd => wr_fd fd nverts np0 np1 (-1))) fd.

(** rNd.c:73-95, body of the loop over [np]; state ([verts], [finds], [nverts]). *)
Definition insN_np (sds : Z -> option real) (cl : Z -> Z) (vcur np : Z) (s : buf * fds * Z) : res (buf * fds * Z) :=
  let '(b, fd, nverts) := s in
  let* vnext := rd_nb b vcur np in
  let* c := rd MX cl vnext in
  if Z.eqb c 0 then OK s else
  let* b := wr_nb b nverts 0 vcur in
  let* b := wr_nb b vcur np nverts in
  let* b := insN_pos sds vcur vnext nverts b in
  let* (fd, _) := insN_faces vcur np nverts fd in
  let* b := insN_blank nverts b in
  let* fd := insN_nofd nverts fd in
  OK (b, fd, Z.add nverts 1).
(** rNd.c:71-96. *)
Definition insN_v (sds : Z -> option real) (cl : Z -> Z) (vcur : Z) (s : buf * fds * Z) : res (buf * fds * Z) :=
  let* c := rd MX cl vcur in
  if Z.eqb c 0 then for_ 0 D (insN_np sds cl vcur) s else OK s.

(** rNd.c:113-122 and 144-153: join [vcur] to [prev] around the new 2-face [nf]. *)
Definition joinN (fcur fadj vcur prev nf : Z) (s : buf * fds) : res (buf * fds) :=
  let '(b, fd) := s in
  let* pprev := first_np 1 (fun k => let* x := rd_fd fd vcur 0 k in OK (Z.eqb x fcur)) in
  let* pnext := first_np 1 (fun k => let* x := rd_fd fd prev 0 k in OK (Z.eqb x fcur)) in
  let* np := first_np 1 (fun k => let* x := rd_fd fd vcur 0 k in OK (Z.eqb x fadj)) in
  let* b := wr_nb b vcur pprev prev in
  let* b := wr_nb b prev pnext vcur in
  let* fd := wr_fd fd vcur pprev np nf in
  let* fd := wr_fd fd vcur np pprev nf in
  OK (b, fd).

(** State of the walk around a 3-cell, rNd.c:106-143. *)
Record wst := WS { w_b : buf; w_fd : fds; w_prev : Z; w_cur : Z; w_f : Z; w_adj : Z; w_new : Z }.
(** rNd.c:112-129: at a new vertex, join it and turn back. *)
Definition turnN (onv nf : Z) (s : wst) : res wst :=
  if Z.ltb (w_cur s) onv then OK s else
  let* (b, fd) := joinN (w_f s) (w_adj s) (w_cur s) (w_new s) nf (w_b s, w_fd s) in
  let* c := rd_nb b (w_cur s) 0 in
  OK (WS b fd (w_cur s) c (w_adj s) (w_f s) (w_cur s)).
(** rNd.c:130-142: the next edge of the 2-face. *)
Definition stepN (s : wst) : res wst :=
  let b := w_b s in let fd := w_fd s in let v := w_cur s in
  let* pprev := first_np 0 (fun k => let* x := rd_nb b v k in OK (Z.eqb x (w_prev s))) in
  let* pnext := first_np 0 (fun k => if Z.eqb k pprev then OK false else
                   let* x := rd_fd fd v pprev k in OK (Z.eqb x (w_f s))) in
  let* np := first_np 0 (fun k => if Z.eqb k pprev then OK false else
                   let* x := rd_fd fd v k pprev in OK (Z.eqb x (w_adj s))) in
  let* fadj := rd_fd fd v np pnext in
  let* c := rd_nb b v pnext in
  OK (WS b fd v c (w_f s) fadj (w_new s)).
(** rNd.c:111-143: the do-while loop; [fuel] bounds the number of rounds. *)
Definition walkN (fuel : nat) (onv nf vstart : Z) (s : wst) : res wst :=
  dowhile fuel (fun s => let* s := turnN onv nf s in let* s := stepN s in
                         OK (s, negb (Z.eqb (w_cur s) vstart))) s.

(** rNd.c:105-154, body of the loops over [np0], [np1]; state ([verts], [finds], [nfaces]). *)
Definition closeN_pair (fuel : nat) (onv vstart np0 np1 : Z) (s : buf * fds * Z) : res (buf * fds * Z) :=
  let '(b, fd, nf) := s in
  let* x := rd_fd fd vstart np0 np1 in
  if Z.leb 0 x then OK s else
  let* fcur := rd_fd fd vstart 0 np0 in
  let* fadj := rd_fd fd vstart 0 np1 in
  let* vcur := rd_nb b vstart 0 in
  let* s := walkN fuel onv nf vstart (WS b fd vstart vcur fcur fadj vstart) in
  let* (b, fd) := joinN (w_f s) (w_adj s) (w_cur s) (w_new s) nf (w_b s, w_fd s) in
  OK (b, fd, Z.add nf 1).
(** rNd.c:102-155. *)
Definition closeN (fuel : nat) (onv nverts : Z) (s : buf * fds * Z) : res (buf * fds * Z) :=
  for_ onv nverts (fun vstart => for_ 1 D (fun np0 => for_ (Z.add np0 1) D (fun np1 =>
    closeN_pair fuel onv vstart np0 np1))) s.

(** rNd.c:160-165: compress; state ([verts], [finds], [clipped], [numunclipped]). *)
Definition compressN_body (v : Z) (s : buf * fds * (Z -> Z) * Z) : res (buf * fds * (Z -> Z) * Z) :=
  let '(b, fd, cl, num) := s in
  let* c := rd MX cl v in
  if Z.eqb c 0 then
    let* b := cp_vert MX b num b v in
    let* cl := wr MX cl v num in
    OK (b, upd fd num (fd v), cl, Z.add num 1)
  else OK s.

(** rNd.c:71-169: bisect edges, close off, compress, reindex. *)
Definition clipN_cut (fuel : nat) (p : polyN) (sds : Z -> option real) (cl : Z -> Z) : res polyN :=
  let onv := nvN N p in
  let* (b, fd, nverts) := for_ 0 onv (insN_v sds cl) (vbN N p, fdN N p, onv) in
  let* (b, fd, nf) := closeN fuel onv nverts (b, fd, nfN N p) in
  let* (b, fd, cl, num) := for_ 0 nverts compressN_body (b, fd, cl, 0) in
  let* b := for_ 0 num (reindex_loop MX D cl) b in
  OK (PN N b fd num nf).

(** rNd.c:46-170: loop over planes. *)
Fixpoint clipN_planes (fuel : nat) (planes : list planeN) (p : polyN) : res polyN :=
  match planes with
  | nil => OK p
  | pl :: rest =>
    let* s := clipN_sd (vbN N p) (nvN N p) pl in
    if (n0 N <=? sminN s)%num then clipN_planes fuel rest p
    else if (smaxN s <=? n0 N)%num then OK (PN N (vbN N p) (fdN N p) 0 (nfN N p))
    else let* p := clipN_cut fuel p (sdistsN s) (clippedN s) in clipN_planes fuel rest p
  end.
(** rNd.c:26-171. *)
Definition rNd_clip (fuel : nat) (p : polyN) (planes : list planeN) : res polyN :=
  if Z.leb (nvN N p) 0 then OK p else clipN_planes fuel planes p.

(** ** [rNd_reduce], rNd.c:175-315 *)

(** rNd.c:216-236: the next vector of the frame, orthogonalised against the first [d]
    and normalised; [ltd] is the array of vectors. *)
Definition frameN (b : buf) (v d w : Z) (ltd : Z -> rv) : res (Z -> rv) :=
  let* ltd := for_ 0 D (fun j ltd =>
     let* a := rd_xyz b v j in let* c := rd_xyz b w j in wr D ltd d (upd (ltd d) j (a - c)%num)) ltd in
  let* ltd := for_ 0 d (fun dd ltd =>
     let* dot := for_ 0 D (fun j t => let* a := rd D ltd d in let* c := rd D ltd dd in OK (t + a j * c j)%num) (n0 N) in
     for_ 0 D (fun j ltd => let* a := rd D ltd d in let* c := rd D ltd dd in
                wr D ltd d (upd a j (a j - dot * c j)%num)) ltd) ltd in
  let* len := for_ 0 D (fun j t => let* a := rd D ltd d in OK (t + a j * a j)%num) (n0 N) in
  let len := nsqrt N len in
  for_ 0 D (fun j ltd => let* a := rd D ltd d in wr D ltd d (upd a j (a j / len)%num)) ltd.
(** rNd.c:187-204: the term of a complete frame. *)
Definition ltd_term (b : buf) (v : Z) (ltd : Z -> rv) : res real :=
  for_ 0 D (fun dd t =>
    let* dot := for_ 0 D (fun j s => let* l := rd D ltd dd in let* x := rd_xyz b v j in OK (s + l j * x)%num) (n0 N) in
    OK (t * (n1 N * dot / nofZ N (Z.add dd 1)))%num) (n1 N).
(** rNd.c:175-250 [reduce_helper]; [k] is [RND_DIM - d].  The array [ltd] belongs to
    the caller, so it is returned. *)
Fixpoint reduce_helper (k : nat) (b : buf) (v : Z) (processed : Z -> Z) (ltd : Z -> rv) : res (real * (Z -> rv)) :=
  match k with
  | O => let* t := ltd_term b v ltd in OK (t, ltd)
  | Datatypes.S k' =>
    let d := Z.sub D (Z.of_nat k) in
    for_ 0 D (fun i s =>
      let '(sum, ltd) := s in
      let* pi := rd D processed i in
      if negb (Z.eqb pi 0) then OK (sum, ltd) else
      let* w := rd_nb b v i in
      let* ltd := frameN b v d w ltd in
      let* (t, ltd) := reduce_helper k' b v (upd processed i 1) ltd in
      OK ((sum + t)%num, ltd)) (n0 N, ltd)
  end.
(** rNd.c:252-278 [rNd_reduce]; only [moments[0]] is computed, [polyorder] is not
    used.  [ltd0] is the uninitialised local array. *)
Definition rNd_reduce (ltd0 : Z -> rv) (p : polyN) : res real :=
  for_ 0 (nvN N p) (fun v m =>
    let* (t, _) := reduce_helper (Z.to_nat D) (vbN N p) v (fun _ => 0) ltd0 in
    OK (m + t)%num) (n0 N).

(** ** vNd.c *)

(** vNd.c:140-152 [rNd_split]; [outpolys[0]] and [outpolys[1]] are the results. *)
Definition rNd_split (fuel : nat) (p : polyN) (coord : real) (ax : Z) : res (polyN * polyN) :=
  let mone := nopp N (n1 N) in
  let* o0 := rNd_clip fuel p [PLN N (upd (fun _ => n0 N) ax mone) coord] in
  let* o1 := rNd_clip fuel p [PLN N (upd (fun _ => n0 N) ax (mone * mone)%num) (coord * mone)%num] in
  OK (o0, o1).

(** vNd.c:248-265 [rNd_get_ibox]. *)
Definition rNd_get_ibox (p : polyN) (d : rv) (ibox : box) : res box :=
  get_ibox N D polyN (nvN N) rv (fun q i => rd D q i) (fun p => rd_ps (vbN N p)) p d ibox.

(** vNd.c:267-292 [rNd_clamp_ibox]; [boxfaces[6]] has six entries for every [D]. *)
Definition rNd_clamp_ibox (fuel : nat) (p : polyN) (ibox cb : box) (d : rv) : res (polyN * box) :=
  clamp_ibox N D polyN planeN (fun i n d => PLN N (upd (fun _ => n0 N) i n) d) (rNd_clip fuel)
    (fun p => PN N (vbN N p) (fdN N p) 0 (nfN N p)) 6 p ibox cb d.
End RNC.
