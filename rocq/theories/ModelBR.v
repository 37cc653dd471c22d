(** * ModelBR: executable model of [r3d_init_brep] and [r3d_free_brep]
    (src/r3d.c:1058-1298, 1326-1349; struct: src/r3d.h:386-393)

    Memory blocks have numbers.  The heap records which numbers are allocated; what a
    block contains is kept with the structure that points to it.  This loses nothing
    here: a block is only reached through the pointer it was returned in, except that
    [faceinds[i]] and [pbrep->faceinds[i]] are the same block, which is modelled by
    storing it after its last change.  [malloc] and [realloc] are taken to succeed and
    [realloc] to move the block.  The output of [r3d_print_brep] is not modelled. *)
From Coq Require Import ZArith List Bool.
From Verif Require Import Base ModelCommon Model3.
Import ListNotations.
Open Scope Z_scope.

(** the C heap: allocated blocks, next number *)
Record heap := HP { hlive : Z -> bool; hnext : Z }.
Definition malloc (h : heap) : Z * heap := (hnext h, HP (upd (hlive h) (hnext h) true) (hnext h + 1)).
Definition free (h : heap) (a : Z) : res heap :=
  if hlive h a then OK (HP (upd (hlive h) a false) (hnext h)) else Err InvalidFree.
Definition realloc (h : heap) (a : Z) : res (Z * heap) :=
  let* h := free h a in OK (malloc h).

(** first [i] in [lo .. hi-1] with [P i], otherwise [hi]: a C loop that ends in
    [break]. *)
Definition find_ (lo hi : Z) (P : Z -> res bool) : res Z :=
  let* o := for_ lo hi (fun i o =>
    match o with
    | Some _ => OK o
    | None => let* c := P i in OK (if c : bool then Some i else None)
    end) None in
  OK (match o with Some i => i | None => hi end).

Section BR.
Context {V : Type}.
(** the test [x == x' && y == y' && z == z'] on positions *)
Variable veq : V -> V -> bool.
Variable MX : Z.
Notation buf := (vbuf V).
Notation pol := (poly V).

(** One [int] block of a face: number, length and contents. *)
Record face := FC { f_blk : Z; f_len : Z; f_ind : Z -> option Z }.
(** r3d.h:386-393 [r3d_brep], with the contents of its blocks. *)
Record brep := BP {
  b_nv : Z; b_vblk : Z; b_vs : Z -> option V;
  b_nf : Z; b_pblk : Z; b_pf : Z -> option Z;
  b_fblk : Z; b_fi : Z -> option face }.

(** r3d.c:1069-1087: [vertex_map], an array of [nverts] entries. *)
Definition br_map (b : buf) (n : Z) : res (Z -> option Z) :=
  let* m := wr n (fun _ => None) 0 (Some 0) in
  for_ 1 n (fun i m =>
    let* x := rd_ps MX b i in
    let* y := rd_ps MX b (i - 1) in
    if veq x y then let* z := rdi n m (i - 1) in wr n m i (Some z)
    else wr n m i (Some i)) m.

(** State of the walk around a face: [vert_marked], [edge_marked], [vertincomponent],
    [numvertsincomponent], [vtmp], [nvkept], [vcur], [pedge]. *)
Record wst := WS { w_vm : Z -> Z; w_em : Z -> Z -> Z; w_vic : Z -> Z; w_nvc : Z;
                   w_tmp : Z -> option Z; w_kept : Z; w_cur : Z; w_pe : Z }.
(** [edge_marked[v][p]++] *)
Definition inc_em (e : Z -> Z -> Z) (v p : Z) : res (Z -> Z -> Z) :=
  let* x := rd_em MX e v p in
  if inb MX v && inb 3 p then OK (upd e v (upd (e v) p (x + 1))) else Err OutOfBounds.
(** r3d.c:1133-1174: one round of [while (1)]; the second result is [false] at the
    [break]. *)
Definition br_step (b : buf) (n : Z) (m : Z -> option Z) (vstart : Z) (s : wst) : res (wst * bool) :=
  let v := w_cur s in
  let* c := rd MX (w_vm s) v in
  let* vm := wr MX (w_vm s) v (c + 1) in
  let* em := inc_em (w_em s) v (w_pe s) in
  let* mv := rdi n m v in
  let* k := rd MX (w_vic s) mv in
  let nvc := if k =? 0 then w_nvc s + 1 else w_nvc s in
  let* vic := if k =? 0 then wr MX (w_vic s) mv 1 else OK (w_vic s) in
  let* vnext := rd_nb MX 3 b v (w_pe s) in
  let* mn := rdi n m vnext in
  let kept := if mv =? mn then w_kept s else w_kept s + 1 in
  let* tmp := if mv =? mn then OK (w_tmp s) else wr MX (w_tmp s) (w_kept s) (Some mv) in
  if vnext =? vstart then OK (WS vm em vic nvc tmp kept v (w_pe s), false)
  else
    let* np := find_ 0 3 (fun np => let* x := rd_nb MX 3 b vnext np in OK (x =? v)) in
    OK (WS vm em vic nvc tmp kept vnext ((np + 2) mod 3), true).

(** Locals that live across faces: [vert_marked], [edge_marked], [vtmp], the heap,
    [vstart], [pedge] and, within a component, [nf], [numvertsincomponent],
    [vertincomponent], [numvertsperface], [faceinds]. *)
Record cst := CS { c_vm : Z -> Z; c_em : Z -> Z -> Z; c_tmp : Z -> option Z; c_h : heap; c_vs : Z; c_pe : Z;
                   c_nf : Z; c_nvc : Z; c_vic : Z -> Z; c_npf : Z -> option Z; c_fi : Z -> option face }.
(** r3d.c:1122-1213: one face, and the search for the next; the second result is
    [nv < nverts]. *)
Definition br_face (fuel : nat) (b : buf) (n : Z) (m : Z -> option Z) (s : cst) : res (cst * bool) :=
  let* w := dowhile fuel (br_step b n m (c_vs s))
    (WS (c_vm s) (c_em s) (c_vic s) (c_nvc s) (c_tmp s) 0 (c_vs s) (c_pe s)) in
  let k := w_kept w in
  let '(blk, h) := malloc (c_h s) in
  let* pv := for_ 0 k (fun i pv => let* x := rdi MX (w_tmp w) i in wr k pv i (Some x)) (fun _ => None) in
  let* npf := wr MX (c_npf s) (c_nf s) (Some k) in
  let* fi := wr MX (c_fi s) (c_nf s) (Some (FC blk k pv)) in
  let* nv := find_ 0 n (fun v => let* c := rd MX (w_vm w) v in OK ((0 <? c) && (c <? 3))) in
  let* np := find_ 0 3 (fun np => let* e := rd_em MX (w_em w) nv np in OK (e =? 0)) in
  OK (CS (w_vm w) (w_em w) (w_tmp w) h nv np (c_nf s + 1) (w_nvc w) (w_vic w) npf fi, nv <? n).

(** r3d.c:1224-1251: the vertices of a component; state ([component_map], [vertices],
    [j]). *)
Definition br_verts (b : buf) (n nvc : Z) (vic : Z -> Z) : res ((Z -> Z) * (Z -> option V) * Z) :=
  for_ 0 n (fun i s =>
    let '(cm, vs, j) := s in
    let* c := rd MX vic i in
    if c =? 0 then OK s else
    let* cm := wr MX cm i j in
    let* x := rd_ps MX b i in
    let* vs := wr nvc vs j (Some x) in
    OK (cm, vs, j + 1)) ((fun _ => 0), (fun _ => None), 0).
(** r3d.c:1262-1273: copy the faces and renumber them; state
    ([pbrep->numvertsperface], [pbrep->faceinds]). *)
Definition br_faces (nf : Z) (npf : Z -> option Z) (fi : Z -> option face) (cm : Z -> Z)
    : res ((Z -> option Z) * (Z -> option face)) :=
  for_ 0 nf (fun i s =>
    let '(pf, pfi) := s in
    let* k := rdi MX npf i in
    let* pf := wr nf pf i (Some k) in
    let* fc := rdi MX fi i in
    let* ind := for_ 0 k (fun j ind =>
      let* x := rdi (f_len fc) ind j in
      let* y := rd MX cm x in
      wr (f_len fc) ind j (Some y)) (f_ind fc) in
    let* pfi := wr nf pfi i (Some (FC (f_blk fc) (f_len fc) ind)) in
    OK (pf, pfi)) ((fun _ => None), (fun _ => None)).

(** Locals that live across components: [vert_marked], [edge_marked], [vtmp],
    [numvertsperface], [faceinds], the heap, [vstart], [pedge], [breptmp] (block,
    contents, [ncmax]) and [nc]. *)
Record gst := GS { g_vm : Z -> Z; g_em : Z -> Z -> Z; g_tmp : Z -> option Z; g_npf : Z -> option Z; g_fi : Z -> option face;
                   g_h : heap; g_vs : Z; g_pe : Z; g_blk : Z; g_br : Z -> option brep; g_max : Z; g_nc : Z }.
(** r3d.c:1110-1291: one component; the second result is [np < nverts]. *)
Definition br_comp (fuel : nat) (b : buf) (n : Z) (m : Z -> option Z) (s : gst) : res (gst * bool) :=
  let* c := dowhile fuel (br_face fuel b n m)
    (CS (g_vm s) (g_em s) (g_tmp s) (g_h s) (g_vs s) (g_pe s) 0 0 (fun _ => 0) (g_npf s) (g_fi s)) in
  let* (blk, h, mx) :=
    if g_nc s =? g_max s then let* (a, h) := realloc (c_h c) (g_blk s) in OK (a, h, 2 * g_max s)
    else OK (g_blk s, c_h c, g_max s) in
  let '(vblk, h) := malloc h in
  let* (cm, vs, _) := br_verts b n (c_nvc c) (c_vic c) in
  let '(pblk, h) := malloc h in
  let '(fblk, h) := malloc h in
  let* (pf, fi) := br_faces (c_nf c) (c_npf c) (c_fi c) cm in
  let* br := wr mx (g_br s) (g_nc s) (Some (BP (c_nvc c) vblk vs (c_nf c) pblk pf fblk fi)) in
  let* np := find_ 0 n (fun np => let* x := rd MX (c_vm c) np in OK (x =? 0)) in
  OK (GS (c_vm c) (c_em c) (c_tmp c) (c_npf c) (c_fi c) h
        (if np <? n then np else c_vs c) (if np <? n then 0 else c_pe c)
        blk br mx (g_nc s + 1), np <? n).

(** What the caller gets: the array of breps ([*brep]: block, size, contents) and
    [*numcomponents]. *)
Record breps := BS { bs_blk : Z; bs_max : Z; bs_br : Z -> option brep; bs_nc : Z }.
(** r3d.c:1058-1298 [r3d_init_brep]; [fuel] bounds each of the three loops. *)
Definition r3d_init_brep (fuel : nat) (h : heap) (p : pol) : res (breps * heap) :=
  let n := nv p in
  let b := vb p in
  let* m := br_map b n in
  let '(blk, h) := malloc h in
  let* g := dowhile fuel (br_comp fuel b n m)
    (GS (fun _ => 0) (fun _ _ => 0) (fun _ => None) (fun _ => None) (fun _ => None) h 0 0 blk (fun _ => None) 2 0) in
  OK (BS (g_blk g) (g_max g) (g_br g) (g_nc g), g_h g).

(** r3d.c:1326-1349 [r3d_free_brep] *)
Definition r3d_free_brep (h : heap) (bs : breps) : res heap :=
  let* h := for_ 0 (bs_nc bs) (fun c h =>
    let* br := rdi (bs_max bs) (bs_br bs) c in
    let* h := free h (b_vblk br) in
    let* h := for_ 0 (b_nf br) (fun f h =>
      let* fc := rdi (b_nf br) (b_fi br) f in
      free h (f_blk fc)) h in
    let* h := free h (b_fblk br) in
    free h (b_pblk br)) h in
  free h (bs_blk bs).
End BR.
