(** * ModelN: executable model of [src/rNd.c]

    [RND_DIM] (rNd.h:40, 4 in the sources) is the parameter [D], [RND_MAX_VERTS]
    (rNd.h:86, 1024) the parameter [MX].  An [rNd_rvec] is a function from axis to
    component, accessed through bounds checks.  A polytope is a vertex buffer with
    [D] neighbour slots as in Model3, the 2-face table [finds] of each vertex, and
    the two counts.  [printf] calls and the parts inside [#if 0] are not modelled. *)
From Coq Require Import ZArith List Bool.
From Verif Require Import Base ModelCommon ModelGood.
Import ListNotations.
Open Scope Z_scope.

Section RND.
Variable N : num.
Variable MX D : Z.
Notation real := (T N).
Notation "a + b" := (nadd N a b) : num_scope.
Notation "a - b" := (nsub N a b) : num_scope.
Notation "a * b" := (nmul N a b) : num_scope.
Notation "a / b" := (ndiv N a b) : num_scope.
Notation "a <? b" := (nlt N a b) : num_scope.
Notation "a <=? b" := (nle N a b) : num_scope.

(** rNd.h:56-58 [rNd_rvec] *)
Notation rv := (Z -> real).
Notation buf := (vbuf rv).
(** rNd.h:77-89 [rNd_vertex], [rNd_poly] *)
Record polyN := PN { vbN : buf; fdN : Z -> Z -> Z -> Z; nvN : Z; nfN : Z }.
(** rNd.h:70-73 [rNd_plane] *)
Record planeN := PLN { nN : rv; dN : real }.

Notation rd_nb := (rd_nb MX D).
Notation wr_nb := (wr_nb MX D).
Notation rd_ps := (rd_ps MX).
Notation wr_ps := (wr_ps MX).

(** [verts[v].pos.xyz[i]], reading and writing *)
Definition rd_xyz (b : buf) (v i : Z) : res real := let* q := rd_ps b v in rd D q i.
Definition wr_xyz (b : buf) (v i : Z) (x : real) : res buf :=
  let* q := rd_ps b v in let* q := wr D q i x in wr_ps b v q.
(** [verts[v].finds[i][j]] *)
Definition rd_fd (fd : Z -> Z -> Z -> Z) (v i j : Z) : res Z :=
  if inb MX v && inb D i && inb D j then OK (fd v i j) else Err OutOfBounds.
Definition wr_fd (fd : Z -> Z -> Z -> Z) (v i j x : Z) : res (Z -> Z -> Z -> Z) :=
  if inb MX v && inb D i && inb D j then OK (upd fd v (upd (fd v) i (upd (fd v i) j x))) else Err OutOfBounds.

(** ** Transformations *)

(** Loop over the vertices (the shape of rNd.c:452-503). *)
Definition each_vert (p : polyN) (body : Z -> buf -> res buf) : res polyN :=
  let* b := for_ 0 (nvN p) body (vbN p) in OK (PN b (fdN p) (nvN p) (nfN p)).

(** rNd.c:452-462 [rNd_rotate]. *)
Definition rNd_rotate (p : polyN) (theta : real) (ax1 ax2 : Z) : res polyN :=
  let sine := nsin N theta in let cosine := ncos N theta in
  each_vert p (fun v b =>
    let* tmp := rd_ps b v in
    let* t1 := rd D tmp ax1 in
    let* t2 := rd D tmp ax2 in
    let* b := wr_xyz b v ax1 (cosine * t1 - sine * t2)%num in
    wr_xyz b v ax2 (sine * t1 + cosine * t2)%num).

(** rNd.c:464-469 [rNd_translate]. *)
Definition rNd_translate (p : polyN) (shift : rv) : res polyN :=
  each_vert p (fun v => for_ 0 D (fun i b =>
    let* x := rd_xyz b v i in wr_xyz b v i (x + shift i)%num)).

(** rNd.c:471-476 [rNd_scale]. *)
Definition rNd_scale (p : polyN) (scale : rv) : res polyN :=
  each_vert p (fun v => for_ 0 D (fun i b =>
    let* x := rd_xyz b v i in wr_xyz b v i (x * scale i)%num)).

(** rNd.c:478-482 [rNd_shear]. *)
Definition rNd_shear (p : polyN) (shear : real) (axb axs : Z) : res polyN :=
  each_vert p (fun v b =>
    let* s := rd_xyz b v axs in
    let* x := rd_xyz b v axb in
    wr_xyz b v axb (x + shear * s)%num).

(** rNd.c:484-503 [rNd_affine]; [mat r c] is [mat[r][c]].  The inner loop at
    491-493 assigns instead of accumulating, and 498-500 leave out [mat[D][D]]. *)
Definition rNd_affine (p : polyN) (mat : Z -> Z -> real) : res polyN :=
  each_vert p (fun v b =>
    let* tmp := rd_ps b v in
    let* b := for_ 0 D (fun i => for_ 0 D (fun j b =>
       let* t := rd D tmp j in wr_xyz b v i (t * mat i j)%num)) b in
    let* b := for_ 0 D (fun i b => let* x := rd_xyz b v i in wr_xyz b v i (x + mat i D)%num) b in
    let* w := for_ 0 D (fun j w => let* t := rd D tmp j in OK (w + t * mat D j)%num) (n0 N) in
    for_ 0 D (fun i b => let* x := rd_xyz b v i in wr_xyz b v i (x / w)%num) b).

(** ** Initialisers *)

(** rNd.c:529-544: [for(np = 0; np < D; ++np) if(pnbrs[np] == w) break;], the value of
    [np] afterwards ([D] when no slot matches); also 113-118, 130-139 and 144-149 with
    another lower bound. *)
Definition first_np (lo : Z) (test : Z -> res bool) : res Z :=
  let* o := for_ lo D (fun np o =>
    match o with
    | Some _ => OK o
    | None => let* t := test np in OK (if t : bool then Some np else None)
    end) None in
  OK (match o with Some np => np | None => D end).
Definition slot_of (b : buf) (v w : Z) : res Z :=
  first_np 0 (fun np => let* x := rd_nb b v np in OK (x =? w)).

(** rNd.c:531-534: one vertex of a 2-face. *)
Definition set_face (b : buf) (v wa wb f : Z) (fd : Z -> Z -> Z -> Z) : res (Z -> Z -> Z -> Z) :=
  let* i := slot_of b v wa in
  let* j := slot_of b v wb in
  let* fd := wr_fd fd v i j f in
  wr_fd fd v j i f.

(** rNd.c:505-546 [rNd_init_simplex]; [p] is the uninitialised target, [verts v] the
    given corners.  State of the last loops: face table and [f]. *)
Definition rNd_init_simplex (p : polyN) (verts : Z -> rv) : res polyN :=
  let n := Z.add D 1 in
  let* b := for_ 0 n (fun v => for_ 0 D (fun i b =>
     let* b := wr_xyz b v i (verts v i) in
     wr_nb b v i (Z.modulo (Z.add (Z.add v i) 1) n))) (vbN p) in
  let* (fd, f) := for_ 0 n (fun v0 => for_ (Z.add v0 1) n (fun v1 => for_ (Z.add v1 1) n (fun v2 s =>
     let '(fd, f) := s in
     let* fd := set_face b v0 v1 v2 f fd in
     let* fd := set_face b v1 v0 v2 f fd in
     let* fd := set_face b v2 v0 v1 f fd in
     OK (fd, Z.add f 1)))) (fdN p, 0) in
  OK (PN b fd n f).

(** rNd.c:548-575 [rNd_init_box]; [lo], [hi] are [rbounds[0]], [rbounds[1]]. *)
Definition rNd_init_box (p : polyN) (lo hi : rv) : res polyN :=
  let n := 2 ^ D in
  let* b := for_ 0 n (fun v => for_ 0 D (fun i b =>
     let stride := 2 ^ i in
     let* b := wr_xyz b v i (if Z.ltb 0 (Z.land v stride) then hi i else lo i) in
     wr_nb b v i (Z.lxor v stride))) (vbN p) in
  let* (fd, nf) := for_ 0 D (fun np => for_ (Z.add np 1) D (fun np1 s =>
     let '(fd, nf) := s in
     let* fd := for_ 0 n (fun v fd =>
        let* fd := wr_fd fd v np np1 nf in wr_fd fd v np1 np nf) fd in
     OK (fd, Z.add nf 1))) (fdN p, 0) in
  OK (PN b fd n nf).

(** ** Determinant and orientation *)

(** rNd.c:652-658 and 668-672: the loop over [i]; [dtmp] keeps the value of the last
    round only. *)
Definition det_term (mat : Z -> Z -> real) (parity : Z) (perm : Z -> Z) : res real :=
  for_ 0 D (fun i _ =>
    for_ 0 D (fun j t =>
      let* pj := rd D perm j in
      OK (t * mat j (Z.modulo (Z.add i pj) D))%num) (n1 N * nofZ N parity)%num) (n0 N).

(** rNd.c:660-677: one round; state ([perm], [c], [n], [parity], [det]). *)
Record dst := DS { d_perm : Z -> Z; d_c : Z -> Z; d_n : Z; d_par : Z; d_det : real }.
Definition det_step (mat : Z -> Z -> real) (s : dst) : res dst :=
  let n := d_n s in
  let* cn := rd D (d_c s) n in
  if Z.ltb cn n then
    let j := Z.mul (Z.rem n 2) cn in
    let* pj := rd D (d_perm s) j in
    let* pn := rd D (d_perm s) n in
    let* perm := wr D (d_perm s) j pn in
    let* perm := wr D perm n pj in
    let* c := wr D (d_c s) n (Z.add cn 1) in
    let parity := Z.opp (d_par s) in
    let* t := det_term mat parity perm in
    OK (DS perm c 1 parity (d_det s + t)%num)
  else
    let* c := wr D (d_c s) n 0 in
    OK (DS (d_perm s) c (Z.add n 1) (d_par s) (d_det s)).

(** rNd.c:641-679 [rNd_det]; [fuel] bounds the number of rounds of the loop. *)
Definition rNd_det (fuel : nat) (mat : Z -> Z -> real) : res real :=
  let parity := Z.sub (Z.mul 2 (Z.rem D 2)) 1 in
  let* t := det_term mat parity (fun i => i) in
  let* s := while_ fuel (fun s => Z.ltb (d_n s) D) (det_step mat)
     (DS (fun i => i) (fun _ => 0) 1 parity (n0 N + t)%num) in
  OK (d_det s).

(** rNd.c:681-698 [rNd_orient]. *)
Definition rNd_orient (fuel : nat) (verts : Z -> rv) : res real :=
  let mat i j := (verts (Z.add i 1) j - verts 0 j)%num in
  let* fac := for_ 1 (Z.add D 1) (fun i f => OK (f * nofZ N i)%num) (n1 N) in
  let* d := rNd_det fuel mat in
  OK (d / fac)%num.

(** ** [rNd_is_good] *)

(** rNd.c:338-358: links of one vertex; [None] is an early [return 0]. *)
Definition linksN_body (p : polyN) (v : Z) (s : option (Z -> Z)) : res (option (Z -> Z)) :=
  for_ 0 D (fun np s =>
    match s with
    | None => OK None
    | Some vct =>
      let* a := rd_nb (vbN p) v np in
      if Z.eqb a v then OK None else
      if Z.leb (nvN p) a then OK None else
      let* dup := for_ (Z.add np 1) D (fun npp (dup : bool) =>
         if dup then OK true else let* b := rd_nb (vbN p) v npp in OK (Z.eqb a b)) false in
      if dup : bool then OK None else
      let* vct := count_link MX D (vbN p) v np vct in
      OK (Some vct)
    end) s.

(** rNd.c:397-399: are the vertices of the subset in region [rcur]? *)
Definition subset_in (subset reg : Z -> Z) (rcur : Z) : res bool :=
  for_ 1 (Z.sub D 1) (fun v (ok : bool) => if ok then
     let* s := rd (Z.sub D 1) subset v in let* r := rd MX reg s in OK (Z.eqb r rcur)
   else OK false) true.
(** rNd.c:403: mask out the subset. *)
Definition mask_subset (subset : Z -> Z) : res (Z -> Z) :=
  for_ 0 (Z.sub D 1) (fun v vct => let* s := rd (Z.sub D 1) subset v in wr MX vct s 1) (fun _ => 0).
(** rNd.c:406-415: a vertex of the region outside the subset, or [nverts]. *)
Definition pickN (n : Z) (subset reg : Z -> Z) (rcur : Z) : res Z :=
  let* o := for_ 0 n (fun vc o =>
    match o with
    | Some _ => OK o
    | None =>
      let* r := rd MX reg vc in
      if negb (Z.eqb r rcur) then OK None else
      let* ins := for_ 0 (Z.sub D 1) (fun v (ins : bool) =>
         if ins then OK true else let* s := rd (Z.sub D 1) subset v in OK (Z.eqb vc s)) false in
      OK (if ins : bool then None else Some vc)
    end) None in
  OK (match o with Some vc => vc | None => n end).
(** rNd.c:394-432: the test for one subset; [false] is an early [return 0]. *)
Definition subset_ok (p : polyN) (reg subset : Z -> Z) : res bool :=
  let* s0 := rd (Z.sub D 1) subset 0 in
  let* rcur := rd MX reg s0 in
  let* same := subset_in subset reg rcur in
  if negb same then OK true else
  let* vct := mask_subset subset in
  let* vc := pickN (nvN p) subset reg rcur in
  let* vct := flood MX D (vbN p) 1 vc vct in
  all_touched MX (nvN p) reg vct rcur.
(** rNd.c:435-442: the next subset. *)
Definition next_subset (subset : Z -> Z) : res (Z -> Z) :=
  let* (o, subset) := for_ 0 (Z.sub D 2) (fun v s =>
    match s with
    | (Some w, subset) => OK s
    | (None, subset) =>
      let* a := rd (Z.sub D 1) subset v in
      let* b := rd (Z.sub D 1) subset (Z.add v 1) in
      if Z.ltb a (Z.sub b 1) then
        let* subset := wr (Z.sub D 1) subset v (Z.add a 1) in OK (Some v, subset)
      else OK (None, subset)
    end) (None, subset) in
  let v := match o with Some v => v | None => Z.sub D 2 end in
  let* subset := (match o with
    | None => let* a := rd (Z.sub D 1) subset v in wr (Z.sub D 1) subset v (Z.add a 1)
    | Some _ => OK subset
    end) in
  for_ 0 v (fun k subset => wr (Z.sub D 1) subset (Z.sub (Z.sub v 1) k) (Z.sub (Z.sub v 1) k)) subset.

(** rNd.c:391-443: the loop over subsets; state (result, subset), [false] is an
    early [return 0]. *)
Definition subsets_ok (fuel : nat) (p : polyN) (reg : Z -> Z) : res bool :=
  let* (ok, _) := while_ fuel (fun s : bool * (Z -> Z) => fst s && Z.ltb (snd s (Z.sub D 2)) (nvN p))
    (fun s =>
       let* ok := subset_ok p reg (snd s) in
       if ok : bool then let* sub := next_subset (snd s) in OK (true, sub) else OK (false, snd s))
    (true, fun v => v) in
  OK ok.

(** rNd.c:319-446 [rNd_is_good]; [fuel] bounds the number of subsets. *)
Definition rNd_is_good (fuel : nat) (p : polyN) : res Z :=
  let* s := for_ 0 (nvN p) (linksN_body p) (Some (fun _ => 0)) in
  match s with
  | None => OK 0
  | Some vct =>
    let* ok := counts_ok MX D (nvN p) vct in
    if ok : bool then
      let* reg := components MX D (vbN p) (nvN p) in
      let* ok := subsets_ok fuel p reg in
      OK (if ok : bool then 1 else 0)
    else OK 0
  end.
End RND.
