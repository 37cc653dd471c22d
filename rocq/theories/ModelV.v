(** * ModelV: executable model of the grid routines of [src/v2d.c] and [src/v3d.c]

    [r2d_rasterize], [r2d_get_ibox], [r2d_clamp_ibox] and their 3D counterparts
    are the same text up to the number of axes, so they are modelled once, over
    - [D]: the number of axes (2 or 3), [getc]: [pos.xy[i]] / [pos.xyz[i]];
    - [P]: the polytope type, [split]: [rNd_split_coord] with [outpolys[0]] being
      the input, [reduce]: [rNd_reduce] into the local array [moments];
    - [gind]: the index macro.
    Index boxes ([r2d_dvec2 ibox[2]]) are pairs of functions from axis to int.
    [int] arithmetic on box indices is checked for 32-bit overflow.
    Null pointers ([!poly], [!dest_grid]) are not modelled. *)
From Coq Require Import ZArith List Bool.
From Verif Require Import Base ModelCommon Model2.
Import ListNotations.
Open Scope Z_scope.

Notation box := ((Z -> Z) * (Z -> Z))%type.

Section Vox.
Variable N : num.
Notation real := (T N).
Variable D : Z.
Variable P : Type.
Variable nvp : P -> Z.                                   (* poly->nverts *)
Variable split : P -> P -> real -> Z -> res (P * P).
Variable reduce : P -> (Z -> real) -> res (Z -> real).   (* fills moments[nmom] *)
Variable nmom : Z.

(** v2d.c:67, v3d.c:68: [gridsz]. *)
Definition gridsz (lo hi : Z -> Z) : res (Z -> Z) :=
  for_ 0 D (fun i g => let* s := int32 (hi i - lo i) in OK (upd g i s)) (fun _ => 0).

(** v2d.c:74-78, v3d.c:75-79: number of stack entries,
    [(int)(ceil(log2(gridsz.i)) + ... + 1)].  Simplified: [ceil(log2(n))] is the
    exact integer [Z.log2_up n] (libm's [log2] is taken to be exact on powers of
    two and not to cross an integer elsewhere). *)
Definition stack_size (g : Z -> Z) : Z :=
  fold_right (fun i acc => Z.log2_up (g i) + acc) 1 (map Z.of_nat (seq 0 (Z.to_nat D))).

(** v2d.c:94-102, v3d.c:95-103: longest axis; state ([dmax], [spax]). *)
Definition longest (b : box) : res (Z * Z) :=
  for_ 0 D (fun i s =>
    let* siz := int32 (snd b i - fst b i) in
    OK (if fst s <? siz then (siz, i) else s)) (0, 0).

(** state: stack, number of entries, destination grid, [moments] *)
Record vst := VS { v_stk : Z -> P * box; v_n : Z; v_grid : Z -> real; v_mom : Z -> real }.

Variable gind : (Z -> Z) -> (Z -> Z) -> (Z -> Z) -> Z -> res Z.

(** v2d.c:88-124, v3d.c:89-122: one round of the loop.  [lo0] is [ibox[0]], [g] is
    [gridsz], [SS] the stack size, [GS] the number of entries of [dest_grid]. *)
Definition vox_step (SS GS : Z) (lo0 g : Z -> Z) (d : Z -> real) (s : vst) : res vst :=
  let n := v_n s - 1 in
  let* (p, b) := rd SS (v_stk s) n in
  if nvp p <=? 0 then OK (VS (v_stk s) n (v_grid s) (v_mom s)) else
  let* (dmax, spax) := longest b in
  if dmax =? 1 then
    let* mom := reduce p (v_mom s) in
    let* grid := for_ 0 nmom (fun m a =>
       let* i := gind g lo0 (fst b) m in
       let* x := rd GS a i in
       let* y := rd nmom mom m in
       wr GS a i (nadd N x y)) (v_grid s) in
    OK (VS (v_stk s) n grid mom)
  else
    let* (p1, _) := rd SS (v_stk s) (n + 1) in
    let* mid := int32 (fst b spax + Z.quot dmax 2) in
    let* (q0, q1) := split p p1 (nmul N (d spax) (nofZ N mid)) spax in
    let b0 : box := (fst b, upd (snd b) spax (snd b spax - (dmax - Z.quot dmax 2))) in
    let b1 : box := (upd (fst b) spax (fst b spax + Z.quot dmax 2), snd b) in
    let* stk := wr SS (v_stk s) n (q0, b0) in
    let* stk := wr SS stk (n + 1) (q1, b1) in
    OK (VS stk (n + 2) (v_grid s) (v_mom s)).

(** v2d.c:58-126 [r2d_rasterize], v3d.c:59-124 [r3d_voxelize].  [stk0] and [mom0]
    are the uninitialised locals; the grid is taken to have its documented size.
    [fuel] rounds of the main loop are allowed. *)
Definition all_pos (g : Z -> Z) : bool := forallb (fun i => 0 <? g i) (map Z.of_nat (seq 0 (Z.to_nat D))).
Definition cells (g : Z -> Z) : Z := fold_right (fun i acc => g i * acc) 1 (map Z.of_nat (seq 0 (Z.to_nat D))).
Definition voxelize (stk0 : Z -> P * box) (mom0 : Z -> real) (p : P) (ibox : box)
    (grid : Z -> real) (d : Z -> real) : res (Z -> real) :=
  let* g := gridsz (fst ibox) (snd ibox) in
  if (nvp p <=? 0) || negb (all_pos g) then OK grid else
  let SS := stack_size g in
  let* stk := wr SS stk0 0 (p, ibox) in
  let* s := while_ (2 * Z.to_nat (cells g)) (fun s => 0 <? v_n s)
     (vox_step SS (cells g * nmom) (fst ibox) g d) (VS stk 1 grid mom0) in
  OK (v_grid s).

(** ** Index boxes *)
Variable V : Type.
Variable getc : V -> Z -> res real.
Variable pos : P -> Z -> res V.                          (* poly->verts[v].pos *)

(** v2d.c:217-234 [r2d_get_ibox], v3d.c:218-235 [r3d_get_ibox]. *)
Definition get_rbox (p : P) : res ((Z -> real) * (Z -> real)) :=
  for_ 0 (nvp p) (fun v => for_ 0 D (fun i s =>
    let '(lo, hi) := s in
    let* q := pos p v in
    let* x := getc q i in
    let lo := if nlt N x (lo i) then upd lo i x else lo in
    let hi := if nlt N (hi i) x then upd hi i x else hi in
    OK (lo, hi))) ((fun _ => nbig N), (fun _ => nopp N (nbig N))).
Definition get_ibox (p : P) (d : Z -> real) (ibox : box) : res box :=
  let* (lo, hi) := get_rbox p in
  for_ 0 D (fun i b =>
    let* a := toint (nfloor N (ndiv N (lo i) (d i))) in
    let* c := toint (nceil N (ndiv N (hi i) (d i))) in
    OK (upd (fst b) i a, upd (snd b) i c)) ibox.

(** v2d.c:236-261 [r2d_clamp_ibox], v3d.c:237-262 [r3d_clamp_ibox].  [mkpl i n d]
    is the plane whose normal is [n] along axis [i] and zero elsewhere; the array
    [boxfaces] has [FS] entries and [empty p] is [p] with [nverts = 0].  [clip] is
    [rNd_clip], whose return value is ignored here. *)
Variable plane : Type.
Variable mkpl : Z -> real -> real -> plane.
Variable clip : P -> list plane -> res P.
Variable empty : P -> P.
Variable FS : Z.
Definition push (l : list plane) (x : plane) : res (list plane) :=
  if Z.of_nat (length l) <? FS then OK (l ++ [x]) else Err OutOfBounds.
Definition clamp_body (cb : box) (d : Z -> real) (i : Z) (s : option (box * list plane))
    : res (option (box * list plane)) :=
  match s with
  | None => OK None
  | Some ((lo, hi), faces) =>
    if (hi i <=? fst cb i) || (snd cb i <=? lo i) then OK None else
    let* (lo, faces) :=
      (if lo i <? fst cb i then
         let* k := int32 (- fst cb i) in
         let* faces := push faces (mkpl i (n1 N) (nmul N (nofZ N k) (d i))) in
         OK (upd lo i (fst cb i), faces)
       else OK (lo, faces)) in
    let* (hi, faces) :=
      (if snd cb i <? hi i then
         let* faces := push faces (mkpl i (nopp N (n1 N)) (nmul N (nofZ N (snd cb i)) (d i))) in
         OK (upd hi i (snd cb i), faces)
       else OK (hi, faces)) in
    OK (Some ((lo, hi), faces))
  end.
Definition clamp_ibox (p : P) (ibox cb : box) (d : Z -> real) : res (P * box) :=
  let* s := for_ 0 D (clamp_body cb d) (Some (ibox, [])) in
  match s with
  | None => OK (empty p, ((fun _ => 0), (fun _ => 0)))
  | Some (b, []) => OK (p, b)
  | Some (b, faces) => let* q := clip p faces in OK (q, b)
  end.
End Vox.

(** ** 2D instances *)
Section V2.
Variable N : num.
Variable MX : Z.
Notation pol := (poly (rvec2 (T N))).

(** v2d.c:105 macro [gind]. *)
Definition gind2 (nmom : Z) (g lo0 c : Z -> Z) (m : Z) : res Z :=
  let* a := int32 (c 0 - lo0 0) in
  let* a := int32 (a * g 1) in
  let* b := int32 (c 1 - lo0 1) in
  let* a := int32 (a + b) in
  let* a := int32 (nmom * a) in
  int32 (a + m).

(** v2d.c:58-126; [sh] says whether SHIFT_POLY is defined. *)
Definition r2d_rasterize (sh : bool) (po : Z) (stk0 : Z -> pol * box) (mom0 : Z -> T N) (p : pol) (ibox : box)
    (grid : Z -> T N) (d : rvec2 (T N)) : res (Z -> T N) :=
  voxelize N 2 pol nv (r2d_split_coord N MX) (fun p mom => r2d_reduce N MX sh p mom po) (num_moments2 po)
    (gind2 (num_moments2 po)) stk0 mom0 p ibox grid (fun i => if i =? 0 then vx d else vy d).

(** v2d.c:217-234. *)
Definition r2d_get_ibox (p : pol) (d : rvec2 (T N)) (ibox : box) : res box :=
  get_ibox N 2 pol nv (rvec2 (T N)) (vget N) (fun p => rd_ps MX (vb p)) p
    (fun i => if i =? 0 then vx d else vy d) ibox.

(** v2d.c:236-261; [boxfaces[4]]. *)
Definition mkpl2 (i : Z) (n d : T N) : plane2 (T N) :=
  PL2 (if i =? 0 then V2 n (n0 N) else V2 (n0 N) n) d.
Definition r2d_clamp_ibox (p : pol) (ibox cb : box) (d : rvec2 (T N)) : res (pol * box) :=
  clamp_ibox N 2 pol (plane2 (T N)) mkpl2 (r2d_clip N MX) (fun p => PY (vb p) 0) 4 p ibox cb
    (fun i => if i =? 0 then vx d else vy d).
End V2.
