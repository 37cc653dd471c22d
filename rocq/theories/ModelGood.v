(** * ModelGood: executable model of [r3d_is_good] (src/r3d.c:477-581)

    The flood fill is textually the same in [r3d_is_good] and [rNd_is_good]
    (src/rNd.c:319-450) up to the number [D] of neighbour slots, so it is modelled
    once.  The local arrays [vct], [stack] and [regions] have [MX] entries; every
    access is checked, so a negative link or a full stack is [Err OutOfBounds].
    [printf] calls are not modelled. *)
From Coq Require Import ZArith List Bool.
From Verif Require Import Base ModelCommon Model3.
Import ListNotations.
Open Scope Z_scope.

Section Flood.
Context {V : Type}.
Variable MX D : Z.

(** r3d.c:532-537, 561-566, rNd.c:379-383, 420-424: one round of the loop.  State:
    marks ([regions] or [vct]), [stack], [nvstack].  The entries of [stack] are
    taken as uninitialised when a flood fill starts. *)
Definition push_nbrs (b : vbuf V) (vc : Z) (s : (Z -> option Z) * Z) : res ((Z -> option Z) * Z) :=
  for_ 0 D (fun np s =>
    let* w := rd_nb MX D b vc np in
    let* stk := wr MX (fst s) (snd s) (Some w) in
    OK (stk, snd s + 1)) s.
Definition flood_step (b : vbuf V) (id : Z) (s : (Z -> Z) * (Z -> option Z) * Z)
    : res ((Z -> Z) * (Z -> option Z) * Z) :=
  let '(mk, stk, k) := s in
  let k := k - 1 in
  let* vc := rdi MX stk k in
  let* c := rd MX mk vc in
  if c =? 0 then
    let* mk := wr MX mk vc id in
    let* (stk, k) := push_nbrs b vc (stk, k) in
    OK (mk, stk, k)
  else OK (mk, stk, k).

(** r3d.c:529-538, 558-567, rNd.c:376-384, 417-425: flood fill from [v], writing [id]
    into the marks.  [D * MX + 1] rounds are allowed. *)
Definition flood (b : vbuf V) (id v : Z) (mk : Z -> Z) : res (Z -> Z) :=
  let* stk := wr MX (fun _ => None) 0 (Some v) in
  let* (mk, _, _) := while_ (Z.to_nat (D * MX + 1)) (fun s => 0 <? snd s) (flood_step b id) (mk, stk, 1) in
  OK mk.

(** r3d.c:525-539, rNd.c:372-386: a number for each connected component; state
    ([regions], [rcur]). *)
Definition components (b : vbuf V) (n : Z) : res (Z -> Z) :=
  let* (reg, _) := for_ 0 n (fun v s =>
    let* c := rd MX (fst s) v in
    if c =? 0 then
      let* reg := flood b (snd s) v (fst s) in
      OK (reg, snd s + 1)
    else OK s) ((fun _ => 0), 1) in
  OK reg.

(** r3d.c:519-523, rNd.c:363-366: are all counts equal to [D]? *)
Definition counts_ok (n : Z) (vct : Z -> Z) : res bool :=
  for_ 0 n (fun v (ok : bool) => if ok then let* c := rd MX vct v in OK (c =? D) else OK false) true.

(** r3d.c:571-575, rNd.c:429-432: is every vertex of region [rcur] marked? *)
Definition all_touched (n : Z) (reg vct : Z -> Z) (rcur : Z) : res bool :=
  for_ 0 n (fun v (ok : bool) => if ok then
      let* r := rd MX reg v in
      if r =? rcur then let* c := rd MX vct v in OK (negb (c =? 0)) else OK true
    else OK false) true.
End Flood.

Section Good3.
Context {V : Type}.
Variable MX : Z.
Notation pol := (poly V).

(** r3d.c:497-507: the tests on the links of [v]; [false] is an early [return 0]. *)
Definition links_ok3 (p : pol) (v : Z) : res bool :=
  for_ 0 3 (fun np (ok : bool) => if ok then
      let* a := rd_nb MX 3 (vb p) v np in
      let* b := rd_nb MX 3 (vb p) v ((np + 1) mod 3) in
      OK (if a =? b then false else if nv p <=? a then false else true)
    else OK false) true.

(** r3d.c:509-511: [vct[vertbuffer[v].pnbrs[np]]++]. *)
Definition count_link (D : Z) (b : vbuf V) (v np : Z) (vct : Z -> Z) : res (Z -> Z) :=
  let* a := rd_nb MX D b v np in
  let* c := rd MX vct a in
  wr MX vct a (c + 1).

(** r3d.c:493-512: the consistency check; [None] is an early [return 0]. *)
Definition consistent_body3 (p : pol) (v : Z) (s : option (Z -> Z)) : res (option (Z -> Z)) :=
  match s with
  | None => OK None
  | Some vct =>
    let* ok := links_ok3 p v in
    if ok : bool then
      let* vct := count_link 3 (vb p) v 0 vct in
      let* vct := count_link 3 (vb p) v 1 vct in
      let* vct := count_link 3 (vb p) v 2 vct in
      OK (Some vct)
    else OK None
  end.

(** r3d.c:550-551: the first [vc] of region [rcur] other than [va] and [vb], or
    [nverts]; [Some] once the loop has been left. *)
Definition pick3 (n : Z) (reg : Z -> Z) (rcur va vb : Z) : res Z :=
  let* o := for_ 0 n (fun vc o =>
    match o with
    | Some _ => OK o
    | None =>
      let* r := rd MX reg vc in
      OK (if (r =? rcur) && negb (vc =? va) && negb (vc =? vb) then Some vc else None)
    end) None in
  OK (match o with Some vc => vc | None => n end).

(** r3d.c:541-577: the loops over pairs of vertices; [false] is an early [return 0]. *)
Definition pair_ok3 (p : pol) (reg : Z -> Z) (va b : Z) (ok : bool) : res bool :=
  if ok then
    let* rcur := rd MX reg va in
    let* r := rd MX reg b in
    if negb (r =? rcur) then OK true else
    let* vc := pick3 (nv p) reg rcur va b in
    let* vct := wr MX (fun _ => 0) va 1 in
    let* vct := wr MX vct b 1 in
    let* vct := flood MX 3 (vb p) 1 vc vct in
    all_touched MX (nv p) reg vct rcur
  else OK false.

(** r3d.c:477-581 [r3d_is_good]. *)
Definition r3d_is_good (p : pol) : res Z :=
  let* s := for_ 0 (nv p) (consistent_body3 p) (Some (fun _ => 0)) in
  match s with
  | None => OK 0
  | Some vct =>
    let* ok := counts_ok MX 3 (nv p) vct in
    if ok : bool then
      let* reg := components MX 3 (vb p) (nv p) in
      let* ok := for_ 0 (nv p) (fun va ok =>
        for_ (va + 1) (nv p) (fun b ok => pair_ok3 p reg va b ok) ok) true in
      OK (if ok : bool then 1 else 0)
    else OK 0
  end.
End Good3.
