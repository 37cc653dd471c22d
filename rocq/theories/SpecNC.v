(** * SpecNC: cell structure of simple polytopes, hulls and half-spaces, independent of
    the code. *)
From Coq Require Import Reals ZArith List Bool.
From Verif Require Import Lib SumR SpecN.
Import ListNotations.
Open Scope Z_scope.

(** The vertices in [U] of a simple [D]-dimensional polytope with 2-face numbers below
    [nf] and facet numbers below [nh].  Slot [i] of [v] is an edge to [f v i], which is
    slot [bk v i] there.  [h v i] is the facet that holds every edge of [v] except slot
    [i].  [fd v i j] is the 2-face of the slots [i] and [j].  Going along slot [i], every
    other slot [j] has a partner [j']: same facet left out, same 2-face. *)
Record cells (D : Z) (U : Z -> Prop) (nf nh : Z) (f bk h : Z -> Z -> Z) (fd : Z -> Z -> Z -> Z) : Prop := {
  ce_f : forall v i, U v -> 0 <= i < D -> U (f v i) /\ f v i <> v;
  ce_bk : forall v i, U v -> 0 <= i < D -> 0 <= bk v i < D /\ f (f v i) (bk v i) = v /\ bk (f v i) (bk v i) = i;
  ce_h : forall v i, U v -> 0 <= i < D -> 0 <= h v i < nh;
  ce_hinj : forall v i j, U v -> 0 <= i < D -> 0 <= j < D -> h v i = h v j -> i = j;
  ce_fd : forall v i j, U v -> 0 <= i < D -> 0 <= j < D -> i <> j -> 0 <= fd v i j < nf /\ fd v j i = fd v i j;
  ce_names : forall v i j i' j', U v -> 0 <= i < D -> 0 <= j < D -> i <> j -> 0 <= i' < D -> 0 <= j' < D -> i' <> j' ->
     fd v i j = fd v i' j' -> (i' = i /\ j' = j) \/ (i' = j /\ j' = i);
  ce_edge : forall v i j, U v -> 0 <= i < D -> 0 <= j < D -> j <> i ->
     exists j', 0 <= j' < D /\ j' <> bk v i /\ h (f v i) j' = h v j /\ fd (f v i) (bk v i) j' = fd v i j }.

Definition upto (n v : Z) : Prop := 0 <= v < n.
(** the graph has no double edges *)
Definition simple_edges (D : Z) (U : Z -> Prop) (f : Z -> Z -> Z) : Prop :=
  forall v i j, U v -> 0 <= i < D -> 0 <= j < D -> f v i = f v j -> i = j.

(** number of edges from a kept vertex to another one *)
Definition cut_edges (D n : Z) (keep : Z -> bool) (f : Z -> Z -> Z) : Z :=
  Z.of_nat (length (filter (fun x : Z * Z => keep (fst x) && negb (keep (f (fst x) (snd x))))
    (flat_map (fun v => map (pair v) (zrange D)) (zrange n)))).

(** Slot [a > 0] of a vertex put on the edge of slot [i] belongs to slot [other i a] of
    the old vertex: [0, ..., i-1, i+1, ...] in this order. *)
Definition other (i a : Z) : Z := if a - 1 <? i then a - 1 else a.

(** [f'] arises from [f] by keeping the vertices in [keep], and putting a vertex on every
    edge from a kept vertex to another one: [ov v] is the number of the kept vertex [v],
    [nw v i] of the vertex on the edge of slot [i].  Its 2-faces in the new facet get
    numbers from [nf] on. *)
Record truncated (D n nf : Z) (keep : Z -> bool) (f : Z -> Z -> Z) (fd : Z -> Z -> Z -> Z)
  (n' : Z) (f' : Z -> Z -> Z) (fd' : Z -> Z -> Z -> Z) (ov : Z -> Z) (nw : Z -> Z -> Z) : Prop := {
  tr_old : forall v, 0 <= v < n -> keep v = true -> 0 <= ov v < n';
  tr_new : forall v i, 0 <= v < n -> 0 <= i < D -> keep v = true -> keep (f v i) = false -> 0 <= nw v i < n';
  tr_all : forall u, 0 <= u < n' -> (exists v, 0 <= v < n /\ keep v = true /\ u = ov v)
     \/ exists v i, 0 <= v < n /\ 0 <= i < D /\ keep v = true /\ keep (f v i) = false /\ u = nw v i;
  tr_oinj : forall v w, 0 <= v < n -> 0 <= w < n -> keep v = true -> keep w = true -> ov v = ov w -> v = w;
  tr_ninj : forall v i w j, 0 <= v < n -> 0 <= i < D -> keep v = true -> keep (f v i) = false ->
     0 <= w < n -> 0 <= j < D -> keep w = true -> keep (f w j) = false -> nw v i = nw w j -> v = w /\ i = j;
  tr_on : forall v w j, 0 <= v < n -> keep v = true -> 0 <= w < n -> 0 <= j < D -> keep w = true -> keep (f w j) = false -> ov v <> nw w j;
  tr_f : forall v i, 0 <= v < n -> 0 <= i < D -> keep v = true -> f' (ov v) i = if keep (f v i) then ov (f v i) else nw v i;
  tr_f0 : forall v i, 0 <= v < n -> 0 <= i < D -> keep v = true -> keep (f v i) = false -> f' (nw v i) 0 = ov v;
  tr_fd : forall v i j, 0 <= v < n -> 0 <= i < D -> 0 <= j < D -> i <> j -> keep v = true -> fd' (ov v) i j = fd v i j;
  tr_fd0 : forall v i a, 0 <= v < n -> 0 <= i < D -> 0 < a < D -> keep v = true -> keep (f v i) = false ->
     fd' (nw v i) 0 a = fd v i (other i a);
  tr_fresh : forall v i a c, 0 <= v < n -> 0 <= i < D -> 0 < a < D -> 0 < c < D -> a <> c -> keep v = true -> keep (f v i) = false ->
     nf <= fd' (nw v i) a c }.

(** ** Geometry *)
Open Scope R_scope.
(** half-space [c0 + c . x >= 0] *)
Definition halfN (D : Z) (c0 : R) (c x : Z -> R) : Prop := 0 <= linN D c0 c x.
(** the convex hull of the points [p v], [v < n]: every half-space that holds them all
    holds [x] *)
Definition hullN (D n : Z) (p : Z -> Z -> R) (x : Z -> R) : Prop :=
  forall c0 c, (forall v, upto n v -> halfN D c0 c (p v)) -> halfN D c0 c x.

(** Points [p v] with the facets of a cell structure: facet [g] is where the affine
    function [l0 g + l g . x] vanishes.  It vanishes at the vertices of the facet and is
    positive at all others; the facets of a vertex meet in this point only; the points
    are distinct. *)
Record realized (D n nh : Z) (h : Z -> Z -> Z) (p : Z -> Z -> R) (l0 : Z -> R) (l : Z -> Z -> R) : Prop := {
  re_on : forall v i, upto n v -> (0 <= i < D)%Z -> linN D (l0 (h v i)) (l (h v i)) (p v) = 0;
  re_off : forall v g, upto n v -> (0 <= g < nh)%Z -> (forall i, (0 <= i < D)%Z -> h v i <> g) -> 0 < linN D (l0 g) (l g) (p v);
  re_nd : forall v y, upto n v -> (forall i, (0 <= i < D)%Z -> linN D 0 (l (h v i)) y = 0) -> forall k, (0 <= k < D)%Z -> y k = 0;
  re_inj : forall v w, upto n v -> upto n w -> (forall k, (0 <= k < D)%Z -> p v k = p w k) -> v = w }.
(** a simple convex polytope, some of whose edges may have shrunk to length zero *)
Definition polytope (D n nh : Z) (h : Z -> Z -> Z) (p : Z -> Z -> R) : Prop :=
  forall d, 0 < d -> exists q l0 l, realized D n nh h q l0 l
    /\ forall v k, upto n v -> (0 <= k < D)%Z -> Rabs (q v k - p v k) < d.
