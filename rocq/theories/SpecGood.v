(** * SpecGood: connectedness vocabulary, independent of the code.

    A graph on the vertices [0 .. n-1] in which [f v i], [0 <= i < D], are the
    out-neighbours of [v]. *)
From Coq Require Import ZArith List Bool.
From Verif Require Import Lib CommonFacts.
Open Scope Z_scope.

Section Conn.
Context (f : Z -> Z -> Z) (D n : Z).

(** [walk X u w]: [w] can be reached from [u] along links, no vertex of the walk
    (ends included) being in [X]. *)
Inductive walk (X : Z -> Prop) (u : Z) : Z -> Prop :=
| walk_refl : ~ X u -> walk X u u
| walk_step v i : walk X u v -> 0 <= i < D -> ~ X (f v i) -> walk X u (f v i).

(** in the same connected component: reached by following links *)
Definition conn (u w : Z) : Prop := walk (fun _ => False) u w.

(** number of links (v, i) that lead to [x] *)
Definition indeg (x : Z) : Z :=
  Z.of_nat (length (filter (fun d => f (fst d) (snd d) =? x) (list_prod (zrange n) (zrange D)))).

(** what is asked of the links of each vertex: out- and in-degree [D] *)
Definition regular : Prop :=
  forall v, 0 <= v < n ->
    (forall i, 0 <= i < D -> f v i < n)
    /\ (forall i j, 0 <= i < D -> 0 <= j < D -> f v i = f v j -> i = j)
    /\ indeg v = D.
End Conn.

(** Removing any two vertices of a component leaves the rest of it connected. *)
Definition conn3 (f : Z -> Z -> Z) (n : Z) : Prop :=
  forall a b u w, 0 <= a < n -> 0 <= b < n -> 0 <= u < n -> 0 <= w < n -> a <> b ->
    conn f 3 u a -> conn f 3 u b -> conn f 3 u w -> u <> a -> u <> b -> w <> a -> w <> b ->
    walk f 3 (fun x => x = a \/ x = b) u w.

(** The same, asked only of the walks that start from the least vertex left: what
    can be said when links need not be mutual. *)
Definition conn3_least (f : Z -> Z -> Z) (n : Z) : Prop :=
  forall a b u w, 0 <= a < n -> 0 <= b < n -> 0 <= u < n -> 0 <= w < n -> a <> b ->
    conn f 3 u a -> conn f 3 u b -> conn f 3 u w -> u <> a -> u <> b -> w <> a -> w <> b ->
    (forall x, 0 <= x < u -> conn f 3 u x -> x = a \/ x = b) ->
    walk f 3 (fun x => x = a \/ x = b) u w.

(** every link is returned *)
Definition mutual (f : Z -> Z -> Z) (D n : Z) : Prop :=
  forall v i, 0 <= v < n -> 0 <= i < D -> exists j, 0 <= j < D /\ f (f v i) j = v.

(** Removing any [k] vertices of a component leaves the rest of it connected. *)
Definition connk (k : Z) (f : Z -> Z -> Z) (D n : Z) : Prop :=
  forall (S : list Z) u w, NoDup S -> Z.of_nat (length S) = k -> (forall s, In s S -> 0 <= s < n /\ conn f D u s) ->
    0 <= u < n -> 0 <= w < n -> conn f D u w -> ~ In u S -> ~ In w S -> walk f D (fun x => In x S) u w.
Definition connk_least (k : Z) (f : Z -> Z -> Z) (D n : Z) : Prop :=
  forall (S : list Z) u w, NoDup S -> Z.of_nat (length S) = k -> (forall s, In s S -> 0 <= s < n /\ conn f D u s) ->
    0 <= u < n -> 0 <= w < n -> conn f D u w -> ~ In u S -> ~ In w S ->
    (forall x, 0 <= x < u -> conn f D u x -> In x S) -> walk f D (fun x => In x S) u w.
