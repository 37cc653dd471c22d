(** * SpecN: determinants, independent of the code. *)
From Coq Require Import Reals ZArith List Bool.
From Verif Require Import Lib SumR.
Import ListNotations.
Open Scope R_scope.

(** all ways to insert [x] into [l]; all permutations of [l] *)
Fixpoint inserts (x : Z) (l : list Z) : list (list Z) :=
  match l with
  | [] => [[x]]
  | y :: r => (x :: l) :: map (cons y) (inserts x r)
  end.
Fixpoint perms (l : list Z) : list (list Z) :=
  match l with
  | [] => [[]]
  | x :: r => flat_map (inserts x) (perms r)
  end.

(** [(-1)] to the number of [y] in [l] that are not larger than [x] *)
Fixpoint below (x : Z) (l : list Z) : R :=
  match l with [] => 1 | y :: r => (if Z.ltb x y then 1 else -1) * below x r end.
(** [(-1)] to the number of inversions *)
Fixpoint sgn (l : list Z) : R :=
  match l with [] => 1 | x :: r => below x r * sgn r end.
(** [m i s_0 * m (i+1) s_1 * ...] *)
Fixpoint diag (m : Z -> Z -> R) (i : Z) (s : list Z) : R :=
  match s with [] => 1 | x :: r => m i x * diag m (Z.add i 1) r end.

(** Leibniz' formula for the determinant of an [n * n] matrix *)
Definition det (n : Z) (m : Z -> Z -> R) : R :=
  lsum (perms (zrange n)) (fun s => sgn s * diag m 0 s).

(** [n!] *)
Definition factorial (n : Z) : R := fold_right Rmult 1 (map IZR (map (Z.add 1) (zrange n))).

(** expansion along the first row *)
Definition det2 (a b c d : R) := a * d - b * c.
Definition det3 (a b c d e f g h i : R) := a * det2 e f h i - b * det2 d f g i + c * det2 d e g h.
Definition det4 (m : Z -> Z -> R) : R :=
    m 0%Z 0%Z * det3 (m 1%Z 1%Z) (m 1%Z 2%Z) (m 1%Z 3%Z) (m 2%Z 1%Z) (m 2%Z 2%Z) (m 2%Z 3%Z) (m 3%Z 1%Z) (m 3%Z 2%Z) (m 3%Z 3%Z)
  - m 0%Z 1%Z * det3 (m 1%Z 0%Z) (m 1%Z 2%Z) (m 1%Z 3%Z) (m 2%Z 0%Z) (m 2%Z 2%Z) (m 2%Z 3%Z) (m 3%Z 0%Z) (m 3%Z 2%Z) (m 3%Z 3%Z)
  + m 0%Z 2%Z * det3 (m 1%Z 0%Z) (m 1%Z 1%Z) (m 1%Z 3%Z) (m 2%Z 0%Z) (m 2%Z 1%Z) (m 2%Z 3%Z) (m 3%Z 0%Z) (m 3%Z 1%Z) (m 3%Z 3%Z)
  - m 0%Z 3%Z * det3 (m 1%Z 0%Z) (m 1%Z 1%Z) (m 1%Z 2%Z) (m 2%Z 0%Z) (m 2%Z 1%Z) (m 2%Z 2%Z) (m 3%Z 0%Z) (m 3%Z 1%Z) (m 3%Z 2%Z)%Z.

(** ** Graphs of simple polytopes: [f v i] is the neighbour of [v] in slot [i] *)
Open Scope Z_scope.
Definition good_links (f : Z -> Z -> Z) (D n : Z) : Prop :=
  forall v i, 0 <= v < n -> 0 <= i < D ->
    0 <= f v i < n /\ f v i <> v
    /\ (forall j, 0 <= j < D -> f v i = f v j -> i = j)
    /\ exists j, 0 <= j < D /\ f (f v i) j = v.

(** [fd v i j] is symmetric in the slots, and names the pair of slots at [v] *)
Definition good_names (fd : Z -> Z -> Z -> Z) (D n : Z) : Prop :=
  forall v i j, 0 <= v < n -> 0 <= i < D -> 0 <= j < D -> i <> j ->
    fd v j i = fd v i j
    /\ forall i' j', 0 <= i' < D -> 0 <= j' < D -> i' <> j' -> fd v i j = fd v i' j' ->
         (i' = i /\ j' = j) \/ (i' = j /\ j' = i).

(** ** Maps and distances over the reals *)
Open Scope R_scope.
(** image of [x] under the homogeneous matrix [[A, b], [c, w]]: [(A x + b) / (c . x + w)] *)
Definition proj_map (D : Z) (m : Z -> Z -> R) (x : Z -> R) (i : Z) : R :=
  (lsum (zrange D) (fun j => m i j * x j) + m i D) / (lsum (zrange D) (fun j => m D j * x j) + m D D).
(** squared distance *)
Definition dist2 (D : Z) (x y : Z -> R) : R := lsum (zrange D) (fun i => (x i - y i) * (x i - y i)).
(** the value of the linear function [c0 + sum_i c i * x i] *)
Definition linN (D : Z) (c0 : R) (c x : Z -> R) : R := c0 + lsum (zrange D) (fun i => c i * x i).
