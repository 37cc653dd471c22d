(** * SpecNR: the sum over flags that [rNd_reduce] is meant to compute.

    At a vertex with position [x] the edge vectors are [E 0 ... E (D-1)].  A flag is an
    ordering of the edges; its frame [L] is the Gram-Schmidt basis of the edge vectors in
    this order, and its term the product of the heights [L d . x / (d + 1)].  Any
    arithmetic; sums in the order in which the code takes them. *)
From Coq Require Import ZArith List Bool.
From Verif Require Import Base Lib.
Import ListNotations.
Open Scope Z_scope.

Section S.
Variable N : num.
Notation real := (T N).
Variable D : Z.
Definition dotN (a c : Z -> real) : real := fold_left (fun t j => nadd N t (nmul N (a j) (c j))) (zrange D) (n0 N).
(** remove from [e] its components along the first [d] vectors of [L], one by one *)
Definition orthN (L : Z -> Z -> real) (d : Z) (e : Z -> real) : Z -> real :=
  fold_left (fun a dd => let t := dotN a (L dd) in fun j => nsub N (a j) (nmul N t (L dd j))) (zrange d) e.
Definition unitN (a : Z -> real) : Z -> real := let len := nsqrt N (dotN a a) in fun j => ndiv N (a j) len.
Definition termN (x : Z -> real) (L : Z -> Z -> real) : real :=
  fold_left (fun t dd => nmul N t (ndiv N (nmul N (n1 N) (dotN (L dd) x)) (nofZ N (dd + 1)))) (zrange D) (n1 N).
(** the sum over the orderings of the edges not in [used], [k] of them *)
Fixpoint flagsN (k : nat) (x : Z -> real) (E : Z -> Z -> real) (used : Z -> bool) (L : Z -> Z -> real) : real :=
  match k with
  | O => termN x L
  | Datatypes.S k' => let d := D - Z.of_nat k in
    fold_left (fun s i => if used i then s else nadd N s (flagsN k' x E (upd used i true) (upd L d (unitN (orthN L d (E i))))))
      (zrange D) (n0 N)
  end.
(** all flags at one vertex, and of all vertices of a polytope with positions [p] and links [f] *)
Definition vertexN (x : Z -> real) (E : Z -> Z -> real) : real := flagsN (Z.to_nat D) x E (fun _ => false) (fun _ _ => n0 N).
Definition edgeN (p : Z -> Z -> real) (f : Z -> Z -> Z) (v i j : Z) : real := nsub N (p v j) (p (f v i) j).
Definition flag_sum (n : Z) (p : Z -> Z -> real) (f : Z -> Z -> Z) : real :=
  fold_left (fun s v => nadd N s (vertexN (p v) (edgeN p f v))) (zrange n) (n0 N).
End S.
