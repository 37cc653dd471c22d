(** * Spec2: vocabulary for the 2D theorems, independent of the algorithms.

    A polygon is a finite set of vertices [0 .. n-1] with two links each,
    slot 0 = next, slot 1 = previous. *)
From Coq Require Import ZArith List Bool.
From Verif Require Import ModelCommon.
Open Scope Z_scope.

(** Links stay inside the vertex list and next/previous are mutually inverse. *)
Definition linked (nbf : Z -> Z -> Z) (n : Z) : Prop :=
  forall v, 0 <= v < n ->
    0 <= nbf v 0 < n /\ 0 <= nbf v 1 < n /\
    nbf (nbf v 0) 1 = v /\ nbf (nbf v 1) 0 = v.

(** No vertex has the same vertex on both sides (every boundary loop has at
    least three vertices). *)
Definition distinct2 (nbf : Z -> Z -> Z) (n : Z) : Prop :=
  forall v, 0 <= v < n -> nbf v 0 <> nbf v 1.

(** A well-linked polygon (any number of boundary loops). *)
Definition wf2 {V} (p : poly V) : Prop :=
  0 <= nv p /\ linked (nb (vb p)) (nv p).

Definition good2 {V} (p : poly V) : Prop :=
  wf2 p /\ distinct2 (nb (vb p)) (nv p).

(** Number of (vertex, slot) pairs whose link leaves the set [keep]. *)
Definition exits (D : nat) (keep : Z -> bool) (nbf : Z -> Z -> Z) (n : Z) : Z :=
  Z.of_nat (length (filter (fun d => keep (fst d) && negb (keep (nbf (fst d) (snd d))))
    (list_prod (map Z.of_nat (seq 0 (Z.to_nat n))) (map Z.of_nat (seq 0 D))))).
