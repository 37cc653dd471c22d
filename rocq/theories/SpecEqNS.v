(** * SpecEqNS: words for moving and splitting in any dimension. *)
From Coq Require Import Reals ZArith.
From Verif Require Import Base ModelN RealNum RndNum SpecEqN.
Open Scope Z_scope.

(** both parts have the same vertices, neighbours and 2-faces *)
Definition same_partsN (D : Z) (a b : polyN RN * polyN RN) : Prop := same_vertsN D (fst a) (fst b) /\ same_vertsN D (snd a) (snd b).
(** both parts in other units; rounded arithmetic *)
Definition scaled_partsN (rnd : R -> R) (D : Z) (s : Z -> R) (a b : polyN (FN rnd) * polyN (FN rnd)) : Prop :=
  scaled_vertsN rnd D s (fst a) (fst b) /\ scaled_vertsN rnd D s (snd a) (snd b).
(** both parts moved, the first one first *)
Definition both {P} (f : P -> res P) (o : P * P) : res (P * P) := let* a := f (fst o) in let* b := f (snd o) in OK (a, b).
