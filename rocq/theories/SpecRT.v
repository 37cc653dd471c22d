(** * SpecRT: a polyhedron and the same polyhedron with the slots of its vertices turned;
    the description in a [brep] as arrays.  Only the record types of the result of
    [r3d_init_brep] are taken from the model. *)
From Coq Require Import ZArith List Bool.
From Verif Require Import Lib ModelCommon ModelBR Spec3.
Import ListNotations.
Open Scope Z_scope.

(** the same vertices with the same neighbours in the same sense; the first neighbour may differ *)
Definition turned_slots {V} (p p' : poly V) : Prop :=
  nv p' = nv p /\ (forall v, 0 <= v < nv p -> ps (vb p') v = ps (vb p) v)
  /\ exists k : Z -> Z, forall v i, 0 <= v < nv p -> 0 <= i < 3 -> nb (vb p') v i = nb (vb p) v ((i + k v) mod 3).

Section B.
Context {V : Type} (dv : V) (br : @brep V).
Definition brep_nvf (f : Z) : Z := match b_pf br f with Some m => m | None => 0 end.
Definition brep_fi (f k : Z) : Z :=
  match b_fi br f with Some fc => match f_ind fc k with Some i => i | None => 0 end | None => 0 end.
Definition brep_vs (v : Z) : V := match b_vs br v with Some q => q | None => dv end.
End B.
