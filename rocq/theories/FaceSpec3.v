(** * FaceSpec3: the first dart of a face, used as the apex of its triangle fan.

    Independent of the code: the first dart, in the order (vertex, slot), of the
    face orbit of a dart. *)
From Coq Require Import ZArith List Bool.
From Verif Require Import Lib CommonFacts Spec3.
Open Scope Z_scope.

Definition on_face (f : Z -> Z -> Z) (n : Z) (d e : dart) : bool :=
  existsb (fun k => (fst (iter k (fnext f) d) =? fst e) && (snd (iter k (fnext f) d) =? snd e))
    (seq 0 (Z.to_nat (3 * n))).
Definition lead (f : Z -> Z -> Z) (n : Z) (d : dart) : dart :=
  match find (on_face f n d) (darts 3 n) with Some e => e | None => d end.
