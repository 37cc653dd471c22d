(** * SpecEqN: words for moving and clipping in any dimension. *)
From Coq Require Import Reals ZArith List.
From Verif Require Import Base ModelCommon ModelN RealNum RndNum SpecNP SpecEq.
Open Scope Z_scope.

(** the same vertices in the same order, with the same neighbours and 2-faces in the same slots *)
Definition same_vertsN (D : Z) (p p' : polyN RN) : Prop :=
  nvN RN p' = nvN RN p /\ nfN RN p' = nfN RN p
  /\ forall v, 0 <= v < nvN RN p ->
       (forall i, 0 <= i < D -> ps (vbN RN p') v i = ps (vbN RN p) v i)
    /\ (forall i, 0 <= i < D -> nb (vbN RN p') v i = nb (vbN RN p) v i)
    /\ forall i j, fdN RN p' v i j = fdN RN p v i j.
(** [pl'] is [pl] carried along by the map [f], up to a positive factor *)
Definition carriedN (D : Z) (f : (Z -> R) -> Z -> R) (pl pl' : planeN RN) : Prop :=
  exists k, (0 < k)%R /\ forall x, Spl D pl' (f x) = (k * Spl D pl x)%R.
(** the polytope in other units, axis by axis; rounded arithmetic *)
Definition scaled_vertsN (rnd : R -> R) (D : Z) (s : Z -> R) (p p' : polyN (FN rnd)) : Prop :=
  nvN _ p' = nvN _ p /\ nfN _ p' = nfN _ p /\ fdN _ p' = fdN _ p /\ nb (vbN _ p') = nb (vbN _ p)
  /\ forall v i, 0 <= v < nvN _ p -> 0 <= i < D -> ps (vbN _ p') v i = (s i * ps (vbN _ p) v i)%R.
(** the plane that belongs to the scaled points, times [c] *)
Definition scaled_planeN (rnd : R -> R) (D : Z) (s : Z -> R) (c : R) (pl pl' : planeN (FN rnd)) : Prop :=
  (forall i, 0 <= i < D -> (nN _ pl' i * s i = c * nN _ pl i)%R) /\ dN _ pl' = (c * dN _ pl)%R.
