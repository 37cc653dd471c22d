(** * SpecNJ: the volume (Jordan content) of a set of points, by boxes inside it and boxes
    that cover it. *)
From Coq Require Import Reals ZArith List.
From Verif Require Import Lib SumR ModelCommon ModelN ModelNC RealNum SpecNP SpecNV.
Import ListNotations.
Open Scope R_scope.

(** a box: its lower and its upper corner *)
Definition boxR : Type := ((Z -> R) * (Z -> R))%type.
Definition real_box (D : Z) (b : boxR) : Prop := forall i, (0 <= i < D)%Z -> fst b i < snd b i.
Definition inb (D : Z) (b : boxR) (x : Z -> R) : Prop := in_box D (fst b) (snd b) x.
Definition insideb (D : Z) (b : boxR) (x : Z -> R) : Prop := forall i, (0 <= i < D)%Z -> fst b i < x i < snd b i.
(** no inner point in common *)
Definition apart (D : Z) (b c : boxR) : Prop := forall x, insideb D b x -> ~ insideb D c x.
(** the product of its sides *)
Definition box_vol (D : Z) (b : boxR) : R := fold_right (fun i t => (snd b i - fst b i) * t) 1 (zrange D).

(** disjoint boxes in [K]; boxes that cover [K] *)
Definition packed (D : Z) (K : (Z -> R) -> Prop) (l : list boxR) : Prop :=
  (forall b, In b l -> real_box D b /\ forall x, inb D b x -> K x) /\ ForallOrdPairs (apart D) l.
Definition covered (D : Z) (K : (Z -> R) -> Prop) (l : list boxR) : Prop :=
  (forall b, In b l -> real_box D b) /\ forall x, K x -> exists b, In b l /\ inb D b x.
(** [K] has volume [t] *)
Definition content (D : Z) (K : (Z -> R) -> Prop) (t : R) : Prop := forall e, 0 < e ->
  (exists l, packed D K l /\ t - e <= lsum l (box_vol D)) /\ (exists l, covered D K l /\ lsum l (box_vol D) <= t + e).

(** Planes in general position for [K]: no extreme point of the part of [K] inside the
    planes before a plane lies on it. *)
Definition generic (D : Z) (K : (Z -> R) -> Prop) (planes : list (planeN RN)) : Prop :=
  forall before pl after x, planes = before ++ pl :: after -> extreme D (fun y => K y /\ holds D before y) x -> Spl D pl x <> 0.
