(** * SpecH: weighted means of points. *)
From Coq Require Import Reals ZArith List.
From Verif Require Import Base Lib SumR ModelCommon Model2 Model3.
Import ListNotations.
Open Scope R_scope.

(** weights for the numbers below [n]: not negative, with sum 1 *)
Definition weights (n : Z) (w : Z -> R) : Prop := (forall v, (0 <= v < n)%Z -> 0 <= w v) /\ lsum (zrange n) w = 1.
(** the sum of [w v * f v] over the numbers below [n] *)
Definition wsum (n : Z) (w f : Z -> R) : R := lsum (zrange n) (fun v => w v * f v).
(** [x] is a weighted mean of the points [q v], [v < n] *)
Definition mean2 (n : Z) (q : Z -> rvec2 R) (x : rvec2 R) : Prop :=
  exists w, weights n w /\ vx x = wsum n w (fun v => vx (q v)) /\ vy x = wsum n w (fun v => vy (q v)).
Definition mean3 (n : Z) (q : Z -> rvec3 R) (x : rvec3 R) : Prop :=
  exists w, weights n w /\ x3 x = wsum n w (fun v => x3 (q v)) /\ y3 x = wsum n w (fun v => y3 (q v)) /\ z3 x = wsum n w (fun v => z3 (q v)).
Definition meanN (D n : Z) (q : Z -> Z -> R) (x : Z -> R) : Prop :=
  exists w, weights n w /\ forall i, (0 <= i < D)%Z -> x i = wsum n w (fun v => q v i).
