(** * SpecI: the integral of a function over a set of points, as the volume below the graph
    of the function minus the volume below the graph of its negative. *)
From Coq Require Import Reals ZArith List.
From Verif Require Import Lib SumR ModelCommon Model2 Model3 RealNum SpecNJ.
Open Scope R_scope.

(** the points over [K] between the ground and the graph of [f]; coordinate [D] is the height *)
Definition below_graph (D : Z) (K : (Z -> R) -> Prop) (f : (Z -> R) -> R) (x : Z -> R) : Prop := K x /\ 0 <= x D <= f x.
Definition integral (D : Z) (K : (Z -> R) -> Prop) (f : (Z -> R) -> R) (t : R) : Prop :=
  exists a b, content (D + 1) (below_graph D K f) a /\ content (D + 1) (below_graph D K (fun x => - f x)) b /\ t = a - b.
(** over sets of the plane and of space *)
Definition integral2 (K : rvec2 R -> Prop) (f : rvec2 R -> R) (t : R) : Prop :=
  integral 2 (fun x => K (V2 (x 0%Z) (x 1%Z))) (fun x => f (V2 (x 0%Z) (x 1%Z))) t.
Definition integral3 (K : rvec3 R -> Prop) (f : rvec3 R -> R) (t : R) : Prop :=
  integral 3 (fun x => K (V3 (x 0%Z) (x 1%Z) (x 2%Z))) (fun x => f (V3 (x 0%Z) (x 1%Z) (x 2%Z))) t.
