(** * Spec3: structural vocabulary for the 3D theorems

    Independent of the code of r3d.c: a polyhedron is a graph in which every
    vertex has three neighbour slots; a dart (v, i) is the directed edge leaving
    vertex v through slot i. *)
From Coq Require Import ZArith List Bool.
From Verif Require Import ModelCommon Lib.
Open Scope Z_scope.

Notation dart := (Z * Z)%type (only parsing).

Section Graph.
Context (f : Z -> Z -> Z).
Definition dsrc (d : dart) : Z := fst d.
Definition dtgt (d : dart) : Z := f (fst d) (snd d).
(** the slot of [u] that leads to [v] *)
Definition slot (u v : Z) : Z := if f u 0 =? v then 0 else if f u 1 =? v then 1 else 2.
(** the same edge in the opposite direction *)
Definition dopp (d : dart) : dart := (dtgt d, slot (dtgt d) (dsrc d)).
(** next slot around the same vertex *)
Definition drot (d : dart) : dart := (fst d, (snd d + 1) mod 3).
(** next directed edge of the face to one side of [d] *)
Definition fnext (d : dart) : dart := drot (dopp d).
Definition same_face (d e : dart) : Prop := exists k, e = iter k fnext d.

Context (Dom : Z -> Prop).
Definition isd (d : dart) : Prop := Dom (fst d) /\ 0 <= snd d < 3.

(** Links stay in range, each vertex has three distinct neighbours other than
    itself, and every link is returned. *)
Record links : Prop := {
  l_rng : forall v i, Dom v -> 0 <= i < 3 -> Dom (f v i);
  l_self : forall v i, Dom v -> 0 <= i < 3 -> f v i <> v;
  l_dist : forall v i j, Dom v -> 0 <= i < 3 -> 0 <= j < 3 -> f v i = f v j -> i = j;
  l_mut : forall v i, Dom v -> 0 <= i < 3 -> exists j, 0 <= j < 3 /\ f (f v i) j = v }.

(** Two faces share at most one edge. *)
Definition simple_faces : Prop :=
  forall d e, isd d -> isd e -> same_face d e -> same_face (dopp d) (dopp e) -> d = e.
End Graph.

Definition below (n v : Z) : Prop := 0 <= v < n.

(** Valid polyhedron: any number of components, no assumption on positions. *)
Definition wf3 {V} (p : poly V) : Prop :=
  0 <= nv p /\ links (nb (vb p)) (below (nv p)) /\ simple_faces (nb (vb p)) (below (nv p)).
