(** * SpecC2: convex polygons in the buffers of [src/r2d.c] as sets of points, over the
    reals; independent of the routines. *)
From Coq Require Import Reals ZArith List Bool.
From Verif Require Import Lib ModelCommon Model2 ModelV RealNum Spec2 Spec2R SpecNV SpecNJ.
Import ListNotations.
Open Scope R_scope.

(** twice the area of the triangle [a b c], positive when it turns to the left *)
Definition turn (a b c : rvec2 R) : R := (vx b - vx a) * (vy c - vy a) - (vy b - vy a) * (vx c - vx a).
(** every triangle of three points in the order of the list turns to the left or is flat *)
Fixpoint ccw (s : list (rvec2 R)) : Prop :=
  match s with [] => True | a :: r => ForallOrdPairs (fun b c => 0 <= turn a b c) r /\ ccw r end.
(** and none of them is flat *)
Fixpoint strict_ccw (s : list (rvec2 R)) : Prop :=
  match s with [] => True | a :: r => ForallOrdPairs (fun b c => 0 < turn a b c) r /\ strict_ccw r end.

(** [s] holds the vertices below [n] in the order of the boundary, which is one loop *)
Definition loop (f : Z -> Z) (n : Z) (s : list Z) : Prop :=
  NoDup s /\ (forall v, In v s <-> (0 <= v < n)%Z)
  /\ (forall l a b r, s = l ++ a :: b :: r -> f a = b) /\ (forall a r, s = a :: r -> f (last s a) = a).
(** no line is crossed more than twice: of the vertices with [0 <= sdist], at most one is
    followed by one without *)
Definition twice_crossed (p : poly (rvec2 R)) : Prop := forall g u v,
  let keep w := 0 <= sdist g (ps (vb p) w) in let next w := nb (vb p) w 0%Z in
  (0 <= u < nv p)%Z -> (0 <= v < nv p)%Z -> keep u -> keep v -> ~ keep (next u) -> ~ keep (next v) -> u = v.
(** a convex polygon with its vertices in counterclockwise order; vertices may coincide *)
Definition convex_ccw (p : poly (rvec2 R)) : Prop :=
  wf2 p /\ twice_crossed p /\ exists s, loop (fun v => nb (vb p) v 0%Z) (nv p) s /\ ccw (map (ps (vb p)) s).

(** the convex hull of the vertices: every half-plane that holds them all holds [x] *)
Definition hull2 (p : poly (rvec2 R)) (x : rvec2 R) : Prop :=
  forall pl, (forall v, (0 <= v < nv p)%Z -> 0 <= sdist pl (ps (vb p) v)) -> 0 <= sdist pl x.
(** on the inner side of every line *)
Definition holds2 (planes : list (plane2 R)) (x : rvec2 R) : Prop := forall pl, In pl planes -> 0 <= sdist pl x.

(** a line: the normal is not zero *)
Definition proper2 (pl : plane2 R) : Prop := vx (pn pl) <> 0 \/ vy (pn pl) <> 0.
(** the area of a set of points *)
Definition content2 (K : rvec2 R -> Prop) (t : R) : Prop := content 2 (fun x => K (V2 (x 0%Z) (x 1%Z))) t.
(** the closed grid cell with the indices [a], [b] *)
Definition in_cell2 (d : rvec2 R) (a b : Z) (x : rvec2 R) : Prop :=
  vx d * IZR a <= vx x <= vx d * IZR (a + 1) /\ vy d * IZR b <= vy x <= vy d * IZR (b + 1).
(** the closed region of a box of cells *)
Definition in_cells2 (d : rvec2 R) (B : box) (x : rvec2 R) : Prop :=
  vx d * IZR (fst B 0%Z) <= vx x <= vx d * IZR (snd B 0%Z) /\ vy d * IZR (fst B 1%Z) <= vy x <= vy d * IZR (snd B 1%Z).
(** [o] is the part of [p] on the inner side of [pl], or is empty and the hull of [p] has
    nothing strictly on that side *)
Definition side_of2 (p : poly (rvec2 R)) (pl : plane2 R) (o : poly (rvec2 R)) : Prop :=
  convex_ccw o /\ ((forall x, hull2 o x <-> hull2 p x /\ 0 <= sdist pl x) \/ (nv o = 0%Z /\ forall x, hull2 p x -> sdist pl x <= 0)).
