(** * SpecB: boundary descriptions, independent of the code.

    A description has [nf] faces; face [f] has [nvf f] vertices, [fi f 0], [fi f 1], ...
    in order around it.  A corner is a pair (face, position in the face). *)
From Coq Require Import ZArith List Bool Relations.
From Verif Require Import Lib Spec3.
Import ListNotations.
Open Scope Z_scope.

Section Desc.
Context (nf : Z) (nvf : Z -> Z) (fi : Z -> Z -> Z).
Definition corner (c : Z * Z) : Prop := 0 <= fst c < nf /\ 0 <= snd c < nvf (fst c).
(** the vertex at a corner, the next and the previous corner of the face *)
Definition vat (c : Z * Z) : Z := fi (fst c) (snd c).
Definition csucc (c : Z * Z) : Z * Z := (fst c, (snd c + 1) mod nvf (fst c)).
Definition cpred (c : Z * Z) : Z * Z := (fst c, (snd c - 1) mod nvf (fst c)).
Definition corners : list (Z * Z) := flat_map (fun f => map (pair f) (zrange (nvf f))) (zrange nf).
(** number of faces at a vertex *)
Definition vdeg (v : Z) : Z := Z.of_nat (length (filter (fun c => vat c =? v) corners)).

(** A closed oriented surface with vertices [0 .. n-1]: every directed edge is on one
    face, and the same edge in the other direction is on one too.  Edges are not loops
    and faces do not turn back. *)
Record closed_surface (n : Z) : Prop := {
  cs_size : forall f, 0 <= f < nf -> 3 <= nvf f;
  cs_rng : forall c, corner c -> 0 <= vat c < n;
  cs_once : forall c d, corner c -> corner d -> vat c = vat d -> vat (csucc c) = vat (csucc d) -> c = d;
  cs_back : forall c, corner c -> exists d, corner d /\ vat d = vat (csucc c) /\ vat (csucc d) = vat c;
  cs_loop : forall c, corner c -> vat c <> vat (csucc c);
  cs_turn : forall c, corner c -> vat c <> vat (csucc (csucc c)) }.

(** Two faces share at most one edge. *)
Definition share_one : Prop :=
  forall c c' d d', corner c -> corner c' -> corner d -> corner d' -> fst c = fst c' -> fst d = fst d' ->
    vat d = vat (csucc c) -> vat (csucc d) = vat c -> vat d' = vat (csucc c') -> vat (csucc d') = vat c' -> c = c'.

(** [d] is the corner that follows [c] around their vertex: the face of [d] leaves along
    the edge by which the face of [c] arrives. *)
Definition turn (c d : Z * Z) : Prop :=
  corner c /\ corner d /\ vat d = vat c /\ vat (csucc d) = vat (cpred c).
(** The faces at a vertex form one ring. *)
Definition one_ring : Prop :=
  forall c d, corner c -> corner d -> vat c = vat d -> clos_refl_trans _ turn c d.
(** A face visits a vertex once, and two faces with two vertices in common share the
    edge between them. *)
Definition faces_meet : Prop :=
  (forall c d, corner c -> corner d -> fst c = fst d -> vat c = vat d -> c = d)
  /\ forall c c' d d', corner c -> corner c' -> corner d -> corner d' -> fst c = fst c' -> fst d = fst d' -> fst c <> fst d ->
      vat c = vat d -> vat c' = vat d' -> vat c <> vat c' ->
      exists a b, corner a /\ corner b /\ fst a = fst c /\ fst b = fst d /\ vat b = vat (csucc a) /\ vat (csucc b) = vat a
        /\ ((vat a = vat c /\ vat (csucc a) = vat c') \/ (vat a = vat c' /\ vat (csucc a) = vat c)).

(** ** Descriptions resolved to three edges per vertex

    Vertex [v] of degree [deg v] becomes [deg v - 2] consecutive vertices. *)
Definition base (v : Z) : Z := fold_right Z.add 0 (map (fun u => vdeg u - 2) (zrange v)).
Definition copy (v w : Z) : Prop := base v <= w < base (v + 1).
(** The graph [f] describes the surface: [delta] sends a corner to the directed edge from
    a copy of the next corner's vertex to a copy of its own; going round the face of the
    graph one meets the corners of the face described in reverse order, with only edges
    between copies of the same vertex in between. *)
Record resolves (n : Z) (f : Z -> Z -> Z) (delta : Z * Z -> dart) : Prop := {
  rv_links : links f (below (base n));
  rv_copy : forall w, 0 <= w < base n -> exists v, 0 <= v < n /\ copy v w;
  rv_joined : forall v w w', 0 <= v < n -> copy v w -> copy v w' ->
    clos_refl_sym_trans _ (fun a b => copy v a /\ copy v b /\ exists i, 0 <= i < 3 /\ f a i = b) w w';
  rv_edge : forall c, corner c -> 0 <= snd (delta c) < 3 /\ copy (vat (csucc c)) (dsrc (delta c)) /\ copy (vat c) (dtgt f (delta c));
  rv_inj : forall c d, corner c -> corner d -> delta c = delta d -> c = d;
  rv_surj : forall d v, isd (below (base n)) d -> 0 <= v < n -> copy v (dsrc d) -> ~ copy v (dtgt f d) -> exists c, corner c /\ delta c = d;
  rv_next : forall c, corner c -> exists k, (0 < k)%nat /\ iter k (fnext f) (delta c) = delta (cpred c)
    /\ forall j, (0 < j < k)%nat -> copy (vat c) (dsrc (iter j (fnext f) (delta c))) /\ copy (vat c) (dtgt f (iter j (fnext f) (delta c)));
  rv_face : forall c d, corner c -> corner d -> same_face f (delta c) (delta d) <-> fst c = fst d;
  rv_all : forall d, isd (below (base n)) d -> exists c, corner c /\ same_face f (delta c) d }.
End Desc.
