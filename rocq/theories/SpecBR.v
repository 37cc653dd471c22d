(** * SpecBR: faces as lists of directed edges, in the order of [r3d_init_brep], and what
    a component looks like.  Only the record types of the result are taken from the
    model. *)
From Coq Require Import ZArith List Bool.
From Verif Require Import Lib ModelCommon CommonFacts ModelBR Spec3 SpecGood.
Import ListNotations.
Open Scope Z_scope.

Section Graph.
Context (f : Z -> Z -> Z) (n : Z).
(** next directed edge of the face to the other side than [fnext] *)
Definition gnext (d : dart) : dart := (dtgt f d, (slot f (dtgt f d) (dsrc d) + 2) mod 3).
(** number of edges of the face of [s], and these edges in order *)
Definition gper (s : dart) : nat :=
  match find (fun q => (fst (iter q gnext s) =? fst s) && (snd (iter q gnext s) =? snd s)) (seq 1 (Z.to_nat n)) with
  | Some q => q | None => O end.
Definition gface (s : dart) : list dart := map (fun j => iter j gnext s) (seq 0 (gper s)).
End Graph.

(** [u] is the first of the run of coincident vertices that ends in [v]. *)
Definition rep {V} (veq : V -> V -> bool) (pos : Z -> V) (v u : Z) : Prop :=
  0 <= u <= v /\ (forall w, u < w <= v -> veq (pos w) (pos (w - 1)) = true)
  /\ (u = 0 \/ veq (pos u) (pos (u - 1)) = false).

(** [br] describes the component of vertex [r] of [p]; its faces, in order, are those of
    the directed edges in [starts].  [mp] sends a vertex to the one it is merged with and
    [cm] numbers the vertices of the description. *)
Definition brep_of {V} (veq : V -> V -> bool) (p : poly V) (r : Z) (br : @brep V) (starts : list dart) : Prop :=
  let f := nb (vb p) in let n := nv p in
  exists mp cm : Z -> Z,
  (forall v, 0 <= v < n -> rep veq (ps (vb p)) v (mp v))
  /\ (forall v, 0 <= v < n -> conn f 3 r v -> 0 <= cm (mp v) < b_nv br /\ b_vs br (cm (mp v)) = Some (ps (vb p) (mp v)))
  /\ (forall u v, 0 <= u < n -> 0 <= v < n -> conn f 3 r u -> conn f 3 r v -> mp u < mp v -> cm (mp u) < cm (mp v))
  /\ (forall j, 0 <= j < b_nv br -> exists v, 0 <= v < n /\ conn f 3 r v /\ cm (mp v) = j)
  /\ (forall s, In s starts -> isd (below n) s /\ conn f 3 r (fst s))
  /\ NoDup (flat_map (gface f n) starts)
  /\ (forall d, isd (below n) d -> conn f 3 r (fst d) -> In d (flat_map (gface f n) starts))
  /\ b_nf br = Z.of_nat (length starts)
  /\ forall k, (k < length starts)%nat ->
     let K := filter (fun d => negb (mp (fst d) =? mp (dtgt f d))) (gface f n (nth k starts (0%Z, 0%Z))) in
     b_pf br (Z.of_nat k) = Some (Z.of_nat (length K))
     /\ exists fc, b_fi br (Z.of_nat k) = Some fc /\ f_len fc = Z.of_nat (length K)
     /\ forall i : nat, (i < length K)%nat -> f_ind fc (Z.of_nat i) = Some (cm (mp (fst (nth i K (0%Z, 0%Z))))).

(** [bs] has exactly one entry for every connected component of [p]: [roots] holds one
    vertex of each. *)
Definition breps_of {V} (veq : V -> V -> bool) (p : poly V) (bs : @breps V) (roots : list Z) (starts : list (list dart)) : Prop :=
  bs_nc bs = Z.of_nat (length roots) /\ length starts = length roots
  /\ (forall r, In r roots -> 0 <= r < nv p)
  /\ (forall v, 0 <= v < nv p -> exists k, (k < length roots)%nat /\ conn (nb (vb p)) 3 (nth k roots 0) v
        /\ forall j, (j < length roots)%nat -> conn (nb (vb p)) 3 (nth j roots 0) v -> j = k)
  /\ forall k, (k < length roots)%nat -> exists br, bs_br bs (Z.of_nat k) = Some br
        /\ brep_of veq p (nth k roots 0) br (nth k starts []).

(** no block that is live now will be handed out again *)
Definition fresh (h : heap) : Prop := forall a, hlive h a = true -> a < hnext h.
