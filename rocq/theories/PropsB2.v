(** * PropsB2: the theorems about [r3d_init_poly] on any closed surface. *)
From Coq Require Import ZArith List Bool Lia.
From Verif Require Import Base Lib ModelCommon Model3 ModelB Spec3 SpecB InitP7 BrepEx.
Import ListNotations.
Open Scope Z_scope.

(** ** C59.  Any closed surface whose vertices are each on one ring of at least three
    faces, if every vertex has three or the degrees sum to at most the buffer size: the
    call succeeds, a vertex of degree [k] becomes [k - 2] consecutive vertices at its
    position, and the graph has the faces described. *)
Theorem C59_init_poly_any {V} nf nvf fi MX (p : poly V) t vertices n :
  0 <= nf -> closed_surface nf nvf fi n -> one_ring nf nvf fi -> 3 <= MX -> 0 <= n <= MX ->
  (forall v, 0 <= v < n -> 3 <= vdeg nf nvf fi v) ->
  (0 < n /\ forall v, 0 <= v < n -> vdeg nf nvf fi v = 3) \/ fold_right Z.add 0 (map (vdeg nf nvf fi) (zrange n)) <= MX ->
  exists p' delta, r3d_init_poly MX nf nvf fi p t vertices n = OK (p', 1) /\ nv p' = base nf nvf fi n
   /\ (forall v w, 0 <= v < n -> copy nf nvf fi v w -> ps (vb p') w = vertices v)
   /\ resolves nf nvf fi n (nb (vb p')) delta.
Proof.
  intros HF CS OR HM HN DG C. destruct (init_general nf nvf fi MX n CS p t vertices HF OR HM HN DG C) as (p' & delta & E & N & P & R & _).
  exists p', delta. auto.
Qed.
Print Assumptions C59_init_poly_any.
(** If moreover faces meet in a vertex, in an edge or not at all, the result is a valid
    polyhedron. *)
Theorem C59_init_poly_any_valid {V} nf nvf fi MX (p : poly V) t vertices n :
  0 <= nf -> closed_surface nf nvf fi n -> one_ring nf nvf fi -> share_one nf nvf fi -> faces_meet nf nvf fi -> 3 <= MX -> 0 <= n <= MX ->
  (forall v, 0 <= v < n -> 3 <= vdeg nf nvf fi v) ->
  (0 < n /\ forall v, 0 <= v < n -> vdeg nf nvf fi v = 3) \/ fold_right Z.add 0 (map (vdeg nf nvf fi) (zrange n)) <= MX ->
  exists p', r3d_init_poly MX nf nvf fi p t vertices n = OK (p', 1) /\ wf3 p'.
Proof.
  intros HF CS OR SH FM HM HN DG C. destruct (init_general nf nvf fi MX n CS p t vertices HF OR HM HN DG C) as (p' & delta & E & _ & _ & _ & W).
  exists p'. auto.
Qed.
Print Assumptions C59_init_poly_any_valid.

(** ** The hypotheses are met by the octahedron and by a square pyramid. *)
Definition pyrF := [[0; 1; 2; 3]; [1; 0; 4]; [2; 1; 4]; [3; 2; 4]; [0; 3; 4]].
Example oct_desc : closed_surface (lnf octF) (lnvf octF) (lfi octF) 6 /\ one_ring (lnf octF) (lnvf octF) (lfi octF)
  /\ share_one (lnf octF) (lnvf octF) (lfi octF) /\ faces_meet (lnf octF) (lnvf octF) (lfi octF)
  /\ (forall v, 0 <= v < 6 -> 3 <= vdeg (lnf octF) (lnvf octF) (lfi octF) v)
  /\ fold_right Z.add 0 (map (vdeg (lnf octF) (lnvf octF) (lfi octF)) (zrange 6)) = 24 /\ base (lnf octF) (lnvf octF) (lfi octF) 6 = 12.
Proof.
  split; [apply cs_chk_ok; vm_compute; reflexivity|]. split; [apply (or_chk_ok _ _ _ 4); vm_compute; reflexivity|].
  split; [apply so_chk_ok; vm_compute; reflexivity|]. split; [apply fm_chk_ok; vm_compute; reflexivity|]. split.
  - intros v Hv. apply Z.leb_le. refine (deg_chk_ok _ _ _ 6 (fun d => 3 <=? d) _ v Hv). vm_compute. reflexivity.
  - vm_compute. auto.
Qed.
Example pyr_desc : closed_surface (lnf pyrF) (lnvf pyrF) (lfi pyrF) 5 /\ one_ring (lnf pyrF) (lnvf pyrF) (lfi pyrF)
  /\ share_one (lnf pyrF) (lnvf pyrF) (lfi pyrF) /\ faces_meet (lnf pyrF) (lnvf pyrF) (lfi pyrF)
  /\ (forall v, 0 <= v < 5 -> 3 <= vdeg (lnf pyrF) (lnvf pyrF) (lfi pyrF) v)
  /\ fold_right Z.add 0 (map (vdeg (lnf pyrF) (lnvf pyrF) (lfi pyrF)) (zrange 5)) = 16 /\ base (lnf pyrF) (lnvf pyrF) (lfi pyrF) 5 = 6.
Proof.
  split; [apply cs_chk_ok; vm_compute; reflexivity|]. split; [apply (or_chk_ok _ _ _ 4); vm_compute; reflexivity|].
  split; [apply so_chk_ok; vm_compute; reflexivity|]. split; [apply fm_chk_ok; vm_compute; reflexivity|]. split.
  - intros v Hv. apply Z.leb_le. refine (deg_chk_ok _ _ _ 5 (fun d => 3 <=? d) _ v Hv). vm_compute. reflexivity.
  - vm_compute. auto.
Qed.
