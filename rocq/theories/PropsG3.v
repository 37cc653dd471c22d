(** * PropsG3: the properties of [r3d_is_good] (C39-C42). *)
From Coq Require Import Reals ZArith List Bool Lia.
From Verif Require Import Base Lib ModelCommon Model3 ModelGood Spec3 RealNum Spec3R SpecGood Conn Good3 ThreeConn GlueG3.
Import ListNotations.
Open Scope Z_scope.

(** ** C39: false as stated.  On a convex prism with as many vertices as the buffer
    holds, the flood fill writes past the end of its stack. *)
Theorem C39_r3d_is_good_stack_refuted : exists p : poly (rvec3 R), wf3 p /\ planar_faces p /\ nv p = 512
  /\ (forall e, isd (below (nv p)) e -> exists g, proper g
        /\ (forall e', same_face (nb (vb p)) e e' -> sdist3 g (ps (vb p) (fst e')) = 0%R)
        /\ (forall v, 0 <= v < nv p -> (0 <= sdist3 g (ps (vb p) v))%R))
  /\ r3d_is_good 512 p = Err OutOfBounds.
Proof. exact is_good_overflow. Qed.
Print Assumptions C39_r3d_is_good_stack_refuted.

(** what does hold: no error when the buffer has room for 2 nverts + 1 entries *)
Theorem C39_r3d_is_good_room {V} (MX : Z) (p : poly V) : 0 <= nv p -> 2 * nv p + 1 <= MX ->
  (forall v i, 0 <= v < nv p -> 0 <= i < 3 -> 0 <= nb (vb p) v i) -> exists r, r3d_is_good MX p = OK r.
Proof. exact (is_good_room MX p). Qed.
Print Assumptions C39_r3d_is_good_room.

(** ** C40 *)
(** links are mutual: exactly 3-vertex-connectedness of every component *)
Theorem C40_r3d_is_good_decides {V} (MX : Z) (p : poly V) (r : Z) : 0 <= nv p <= MX ->
  (forall v i, 0 <= v < nv p -> 0 <= i < 3 -> 0 <= nb (vb p) v i < nv p) -> mutual (nb (vb p)) 3 (nv p) ->
  r3d_is_good MX p = OK r ->
  (r = 0 \/ r = 1) /\ (r = 1 <-> regular (nb (vb p)) 3 (nv p) /\ conn3 (nb (vb p)) (nv p)).
Proof. exact (is_good_mutual MX p r). Qed.
Print Assumptions C40_r3d_is_good_decides.

(** any non-negative links: walks follow links in their direction and start from the
    least vertex left *)
Theorem C40_r3d_is_good_decides_any {V} (MX : Z) (p : poly V) (r : Z) : 0 <= nv p <= MX ->
  (forall v i, 0 <= v < nv p -> 0 <= i < 3 -> 0 <= nb (vb p) v i) -> r3d_is_good MX p = OK r ->
  (r = 0 \/ r = 1) /\ (r = 1 <-> regular (nb (vb p)) 3 (nv p) /\ conn3_least (nb (vb p)) (nv p)).
Proof. exact (is_good_exact MX p r). Qed.
Print Assumptions C40_r3d_is_good_decides_any.

(** ** C41: false as stated.  A graph in which no link at all is returned is accepted. *)
Theorem C41_r3d_is_good_mutual_refuted : exists p : poly (rvec3 R), r3d_is_good 512 p = OK 1 /\ 0 < nv p <= 512
  /\ (forall v i, 0 <= v < nv p -> 0 <= i < 3 -> 0 <= nb (vb p) v i < nv p)
  /\ forall v i j, 0 <= v < nv p -> 0 <= i < 3 -> 0 <= j < 3 -> nb (vb p) (nb (vb p) v i) j <> v.
Proof. exact oneway_false. Qed.
Print Assumptions C41_r3d_is_good_mutual_refuted.

(** ** C42 *)
(** two faces sharing at most one edge makes every component 3-vertex-connected *)
Theorem C42_valid_is_3_connected {V} (p : poly V) : wf3 p ->
  regular (nb (vb p)) 3 (nv p) /\ conn3 (nb (vb p)) (nv p).
Proof. exact (fun Hw => match Hw with conj Hn (conj L SF) => conj (links_regular _ _ Hn L) (wf_conn3 _ _ Hn L SF) end). Qed.
Print Assumptions C42_valid_is_3_connected.

Theorem C42_api_history_good (N : num) (MX : Z) (p : poly (rvec3 (T N))) : 8 <= MX -> api3 N MX p ->
  wf3 p /\ nv p <= MX /\ (2 * nv p + 1 <= MX -> r3d_is_good MX p = OK 1).
Proof. exact (api3_good N MX p). Qed.
Print Assumptions C42_api_history_good.

(** ** The hypotheses are met, with both answers *)
Example necklace_answer : r3d_is_good 512 necklace = OK 0 /\ links (nb (vb necklace)) (below 8).
Proof. exact necklace_bad. Qed.
Example necklace_cut : ~ conn3 (nb (vb necklace)) 8.
Proof.
  destruct necklace_bad as (E & L). intros C.
  destruct (C40_r3d_is_good_decides 512 necklace 0 ltac:(cbn; lia)) as (_ & X); auto.
  - intros v i Hv Hi. apply (l_rng _ _ L v i Hv Hi).
  - intros v i Hv Hi. apply (l_mut _ _ L v i Hv Hi).
  - assert (0 = 1); [|lia]. apply X. split; auto. apply links_regular; auto. cbn; lia.
Qed.
Example history : exists p, api3 RN 512 p /\ nv p = 8 /\ r3d_is_good 512 p = OK 1.
Proof.
  destruct (Small3.init_box_spec3 RN 512 (PY (VB (fun _ _ => 0) (fun _ => V3 0%R 0%R 0%R)) 0) (V3 0%R 0%R 0%R) (V3 1%R 1%R 1%R) ltac:(lia)) as (p & E & E8 & _).
  assert (A : api3 RN 512 p) by (eapply api_box; exact E).
  destruct (Small3.map_pos3_spec RN 512 (fun q => OK (V3 (x3 q + 1) (y3 q + 2) (z3 q + 3))%R) (fun q => V3 (x3 q + 1) (y3 q + 2) (z3 q + 3))%R p) as (p' & E' & M & _); auto.
  { change (0 <= nv p <= 512). rewrite E8. lia. }
  assert (A' : api3 RN 512 p') by (apply (api_translate RN 512 p (V3 1 2 3)%R); auto).
  exists p'. split; auto. split; [congruence|]. apply (C42_api_history_good RN 512 p' ltac:(lia) A'). rewrite M, E8. lia.
Qed.
