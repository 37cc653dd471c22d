(** * Small3: transforms, initialisers, faces, orientation (r3d.c:583-1046). *)
From Coq Require Import Reals ZArith List Bool Lia Lra Psatz.
From Coquelicot Require Import Coquelicot.
From Verif Require Import Base Lib ModelCommon CommonFacts Model3 Spec3 Orb3 Cut3 FaceSpec3 Face3 HPoly HShift HInt
  RealNum SumR Spec3R Mom3 Geo3 Cons3 Green2 Shift2 Shift3 Graph3.
Import ListNotations.
Open Scope Z_scope.

Section Gen.
Context (NN : num) (MX : Z).
Notation rv := (rvec3 (T NN)).
Notation pol := (poly rv).

(** every transform is a map over the positions that keeps the linkage *)
Definition mapped3 (g : rv -> rv) (p p' : pol) : Prop :=
  nv p' = nv p /\ nb (vb p') = nb (vb p)
  /\ (forall v, 0 <= v < nv p -> ps (vb p') v = g (ps (vb p) v))
  /\ (forall v, ~ 0 <= v < nv p -> ps (vb p') v = ps (vb p) v).

Lemma map_pos3_spec (f : rv -> res rv) g (p : pol) : 0 <= nv p <= MX ->
  (forall q, f q = OK (g q)) -> exists p', map_pos3 NN MX f p = OK p' /\ mapped3 g p p'.
Proof.
  intros Hn Hf. unfold map_pos3.
  destruct (for_inv (fun k b => nb b = nb (vb p)
     /\ (forall v, 0 <= v < k -> ps b v = g (ps (vb p) v))
     /\ (forall v, ~ 0 <= v < k -> ps b v = ps (vb p) v)) 0 (nv p)
    (fun v b => let* q := rd_ps MX b v in let* q0 := f q in wr_ps MX b v q0) (vb p)) as (b & E & I1 & I2 & I3); try lia.
  - split; auto. split; auto. intros. lia.
  - intros v b Hv (I1 & I2 & I3). rewrite rd_ps_ok by lia. cbn [bind]. rewrite Hf. cbn [bind].
    rewrite wr_ps_ok by lia. eexists. split; [reflexivity|]. cbn [nb ps]. split; auto. split; intros u Hu.
    + destruct (Z.eq_dec u v) as [->|]; [rewrite upd_eq, I3 by lia; auto|]. rewrite upd_neq by lia. apply I2. lia.
    + rewrite upd_neq by lia. apply I3. lia.
  - rewrite E. cbn [bind]. eexists. split; [reflexivity|]. unfold mapped3. cbn [nv vb]. auto.
Qed.
Lemma mapped3_wf g p p' : mapped3 g p p' -> wf3 p -> wf3 p'.
Proof. intros (A & B & _) (C & D). unfold wf3. rewrite A, B. auto. Qed.

(** ** initialisers *)
Definition tet_tab : Z -> Z -> Z := table [(1, 3, 2); (2, 3, 0); (0, 3, 1); (1, 2, 0)].
Definition box_tab : Z -> Z -> Z :=
  table [(1, 4, 3); (2, 5, 0); (3, 6, 1); (0, 7, 2); (7, 0, 5); (4, 1, 6); (5, 2, 7); (6, 3, 4)].

Lemma set_nbs_ok (b : vbuf rv) v a0 a1 a2 : 0 <= v < MX -> exists b', set_nbs NN MX b v a0 a1 a2 = OK b'
  /\ ps b' = ps b /\ nb b' v 0 = a0 /\ nb b' v 1 = a1 /\ nb b' v 2 = a2
  /\ forall u s, u <> v -> nb b' u s = nb b u s.
Proof.
  intros Hv. unfold set_nbs. rewrite wr_nb_ok by lia. cbn [bind]. rewrite wr_nb_ok by lia. cbn [bind].
  rewrite wr_nb_ok by lia. eexists. split; [reflexivity|]. cbn [ps nb]. split; auto.
  split. { rewrite !set_nb_neq_p by lia. apply set_nb_eq. }
  split. { rewrite set_nb_neq_p by lia. apply set_nb_eq. }
  split. { apply set_nb_eq. }
  intros. now rewrite !set_nb_neq_v by auto.
Qed.

Lemma init_tet_spec (p : pol) q0 q1 q2 q3 : 4 <= MX ->
  exists p', r3d_init_tet NN MX p q0 q1 q2 q3 = OK p' /\ nv p' = 4
  /\ agree tet_tab (nb (vb p')) 4 /\ map (ps (vb p')) (zrange 4) = [q0; q1; q2; q3].
Proof.
  intros HM. unfold r3d_init_tet, set_nbs.
  repeat (rewrite wr_nb_ok by lia; cbn [bind nb ps]). repeat (rewrite wr_ps_ok by lia; cbn [bind nb ps]).
  eexists. split; [reflexivity|]. split; [reflexivity|]. split; [|reflexivity].
  intros v i Hv Hi. assert (v = 0 \/ v = 1 \/ v = 2 \/ v = 3) as [E|[E|[E|E]]] by lia;
    assert (i = 0 \/ i = 1 \/ i = 2) as [F|[F|F]] by lia; rewrite E, F; reflexivity.
Qed.
Lemma init_box_spec3 (p : pol) lo hi : 8 <= MX ->
  exists p', r3d_init_box NN MX p lo hi = OK p' /\ nv p' = 8
  /\ agree box_tab (nb (vb p')) 8
  /\ map (ps (vb p')) (zrange 8) =
     [V3 (x3 lo) (y3 lo) (z3 lo); V3 (x3 hi) (y3 lo) (z3 lo); V3 (x3 hi) (y3 hi) (z3 lo); V3 (x3 lo) (y3 hi) (z3 lo);
      V3 (x3 lo) (y3 lo) (z3 hi); V3 (x3 hi) (y3 lo) (z3 hi); V3 (x3 hi) (y3 hi) (z3 hi); V3 (x3 lo) (y3 hi) (z3 hi)].
Proof.
  intros HM. unfold r3d_init_box, set_nbs.
  repeat (rewrite wr_nb_ok by lia; cbn [bind nb ps]). repeat (rewrite wr_ps_ok by lia; cbn [bind nb ps]).
  eexists. split; [reflexivity|]. split; [reflexivity|]. split; [|reflexivity].
  intros v i Hv Hi. assert (v = 0 \/ v = 1 \/ v = 2 \/ v = 3 \/ v = 4 \/ v = 5 \/ v = 6 \/ v = 7) as [E|[E|[E|[E|[E|[E|[E|E]]]]]]] by lia;
    assert (i = 0 \/ i = 1 \/ i = 2) as [F|[F|F]] by lia; rewrite E, F; reflexivity.
Qed.
Lemma tet_wf (p : pol) : nv p = 4 -> agree tet_tab (nb (vb p)) 4 -> wf3 p.
Proof. intros E A. apply (wf_b_ok p tet_tab); rewrite E; [lia|vm_compute; reflexivity|exact A]. Qed.
Lemma box_wf (p : pol) : nv p = 8 -> agree box_tab (nb (vb p)) 8 -> wf3 p.
Proof. intros E A. apply (wf_b_ok p box_tab); rewrite E; [lia|vm_compute; reflexivity|exact A]. Qed.
End Gen.
Notation "'mapped3R' g p p'" := (@mapped3 RN g p p') (at level 10, g at level 9, p at level 9, p' at level 9).

Open Scope R_scope.

(** ** planarity *)
Lemma three_plane (a b c : rvec3 R) : exists g, proper g /\ sdist3 g a = 0 /\ sdist3 g b = 0 /\ sdist3 g c = 0.
Proof.
  destruct a as [ax ay az], b as [bx by' bz], c as [cx cy cz].
  set (ux := bx - ax). set (uy := by' - ay). set (uz := bz - az).
  set (vx := cx - ax). set (vy := cy - ay). set (vz := cz - az).
  assert (G : forall nx ny nz, nx <> 0 \/ ny <> 0 \/ nz <> 0 ->
     nx * ux + ny * uy + nz * uz = 0 -> nx * vx + ny * vy + nz * vz = 0 ->
     exists g, proper g /\ sdist3 g (V3 ax ay az) = 0 /\ sdist3 g (V3 bx by' bz) = 0 /\ sdist3 g (V3 cx cy cz) = 0).
  { intros nx ny nz Hn Hu Hv. exists (PL3 (V3 nx ny nz) (- (nx * ax + ny * ay + nz * az))).
    unfold proper, sdist3. cbn [n3 d3 x3 y3 z3]. unfold ux, uy, uz, vx, vy, vz in *. split; auto. split; [ring|]. split; lra. }
  destruct (Req_dec (uy * vz - uz * vy) 0) as [E1|E1];
  destruct (Req_dec (uz * vx - ux * vz) 0) as [E2|E2];
  destruct (Req_dec (ux * vy - uy * vx) 0) as [E3|E3];
    try (apply (G (uy * vz - uz * vy) (uz * vx - ux * vz) (ux * vy - uy * vx)); [tauto|ring|ring]).
  (* collinear *)
  assert (W : forall wx wy wz, wx <> 0 \/ wy <> 0 \/ wz <> 0 ->
    exists nx ny nz, (nx <> 0 \/ ny <> 0 \/ nz <> 0) /\ nx * wx + ny * wy + nz * wz = 0
      /\ forall zx zy zz, wy * zz - wz * zy = 0 -> wz * zx - wx * zz = 0 -> wx * zy - wy * zx = 0 ->
         nx * zx + ny * zy + nz * zz = 0).
  { intros wx wy wz [H|[H|H]].
    - exists wy, (- wx), 0. split; [right; left; lra|]. split; [ring|]. intros. lra.
    - exists wy, (- wx), 0. split; [left; auto|]. split; [ring|]. intros. lra.
    - exists 0, wz, (- wy). split; [right; left; auto|]. split; [ring|]. intros. lra. }
  destruct (Req_dec ux 0) as [A|A]; [destruct (Req_dec uy 0) as [B|B]; [destruct (Req_dec uz 0) as [C|C]|]|].
  2-4: destruct (W ux uy uz ltac:(tauto)) as (nx & ny & nz & Hn & E & F); apply (G nx ny nz); auto.
  destruct (Req_dec vx 0) as [A'|A']; [destruct (Req_dec vy 0) as [B'|B']; [destruct (Req_dec vz 0) as [C'|C']|]|].
  - apply (G 1 0 0); [left; lra|rewrite A, B, C; ring|rewrite A', B', C'; ring].
  - destruct (W vx vy vz ltac:(tauto)) as (nx & ny & nz & Hn & E & F). apply (G nx ny nz); auto. rewrite A, B, C. ring.
  - destruct (W vx vy vz ltac:(tauto)) as (nx & ny & nz & Hn & E & F). apply (G nx ny nz); auto. rewrite A, B, C. ring.
  - destruct (W vx vy vz ltac:(tauto)) as (nx & ny & nz & Hn & E & F). apply (G nx ny nz); auto. rewrite A, B, C. ring.
Qed.

(** planarity of a graph given by a table *)
Lemma planar_table (p : pol3) f : agree f (nb (vb p)) (nv p) -> links f (below (nv p)) ->
  (forall d, In d (darts 3 (nv p)) -> exists g, proper g
     /\ forall e, same_face f d e -> sdist3 g (ps (vb p) (fst e)) = 0) -> planar_faces p.
Proof.
  intros A L H d Hd. destruct (H d (proj1 (isd_in _ d) Hd)) as (g & Hg & E). exists g. split; auto.
  intros e He. apply E. eapply same_face_ext; eauto.
Qed.

Lemma tet_planar (p : pol3) : nv p = 4%Z -> agree tet_tab (nb (vb p)) 4 -> planar_faces p.
Proof.
  intros E A. apply (planar_table p tet_tab); rewrite ?E; auto.
  - apply links_b_ok. vm_compute. reflexivity.
  - intros d Hd.
    assert (P3' : iter 3 (fnext tet_tab) d = d).
    { assert (X : forallb (fun d => deq (iter 3 (fnext tet_tab) d) d) (darts 3 4) = true) by (vm_compute; reflexivity).
      rewrite forallb_forall in X. apply deq_eq, X. auto. }
    destruct (three_plane (ps (vb p) (fst d)) (ps (vb p) (fst (fnext tet_tab d))) (ps (vb p) (fst (iter 2 (fnext tet_tab) d))))
      as (g & Hg & E0 & E1 & E2).
    exists g. split; auto. intros e He. destruct (same_face_period _ _ 3 ltac:(lia) P3' e He) as (j & Hj & ->).
    destruct j as [|[|[|]]]; try lia; auto.
Qed.

Lemma box_planar (p : pol3) (lo hi : rvec3 R) : nv p = 8%Z -> agree box_tab (nb (vb p)) 8 ->
  map (ps (vb p)) (zrange 8) =
     [V3 (x3 lo) (y3 lo) (z3 lo); V3 (x3 hi) (y3 lo) (z3 lo); V3 (x3 hi) (y3 hi) (z3 lo); V3 (x3 lo) (y3 hi) (z3 lo);
      V3 (x3 lo) (y3 lo) (z3 hi); V3 (x3 hi) (y3 lo) (z3 hi); V3 (x3 hi) (y3 hi) (z3 hi); V3 (x3 lo) (y3 hi) (z3 hi)] ->
  planar_faces p.
Proof.
  intros E A Ep. apply (planar_table p box_tab); rewrite ?E; auto.
  - apply links_b_ok. vm_compute. reflexivity.
  - change (zrange 8) with [0; 1; 2; 3; 4; 5; 6; 7]%Z in Ep. cbn [map] in Ep. injection Ep as E0 E1 E2 E3 E4 E5 E6 E7.
    intros d Hd.
    assert (P4 : iter 4 (fnext box_tab) d = d).
    { assert (X : forallb (fun d => deq (iter 4 (fnext box_tab) d) d) (darts 3 8) = true) by (vm_compute; reflexivity).
      rewrite forallb_forall in X. apply deq_eq, X. auto. }
    assert (G : exists g, proper g /\ forall j, (j < 4)%nat -> sdist3 g (ps (vb p) (fst (iter j (fnext box_tab) d))) = 0).
    { clear P4.
      assert (F : forall k0 k1 k2 k3, fst (iter 0 (fnext box_tab) d) = k0 -> fst (iter 1 (fnext box_tab) d) = k1 ->
         fst (iter 2 (fnext box_tab) d) = k2 -> fst (iter 3 (fnext box_tab) d) = k3 ->
         (exists g, proper g /\ sdist3 g (ps (vb p) k0) = 0 /\ sdist3 g (ps (vb p) k1) = 0
            /\ sdist3 g (ps (vb p) k2) = 0 /\ sdist3 g (ps (vb p) k3) = 0) ->
         exists g, proper g /\ forall j, (j < 4)%nat -> sdist3 g (ps (vb p) (fst (iter j (fnext box_tab) d))) = 0).
      { intros k0 k1 k2 k3 <- <- <- <- (g & Hg & X0 & X1 & X2 & X3). exists g. split; auto.
        intros j Hj. destruct j as [|[|[|[|]]]]; auto. lia. }
      assert (PX : forall a, proper (PL3 (V3 1 0 0) (- a))) by (intros; left; cbn; lra).
      assert (PY : forall a, proper (PL3 (V3 0 1 0) (- a))) by (intros; right; left; cbn; lra).
      assert (PZ : forall a, proper (PL3 (V3 0 0 1) (- a))) by (intros; right; right; cbn; lra).
      vm_compute in Hd.
      repeat (destruct Hd as [Hd|Hd]; [subst d; eapply F; [vm_compute; reflexivity..|];
         rewrite ?E0, ?E1, ?E2, ?E3, ?E4, ?E5, ?E6, ?E7;
         first [ exists (PL3 (V3 1 0 0) (- x3 lo)); split; [apply PX|unfold sdist3; cbn; repeat split; ring]
               | exists (PL3 (V3 1 0 0) (- x3 hi)); split; [apply PX|unfold sdist3; cbn; repeat split; ring]
               | exists (PL3 (V3 0 1 0) (- y3 lo)); split; [apply PY|unfold sdist3; cbn; repeat split; ring]
               | exists (PL3 (V3 0 1 0) (- y3 hi)); split; [apply PY|unfold sdist3; cbn; repeat split; ring]
               | exists (PL3 (V3 0 0 1) (- z3 lo)); split; [apply PZ|unfold sdist3; cbn; repeat split; ring]
               | exists (PL3 (V3 0 0 1) (- z3 hi)); split; [apply PZ|unfold sdist3; cbn; repeat split; ring] ]|]).
      destruct Hd. }
    destruct G as (g & Hg & E'). exists g. split; auto. intros e He.
    destruct (same_face_period _ _ 4 ltac:(lia) P4 e He) as (j & Hj & ->). auto.
Qed.
