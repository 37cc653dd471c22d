(** * Props3: the 3D property theorems (C25-C34, C43-C45). *)
From Coq Require Import Reals ZArith List Bool Lia Lra.
From Coquelicot Require Import Coquelicot.
From Verif Require Import Base Lib ModelCommon Model3 Spec2 Spec3 FaceSpec3 HInt RealNum SumR Reduce3 Spec3R
  Mom3 Cons3 Shift3 Trans3 Shape3 Faces3 Fail3 Glue3.
Import ListNotations.
Open Scope Z_scope.

(** ** C25 *)
Theorem C25_r3d_clip_linked (N : num) (MX : Z) (p p' : poly (rvec3 (T N))) (planes : list (plane3 (T N))) :
  wf3 p -> nv p <= MX -> r3d_clip N MX p planes = OK (p', 1) -> wf3 p' /\ nv p' <= MX.
Proof. exact (r3d_clip_linked N MX p p' planes). Qed.
Print Assumptions C25_r3d_clip_linked.

(** ** C26 *)
(** never an error; the status is 1, or 0 for the empty polyhedron, or 0 because
    some plane needs more vertices than the buffer holds *)
Theorem C26_r3d_clip_total (N : num) (MX : Z) (p : poly (rvec3 (T N))) (planes : list (plane3 (T N))) :
  wf3 p -> nv p <= MX ->
  exists p' st, r3d_clip N MX p planes = OK (p', st)
  /\ (st = 1 /\ 0 < nv p
      \/ st = 0 /\ nv p = 0 /\ p' = p
      \/ st = 0 /\ 0 < nv p /\ exists pre pl post q, planes = pre ++ pl :: post
           /\ r3d_clip N MX p pre = OK (q, 1) /\ MX < nv q + exits 3 (kept3 N pl q) (nb (vb q)) (nv q)).
Proof. exact (r3d_clip_total N MX p planes). Qed.
Print Assumptions C26_r3d_clip_total.

(** ** C27 *)
Theorem C27_r3d_clip_succeeds (N : num) (MX : Z) (p : poly (rvec3 (T N))) (planes : list (plane3 (T N))) :
  wf3 p -> 0 < nv p <= MX ->
  (forall pre pl post q, planes = pre ++ pl :: post -> r3d_clip N MX p pre = OK (q, 1) ->
     nv q + exits 3 (kept3 N pl q) (nb (vb q)) (nv q) <= MX) ->
  exists p', r3d_clip N MX p planes = OK (p', 1).
Proof. exact (r3d_clip_safe N MX p planes). Qed.
Print Assumptions C27_r3d_clip_succeeds.

Theorem C27_r3d_clip_room (N : num) (MX : Z) (p : poly (rvec3 (T N))) (planes : list (plane3 (T N))) :
  wf3 p -> 0 < nv p <= MX -> 5 * nv p * 2 ^ Z.of_nat (length planes) <= 4 * MX ->
  exists p', r3d_clip N MX p planes = OK (p', 1).
Proof. exact (r3d_clip_room N MX p planes). Qed.
Print Assumptions C27_r3d_clip_room.

(** in exact arithmetic the status is 0 exactly when some plane that leaves
    something of the polyhedron needs more vertices than the buffer holds *)
Theorem C27_r3d_clip_status (MX : Z) (p p' : poly (rvec3 R)) (planes : list (plane3 R)) st :
  wf3 p -> 0 < nv p <= MX -> r3d_clip RN MX p planes = OK (p', st) ->
  (st = 1 \/ st = 0)
  /\ (st = 0 <-> exists pre pl post q, planes = pre ++ pl :: post /\ r3d_clip RN MX p pre = OK (q, 1)
        /\ (exists v, 0 <= v < nv q /\ (0 < sdist3 pl (ps (vb q) v))%R)
        /\ MX < nv q + exits 3 (kept3 RN pl q) (nb (vb q)) (nv q)).
Proof. exact (r3d_clip_status MX planes p p' st). Qed.
Print Assumptions C27_r3d_clip_status.

(** ** C28 *)
(** a failed clip leaves the buffer full and the vertices inserted by the failing
    plane without their second and third link *)
Theorem C28_r3d_clip_failed_state (N : num) (MX : Z) (p p' : poly (rvec3 (T N))) (planes : list (plane3 (T N))) :
  wf3 p -> 0 < nv p <= MX -> r3d_clip N MX p planes = OK (p', 0) ->
  exists pre q, (exists pl post, planes = pre ++ pl :: post) /\ r3d_clip N MX p pre = OK (q, 1) /\ nv q <= MX
  /\ nv p' = MX /\ forall v k, nv q <= v < MX -> 0 < k < 3 -> nb (vb p') v k = nb (vb q) v k.
Proof. exact (r3d_clip_failed N MX p p' planes). Qed.
Print Assumptions C28_r3d_clip_failed_state.

Theorem C28_r3d_clip_failed_valid_refuted : exists (p p' : poly (rvec3 R)) (planes : list (plane3 R)),
  wf3 p /\ 0 < nv p <= 512 /\ r3d_clip RN 512 p planes = OK (p', 0) /\ ~ wf3 p'.
Proof. exact clip_failed_invalid. Qed.
Print Assumptions C28_r3d_clip_failed_valid_refuted.

(** ** C29 *)
Theorem C29_r3d_clip_inside (MX : Z) (p p' : poly (rvec3 R)) (planes : list (plane3 R)) :
  wf3 p -> nv p <= MX -> r3d_clip RN MX p planes = OK (p', 1) ->
  (forall v pl, 0 <= v < nv p' -> In pl planes -> (0 <= sdist3 pl (ps (vb p') v))%R)
  /\ (forall v, 0 <= v < nv p' -> in_hull3 p (ps (vb p') v))
  /\ (planar_faces p -> planar_faces p').
Proof. exact (r3d_clip_R MX planes p p'). Qed.
Print Assumptions C29_r3d_clip_inside.

Theorem C29_r3d_clip_inside_unchanged (MX : Z) (p : poly (rvec3 R)) (planes : list (plane3 R)) :
  wf3 p -> 0 < nv p <= MX ->
  (forall v pl, (0 <= v < nv p)%Z -> In pl planes -> (0 <= sdist3 pl (ps (vb p) v))%R) ->
  r3d_clip RN MX p planes = OK (p, 1).
Proof. exact (r3d_clip_inside_id MX planes p). Qed.
Print Assumptions C29_r3d_clip_inside_unchanged.

Theorem C29_r3d_clip_outside_empty (MX : Z) (p p' : poly (rvec3 R)) (planes : list (plane3 R)) :
  wf3 p -> nv p <= MX -> r3d_clip RN MX p planes = OK (p', 1) ->
  (exists pl, In pl planes /\ forall v, (0 <= v < nv p)%Z -> (sdist3 pl (ps (vb p) v) < 0)%R) -> nv p' = 0.
Proof. exact (r3d_clip_outside MX planes p p'). Qed.
Print Assumptions C29_r3d_clip_outside_empty.

(** ** C30 *)
Theorem C30_r3d_clip_conserves (MX : Z) (p p0 p1 p2 : poly (rvec3 R)) (pre : list (plane3 R)) (pl : plane3 R) i j k :
  (x3 (n3 pl) <> 0 \/ y3 (n3 pl) <> 0 \/ z3 (n3 pl) <> 0)%R -> wf3 p -> planar_faces p -> nv p <= MX ->
  r3d_clip RN MX p pre = OK (p0, 1) ->
  r3d_clip RN MX p (pre ++ [pl]) = OK (p1, 1) -> r3d_clip RN MX p (pre ++ [flip3 pl]) = OK (p2, 1) ->
  (moment3 p1 i j k + moment3 p2 i j k = moment3 p0 i j k)%R.
Proof. exact (r3d_clip_conserves MX pre pl p p0 p1 p2 i j k). Qed.
Print Assumptions C30_r3d_clip_conserves.

(** ** C31 *)
Theorem C31_r3d_split_linked (N : num) (MX : Z) (pl : plane3 (T N)) ins outs :
  r3d_split N MX pl ins = OK (outs, 1) ->
  Forall2 (fun i o => wf3 (fst i) -> nv (fst i) <= MX ->
     wf3 (fst (snd o)) /\ wf3 (snd (snd o)) /\ nv (fst (snd o)) <= MX /\ nv (snd (snd o)) <= MX) ins outs.
Proof. exact (r3d_split_linked N MX pl ins outs). Qed.
Print Assumptions C31_r3d_split_linked.

Theorem C31_r3d_split_exact (MX : Z) (pl : plane3 R) ins outs : r3d_split RN MX pl ins = OK (outs, 1) ->
  Forall2 (fun (i o : pol3 * (pol3 * pol3)) => wf3 (fst i) -> nv (fst i) <= MX ->
     (planar_faces (fst i) -> planar_faces (fst (snd o)) /\ planar_faces (snd (snd o))
        /\ forall a b c, (moment3 (fst (snd o)) a b c + moment3 (snd (snd o)) a b c = moment3 (fst i) a b c)%R)
     /\ (forall v, 0 <= v < nv (fst (snd o)) -> (0 <= sdist3 pl (ps (vb (fst (snd o))) v))%R)
     /\ (forall v, 0 <= v < nv (snd (snd o)) -> (sdist3 pl (ps (vb (snd (snd o))) v) <= 0)%R)) ins outs.
Proof. exact (r3d_split_R MX pl ins outs). Qed.
Print Assumptions C31_r3d_split_exact.

(** never an error; status 0 only when one of the polyhedra needs more vertices than the buffer holds *)
Theorem C31_r3d_split_total (N : num) (MX : Z) (pl : plane3 (T N)) ins :
  List.Forall (fun i => wf3 (fst i) /\ nv (fst i) <= MX) ins ->
  exists outs st, r3d_split N MX pl ins = OK (outs, st) /\ length outs = length ins
  /\ (st = 1 \/ st = 0 /\ exists i, In i ins
        /\ MX < nv (fst i) + 2 * exits 3 (kept3 N pl (fst i)) (nb (vb (fst i))) (nv (fst i))).
Proof. exact (r3d_split_total N MX pl ins). Qed.
Print Assumptions C31_r3d_split_total.

Theorem C31_r3d_split_room (N : num) (MX : Z) (pl : plane3 (T N)) ins :
  List.Forall (fun i => wf3 (fst i) /\ 4 * nv (fst i) <= MX) ins ->
  exists outs, r3d_split N MX pl ins = OK (outs, 1).
Proof. exact (r3d_split_room N MX pl ins). Qed.
Print Assumptions C31_r3d_split_room.

(** ** C32 *)
(** [lead d] is the first directed edge of the face of [d]; the two directed edges
    at its vertex span no triangle with it, every other one is visited exactly once *)
Theorem C32_r3d_reduce_visits (N : num) (MX po : Z) (p : poly (rvec3 (T N))) (mom : Z -> T N) :
  0 <= po -> wf3 p -> nv p <= MX ->
  exists mom' l, r3d_reduce N MX false p mom po = OK mom'
  /\ NoDup l
  /\ (forall d, In d l <-> isd (below (nv p)) d /\ fst d <> fst (lead (nb (vb p)) (nv p) d)
                          /\ dtgt (nb (vb p)) d <> fst (lead (nb (vb p)) (nv p) d))
  /\ mom' 0 = fold_left (fun q d => nadd N q (nmul N (nsixth N)
        (sixv3 N (ps (vb p) (fst (lead (nb (vb p)) (nv p) d))) (ps (vb p) (dtgt (nb (vb p)) d)) (ps (vb p) (fst d))))) l (n0 N)
  /\ (forall m, ~ 0 <= m < (po + 1) * (po + 2) * (po + 3) / 6 -> mom' m = mom m)
  /\ (forall mom2, exists mom2', r3d_reduce N MX false p mom2 po = OK mom2').
Proof. exact (r3d_reduce_visits N MX po p mom). Qed.
Print Assumptions C32_r3d_reduce_visits.

(** ** C33 *)
Theorem C33_r3d_reduce_exact (MX po : Z) (p : poly (rvec3 R)) (mom : Z -> R) :
  0 <= po -> wf3 p -> nv p <= MX ->
  exists mom', r3d_reduce RN MX false p mom po = OK mom'
  /\ (forall i j k, (i + j + k <= Z.to_nat po)%nat ->
        mom' (idx3 (Z.of_nat i) (Z.of_nat j) (Z.of_nat k)) = moment3 p i j k)
  /\ (forall m, ~ (0 <= m < num_moments3 po)%Z -> mom' m = mom m).
Proof. exact (reduce_moment3 MX p mom po). Qed.
Print Assumptions C33_r3d_reduce_exact.

Theorem C33_moment_order (po : Z) : 0 <= po ->
  (forall i j k, 0 <= i -> 0 <= j -> 0 <= k -> i + j + k <= po -> 0 <= idx3 i j k < (po + 1) * (po + 2) * (po + 3) / 6)
  /\ (forall i j k i' j' k', 0 <= i -> 0 <= j -> 0 <= k -> 0 <= i' -> 0 <= j' -> 0 <= k' ->
        (idx3 i j k < idx3 i' j' k' <-> i + j + k < i' + j' + k'
            \/ i + j + k = i' + j' + k' /\ (i' < i \/ i = i' /\ k < k')))
  /\ (forall m, 0 <= m < (po + 1) * (po + 2) * (po + 3) / 6 ->
        exists i j k, 0 <= i /\ 0 <= j /\ 0 <= k /\ i + j + k <= po /\ m = idx3 i j k).
Proof. exact (moment_slots3 po). Qed.
Print Assumptions C33_moment_order.

(** the integral behind [moment3], for the two shapes the library can initialise *)
Theorem C33_tet_moments (MX : Z) (p0 : poly (rvec3 R)) (a b c d : rvec3 R) : 4 <= MX ->
  exists p, r3d_init_tet RN MX p0 a b c d = OK p /\ nv p = 4 /\ wf3 p /\ planar_faces p
  /\ map (ps (vb p)) [0; 1; 2; 3] = [a; b; c; d]
  /\ forall i j k, moment3 p i j k = tetra_int a b c d i j k.
Proof. exact (r3d_init_tet_shape MX p0 a b c d). Qed.
Print Assumptions C33_tet_moments.

Theorem C33_box_moments (MX : Z) (p0 : poly (rvec3 R)) (lo hi : rvec3 R) : 8 <= MX ->
  exists p, r3d_init_box RN MX p0 lo hi = OK p /\ nv p = 8 /\ wf3 p /\ planar_faces p
  /\ map (ps (vb p)) [0; 1; 2; 3; 4; 5; 6; 7] =
     [V3 (x3 lo) (y3 lo) (z3 lo); V3 (x3 hi) (y3 lo) (z3 lo); V3 (x3 hi) (y3 hi) (z3 lo); V3 (x3 lo) (y3 hi) (z3 lo);
      V3 (x3 lo) (y3 lo) (z3 hi); V3 (x3 hi) (y3 lo) (z3 hi); V3 (x3 hi) (y3 hi) (z3 hi); V3 (x3 lo) (y3 hi) (z3 hi)]
  /\ forall i j k, moment3 p i j k
     = (RInt (fun x => x ^ i) (x3 lo) (x3 hi) * RInt (fun y => y ^ j) (y3 lo) (y3 hi)
        * RInt (fun z => z ^ k) (z3 lo) (z3 hi))%R.
Proof. exact (r3d_init_box_shape MX p0 lo hi). Qed.
Print Assumptions C33_box_moments.

(** ** C34 *)
Theorem C34_r3d_shift_moments (p : poly (rvec3 R)) (c : rvec3 R) (po : Z) (mom : Z -> R) :
  0 <= po -> 0 <= nv p -> links (nb (vb p)) (below (nv p)) ->
  (forall i j k, (i + j + k <= Z.to_nat po)%nat ->
     mom (idx3 (Z.of_nat i) (Z.of_nat j) (Z.of_nat k)) = moment3_at c p i j k) ->
  exists mom' : Z -> R, r3d_shift_moments RN mom po c = OK mom'
  /\ (forall i j k, (i + j + k <= Z.to_nat po)%nat ->
        mom' (idx3 (Z.of_nat i) (Z.of_nat j) (Z.of_nat k)) = moment3 p i j k)
  /\ (forall m, ~ (0 <= m < num_moments3 po)%Z -> mom' m = mom m).
Proof. exact (shift_moments3_exact p c po mom). Qed.
Print Assumptions C34_r3d_shift_moments.

Theorem C34_r3d_reduce_shift_poly (MX : Z) (p : poly (rvec3 R)) (mom : Z -> R) (po : Z) :
  0 <= po -> wf3 p -> nv p <= MX ->
  exists m1 m2, r3d_reduce RN MX false p mom po = OK m1 /\ r3d_reduce RN MX true p mom po = OK m2
  /\ forall m, m1 m = m2 m.
Proof. exact (reduce3_shift_equal MX p mom po). Qed.
Print Assumptions C34_r3d_reduce_shift_poly.

Theorem C34_r3d_poly_center (MX : Z) (p : poly (rvec3 R)) : 0 <= nv p <= MX ->
  exists c, r3d_poly_center RN MX p = OK c
  /\ (x3 c = lsum (zrange (nv p)) (fun v => x3 (ps (vb p) v)) / IZR (nv p)
  /\ y3 c = lsum (zrange (nv p)) (fun v => y3 (ps (vb p) v)) / IZR (nv p)
  /\ z3 c = lsum (zrange (nv p)) (fun v => z3 (ps (vb p) v)) / IZR (nv p))%R.
Proof. exact (r3d_poly_center_exact MX p). Qed.
Print Assumptions C34_r3d_poly_center.

(** ** C43 *)
Theorem C43_r3d_translate (MX : Z) (p : poly (rvec3 R)) (sh : rvec3 R) : wf3 p -> nv p <= MX ->
  exists p', r3d_translate RN MX p sh = OK p' /\ nv p' = nv p /\ nb (vb p') = nb (vb p)
  /\ (forall v, (0 <= v < nv p)%Z ->
        ps (vb p') v = V3 (x3 (ps (vb p) v) + x3 sh) (y3 (ps (vb p) v) + y3 sh) (z3 (ps (vb p) v) + z3 sh))%R
  /\ moment3 p' 0 0 0 = moment3 p 0 0 0.
Proof. exact (fun Hw HM => translate3_all MX p Hw HM sh). Qed.
Print Assumptions C43_r3d_translate.

Theorem C43_r3d_scale (MX : Z) (p : poly (rvec3 R)) (s : R) : wf3 p -> nv p <= MX ->
  exists p', r3d_scale RN MX p s = OK p' /\ nv p' = nv p /\ nb (vb p') = nb (vb p)
  /\ (forall v, (0 <= v < nv p)%Z ->
        ps (vb p') v = V3 (x3 (ps (vb p) v) * s) (y3 (ps (vb p) v) * s) (z3 (ps (vb p) v) * s))%R
  /\ forall i j k, (moment3 p' i j k = s ^ (i + j + k + 3) * moment3 p i j k)%R.
Proof. exact (fun Hw HM => scale3_all MX p Hw HM s). Qed.
Print Assumptions C43_r3d_scale.

Theorem C43_r3d_shear (MX : Z) (p : poly (rvec3 R)) (s : R) axb axs : wf3 p -> nv p <= MX ->
  0 <= axb < 3 -> 0 <= axs < 3 -> axb <> axs ->
  exists p', r3d_shear RN MX p s axb axs = OK p' /\ nv p' = nv p /\ nb (vb p') = nb (vb p)
  /\ (forall v, 0 <= v < nv p -> forall ax, 0 <= ax < 3 ->
        coordR3 ax (ps (vb p') v) = if ax =? axb then (coordR3 axb (ps (vb p) v) + s * coordR3 axs (ps (vb p) v))%R
                                    else coordR3 ax (ps (vb p) v))
  /\ moment3 p' 0 0 0 = moment3 p 0 0 0.
Proof. exact (fun Hw HM => shear3_all MX p Hw HM s axb axs). Qed.
Print Assumptions C43_r3d_shear.

Theorem C43_r3d_affine (MX : Z) (p : poly (rvec3 R)) (m : Z -> Z -> R) : wf3 p -> nv p <= MX ->
  exists p', r3d_affine RN MX p m = OK p' /\ nv p' = nv p /\ nb (vb p') = nb (vb p)
  /\ (forall v, 0 <= v < nv p -> let q := ps (vb p) v in
        let row r := (m r 0%Z * x3 q + m r 1%Z * y3 q + m r 2%Z * z3 q + m r 3%Z)%R in
        ps (vb p') v = V3 (row 0%Z / row 3%Z)%R (row 1%Z / row 3%Z)%R (row 2%Z / row 3%Z)%R)
  /\ (m 3 0 = 0%R -> m 3 1 = 0%R -> m 3 2 = 0%R -> m 3 3 = 1%R -> (moment3 p' 0 0 0 = detm m * moment3 p 0 0 0)%R).
Proof. exact (fun Hw HM => affine3_all MX p Hw HM m). Qed.
Print Assumptions C43_r3d_affine.

Theorem C43_r3d_rotate (MX : Z) (p : poly (rvec3 R)) (theta : R) axis : wf3 p -> nv p <= MX -> 0 <= axis < 3 ->
  exists p', r3d_rotate RN MX p theta axis = OK p' /\ nv p' = nv p /\ nb (vb p') = nb (vb p)
  /\ (forall v, 0 <= v < nv p -> ps (vb p') v = rot3_map theta axis (ps (vb p) v))
  /\ (forall u v, 0 <= u < nv p -> 0 <= v < nv p ->
        dist3 (ps (vb p') u) (ps (vb p') v) = dist3 (ps (vb p) u) (ps (vb p) v))
  /\ moment3 p' 0 0 0 = moment3 p 0 0 0.
Proof. exact (fun Hw HM => rotate3_all MX p Hw HM theta axis). Qed.
Print Assumptions C43_r3d_rotate.

(** ** C44 *)
Theorem C44_r3d_tet_faces (a b c d q : rvec3 R) : (0 < r3d_orient RN a b c d)%R ->
  ((forall f, In f (r3d_tet_faces_from_verts RN a b c d) -> (0 <= sdist3 f q)%R) <-> in_tet a b c d q).
Proof.
  intros H. apply tet_faces_inside. rewrite orient3_vol in H. lra.
Qed.
Print Assumptions C44_r3d_tet_faces.

Theorem C44_r3d_box_faces (lo hi q : rvec3 R) :
  (forall f, In f (r3d_box_faces_from_verts RN lo hi) -> (0 <= sdist3 f q)%R) <->
  (x3 lo <= x3 q <= x3 hi /\ y3 lo <= y3 q <= y3 hi /\ z3 lo <= z3 q <= z3 hi)%R.
Proof. exact (box_faces_inside lo hi q). Qed.
Print Assumptions C44_r3d_box_faces.

Theorem C44_r3d_poly_faces (verts : list (rvec3 R)) (faces : list (list Z)) :
  (forall f, In f faces -> f <> [] /\ (forall i, In i f -> 0 <= i < Z.of_nat (length verts))
     /\ exists g, (x3 (n3 g) <> 0 \/ y3 (n3 g) <> 0 \/ z3 (n3 g) <> 0)%R
          /\ forall i, In i f -> sdist3 g (nth (Z.to_nat i) verts (V3 0 0 0)%R) = 0%R) ->
  exists pls, r3d_poly_faces_from_verts RN verts faces = OK pls
  /\ Forall2 (fun f pl => let vs := map (fun i => nth (Z.to_nat i) verts (V3 0 0 0)%R) f in
       (forall v, In v vs -> sdist3 pl v = 0%R)
       /\ exists c, (0 < c)%R /\ forall q, sdist3 pl q = (c * fan_vol vs q)%R) faces pls.
Proof. exact (poly_faces_list verts faces). Qed.
Print Assumptions C44_r3d_poly_faces.

(** ** C45 *)
Theorem C45_r3d_orient (MX : Z) (p0 : poly (rvec3 R)) (a b c d : rvec3 R) : 4 <= MX ->
  exists p, r3d_init_tet RN MX p0 a b c d = OK p
  /\ (r3d_orient RN a b c d : R) = moment3 p 0 0 0
  /\ (r3d_orient RN a b c d : R) =
     (((x3 b - x3 a) * ((y3 c - y3 a) * (z3 d - z3 a) - (z3 c - z3 a) * (y3 d - y3 a))
       - (y3 b - y3 a) * ((x3 c - x3 a) * (z3 d - z3 a) - (z3 c - z3 a) * (x3 d - x3 a))
       + (z3 b - z3 a) * ((x3 c - x3 a) * (y3 d - y3 a) - (y3 c - y3 a) * (x3 d - x3 a))) / 6)%R.
Proof. exact (r3d_orient_exact MX p0 a b c d). Qed.
Print Assumptions C45_r3d_orient.

(** ** Non-vacuity: the unit box, cut through the middle *)
Definition box01 (p0 : poly (rvec3 R)) := r3d_init_box RN 512 p0 (V3 0 0 0)%R (V3 1 1 1)%R.
Definition mid : plane3 R := PL3 (V3 1 0 0)%R (- / 2)%R.
Example box_ok p0 : exists p, box01 p0 = OK p /\ wf3 p /\ planar_faces p /\ nv p = 8
  /\ (exists u v, 0 <= u < nv p /\ 0 <= v < nv p /\ (sdist3 mid (ps (vb p) u) < 0 < sdist3 mid (ps (vb p) v))%R)
  /\ (forall i j k, moment3 p i j k = RInt (fun x => x ^ i) 0 1 * RInt (fun x => x ^ j) 0 1 * RInt (fun x => x ^ k) 0 1)%R.
Proof.
  destruct (C33_box_moments 512 p0 (V3 0 0 0)%R (V3 1 1 1)%R ltac:(lia)) as (p & E & Hn & W & P & M & Q).
  exists p. split; [exact E|]. split; auto. split; auto. split; auto. split; [|exact Q].
  cbn [map] in M. injection M as E0 E1 _ _ _ _ _ _. exists 0, 1. rewrite Hn. split; [lia|]. split; [lia|].
  split; (match goal with |- context [sdist3 mid ?q] => first [replace q with (V3 0 0 0)%R by (symmetry; exact E0) | replace q with (V3 1 0 0)%R by (symmetry; exact E1)] end);
    unfold sdist3, mid; cbn; lra.
Qed.
(** the cut, the opposite cut and the split all succeed, so C25-C31 apply to them *)
Example box_cut_ok p0 : exists p p1 p2 o, box01 p0 = OK p
  /\ r3d_clip RN 512 p [mid] = OK (p1, 1) /\ r3d_clip RN 512 p [flip3 mid] = OK (p2, 1)
  /\ r3d_split RN 512 mid [(p, (p0, p0))] = OK (o, 1)
  /\ (moment3 p1 0 0 0 + moment3 p2 0 0 0 = 1)%R.
Proof.
  destruct (box_ok p0) as (p & E & W & P & Hn & _ & Q).
  assert (H8 : nv p <= 512) by (rn; lia).
  destruct (C27_r3d_clip_room RN 512 p [mid] W ltac:(rn; lia)) as (p1 & E1); [rn; rewrite Hn; vm_compute; discriminate|].
  destruct (C27_r3d_clip_room RN 512 p [flip3 mid] W ltac:(rn; lia)) as (p2 & E2); [rn; rewrite Hn; vm_compute; discriminate|].
  destruct (C31_r3d_split_room RN 512 mid [(p, (p0, p0))]) as (o & E3).
  { constructor; [|constructor]. cbn [fst]. split; [exact W|]. rn; lia. }
  exists p, p1, p2, o. split; [exact E|]. split; [exact E1|]. split; [exact E2|]. split; [exact E3|].
  rewrite (C30_r3d_clip_conserves 512 p p p1 p2 [] mid 0 0 0); auto.
  - rewrite Q. change (fun x : R => (x ^ 0)%R) with (fun _ : R => 1%R). rewrite !RInt_const. unfold scal; cbn. unfold mult; cbn. lra.
  - left. cbn. lra.
  - apply C29_r3d_clip_inside_unchanged; auto; [rn; lia|]. intros v pl _ [].
Qed.
(** a clip that really runs out of room (C27, C28): 127 disjoint tetrahedra, all cut at one corner *)
Example fail_ok : exists p', r3d_clip RN 512 (tets 127 tets_pos) [tets_cut] = OK (p', 0).
Proof.
  destruct (tets_fail 512 127) as (p' & E & _); [lia|lia|]. exists p'. exact E.
Qed.
(** a positively oriented tetrahedron (C44, C45) *)
Example tet_ok : (0 < r3d_orient RN (V3 0 0 0) (V3 1 0 0) (V3 0 1 0) (V3 0 0 1))%R.
Proof.
  destruct (C45_r3d_orient 4 (tets 1 tets_pos) (V3 0 0 0)%R (V3 1 0 0)%R (V3 0 1 0)%R (V3 0 0 1)%R ltac:(lia)) as (_ & _ & _ & ->).
  cbn. lra.
Qed.
