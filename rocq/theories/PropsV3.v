(** * PropsV3: property theorems for v3d.c (C35-C38). *)
From Coq Require Import Reals ZArith List Bool Lia Lra.
From Verif Require Import Base Lib ModelCommon Model3 ModelV ModelV3 Spec2 Spec3 RealNum SumR Reduce3 Spec3R Mom3 Cons3 Fail3 Vox3 Prism3 Glue3 GlueV3.
Import ListNotations.
Open Scope Z_scope.

(** ** C35 *)
Theorem C35_r3d_voxelize_conservative (MX : Z) (sh : bool) (po : Z) stk0 mom0 (p : poly (rvec3 R)) (B : box)
    (gr gr' : Z -> R) (d : rvec3 R) :
  0 <= po -> wf3 p -> planar_faces p -> nv p <= MX -> cells3_ok (num_moments3 po) B ->
  r3d_voxelize RN MX sh po stk0 mom0 p B gr d = OK gr' ->
  forall i j k, (i + j + k <= Z.to_nat po)%nat ->
   (lsum (zrange ((snd B 0 - fst B 0) * (snd B 1 - fst B 1) * (snd B 2 - fst B 2))%Z)
     (fun c => gr' (num_moments3 po * c + idx3 (Z.of_nat i) (Z.of_nat j) (Z.of_nat k))%Z
             - gr (num_moments3 po * c + idx3 (Z.of_nat i) (Z.of_nat j) (Z.of_nat k))%Z)
    = moment3 p i j k)%R.
Proof. exact (voxelize_conservative MX sh po stk0 mom0 p B gr gr' d). Qed.
Print Assumptions C35_r3d_voxelize_conservative.

(** the documented use: the box comes from [r3d_get_ibox] *)
Theorem C35_r3d_get_ibox_voxelize (MX : Z) (sh : bool) (po : Z) stk0 mom0 (p : poly (rvec3 R)) (B b0 : box)
    (gr gr' : Z -> R) (d : rvec3 R) :
  0 <= po -> wf3 p -> planar_faces p -> 0 < nv p <= MX -> (0 < x3 d)%R -> (0 < y3 d)%R -> (0 < z3 d)%R ->
  (forall v i, 0 <= v < nv p -> 0 <= i < 3 -> (-10 ^ 30 <= coordR3 i (ps (vb p) v) <= 10 ^ 30)%R) ->
  within d ((fun _ => int_min), (fun _ => int_max)) p ->
  r3d_get_ibox RN MX p d b0 = OK B ->
  (forall i, 0 <= i < 3 -> snd B i - fst B i <= int_max) ->
  num_moments3 po * ((snd B 0 - fst B 0) * (snd B 1 - fst B 1) * (snd B 2 - fst B 2)) <= int_max ->
  r3d_voxelize RN MX sh po stk0 mom0 p B gr d = OK gr' ->
  forall i j k, (i + j + k <= Z.to_nat po)%nat ->
   (lsum (zrange ((snd B 0 - fst B 0) * (snd B 1 - fst B 1) * (snd B 2 - fst B 2))%Z)
     (fun c => gr' (num_moments3 po * c + idx3 (Z.of_nat i) (Z.of_nat j) (Z.of_nat k))%Z
             - gr (num_moments3 po * c + idx3 (Z.of_nat i) (Z.of_nat j) (Z.of_nat k))%Z)
    = moment3 p i j k)%R.
Proof. exact (voxelize_ibox MX sh po stk0 mom0 p B gr gr' d b0). Qed.
Print Assumptions C35_r3d_get_ibox_voxelize.

(** each voxel receives the moments of a piece of the polyhedron lying in that voxel *)
Theorem C35_r3d_voxelize_cell_pieces (MX : Z) (sh : bool) (po : Z) stk0 mom0 (p : poly (rvec3 R)) (B : box)
    (gr gr' : Z -> R) (d : rvec3 R) :
  0 <= po -> wf3 p -> nv p <= MX -> cells3_ok (num_moments3 po) B -> within d B p ->
  r3d_voxelize RN MX sh po stk0 mom0 p B gr d = OK gr' ->
  exists l : list (Z * Z * Z * poly (rvec3 R)), NoDup (map fst l)
  /\ (forall a b c q, In (a, b, c, q) l -> fst B 0 <= a < snd B 0 /\ fst B 1 <= b < snd B 1 /\ fst B 2 <= c < snd B 2 /\ wf3 q
       /\ (planar_faces p -> planar_faces q)
       /\ (forall v, 0 <= v < nv q -> (x3 d * IZR a <= x3 (ps (vb q) v) <= x3 d * IZR (a + 1)
              /\ y3 d * IZR b <= y3 (ps (vb q) v) <= y3 d * IZR (b + 1) /\ z3 d * IZR c <= z3 (ps (vb q) v) <= z3 d * IZR (c + 1))%R)
       /\ (forall g, (forall v, 0 <= v < nv p -> (0 <= sdist3 g (ps (vb p) v))%R) ->
            forall v, 0 <= v < nv q -> (0 <= sdist3 g (ps (vb q) v))%R)
       /\ forall i j k, (i + j + k <= Z.to_nat po)%nat ->
            let e := num_moments3 po * (((a - fst B 0) * (snd B 1 - fst B 1) + (b - fst B 1)) * (snd B 2 - fst B 2) + (c - fst B 2)) + idx3 (Z.of_nat i) (Z.of_nat j) (Z.of_nat k) in
            (gr' e = gr e + moment3 q i j k)%R)
  /\ (forall a b c m, fst B 0 <= a < snd B 0 -> fst B 1 <= b < snd B 1 -> fst B 2 <= c < snd B 2 -> ~ In (a, b, c) (map fst l) -> 0 <= m < num_moments3 po ->
        let e := num_moments3 po * (((a - fst B 0) * (snd B 1 - fst B 1) + (b - fst B 1)) * (snd B 2 - fst B 2) + (c - fst B 2)) + m in gr' e = gr e)
  /\ (planar_faces p -> forall i j k, lsum l (fun x => moment3 (snd x) i j k) = moment3 p i j k).
Proof. exact (voxelize_cell_pieces MX sh po stk0 mom0 p B gr gr' d). Qed.
Print Assumptions C35_r3d_voxelize_cell_pieces.

(** ** C36 *)
Theorem C36_r3d_voxelize_returns (N : num) (MX po : Z) stk0 mom0 (p : poly (rvec3 (T N))) (B : box) gr d :
  0 <= po -> wf3 p -> nv p <= MX -> cells3_ok (num_moments3 po) B ->
  (forall q, piece N MX p q -> ~ overflows N MX q) ->
  exists gr', r3d_voxelize N MX false po stk0 mom0 p B gr d = OK gr'.
Proof. exact (voxelize_returns N MX po stk0 mom0 p B gr d). Qed.
Print Assumptions C36_r3d_voxelize_returns.

(** running out of vertices in a split is the only thing that can go wrong *)
Theorem C36_r3d_voxelize_only_overflow (N : num) (MX po : Z) stk0 mom0 (p : poly (rvec3 (T N))) (B : box) gr d e :
  0 <= po -> wf3 p -> nv p <= MX -> cells3_ok (num_moments3 po) B ->
  r3d_voxelize N MX false po stk0 mom0 p B gr d = Err e ->
  e = OutOfBounds /\ exists q, piece N MX p q /\ wf3 q /\ nv q <= MX /\ overflows N MX q.
Proof. exact (voxelize_only_overflow N MX po stk0 mom0 p B gr d e). Qed.
Print Assumptions C36_r3d_voxelize_only_overflow.

Theorem C36_r3d_voxelize_own_cells (N : num) (MX po : Z) stk0 mom0 (p : poly (rvec3 (T N))) (B : box) gr gr' d :
  0 <= po -> wf3 p -> nv p <= MX -> cells3_ok (num_moments3 po) B ->
  r3d_voxelize N MX false po stk0 mom0 p B gr d = OK gr' ->
  let entry i j k m := num_moments3 po * (((i - fst B 0) * (snd B 1 - fst B 1) + (j - fst B 1)) * (snd B 2 - fst B 2) + (k - fst B 2)) + m in
  exists l : list (Z * Z * Z * poly (rvec3 (T N))), NoDup (map fst l)
  /\ (forall i j k q, In (i, j, k, q) l -> fst B 0 <= i < snd B 0 /\ fst B 1 <= j < snd B 1 /\ fst B 2 <= k < snd B 2
       /\ exists m0 mom, r3d_reduce N MX false q m0 po = OK mom
          /\ forall m, 0 <= m < num_moments3 po -> gr' (entry i j k m) = nadd N (gr (entry i j k m)) (mom m))
  /\ (forall g, (forall i j k q m, In (i, j, k, q) l -> 0 <= m < num_moments3 po -> g <> entry i j k m) -> gr' g = gr g).
Proof. exact (voxelize_own_cells N MX po stk0 mom0 p B gr gr' d). Qed.
Print Assumptions C36_r3d_voxelize_own_cells.

Theorem C36_r3d_voxelize_bounds (N : num) (MX po : Z) stk0 mom0 (p : poly (rvec3 (T N))) (B : box) gr gr' d :
  0 <= po -> wf3 p -> nv p <= MX -> cells3_ok (num_moments3 po) B ->
  r3d_voxelize N MX false po stk0 mom0 p B gr d = OK gr' ->
  forall g, ~ (0 <= g < (snd B 0 - fst B 0) * (snd B 1 - fst B 1) * (snd B 2 - fst B 2) * num_moments3 po) -> gr' g = gr g.
Proof. exact (voxelize_bounds N MX po stk0 mom0 p B gr gr' d). Qed.
Print Assumptions C36_r3d_voxelize_bounds.

(** ** C37: false as stated.  A convex prism with as many vertices as the buffer holds
    makes the split write past the end; so does the voxelizer. *)
Theorem C37_r3d_split_coord_overflow_refuted (o : poly (rvec3 R)) :
  exists (p : poly (rvec3 R)) (c : R), wf3 p /\ planar_faces p /\ nv p = 512
  /\ (forall e, isd (below (nv p)) e -> exists g, proper g
        /\ (forall e', same_face (nb (vb p)) e e' -> sdist3 g (ps (vb p) (fst e')) = 0%R)
        /\ (forall v, 0 <= v < nv p -> (0 <= sdist3 g (ps (vb p) v))%R))
  /\ r3d_split_coord RN 512 p o c 2 = Err OutOfBounds
  /\ forall sh po stk0 mom0 gr, 0 <= po <= 10 -> exists d, r3d_voxelize RN 512 sh po stk0 mom0 p two_cells gr d = Err OutOfBounds.
Proof. exact (prism_overflow o). Qed.
Print Assumptions C37_r3d_split_coord_overflow_refuted.

(** what does hold: room for a doubling of the vertices at every level of the recursion *)
Theorem C37_r3d_voxelize_room (N : num) (MX po : Z) stk0 mom0 (p : poly (rvec3 (T N))) (B : box) gr d :
  0 <= po -> wf3 p ->
  2 * nv p * 2 ^ (Z.log2_up (snd B 0 - fst B 0) + Z.log2_up (snd B 1 - fst B 1) + Z.log2_up (snd B 2 - fst B 2)) <= MX ->
  cells3_ok (num_moments3 po) B ->
  exists gr', r3d_voxelize N MX false po stk0 mom0 p B gr d = OK gr'.
Proof. exact (voxelize_room N MX po stk0 mom0 p B gr d). Qed.
Print Assumptions C37_r3d_voxelize_room.

(** ** C38 *)
Theorem C38_r3d_get_ibox_minimal (MX : Z) (p : poly (rvec3 R)) (d : rvec3 R) (b0 : box) :
  0 < nv p <= MX -> (0 < x3 d)%R -> (0 < y3 d)%R -> (0 < z3 d)%R ->
  (forall v i, 0 <= v < nv p -> 0 <= i < 3 -> (-10 ^ 30 <= coordR3 i (ps (vb p) v) <= 10 ^ 30)%R) ->
  within d ((fun _ => int_min), (fun _ => int_max)) p ->
  exists b, r3d_get_ibox RN MX p d b0 = OK b
  /\ (forall i, 0 <= i < 3 -> int_min <= fst b i /\ fst b i <= snd b i /\ snd b i <= int_max)
  /\ within d b p
  /\ (forall b', within d b' p -> forall i, 0 <= i < 3 -> fst b' i <= fst b i /\ snd b i <= snd b' i).
Proof. exact (r3d_get_ibox_min MX p d b0). Qed.
Print Assumptions C38_r3d_get_ibox_minimal.

(** the non-emptiness hypothesis is needed: an empty polyhedron makes the conversion to [int] undefined *)
Theorem C38_r3d_get_ibox_empty_undefined (MX : Z) (p : poly (rvec3 R)) (d : rvec3 R) (b0 : box) :
  nv p = 0 -> (0 < x3 d <= 10 ^ 20)%R -> r3d_get_ibox RN MX p d b0 = Err BadConversion.
Proof. exact (r3d_get_ibox_empty MX p d b0). Qed.
Print Assumptions C38_r3d_get_ibox_empty_undefined.

Theorem C38_r3d_clamp_ibox_returns (N : num) (MX : Z) (p : poly (rvec3 (T N))) (B cb : box) (d : rvec3 (T N)) :
  (forall i, 0 <= i < 3 -> - int_max <= fst cb i <= int_max) -> wf3 p -> nv p <= MX ->
  exists p' B', r3d_clamp_ibox N MX p B cb d = OK (p', B').
Proof. exact (clamp_returns N MX p B cb d). Qed.
Print Assumptions C38_r3d_clamp_ibox_returns.

Theorem C38_r3d_clamp_ibox_box (N : num) (MX : Z) (p p' : poly (rvec3 (T N))) (B cb B' : box) (d : rvec3 (T N)) :
  (forall i, 0 <= i < 3 -> - int_max <= fst cb i <= int_max) ->
  r3d_clamp_ibox N MX p B cb d = OK (p', B') ->
  ((forall i, 0 <= i < 3 -> fst cb i < snd B i /\ fst B i < snd cb i) ->
     forall i, 0 <= i < 3 -> fst B' i = Z.max (fst B i) (fst cb i) /\ snd B' i = Z.min (snd B i) (snd cb i))
  /\ (~ (forall i, 0 <= i < 3 -> fst cb i < snd B i /\ fst B i < snd cb i) ->
     p' = PY (vb p) 0 /\ forall i, 0 <= i < 3 -> fst B' i = 0 /\ snd B' i = 0).
Proof. exact (clamp_box N MX p p' B cb B' d). Qed.
Print Assumptions C38_r3d_clamp_ibox_box.

(** [clamp_faces d cb B]: the planes of the sides of the clamp box that lie inside [B] *)
Theorem C38_r3d_clamp_ibox_polyhedron (MX : Z) (p p' : poly (rvec3 R)) (B cb B' : box) (d : rvec3 R) :
  (forall i, 0 <= i < 3 -> - int_max <= fst cb i <= int_max) ->
  wf3 p -> nv p <= MX -> (0 <= x3 d)%R -> (0 <= y3 d)%R -> (0 <= z3 d)%R ->
  (0 < nv p -> exists q, r3d_clip RN MX p (clamp_faces d cb B) = OK (q, 1)) ->
  r3d_clamp_ibox RN MX p B cb d = OK (p', B') ->
  wf3 p' /\ nv p' <= MX /\ (planar_faces p -> planar_faces p') /\ hull_sub p p' /\ (within d B p -> within d cb p' /\ within d B' p').
Proof. exact (clamp_R MX p p' B cb B' d). Qed.
Print Assumptions C38_r3d_clamp_ibox_polyhedron.

(** six cuts: the clip inside succeeds when the buffer is 80 times larger than the polyhedron *)
Theorem C38_r3d_clamp_ibox_clip_ok (MX : Z) (p : poly (rvec3 R)) (B cb : box) (d : rvec3 R) :
  wf3 p -> 0 < nv p -> 80 * nv p <= MX -> exists q, r3d_clip RN MX p (clamp_faces d cb B) = OK (q, 1).
Proof. exact (clamp_room MX p B cb d). Qed.
Print Assumptions C38_r3d_clamp_ibox_clip_ok.

(** nothing is lost when the polyhedron already lies in the clamp box *)
Theorem C38_r3d_clamp_ibox_inside (MX : Z) (p : poly (rvec3 R)) (B cb : box) (d : rvec3 R) :
  (forall i, 0 <= i < 3 -> - int_max <= fst cb i <= int_max) ->
  wf3 p -> nv p <= MX -> (forall i, 0 <= i < 3 -> fst cb i < snd B i /\ fst B i < snd cb i) -> within d cb p ->
  exists B', r3d_clamp_ibox RN MX p B cb d = OK (p, B')
    /\ forall i, 0 <= i < 3 -> fst B' i = Z.max (fst B i) (fst cb i) /\ snd B' i = Z.min (snd B i) (snd cb i).
Proof. exact (clamp_id MX p B cb d). Qed.
Print Assumptions C38_r3d_clamp_ibox_inside.

(** the failure of the clip inside is not reported: the box looks right, the polyhedron is broken *)
Theorem C38_r3d_clamp_ibox_unreported_failure_refuted :
  exists (p p' : poly (rvec3 R)) (B cb B' : box) (d : rvec3 R), wf3 p /\ nv p <= 512
  /\ (0 < x3 d)%R /\ (0 < y3 d)%R /\ (0 < z3 d)%R
  /\ r3d_clamp_ibox RN 512 p B cb d = OK (p', B')
  /\ (forall i, 0 <= i < 3 -> fst B' i = Z.max (fst B i) (fst cb i) /\ snd B' i = Z.min (snd B i) (snd cb i))
  /\ ~ wf3 p'.
Proof. exact clamp_unreported. Qed.
Print Assumptions C38_r3d_clamp_ibox_unreported_failure_refuted.

(** ** The hypotheses are met *)
Definition cube2 : box := ((fun _ => 0), (fun _ => 2)).
Example cube2_ok : cells3_ok (num_moments3 2) cube2.
Proof. split; [intros i _; cbn; unfold int_min, int_max; lia|vm_compute; discriminate]. Qed.
(** the unit cube on a grid of eight voxels *)
Example cube_voxels p0 stk0 mom0 : exists p gr', r3d_init_box RN 512 p0 (V3 0 0 0)%R (V3 1 1 1)%R = OK p
  /\ wf3 p /\ planar_faces p /\ within (V3 (1/2) (1/2) (2/3))%R cube2 p
  /\ r3d_voxelize RN 512 false 2 stk0 mom0 p cube2 (fun _ => 0%R) (V3 (1/2) (1/2) (2/3))%R = OK gr'.
Proof. exact (unit_cube_voxels p0 stk0 mom0). Qed.
Example cube_clamp p0 : exists p q, r3d_init_box RN 2048 p0 (V3 0 0 0)%R (V3 1 1 1)%R = OK p
  /\ r3d_clip RN 2048 p (clamp_faces (V3 (1/2) (1/2) (2/3))%R ((fun _ => 0), (fun _ => 1)) cube2) = OK (q, 1).
Proof. exact (unit_cube_clamp p0). Qed.
