(** * PropsV2: property theorems for v2d.c (C12-C17) and vertex growth on convex polygons. *)
From Coq Require Import Reals ZArith List Bool Lia Lra.
From Verif Require Import Base Lib ModelCommon Model2 ModelV Spec2 Reduce2 RealNum SumR Spec2R Cons2 Wit2 Convex2 Vox2 GlueV2.
Import ListNotations.
Open Scope Z_scope.

(** ** C03: what does hold.  [convex2 p]: every line crosses the boundary at most twice. *)
Theorem C03_r2d_clip_convex_room (MX : Z) (planes : list (plane2 R)) (p : poly (rvec2 R)) :
  wf2 p -> convex2 p -> nv p + Z.of_nat (length planes) + 1 <= MX ->
  exists p', r2d_clip RN MX p planes = OK p' /\ convex2 p' /\ nv p' <= nv p + Z.of_nat (length planes).
Proof. exact (r2d_clip_convex_room MX planes p). Qed.
Print Assumptions C03_r2d_clip_convex_room.

Theorem C03_convex_triangles (p : poly (rvec2 R)) : wf2 p -> nv p <= 3 -> convex2 p.
Proof. exact (convex2_small p). Qed.
Print Assumptions C03_convex_triangles.

Theorem C03_convex_boxes (MX : Z) (p p' : poly (rvec2 R)) (lo hi : rvec2 R) :
  4 <= MX -> r2d_init_box RN MX p lo hi = OK p' -> convex2 p'.
Proof. exact (convex2_init_box MX p p' lo hi). Qed.
Print Assumptions C03_convex_boxes.

(** ** C12 *)
Theorem C12_r2d_rasterize_conservative (MX : Z) (sh : bool) (po : Z) stk0 mom0 (p : poly (rvec2 R)) (B : box)
    (gr gr' : Z -> R) (d : rvec2 R) :
  0 <= po -> wf2 p -> nv p <= MX -> cells_ok (num_moments2 po) B ->
  r2d_rasterize RN MX sh po stk0 mom0 p B gr d = OK gr' ->
  forall i j, (i + j <= Z.to_nat po)%nat ->
   (lsum (zrange ((snd B 0 - fst B 0) * (snd B 1 - fst B 1))%Z)
     (fun c => gr' (num_moments2 po * c + idx2 (Z.of_nat i) (Z.of_nat j))%Z
             - gr (num_moments2 po * c + idx2 (Z.of_nat i) (Z.of_nat j))%Z)
    = moment2 p i j)%R.
Proof. exact (rasterize_conservative MX sh po stk0 mom0 p B gr gr' d). Qed.
Print Assumptions C12_r2d_rasterize_conservative.

(** the documented use: the box comes from [r2d_get_ibox] *)
Theorem C12_r2d_get_ibox_rasterize (MX : Z) (sh : bool) (po : Z) stk0 mom0 (p : poly (rvec2 R)) (B b0 : box)
    (gr gr' : Z -> R) (d : rvec2 R) :
  0 <= po -> wf2 p -> 0 < nv p <= MX -> (0 < vx d)%R -> (0 < vy d)%R ->
  (forall v, 0 <= v < nv p -> (-10 ^ 30 <= vx (ps (vb p) v) <= 10 ^ 30 /\ - 10 ^ 30 <= vy (ps (vb p) v) <= 10 ^ 30)%R) ->
  (forall v, 0 <= v < nv p -> (vx d * IZR int_min <= vx (ps (vb p) v) <= vx d * IZR int_max
     /\ vy d * IZR int_min <= vy (ps (vb p) v) <= vy d * IZR int_max)%R) ->
  r2d_get_ibox RN MX p d b0 = OK B ->
  snd B 0 - fst B 0 <= int_max -> snd B 1 - fst B 1 <= int_max ->
  num_moments2 po * ((snd B 0 - fst B 0) * (snd B 1 - fst B 1)) <= int_max ->
  r2d_rasterize RN MX sh po stk0 mom0 p B gr d = OK gr' ->
  forall i j, (i + j <= Z.to_nat po)%nat ->
   (lsum (zrange ((snd B 0 - fst B 0) * (snd B 1 - fst B 1))%Z)
     (fun c => gr' (num_moments2 po * c + idx2 (Z.of_nat i) (Z.of_nat j))%Z
             - gr (num_moments2 po * c + idx2 (Z.of_nat i) (Z.of_nat j))%Z)
    = moment2 p i j)%R.
Proof. exact (rasterize_ibox MX sh po stk0 mom0 p B gr gr' d b0). Qed.
Print Assumptions C12_r2d_get_ibox_rasterize.

(** ** C13 *)
Theorem C13_r2d_rasterize_returns (N : num) (MX po : Z) stk0 mom0 (p : poly (rvec2 (T N))) (B : box) gr d :
  0 <= po -> wf2 p -> nv p <= MX -> cells_ok (num_moments2 po) B ->
  (forall q, piece N MX p q -> ~ overflows N MX q) ->
  exists gr', r2d_rasterize N MX false po stk0 mom0 p B gr d = OK gr'.
Proof. exact (rasterize_returns N MX po stk0 mom0 p B gr d). Qed.
Print Assumptions C13_r2d_rasterize_returns.

Theorem C13_r2d_rasterize_convex_returns (MX : Z) (sh : bool) (po : Z) stk0 mom0 (p : poly (rvec2 R)) (B : box) gr (d : rvec2 R) :
  0 <= po -> wf2 p -> convex2 p ->
  nv p + Z.log2_up (snd B 0 - fst B 0) + Z.log2_up (snd B 1 - fst B 1) + 3 <= MX -> cells_ok (num_moments2 po) B ->
  exists gr', r2d_rasterize RN MX sh po stk0 mom0 p B gr d = OK gr'.
Proof. exact (rasterize_convex_returns MX sh po stk0 mom0 p B gr d). Qed.
Print Assumptions C13_r2d_rasterize_convex_returns.

(** ** C14 *)
Theorem C14_r2d_rasterize_own_cells (N : num) (MX po : Z) stk0 mom0 (p : poly (rvec2 (T N))) (B : box) gr gr' d :
  0 <= po -> wf2 p -> nv p <= MX -> cells_ok (num_moments2 po) B ->
  r2d_rasterize N MX false po stk0 mom0 p B gr d = OK gr' ->
  let entry i j m := num_moments2 po * ((i - fst B 0) * (snd B 1 - fst B 1) + (j - fst B 1)) + m in
  exists l : list (Z * Z * poly (rvec2 (T N))), NoDup (map fst l)
  /\ (forall i j q, In (i, j, q) l -> fst B 0 <= i < snd B 0 /\ fst B 1 <= j < snd B 1
       /\ exists m0 mom, r2d_reduce N MX false q m0 po = OK mom
          /\ forall m, 0 <= m < num_moments2 po -> gr' (entry i j m) = nadd N (gr (entry i j m)) (mom m))
  /\ (forall g, (forall i j q m, In (i, j, q) l -> 0 <= m < num_moments2 po -> g <> entry i j m) -> gr' g = gr g).
Proof. exact (rasterize_own_cells N MX po stk0 mom0 p B gr gr' d). Qed.
Print Assumptions C14_r2d_rasterize_own_cells.

Theorem C14_r2d_rasterize_bounds (N : num) (MX po : Z) stk0 mom0 (p : poly (rvec2 (T N))) (B : box) gr gr' d :
  0 <= po -> wf2 p -> nv p <= MX -> cells_ok (num_moments2 po) B ->
  r2d_rasterize N MX false po stk0 mom0 p B gr d = OK gr' ->
  forall g, ~ (0 <= g < (snd B 0 - fst B 0) * (snd B 1 - fst B 1) * num_moments2 po) -> gr' g = gr g.
Proof. exact (rasterize_bounds N MX po stk0 mom0 p B gr gr' d). Qed.
Print Assumptions C14_r2d_rasterize_bounds.

(** ** C15 *)
Theorem C15_r2d_rasterize_cell_pieces (MX : Z) (sh : bool) (po : Z) stk0 mom0 (p : poly (rvec2 R)) (B : box)
    (gr gr' : Z -> R) (d : rvec2 R) :
  0 <= po -> wf2 p -> nv p <= MX -> cells_ok (num_moments2 po) B -> within d B p ->
  r2d_rasterize RN MX sh po stk0 mom0 p B gr d = OK gr' ->
  exists l : list (Z * Z * poly (rvec2 R)), NoDup (map fst l)
  /\ (forall a b q, In (a, b, q) l -> fst B 0 <= a < snd B 0 /\ fst B 1 <= b < snd B 1 /\ wf2 q
       /\ (forall v, 0 <= v < nv q -> (vx d * IZR a <= vx (ps (vb q) v) <= vx d * IZR (a + 1)
              /\ vy d * IZR b <= vy (ps (vb q) v) <= vy d * IZR (b + 1))%R)
       /\ (forall g, (forall v, 0 <= v < nv p -> (0 <= sdist g (ps (vb p) v))%R) ->
            forall v, 0 <= v < nv q -> (0 <= sdist g (ps (vb q) v))%R)
       /\ forall i j, (i + j <= Z.to_nat po)%nat ->
            let e := num_moments2 po * ((a - fst B 0) * (snd B 1 - fst B 1) + (b - fst B 1)) + idx2 (Z.of_nat i) (Z.of_nat j) in
            (gr' e = gr e + moment2 q i j)%R)
  /\ (forall a b m, fst B 0 <= a < snd B 0 -> fst B 1 <= b < snd B 1 -> ~ In (a, b) (map fst l) -> 0 <= m < num_moments2 po ->
        let e := num_moments2 po * ((a - fst B 0) * (snd B 1 - fst B 1) + (b - fst B 1)) + m in gr' e = gr e)
  /\ (forall i j, lsum l (fun x => moment2 (snd x) i j) = moment2 p i j).
Proof. exact (rasterize_cell_pieces MX sh po stk0 mom0 p B gr gr' d). Qed.
Print Assumptions C15_r2d_rasterize_cell_pieces.

(** ** C16 *)
Theorem C16_r2d_get_ibox_minimal (MX : Z) (p : poly (rvec2 R)) (d : rvec2 R) (b0 : box) :
  0 < nv p <= MX -> (0 < vx d)%R -> (0 < vy d)%R ->
  (forall v, 0 <= v < nv p -> (-10 ^ 30 <= vx (ps (vb p) v) <= 10 ^ 30 /\ - 10 ^ 30 <= vy (ps (vb p) v) <= 10 ^ 30)%R) ->
  (forall v, 0 <= v < nv p -> (vx d * IZR int_min <= vx (ps (vb p) v) <= vx d * IZR int_max
     /\ vy d * IZR int_min <= vy (ps (vb p) v) <= vy d * IZR int_max)%R) ->
  exists b, r2d_get_ibox RN MX p d b0 = OK b
  /\ (forall i, 0 <= i < 2 -> int_min <= fst b i /\ fst b i <= snd b i /\ snd b i <= int_max)
  /\ (forall v, 0 <= v < nv p -> (vx d * IZR (fst b 0%Z) <= vx (ps (vb p) v) <= vx d * IZR (snd b 0%Z)
       /\ vy d * IZR (fst b 1%Z) <= vy (ps (vb p) v) <= vy d * IZR (snd b 1%Z))%R)
  /\ (forall b' : box, (forall v, 0 <= v < nv p -> (vx d * IZR (fst b' 0%Z) <= vx (ps (vb p) v) <= vx d * IZR (snd b' 0%Z)
       /\ vy d * IZR (fst b' 1%Z) <= vy (ps (vb p) v) <= vy d * IZR (snd b' 1%Z))%R) ->
       fst b' 0 <= fst b 0 /\ snd b 0 <= snd b' 0 /\ fst b' 1 <= fst b 1 /\ snd b 1 <= snd b' 1).
Proof. exact (r2d_get_ibox_min MX p d b0). Qed.
Print Assumptions C16_r2d_get_ibox_minimal.

(** the non-emptiness hypothesis is needed: an empty polygon makes the conversion to [int] undefined *)
Theorem C16_r2d_get_ibox_empty_undefined (MX : Z) (p : poly (rvec2 R)) (d : rvec2 R) (b0 : box) :
  nv p = 0 -> (0 < vx d <= 10 ^ 20)%R -> r2d_get_ibox RN MX p d b0 = Err BadConversion.
Proof. exact (r2d_get_ibox_empty MX p d b0). Qed.
Print Assumptions C16_r2d_get_ibox_empty_undefined.

(** ** C17 *)
Theorem C17_r2d_clamp_ibox_box (N : num) (MX : Z) (p p' : poly (rvec2 (T N))) (B cb B' : box) (d : rvec2 (T N)) :
  (forall i, 0 <= i < 2 -> - int_max <= fst cb i <= int_max) ->
  r2d_clamp_ibox N MX p B cb d = OK (p', B') ->
  ((forall i, 0 <= i < 2 -> fst cb i < snd B i /\ fst B i < snd cb i) ->
     forall i, 0 <= i < 2 -> fst B' i = Z.max (fst B i) (fst cb i) /\ snd B' i = Z.min (snd B i) (snd cb i))
  /\ (~ (forall i, 0 <= i < 2 -> fst cb i < snd B i /\ fst B i < snd cb i) ->
     p' = PY (vb p) 0 /\ forall i, 0 <= i < 2 -> fst B' i = 0 /\ snd B' i = 0).
Proof. exact (clamp_box N MX p p' B cb B' d). Qed.
Print Assumptions C17_r2d_clamp_ibox_box.

Theorem C17_r2d_clamp_ibox_polygon (MX : Z) (p p' : poly (rvec2 R)) (B cb B' : box) (d : rvec2 R) :
  (forall i, 0 <= i < 2 -> - int_max <= fst cb i <= int_max) ->
  wf2 p -> nv p <= MX -> (0 <= vx d)%R -> (0 <= vy d)%R ->
  r2d_clamp_ibox RN MX p B cb d = OK (p', B') ->
  wf2 p' /\ nv p' <= MX /\ hull_sub p p' /\ (within d B p -> within d cb p' /\ within d B' p').
Proof. exact (clamp_R MX p p' B cb B' d). Qed.
Print Assumptions C17_r2d_clamp_ibox_polygon.

(** nothing is lost when the polygon already lies in the clamp box *)
Theorem C17_r2d_clamp_ibox_inside (MX : Z) (p : poly (rvec2 R)) (B cb : box) (d : rvec2 R) :
  (forall i, 0 <= i < 2 -> - int_max <= fst cb i <= int_max) ->
  wf2 p -> nv p <= MX -> (forall i, 0 <= i < 2 -> fst cb i < snd B i /\ fst B i < snd cb i) -> within d cb p ->
  exists B', r2d_clamp_ibox RN MX p B cb d = OK (p, B')
    /\ forall i, 0 <= i < 2 -> fst B' i = Z.max (fst B i) (fst cb i) /\ snd B' i = Z.min (snd B i) (snd cb i).
Proof. exact (clamp_id MX p B cb d). Qed.
Print Assumptions C17_r2d_clamp_ibox_inside.

Theorem C17_r2d_clamp_ibox_returns (MX : Z) (p : poly (rvec2 R)) (B cb : box) (d : rvec2 R) :
  (forall i, 0 <= i < 2 -> - int_max <= fst cb i <= int_max) ->
  wf2 p -> convex2 p -> nv p + 5 <= MX ->
  exists p' B', r2d_clamp_ibox RN MX p B cb d = OK (p', B') /\ convex2 p' /\ nv p' <= nv p + 4.
Proof. exact (clamp_convex MX p B cb d). Qed.
Print Assumptions C17_r2d_clamp_ibox_returns.

(** ** The hypotheses are met *)
Definition grid3 : box := ((fun _ => -1), (fun _ => 3)).
Example sq_convex : convex2 sq. Proof. exact sq_convex2. Qed.
Example grid3_ok : cells_ok (num_moments2 2) grid3.
Proof. split; [intros i _; cbn; unfold int_min, int_max; lia|vm_compute; discriminate]. Qed.
Example sq_within : within (V2 (1/2) (1/3))%R grid3 sq. Proof. exact sq_within3. Qed.
Example sq_raster_returns stk0 mom0 : exists gr', r2d_rasterize RN 256 false 2 stk0 mom0 sq grid3 (fun _ => 0%R) (V2 (1/2) (1/3))%R = OK gr'.
Proof. apply C13_r2d_rasterize_convex_returns; [lia|exact (proj1 sq_good)|exact sq_convex2|vm_compute; discriminate|exact grid3_ok]. Qed.
Example sq_ibox_range : forall v, 0 <= v < nv sq -> (1 / 2 * IZR int_min <= vx (ps (vb sq) v) <= 1 / 2 * IZR int_max)%R.
Proof. exact sq_range. Qed.
Definition clamp1 : box := ((fun _ => 0), (fun _ => 1)).
Example sq_clamp_returns : exists p' B', r2d_clamp_ibox RN 256 sq grid3 clamp1 (V2 (1/2) (1/3))%R = OK (p', B').
Proof.
  destruct (C17_r2d_clamp_ibox_returns 256 sq grid3 clamp1 (V2 (1/2) (1/3))%R) as (p' & B' & E & _); eauto.
  - intros i _. cbn. unfold int_max. lia.
  - exact (proj1 sq_good).
  - exact sq_convex2.
  - vm_compute. discriminate.
Qed.
