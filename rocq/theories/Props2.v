(** * Props2: the 2D property theorems (C01-C11, C18-C24). *)
From Coq Require Import Reals ZArith List Bool Lia Lra.
From Coquelicot Require Import Coquelicot.
From Verif Require Import Base Lib ModelCommon Model2 Spec2 Clip2 HInt RealNum SumR Spec2R Reduce2 Mom2
  Cons2 Shift2 Misc2 Green2 Small2 Wit2 Glue2.
Import ListNotations.
Open Scope Z_scope.

(** ** C01 *)
Theorem C01_r2d_clip_linked (N : num) (MX : Z) (p p' : poly (rvec2 (T N))) (planes : list (plane2 (T N))) :
  wf2 p -> nv p <= MX -> r2d_clip N MX p planes = OK p' ->
  wf2 p' /\ nv p' <= MX /\ (good2 p -> good2 p').
Proof. exact (r2d_clip_linked N MX p p' planes). Qed.
Print Assumptions C01_r2d_clip_linked.

(** ** C02 *)
Theorem C02_r2d_clip_safe (N : num) (MX : Z) (p : poly (rvec2 (T N))) (planes : list (plane2 (T N))) :
  wf2 p -> nv p <= MX ->
  (forall pre pl post q, planes = pre ++ pl :: post -> r2d_clip N MX p pre = OK q ->
     nv q + exits 2 (kept N pl q) (nb (vb q)) (nv q) <= MX) ->
  exists p', r2d_clip N MX p planes = OK p'.
Proof. exact (r2d_clip_safe N MX p planes). Qed.
Print Assumptions C02_r2d_clip_safe.

(** the only other outcome is the buffer overflow *)
Theorem C02_r2d_clip_only_overflow (N : num) (MX : Z) (p : poly (rvec2 (T N))) (planes : list (plane2 (T N))) e :
  wf2 p -> nv p <= MX -> r2d_clip N MX p planes = Err e ->
  e = OutOfBounds /\ exists pre pl post q, planes = pre ++ pl :: post /\ r2d_clip N MX p pre = OK q
     /\ MX < nv q + exits 2 (kept N pl q) (nb (vb q)) (nv q).
Proof. exact (r2d_clip_only_overflow N MX p planes e). Qed.
Print Assumptions C02_r2d_clip_only_overflow.

Theorem C02_r2d_clip_room (N : num) (MX : Z) (p : poly (rvec2 (T N))) (planes : list (plane2 (T N))) :
  wf2 p -> nv p * 2 ^ Z.of_nat (length planes) <= MX -> exists p', r2d_clip N MX p planes = OK p'.
Proof. exact (r2d_clip_room N MX p planes). Qed.
Print Assumptions C02_r2d_clip_room.

(** ** C03 *)
Theorem C03_r2d_clip_no_overflow_refuted : exists (p : poly (rvec2 R)) (pl : plane2 R),
  good2 p /\ nv p <= 256
  /\ (forall u v, 0 <= u < nv p -> (0 <= v < nv p)%Z ->
        left_of (ps (vb p) v) (ps (vb p) (nb (vb p) v 0)) (ps (vb p) u))
  /\ r2d_clip RN 256 p [pl] = Err OutOfBounds.
Proof.
  exists parab, parab_cut. split; [exact parab_good|]. split; [vm_compute; discriminate|].
  split; [exact parab_convex|exact parab_overflow].
Qed.
Print Assumptions C03_r2d_clip_no_overflow_refuted.

(** ** C04 *)
Theorem C04_r2d_clip_inside (MX : Z) (p p' : poly (rvec2 R)) (planes : list (plane2 R)) :
  wf2 p -> nv p <= MX -> r2d_clip RN MX p planes = OK p' ->
  (forall v pl, 0 <= v < nv p' -> In pl planes -> (0 <= sdist pl (ps (vb p') v))%R)
  /\ (forall v, 0 <= v < nv p' -> in_hull p (ps (vb p') v)).
Proof. exact (r2d_clip_R MX planes p p'). Qed.
Print Assumptions C04_r2d_clip_inside.

(** ** C05 *)
Theorem C05_r2d_clip_inside_unchanged (MX : Z) (p : poly (rvec2 R)) (planes : list (plane2 R)) :
  wf2 p -> nv p <= MX ->
  (forall v pl, (0 <= v < nv p)%Z -> In pl planes -> (0 <= sdist pl (ps (vb p) v))%R) ->
  r2d_clip RN MX p planes = OK p.
Proof. exact (r2d_clip_inside_id MX planes p). Qed.
Print Assumptions C05_r2d_clip_inside_unchanged.

Theorem C05_r2d_clip_outside_empty (MX : Z) (p : poly (rvec2 R)) (pl : plane2 R) (rest : list (plane2 R)) :
  wf2 p -> nv p <= MX ->
  (forall v, (0 <= v < nv p)%Z -> (sdist pl (ps (vb p) v) <= 0)%R) ->
  (exists v, (0 <= v < nv p)%Z /\ (sdist pl (ps (vb p) v) < 0)%R) ->
  r2d_clip RN MX p (pl :: rest) = OK (PY (vb p) 0).
Proof. exact (r2d_clip_outside1 MX pl rest p). Qed.
Print Assumptions C05_r2d_clip_outside_empty.

Theorem C05_r2d_clip_outside_any (MX : Z) (p p' : poly (rvec2 R)) (planes : list (plane2 R)) :
  wf2 p -> nv p <= MX -> r2d_clip RN MX p planes = OK p' ->
  (exists pl, In pl planes /\ forall v, (0 <= v < nv p)%Z -> (sdist pl (ps (vb p) v) < 0)%R) -> nv p' = 0.
Proof. exact (r2d_clip_outside MX planes p p'). Qed.
Print Assumptions C05_r2d_clip_outside_any.

Theorem C05_r2d_clip_trivial (N : num) (MX : Z) (p : poly (rvec2 (T N))) (planes : list (plane2 (T N))) :
  r2d_clip N MX p [] = OK p /\ (nv p = 0 -> r2d_clip N MX p planes = OK p).
Proof. exact (conj (r2d_clip_nil MX N p) (r2d_clip_empty MX N p planes)). Qed.
Print Assumptions C05_r2d_clip_trivial.

(** ** C06 *)
Theorem C06_r2d_clip_conserves (MX : Z) (p p0 p1 p2 : poly (rvec2 R)) (pre : list (plane2 R)) (pl : plane2 R) i j :
  (vx (pn pl) <> 0 \/ vy (pn pl) <> 0)%R -> wf2 p -> nv p <= MX ->
  r2d_clip RN MX p pre = OK p0 ->
  r2d_clip RN MX p (pre ++ [pl]) = OK p1 -> r2d_clip RN MX p (pre ++ [flip pl]) = OK p2 ->
  (moment2 p1 i j + moment2 p2 i j = moment2 p0 i j)%R.
Proof. exact (r2d_clip_conserves MX pre pl p p0 p1 p2 i j). Qed.
Print Assumptions C06_r2d_clip_conserves.

(** ** C07 *)
Theorem C07_r2d_split_linked (N : num) (MX : Z) (pl : plane2 (T N)) ins outs :
  r2d_split N MX pl ins = OK outs ->
  Forall2 (fun i o => wf2 (fst i) -> nv (fst i) <= MX ->
     wf2 (fst (snd o)) /\ wf2 (snd (snd o)) /\ nv (fst (snd o)) <= MX /\ nv (snd (snd o)) <= MX
     /\ (good2 (fst i) -> good2 (fst (snd o)) /\ good2 (snd (snd o)))) ins outs.
Proof. exact (r2d_split_linked N MX pl ins outs). Qed.
Print Assumptions C07_r2d_split_linked.

Theorem C07_r2d_split_conserves (MX : Z) (pl : plane2 R) (ins outs : list (pol2 * (pol2 * pol2))) :
  r2d_split RN MX pl ins = OK outs ->
  Forall2 (fun i o => wf2 (fst i) -> nv (fst i) <= MX ->
     forall a b, (moment2 (fst (snd o)) a b + moment2 (snd (snd o)) a b = moment2 (fst i) a b)%R) ins outs.
Proof. exact (r2d_split_conserves MX pl ins outs). Qed.
Print Assumptions C07_r2d_split_conserves.

(** it returns whenever every polygon leaves room for the new vertices *)
Theorem C07_r2d_split_safe (N : num) (MX : Z) (pl : plane2 (T N)) ins :
  List.Forall (fun i => wf2 (fst i) /\ 3 * nv (fst i) <= MX) ins -> exists outs, r2d_split N MX pl ins = OK outs.
Proof. exact (r2d_split_safe N MX pl ins). Qed.
Print Assumptions C07_r2d_split_safe.

(** ** C08 *)
(** the sides are exchanged *)
Theorem C08_r2d_split_sides (MX : Z) (pl : plane2 R) (ins outs : list (pol2 * (pol2 * pol2))) :
  r2d_split RN MX pl ins = OK outs ->
  Forall2 (fun i o => wf2 (fst i) -> nv (fst i) <= MX ->
     (forall v, 0 <= v < nv (fst (snd o)) -> (sdist pl (ps (vb (fst (snd o))) v) <= 0)%R)
     /\ (forall v, 0 <= v < nv (snd (snd o)) -> (0 <= sdist pl (ps (vb (snd (snd o))) v))%R)) ins outs.
Proof. exact (r2d_split_sides MX pl ins outs). Qed.
Print Assumptions C08_r2d_split_sides.

Theorem C08_r2d_split_pos_side_refuted :
  ~ (forall (MX : Z) (pl : plane2 R) (p opos oneg q o0 o1 : pol2), wf2 p -> nv p <= MX ->
      r2d_split RN MX pl [(p, (opos, oneg))] = OK [(q, (o0, o1))] ->
      (forall v, 0 <= v < nv o0 -> (0 <= sdist pl (ps (vb o0) v))%R)
      /\ (forall v, 0 <= v < nv o1 -> (sdist pl (ps (vb o1) v) <= 0)%R)).
Proof. exact split_doc_false. Qed.
Print Assumptions C08_r2d_split_pos_side_refuted.

(** ** C09, C10 *)
Theorem C09_r2d_reduce_exact (MX po : Z) (p : poly (rvec2 R)) (mom : Z -> R) :
  0 <= po -> wf2 p -> nv p <= MX ->
  exists mom', r2d_reduce RN MX false p mom po = OK mom'
  /\ forall i j, (i + j <= Z.to_nat po)%nat ->
       mom' (idx2 (Z.of_nat i) (Z.of_nat j)) = moment2 p i j
       /\ mom' (idx2 (Z.of_nat i) (Z.of_nat j))
          = lsum (zrange (nv p)) (fun v => green i j (ps (vb p) v) (ps (vb p) (nb (vb p) v 0))).
Proof. exact (r2d_reduce_exact MX po p mom). Qed.
Print Assumptions C09_r2d_reduce_exact.

Theorem C10_r2d_reduce_fills (N : num) (MX po : Z) (p : poly (rvec2 (T N))) (mom : Z -> T N) :
  0 <= po -> wf2 p -> nv p <= MX ->
  exists mom', r2d_reduce N MX false p mom po = OK mom'
  /\ (forall m, ~ 0 <= m < (po + 1) * (po + 2) / 2 -> mom' m = mom m)
  /\ (nv p = 0 -> forall m, 0 <= m < (po + 1) * (po + 2) / 2 -> mom' m = n0 N)
  /\ (forall mom2, exists mom2', r2d_reduce N MX false p mom2 po = OK mom2'
        /\ forall m, 0 <= m < (po + 1) * (po + 2) / 2 -> mom2' m = mom' m).
Proof. exact (r2d_reduce_fills N MX po p mom). Qed.
Print Assumptions C10_r2d_reduce_fills.

(** the documented slots are exactly the exponent pairs, in order of degree and
    then of increasing exponent of y *)
Theorem C10_moment_slots (po : Z) : 0 <= po ->
  (forall i j, 0 <= i -> 0 <= j -> i + j <= po -> 0 <= idx2 i j < (po + 1) * (po + 2) / 2)
  /\ (forall i j i' j', 0 <= i -> 0 <= j -> 0 <= i' -> 0 <= j' ->
        (idx2 i j < idx2 i' j' <-> i + j < i' + j' \/ i + j = i' + j' /\ j < j'))
  /\ (forall m, 0 <= m < (po + 1) * (po + 2) / 2 -> exists i j, 0 <= i /\ 0 <= j /\ i + j <= po /\ m = idx2 i j).
Proof. exact (moment_slots po). Qed.
Print Assumptions C10_moment_slots.

(** ** C11 *)
Theorem C11_r2d_shift_moments (p : poly (rvec2 R)) (c : rvec2 R) (po : Z) (mom : Z -> R) :
  0 <= po -> wf2 p ->
  (forall i j, (i + j <= Z.to_nat po)%nat -> mom (idx2 (Z.of_nat i) (Z.of_nat j)) =
     lsum (zrange (nv p)) (fun v => edge2 i j (vsub2 RN (ps (vb p) v) c) (vsub2 RN (ps (vb p) (nb (vb p) v 0)) c))) ->
  exists mom', r2d_shift_moments RN mom po c = OK mom'
  /\ (forall i j, (i + j <= Z.to_nat po)%nat -> mom' (idx2 (Z.of_nat i) (Z.of_nat j)) = moment2 p i j)
  /\ (forall m, ~ 0 <= m < (po + 1) * (po + 2) / 2 -> mom' m = mom m).
Proof. exact (fun Hpo Hw => shift_moments_exact p c po mom Hpo (proj2 Hw)). Qed.
Print Assumptions C11_r2d_shift_moments.

Theorem C11_r2d_reduce_shifted (MX po : Z) (p : poly (rvec2 R)) (mom : Z -> R) :
  0 <= po -> wf2 p -> nv p <= MX ->
  exists mom1 mom2, r2d_reduce RN MX true p mom po = OK mom1 /\ r2d_reduce RN MX false p mom po = OK mom2
  /\ forall m, mom1 m = mom2 m.
Proof. exact (r2d_reduce_shift_same MX po p mom). Qed.
Print Assumptions C11_r2d_reduce_shifted.

(** ** C18 *)
Theorem C18_r2d_translate (MX : Z) (p : poly (rvec2 R)) (sh : rvec2 R) : wf2 p -> nv p <= MX ->
  exists p', r2d_translate RN MX p sh = OK p' /\ nv p' = nv p /\ nb (vb p') = nb (vb p)
  /\ (forall v, (0 <= v < nv p)%Z -> ps (vb p') v = V2 (vx (ps (vb p) v) + vx sh) (vy (ps (vb p) v) + vy sh))%R
  /\ moment2 p' 0 0 = moment2 p 0 0
  /\ (forall i j, moment2 p' i j = sum_f_R0 (fun k => sum_f_R0 (fun l =>
        Binomial.C i k * Binomial.C j l * vx sh ^ (i - k) * vy sh ^ (j - l) * moment2 p k l) j) i)%R.
Proof. exact (translate_all MX p sh). Qed.
Print Assumptions C18_r2d_translate.

Theorem C18_r2d_scale (MX : Z) (p : poly (rvec2 R)) (s : R) : wf2 p -> nv p <= MX ->
  exists p', r2d_scale RN MX p s = OK p' /\ nv p' = nv p /\ nb (vb p') = nb (vb p)
  /\ (forall v, (0 <= v < nv p)%Z -> ps (vb p') v = V2 (vx (ps (vb p) v) * s) (vy (ps (vb p) v) * s))%R
  /\ (forall i j, moment2 p' i j = s ^ (i + j + 2) * moment2 p i j)%R.
Proof. exact (scale_all MX p s). Qed.
Print Assumptions C18_r2d_scale.

Theorem C18_r2d_shear (MX : Z) (p : poly (rvec2 R)) (s : R) (axb axs : Z) : wf2 p -> nv p <= MX ->
  0 <= axb < 2 -> 0 <= axs < 2 -> axb <> axs ->
  exists p', r2d_shear RN MX p s axb axs = OK p' /\ nv p' = nv p /\ nb (vb p') = nb (vb p)
  /\ (forall v, (0 <= v < nv p)%Z ->
        coordR axb (ps (vb p') v) = coordR axb (ps (vb p) v) + s * coordR axs (ps (vb p) v)
        /\ coordR axs (ps (vb p') v) = coordR axs (ps (vb p) v))%R
  /\ moment2 p' 0 0 = moment2 p 0 0.
Proof. exact (shear_all MX p s axb axs). Qed.
Print Assumptions C18_r2d_shear.

Theorem C18_r2d_affine (MX : Z) (p : poly (rvec2 R)) (m : Z -> Z -> R) : wf2 p -> nv p <= MX ->
  m 2 0 = 0%R -> m 2 1 = 0%R -> m 2 2 = 1%R ->
  exists p', r2d_affine RN MX p m = OK p' /\ nv p' = nv p /\ nb (vb p') = nb (vb p)
  /\ (forall v, (0 <= v < nv p)%Z ->
        vx (ps (vb p') v) = m 0%Z 0%Z * vx (ps (vb p) v) + m 0%Z 1%Z * vy (ps (vb p) v) + m 0%Z 2%Z
        /\ vy (ps (vb p') v) = m 1%Z 0%Z * vx (ps (vb p) v) + m 1%Z 1%Z * vy (ps (vb p) v) + m 1%Z 2%Z)%R
  /\ (moment2 p' 0 0 = (m 0%Z 0%Z * m 1%Z 1%Z - m 0%Z 1%Z * m 1%Z 0%Z) * moment2 p 0 0)%R.
Proof. exact (affine_all MX p m). Qed.
Print Assumptions C18_r2d_affine.

(** ** C19 *)
Theorem C19_r2d_rotate_refuted :
  ~ (forall (MX : Z) (p p' : poly (rvec2 R)) (theta : R), wf2 p -> (nv p <= MX)%Z -> r2d_rotate RN MX p theta = OK p' ->
     forall v, (0 <= v < nv p)%Z ->
       ps (vb p') v = V2 (cos theta * vx (ps (vb p) v) - sin theta * vy (ps (vb p) v))
                         (sin theta * vx (ps (vb p) v) + cos theta * vy (ps (vb p) v)))%R.
Proof. exact rotate_false. Qed.
Print Assumptions C19_r2d_rotate_refuted.

Theorem C19_r2d_rotate_actual (MX : Z) (p : poly (rvec2 R)) (theta : R) : wf2 p -> nv p <= MX ->
  exists p', r2d_rotate RN MX p theta = OK p' /\ nv p' = nv p /\ nb (vb p') = nb (vb p)
  /\ (forall v, (0 <= v < nv p)%Z ->
        ps (vb p') v = V2 (sin theta * vx (ps (vb p) v) + cos theta * vy (ps (vb p) v)) (vy (ps (vb p) v)))%R
  /\ (moment2 p' 0 0 = sin theta * moment2 p 0 0)%R.
Proof. exact (rotate_all MX p theta). Qed.
Print Assumptions C19_r2d_rotate_actual.

(** ** C20 *)
Theorem C20_r2d_box_faces_refuted : exists lo hi q : rvec2 R, (vx lo <= vx hi /\ vy lo <= vy hi)%R
  /\ (forall f, In f (r2d_box_faces_from_verts RN lo hi) -> (0 <= sdist f q)%R)
  /\ ~ (vx lo <= vx q <= vx hi /\ vy lo <= vy q <= vy hi)%R.
Proof. exact box_faces_false. Qed.
Print Assumptions C20_r2d_box_faces_refuted.

Theorem C20_r2d_box_faces_actual (lo hi q : rvec2 R) :
  (forall f, In f (r2d_box_faces_from_verts RN lo hi) -> (0 <= sdist f q)%R)
  <-> (- vx lo <= vx q <= vx hi /\ - vy lo <= vy q <= vy hi)%R.
Proof. exact (box_faces_actual lo hi q). Qed.
Print Assumptions C20_r2d_box_faces_actual.

(** ** C21 *)
Theorem C21_r2d_poly_faces (l : list (rvec2 R)) :
  length (r2d_poly_faces_from_verts RN l) = length l
  /\ forall f a b q, nth_error l f = Some a -> nth_error l ((f + 1) mod length l) = Some b ->
     exists pl, nth_error (r2d_poly_faces_from_verts RN l) f = Some pl
     /\ (sdist pl a = 0 /\ sdist pl b = 0
         /\ (0 < sdist pl q <-> 0 < (vx b - vx a) * (vy q - vy a) - (vy b - vy a) * (vx q - vx a))
         /\ (0 <= sdist pl q <-> left_of a b q))%R.
Proof. exact (poly_faces_all l). Qed.
Print Assumptions C21_r2d_poly_faces.

(** ** C22 *)
Theorem C22_r2d_is_good_exact (N : num) (MX : Z) (p : poly (rvec2 (T N))) : 0 <= nv p <= MX ->
  (forall v s, (0 <= v < nv p)%Z -> s = 0 \/ s = 1 -> 0 <= nb (vb p) v s) ->
  exists r, r2d_is_good N MX p = OK r /\ (r = 0 \/ r = 1)
  /\ (r = 1 <-> forall v, (0 <= v < nv p)%Z ->
        nb (vb p) v 0 < nv p /\ nb (vb p) v 1 < nv p /\ nb (vb p) v 0 <> nb (vb p) v 1
        /\ length (filter (fun d => nb (vb p) (fst d) (snd d) =? v)
             (list_prod (map Z.of_nat (seq 0 (Z.to_nat (nv p)))) [0; 1])) = 2%nat).
Proof. exact (is_good_exact N MX p). Qed.
Print Assumptions C22_r2d_is_good_exact.

Theorem C22_good_polygons_accepted (N : num) (MX : Z) (p : poly (rvec2 (T N))) :
  good2 p -> nv p <= MX -> r2d_is_good N MX p = OK 1.
Proof. exact (good2_is_good N MX p). Qed.
Print Assumptions C22_good_polygons_accepted.

(** it accepts vertices that point to themselves, and links that are not mutual *)
Theorem C22_r2d_is_good_refuted : exists p : poly (rvec2 R),
  r2d_is_good RN 256 p = OK 1 /\ (exists v, (0 <= v < nv p)%Z /\ nb (vb p) v 0 = v) /\ ~ linked (nb (vb p)) (nv p).
Proof. exact is_good_false. Qed.
Print Assumptions C22_r2d_is_good_refuted.

(** ** C23 *)
Theorem C23_r2d_init_poly (N : num) (MX : Z) (p : poly (rvec2 (T N))) (l : list (rvec2 (T N))) d :
  3 <= Z.of_nat (length l) <= MX ->
  exists p', r2d_init_poly N MX p l = OK p' /\ nv p' = Z.of_nat (length l) /\ good2 p'
  /\ r2d_is_good N MX p' = OK 1
  /\ (forall v, 0 <= v < nv p' -> ps (vb p') v = nth (Z.to_nat v) l d /\ nb (vb p') v 0 = (v + 1) mod nv p').
Proof. exact (init_poly_all N MX p l d). Qed.
Print Assumptions C23_r2d_init_poly.

Theorem C23_r2d_init_box (MX : Z) (p : poly (rvec2 R)) (lo hi : rvec2 R) : 4 <= MX ->
  exists p', r2d_init_box RN MX p lo hi = OK p' /\ nv p' = 4 /\ good2 p' /\ r2d_is_good RN MX p' = OK 1
  /\ forall i j, (moment2 p' i j = RInt (fun x => x ^ i) (vx lo) (vx hi) * RInt (fun y => y ^ j) (vy lo) (vy hi))%R.
Proof. exact (init_box_all MX p lo hi). Qed.
Print Assumptions C23_r2d_init_box.

(** ** C24 *)
Theorem C24_r2d_orient (a b c t : rvec2 R) (MX : Z) (p0 : poly (rvec2 R)) : 3 <= MX ->
  (r2d_orient RN a b c = - r2d_orient RN b a c
  /\ r2d_orient RN a b c = r2d_orient RN b c a
  /\ r2d_orient RN (V2 (vx a + vx t) (vy a + vy t)) (V2 (vx b + vx t) (vy b + vy t)) (V2 (vx c + vx t) (vy c + vy t))
     = r2d_orient RN a b c
  /\ exists p, r2d_init_poly RN MX p0 [a; b; c] = OK p /\ moment2 p 0 0 = r2d_orient RN a b c)%R.
Proof. exact (orient_all a b c t MX p0). Qed.
Print Assumptions C24_r2d_orient.

(** ** Non-vacuity: the unit square meets the hypotheses, and the conclusions
    are about real cuts. *)
Example sq_wf : good2 sq /\ nv sq = 4. Proof. exact (conj sq_good eq_refl). Qed.
(** two clips of the square succeed; the first plane really cuts it *)
Example sq_clip_ok : exists p', r2d_clip RN 256 sq [PL2 (V2 1 0) (- / 2); PL2 (V2 0 1) (- / 2)]%R = OK p'.
Proof. apply C02_r2d_clip_room; [exact (proj1 sq_good)|vm_compute; discriminate]. Qed.
Example sq_really_cut : (sdist (PL2 (V2 1 0) (- / 2)) (ps (vb sq) 0%Z) < 0 < sdist (PL2 (V2 1 0) (- / 2)) (ps (vb sq) 1%Z))%R.
Proof. unfold sdist; cbn. lra. Qed.
Example sq_split_ok : exists outs, r2d_split RN 256 (PL2 (V2 1 0) (- / 2))%R [(sq, (sq, sq)); (sq, (sq, sq))] = OK outs.
Proof. apply C07_r2d_split_safe. repeat apply List.Forall_cons; try apply List.Forall_nil; (split; [exact (proj1 sq_good)|vm_compute; discriminate]). Qed.
Example sq_outside : forall v, 0 <= v < nv sq -> (sdist (PL2 (V2 1 0) (-2)) (ps (vb sq) v) < 0)%R.
Proof. intros v Hv. cbn in Hv. unfold sdist; cbn. destruct (v =? 0), (v =? 1), (v =? 2); cbn; lra. Qed.
Example sq_moments : moment2 sq 0 0 = 1%R /\ moment2 sq 2 1 = (1 / 6)%R.
Proof. exact sq_moments_ok. Qed.
