(** * PropsN: the properties of [src/rNd.c] and [src/vNd.c] (C48-C57). *)
From Coq Require Import Reals ZArith List Bool Lia Lra.
From Verif Require Import Base Lib SumR ModelCommon ModelV ModelN ModelNC SpecN SpecGood RealNum HeapN TransN GoodN GlueN.
Import ListNotations.
Open Scope Z_scope.

(** ** C48 *)
(** every dimension: Leibniz' sum over all permutations *)
Theorem C48_rNd_det_leibniz D (m : Z -> Z -> R) : 1 <= D ->
  exists F, forall fuel, (F <= fuel)%nat -> rNd_det RN D fuel m = OK (det D m).
Proof. exact (rNd_det_spec D m). Qed.
Print Assumptions C48_rNd_det_leibniz.

Theorem C48_rNd_orient_leibniz D (v : Z -> Z -> R) : 1 <= D ->
  exists F, forall fuel, (F <= fuel)%nat ->
    rNd_orient RN D fuel v = OK (det D (fun i j => v (i + 1)%Z j - v 0%Z j) / factorial D)%R.
Proof. exact (rNd_orient_spec D v). Qed.
Print Assumptions C48_rNd_orient_leibniz.

(** four dimensions: cofactor expansion over 24 *)
Theorem C48_rNd_orient_4 (v : Z -> Z -> R) :
  exists F, forall fuel, (F <= fuel)%nat ->
    rNd_orient RN 4 fuel v = OK (det4 (fun i j => v (i + 1)%Z j - v 0%Z j) / 24)%R.
Proof. exact (orient_4 v). Qed.
Print Assumptions C48_rNd_orient_4.

(** ** C49: false as stated *)
Theorem C49_rNd_affine_refuted : exists (p p' : polyN RN) (m : Z -> Z -> R) v i,
  rNd_affine RN 1024 4 p m = OK p' /\ 0 <= v < nvN RN p /\ nvN RN p <= 1024 /\ 0 <= i < 4
  /\ lsum (zrange 4) (fun j => m 4%Z j * ps (vbN RN p) v j)%R <> 0%R
  /\ (lsum (zrange 4) (fun j => m 4%Z j * ps (vbN RN p) v j) + m 4%Z 4%Z)%R <> 0%R
  /\ ps (vbN RN p') v i <> proj_map 4 m (ps (vbN RN p) v) i.
Proof. exact affine_false. Qed.
Print Assumptions C49_rNd_affine_refuted.

(** what it computes: the last column product only, divided by [c . x] *)
Theorem C49_rNd_affine_exact MX D (p : polyN RN) (m : Z -> Z -> R) : 1 <= D -> 0 <= nvN RN p <= MX ->
  exists p', rNd_affine RN MX D p m = OK p' /\ nvN RN p' = nvN RN p /\ nb (vbN RN p') = nb (vbN RN p)
  /\ forall v i, 0 <= v < nvN RN p -> 0 <= i < D ->
     ps (vbN RN p') v i = ((ps (vbN RN p) v (D - 1)%Z * m i (D - 1)%Z + m i D) / lsum (zrange D) (fun j => ps (vbN RN p) v j * m D j))%R.
Proof. exact (affine_exact MX D p m). Qed.
Print Assumptions C49_rNd_affine_exact.

(** ** C50 *)
Theorem C50_rNd_init_simplex N MX D (p : polyN N) verts : 1 <= D -> D + 1 <= MX -> exists p', rNd_init_simplex N MX D p verts = OK p'
  /\ nvN N p' = D + 1
  /\ (forall v i, 0 <= v <= D -> 0 <= i < D -> ps (vbN N p') v i = verts v i)
  /\ good_links (nb (vbN N p')) D (D + 1)
  /\ (forall v w, 0 <= v <= D -> 0 <= w <= D -> v <> w -> exists i, 0 <= i < D /\ nb (vbN N p') v i = w)
  /\ (forall v i j, 0 <= v <= D -> 0 <= i < D -> 0 <= j < D -> i <> j ->
        0 <= fdN N p' v i j < nfN N p' /\ fdN N p' v j i = fdN N p' v i j)
  /\ (forall v i j v' i' j', 0 <= v <= D -> 0 <= i < D -> 0 <= j < D -> i <> j ->
        0 <= v' <= D -> 0 <= i' < D -> 0 <= j' < D -> i' <> j' ->
        (fdN N p' v i j = fdN N p' v' i' j' <->
          forall x, (x = v \/ x = nb (vbN N p') v i \/ x = nb (vbN N p') v j)
                <-> (x = v' \/ x = nb (vbN N p') v' i' \/ x = nb (vbN N p') v' j'))).
Proof. exact (simplex_full N MX D p verts). Qed.
Print Assumptions C50_rNd_init_simplex.

Theorem C50_rNd_init_box N MX D (p : polyN N) lo hi : 0 <= D -> 2 ^ D <= MX -> exists p', rNd_init_box N MX D p lo hi = OK p'
  /\ nvN N p' = 2 ^ D
  /\ (forall v i, 0 <= v < 2 ^ D -> 0 <= i < D -> ps (vbN N p') v i = if Z.testbit v i then hi i else lo i)
  /\ good_links (nb (vbN N p')) D (2 ^ D)
  /\ (forall v i, 0 <= v < 2 ^ D -> 0 <= i < D -> nb (vbN N p') v i = Z.lxor v (2 ^ i))
  /\ (forall v i j, 0 <= v < 2 ^ D -> 0 <= i < D -> 0 <= j < D -> i <> j ->
        0 <= fdN N p' v i j < nfN N p' /\ fdN N p' v j i = fdN N p' v i j)
  /\ (forall v i j v' i' j', 0 <= v < 2 ^ D -> 0 <= i < D -> 0 <= j < D -> i <> j ->
        0 <= v' < 2 ^ D -> 0 <= i' < D -> 0 <= j' < D -> i' <> j' ->
        (fdN N p' v i j = fdN N p' v' i' j' <-> (i' = i /\ j' = j) \/ (i' = j /\ j' = i))).
Proof. exact (box_full N MX D p lo hi). Qed.
Print Assumptions C50_rNd_init_box.

(** the 2-face numbers of a box do not tell its 2-faces apart: two squares without a
    common vertex have the same number *)
Theorem C50_rNd_init_box_face_numbers_refuted (p : polyN RN) lo hi : exists p', rNd_init_box RN 1024 4 p lo hi = OK p'
  /\ exists v i j v', (0 <= v < 16 /\ 0 <= v' < 16 /\ 0 <= i < 4 /\ 0 <= j < 4 /\ i <> j)
  /\ fdN RN p' v i j = fdN RN p' v' i j
  /\ forall x, In x [v; nb (vbN RN p') v i; nb (vbN RN p') v j; nb (vbN RN p') (nb (vbN RN p') v i) j] ->
             ~ In x [v'; nb (vbN RN p') v' i; nb (vbN RN p') v' j; nb (vbN RN p') (nb (vbN RN p') v' i) j].
Proof. exact (box_faces_shared p lo hi). Qed.
Print Assumptions C50_rNd_init_box_face_numbers_refuted.

(** ** C51 *)
Theorem C51_rNd_translate N MX D (p : polyN N) s : 0 <= D -> 0 <= nvN N p <= MX ->
  exists p', rNd_translate N MX D p s = OK p'
  /\ nvN N p' = nvN N p /\ nfN N p' = nfN N p /\ fdN N p' = fdN N p /\ nb (vbN N p') = nb (vbN N p)
  /\ forall v i, 0 <= v < nvN N p -> 0 <= i < D -> ps (vbN N p') v i = nadd N (ps (vbN N p) v i) (s i).
Proof. exact (rNd_translate_spec N MX D p s). Qed.
Print Assumptions C51_rNd_translate.

Theorem C51_rNd_scale N MX D (p : polyN N) s : 0 <= D -> 0 <= nvN N p <= MX ->
  exists p', rNd_scale N MX D p s = OK p'
  /\ nvN N p' = nvN N p /\ nfN N p' = nfN N p /\ fdN N p' = fdN N p /\ nb (vbN N p') = nb (vbN N p)
  /\ forall v i, 0 <= v < nvN N p -> 0 <= i < D -> ps (vbN N p') v i = nmul N (ps (vbN N p) v i) (s i).
Proof. exact (rNd_scale_spec N MX D p s). Qed.
Print Assumptions C51_rNd_scale.

Theorem C51_rNd_shear N MX D (p : polyN N) s axb axs : 0 <= axb < D -> 0 <= axs < D -> 0 <= nvN N p <= MX ->
  exists p', rNd_shear N MX D p s axb axs = OK p'
  /\ nvN N p' = nvN N p /\ nfN N p' = nfN N p /\ fdN N p' = fdN N p /\ nb (vbN N p') = nb (vbN N p)
  /\ forall v i, 0 <= v < nvN N p -> 0 <= i < D -> ps (vbN N p') v i =
       if i =? axb then nadd N (ps (vbN N p) v i) (nmul N s (ps (vbN N p) v axs)) else ps (vbN N p) v i.
Proof. exact (rNd_shear_spec N MX D p s axb axs). Qed.
Print Assumptions C51_rNd_shear.

Theorem C51_rNd_rotate MX D (p : polyN RN) th a1 a2 : 0 <= a1 < D -> 0 <= a2 < D -> a1 <> a2 -> 0 <= nvN RN p <= MX ->
  exists p', rNd_rotate RN MX D p th a1 a2 = OK p'
  /\ nvN RN p' = nvN RN p /\ nfN RN p' = nfN RN p /\ fdN RN p' = fdN RN p /\ nb (vbN RN p') = nb (vbN RN p)
  /\ (forall v i, 0 <= v < nvN RN p -> 0 <= i < D -> ps (vbN RN p') v i =
        if i =? a1 then (cos th * ps (vbN RN p) v a1 - sin th * ps (vbN RN p) v a2)%R
        else if i =? a2 then (sin th * ps (vbN RN p) v a1 + cos th * ps (vbN RN p) v a2)%R
        else ps (vbN RN p) v i)
  /\ forall u v, 0 <= u < nvN RN p -> 0 <= v < nvN RN p ->
       dist2 D (ps (vbN RN p') u) (ps (vbN RN p') v) = dist2 D (ps (vbN RN p) u) (ps (vbN RN p) v).
Proof. exact (rotate_isometry MX D p th a1 a2). Qed.
Print Assumptions C51_rNd_rotate.

(** ** C52 *)
Theorem C52_rNd_is_good_decides N MX D fuel (p : polyN N) r : 2 <= D -> 0 <= nvN N p <= MX ->
  (forall v i, 0 <= v < nvN N p -> 0 <= i < D -> 0 <= nb (vbN N p) v i < nvN N p) -> mutual (nb (vbN N p)) D (nvN N p) ->
  (nvN N p + 1) ^ (D - 1) <= Z.of_nat fuel -> rNd_is_good N MX D fuel p = OK r ->
  (r = 0 \/ r = 1) /\ (r = 1 <-> (regular (nb (vbN N p)) D (nvN N p) /\ (forall v i, 0 <= v < nvN N p -> 0 <= i < D -> nb (vbN N p) v i <> v))
                               /\ connk (D - 1) (nb (vbN N p)) D (nvN N p)).
Proof. exact (is_goodN_mutual N MX D fuel p r). Qed.
Print Assumptions C52_rNd_is_good_decides.

Theorem C52_rNd_is_good_decides_any N MX D fuel (p : polyN N) r : 2 <= D -> 0 <= nvN N p <= MX ->
  (forall v i, 0 <= v < nvN N p -> 0 <= i < D -> 0 <= nb (vbN N p) v i) ->
  (nvN N p + 1) ^ (D - 1) <= Z.of_nat fuel -> rNd_is_good N MX D fuel p = OK r ->
  (r = 0 \/ r = 1) /\ (r = 1 <-> (regular (nb (vbN N p)) D (nvN N p) /\ (forall v i, 0 <= v < nvN N p -> 0 <= i < D -> nb (vbN N p) v i <> v))
                               /\ connk_least (D - 1) (nb (vbN N p)) D (nvN N p)).
Proof. exact (is_goodN_any N MX D fuel p r). Qed.
Print Assumptions C52_rNd_is_good_decides_any.

(** ** C53: false as stated.  A graph in which no link is returned is accepted. *)
Theorem C53_rNd_is_good_mutual_refuted : exists p : polyN RN, 0 < nvN RN p <= 1024
  /\ (forall v i, 0 <= v < nvN RN p -> 0 <= i < 4 -> 0 <= nb (vbN RN p) v i < nvN RN p)
  /\ (forall v i j, 0 <= v < nvN RN p -> 0 <= i < 4 -> 0 <= j < 4 -> nb (vbN RN p) (nb (vbN RN p) v i) j <> v)
  /\ forall fuel, (nvN RN p + 1) ^ 3 <= Z.of_nat fuel -> rNd_is_good RN 1024 4 fuel p = OK 1.
Proof. exact oneway4_false. Qed.
Print Assumptions C53_rNd_is_good_mutual_refuted.

(** ** C54: false as stated.  The product of a 341-gon and a triangle makes the flood
    fill write past the end of its stack. *)
Theorem C54_rNd_is_good_stack_refuted : exists p : polyN RN, good_links (nb (vbN RN p)) 4 (nvN RN p) /\ nvN RN p = 1023
  /\ forall fuel, rNd_is_good RN 1024 4 fuel p = Err OutOfBounds.
Proof. exact duo_false. Qed.
Print Assumptions C54_rNd_is_good_stack_refuted.

(** what does hold: the subset loop ends and no error is met when there is room *)
Theorem C54_rNd_is_good_room N MX D fuel (p : polyN N) : 2 <= D -> 0 <= nvN N p -> (D - 1) * nvN N p + 1 <= MX ->
  (forall v i, 0 <= v < nvN N p -> 0 <= i < D -> 0 <= nb (vbN N p) v i) ->
  (nvN N p + 1) ^ (D - 1) <= Z.of_nat fuel -> exists r, rNd_is_good N MX D fuel p = OK r.
Proof. exact (is_goodN_room N MX D fuel p). Qed.
Print Assumptions C54_rNd_is_good_room.

(** ** C55 *)
Theorem C55_rNd_init_simplex_is_good N MX D (p p' : polyN N) verts fuel : 2 <= D -> (D - 1) * (D + 1) + 1 <= MX ->
  rNd_init_simplex N MX D p verts = OK p' -> (D + 2) ^ (D - 1) <= Z.of_nat fuel -> rNd_is_good N MX D fuel p' = OK 1.
Proof. exact (simplex_is_good N MX D p p' verts fuel). Qed.
Print Assumptions C55_rNd_init_simplex_is_good.

Theorem C55_rNd_init_box_is_good N MX D (p p' : polyN N) lo hi fuel : 2 <= D -> (D - 1) * 2 ^ D + 1 <= MX ->
  rNd_init_box N MX D p lo hi = OK p' -> (2 ^ D + 1) ^ (D - 1) <= Z.of_nat fuel -> rNd_is_good N MX D fuel p' = OK 1.
Proof. exact (box_is_good N MX D p p' lo hi fuel). Qed.
Print Assumptions C55_rNd_init_box_is_good.

(** ** C56 *)
Theorem C56_rNd_get_ibox (MX D : Z) (p : polyN RN) (d : Z -> R) (b0 : box) : 0 <= D -> 0 < nvN RN p <= MX -> (forall i, 0 <= i < D -> (0 < d i)%R) ->
  (forall v i, 0 <= v < nvN RN p -> 0 <= i < D -> (- 10 ^ 30 <= ps (vbN RN p) v i <= 10 ^ 30)%R) ->
  (forall v i, 0 <= v < nvN RN p -> 0 <= i < D -> (d i * IZR int_min <= ps (vbN RN p) v i <= d i * IZR int_max)%R) ->
  exists b, rNd_get_ibox RN MX D p d b0 = OK b
  /\ forall i, 0 <= i < D ->
     (forall v, 0 <= v < nvN RN p -> (d i * IZR (fst b i) <= ps (vbN RN p) v i <= d i * IZR (snd b i))%R)
     /\ (forall m, (forall v, 0 <= v < nvN RN p -> (d i * IZR m <= ps (vbN RN p) v i)%R) -> m <= fst b i)
     /\ (forall m, (forall v, 0 <= v < nvN RN p -> (ps (vbN RN p) v i <= d i * IZR m)%R) -> snd b i <= m).
Proof. exact (getN_ibox MX D p d b0). Qed.
Print Assumptions C56_rNd_get_ibox.

(** ** C57: false as stated.  In four dimensions, clamping to a box strictly inside the
    index box always writes past the end of [boxfaces[6]]. *)
Theorem C57_rNd_clamp_ibox_refuted fuel (p : polyN RN) (B cb : box) (d : Z -> R) :
  (forall i, 0 <= i < 4 -> fst B i < fst cb i /\ fst cb i < snd cb i /\ snd cb i < snd B i /\ int_min < fst cb i <= int_max) ->
  rNd_clamp_ibox RN 1024 4 fuel p B cb d = Err OutOfBounds.
Proof. exact (clamp_over fuel p B cb d). Qed.
Print Assumptions C57_rNd_clamp_ibox_refuted.

(** ** The hypotheses are met *)
Definition axis_simplex (v i : Z) : R := if v =? i + 1 then 1%R else 0%R.
Example axis_simplex_det : det4 (fun i j => axis_simplex (i + 1) j - axis_simplex 0 j)%R = 1%R.
Proof. unfold det4, det3, det2, axis_simplex. cbn. lra. Qed.
Definition blank : polyN RN := PN RN (VB (fun _ _ => 0) (fun _ _ => 0%R)) (fun _ _ _ => 0) 0 0.
Example box4_good : exists p', rNd_init_box RN 1024 4 blank (fun _ => 0%R) (fun _ => 1%R) = OK p' /\ nvN RN p' = 16
  /\ forall fuel, 4913 <= Z.of_nat fuel -> rNd_is_good RN 1024 4 fuel p' = OK 1.
Proof.
  destruct (C50_rNd_init_box RN 1024 4 blank (fun _ => 0%R) (fun _ => 1%R) ltac:(lia) ltac:(cbn; lia)) as (p' & E & En & _).
  exists p'. split; auto. split; auto. intros fuel Hf. apply (C55_rNd_init_box_is_good RN 1024 4 blank p' (fun _ => 0%R) (fun _ => 1%R)); auto; cbn; lia.
Qed.
Example simplex4_good : exists p', rNd_init_simplex RN 1024 4 blank axis_simplex = OK p' /\ nvN RN p' = 5
  /\ forall fuel, 216 <= Z.of_nat fuel -> rNd_is_good RN 1024 4 fuel p' = OK 1.
Proof.
  destruct (C50_rNd_init_simplex RN 1024 4 blank axis_simplex ltac:(lia) ltac:(cbn; lia)) as (p' & E & En & _).
  exists p'. split; auto. split; auto. intros fuel Hf. apply (C55_rNd_init_simplex_is_good RN 1024 4 blank p' axis_simplex); auto; cbn; lia.
Qed.
(** a graph that is turned down: two links of vertex 0 coincide *)
Definition double_link : polyN RN := PN RN (VB (fun v i => if v =? 0 then (if i =? 0 then 2 else i) else 0) (fun _ _ => 0%R)) (fun _ _ _ => 0) 5 0.
Example double_link_bad : rNd_is_good RN 1024 4 10 double_link = OK 0.
Proof. vm_compute. reflexivity. Qed.
Example clamp_hyp : exists B cb : box,
  forall i, 0 <= i < 4 -> fst B i < fst cb i /\ fst cb i < snd cb i /\ snd cb i < snd B i /\ int_min < fst cb i <= int_max.
Proof. exists ((fun _ => -1), (fun _ => 2)), ((fun _ => 0), (fun _ => 1)). cbn. unfold int_min, int_max. lia. Qed.
