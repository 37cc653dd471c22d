(** * InitC3: [r3d_init_box] and [r3d_init_tet] make convex polyhedra. *)
From Coq Require Import Reals ZArith List Bool Lia Lra Psatz.
From Verif Require Import Base Lib SumR ModelCommon CommonFacts Model3 RealNum SpecN SpecNC HPoly Spec3 Orb3 Cut3 FaceSpec3 Face3 Face3  Graph3 Spec3R Mom3 Geo3 Small3 Glue3 SpecC3 Conv3 FlagC3 VolC3 LimC3.
Import ListNotations.
Open Scope Z_scope.
Notation det3 := SpecC3.det3.

(** ** Labels from a table *)
Definition labels_b (f : Z -> Z -> Z) (n nh : Z) (lab : dart -> Z) : bool :=
  forallb (fun d => (0 <=? lab d) && (lab d <? nh) && (lab (fnext f d) =? lab d)
     && forallb (fun j => negb (lab d =? lab (fst d, j)) || (j =? snd d)) [0; 1; 2]) (darts 3 n).
Lemma fnext_agree f g n d : agree f g n -> links f (below n) -> isd (below n) d -> fnext g d = fnext f d.
Proof.
  intros A L (Hv & Hi). unfold below in Hv. assert (HT : below n (f (fst d) (snd d))) by (apply (l_rng _ _ L); auto). unfold below in HT.
  unfold fnext, dopp, dtgt, dsrc, slot. rewrite <- (A (fst d) (snd d)) by auto. rewrite <- !(A (f (fst d) (snd d))) by (auto; lia). reflexivity.
Qed.
Lemma labels_table f g n nh lab : agree f g n -> links f (below n) -> labels_b f n nh lab = true -> labels g n nh lab.
Proof.
  intros A L B. unfold labels_b in B. rewrite forallb_forall in B.
  assert (X : forall d, isd (below n) d -> 0 <= lab d < nh /\ lab (fnext f d) = lab d /\ forall j, 0 <= j < 3 -> lab d = lab (fst d, j) -> j = snd d).
  { intros d Hd. specialize (B d (proj1 (isd_in n d) Hd)). apply andb_true_iff in B as (B & B4). apply andb_true_iff in B as (B & B3). apply andb_true_iff in B as (B1 & B2).
    apply Z.leb_le in B1. apply Z.ltb_lt in B2. apply Z.eqb_eq in B3. split; [lia|]. split; auto. intros j Hj E. rewrite forallb_forall in B4.
    specialize (B4 j ltac:(destruct (slot3 j Hj) as [->|[->| ->]]; cbn; auto)). rewrite E, Z.eqb_refl in B4. now apply Z.eqb_eq in B4. }
  constructor.
  - intros d Hd. apply X; auto.
  - intros d Hd. rewrite (fnext_agree f g n d A L Hd). apply X; auto.
  - intros v i j Hv Hi Hj E. symmetry. apply (X (v, i)); auto. split; auto.
Qed.

(** ** Boxes *)
Definition box_bit (v k : Z) : Z := if k =? 0 then nth (Z.to_nat v) [0; 1; 1; 0; 0; 1; 1; 0] 0 else if k =? 1 then nth (Z.to_nat v) [0; 0; 1; 1; 0; 0; 1; 1] 0 else nth (Z.to_nat v) [0; 0; 0; 0; 1; 1; 1; 1] 0.
(** the coordinate that slot [i] of [v] changes *)
Definition box_ax (v i : Z) : Z := table [(0, 2, 1); (1, 2, 0); (0, 2, 1); (1, 2, 0); (1, 2, 0); (0, 2, 1); (1, 2, 0); (0, 2, 1)] v i.
Definition box_lab (d : dart) : Z := let k := box_ax (fst d) ((snd d + 1) mod 3) in 2 * k + box_bit (fst d) k.
Open Scope R_scope.
Definition box_pos (lo hi : rvec3 R) (v k : Z) : R := if (box_bit v k =? 0)%Z then co3 lo k else co3 hi k.
Definition box_l (g k : Z) : R := if (k =? g / 2)%Z then (if (g mod 2 =? 0)%Z then 1 else -1) else 0.
Definition box_l0 (lo hi : rvec3 R) (g : Z) : R := if (g mod 2 =? 0)%Z then - co3 lo (g / 2) else co3 hi (g / 2).
Lemma eight v : (0 <= v < 8)%Z -> (v = 0 \/ v = 1 \/ v = 2 \/ v = 3 \/ v = 4 \/ v = 5 \/ v = 6 \/ v = 7)%Z. Proof. lia. Qed.
Lemma six v : (0 <= v < 6)%Z -> (v = 0 \/ v = 1 \/ v = 2 \/ v = 3 \/ v = 4 \/ v = 5)%Z. Proof. lia. Qed.
Lemma four v : (0 <= v < 4)%Z -> (v = 0 \/ v = 1 \/ v = 2 \/ v = 3)%Z. Proof. lia. Qed.
Lemma box_turned : turned 8 (facet box_lab) box_l.
Proof. intros v Hv. destruct (eight v Hv) as [->|[->|[->|[->|[->|[->|[->| ->]]]]]]]; cbv -[Rplus Rminus Rmult Ropp Rlt IZR]; lra. Qed.
Lemma box_realized (lo hi : rvec3 R) : x3 lo < x3 hi -> y3 lo < y3 hi -> z3 lo < z3 hi -> realized 3 8 6 (facet box_lab) (box_pos lo hi) (box_l0 lo hi) box_l.
Proof.
  intros HX HY HZ. destruct lo as [a b c], hi as [a' b' c']. cbn [x3 y3 z3] in *. constructor.
  - intros v i Hv Hi. rewrite lin3. destruct (eight v Hv) as [->|[->|[->|[->|[->|[->|[->| ->]]]]]]]; destruct (slot3 i Hi) as [->|[->| ->]]; cbv -[Rplus Rminus Rmult Ropp Rlt IZR]; ring.
  - intros v g Hv Hg N. pose proof (N 0%Z ltac:(lia)) as N0. pose proof (N 1%Z ltac:(lia)) as N1. pose proof (N 2%Z ltac:(lia)) as N2. clear N. rewrite lin3.
    destruct (eight v Hv) as [->|[->|[->|[->|[->|[->|[->| ->]]]]]]]; vm_compute in N0, N1, N2; destruct (six g Hg) as [->|[->|[->|[->|[->| ->]]]]]; try congruence; cbv -[Rplus Rminus Rmult Ropp Rlt IZR]; lra.
  - intros v y Hv H k Hk. pose proof (H 0%Z ltac:(lia)) as N0. pose proof (H 1%Z ltac:(lia)) as N1. pose proof (H 2%Z ltac:(lia)) as N2. clear H. rewrite lin3 in N0, N1, N2.
    destruct (eight v Hv) as [->|[->|[->|[->|[->|[->|[->| ->]]]]]]]; cbv -[Rplus Rminus Rmult Ropp Rlt IZR] in N0, N1, N2; destruct (slot3 k Hk) as [->|[->| ->]]; lra.
  - intros v w Hv Hw H. pose proof (H 0%Z ltac:(lia)) as N0. pose proof (H 1%Z ltac:(lia)) as N1. pose proof (H 2%Z ltac:(lia)) as N2. clear H.
    destruct (eight v Hv) as [->|[->|[->|[->|[->|[->|[->| ->]]]]]]]; destruct (eight w Hw) as [->|[->|[->|[->|[->|[->|[->| ->]]]]]]]; try reflexivity; exfalso; cbv -[Rplus Rminus Rmult Ropp Rlt IZR] in N0, N1, N2; lra.
Qed.
Lemma box_at (p : pol3) lo hi : map (ps (vb p)) (zrange 8) =
     [V3 (x3 lo) (y3 lo) (z3 lo); V3 (x3 hi) (y3 lo) (z3 lo); V3 (x3 hi) (y3 hi) (z3 lo); V3 (x3 lo) (y3 hi) (z3 lo);
      V3 (x3 lo) (y3 lo) (z3 hi); V3 (x3 hi) (y3 lo) (z3 hi); V3 (x3 hi) (y3 hi) (z3 hi); V3 (x3 lo) (y3 hi) (z3 hi)] ->
  forall v k, (0 <= v < 8)%Z -> (0 <= k < 3)%Z -> at3 p v k = box_pos lo hi v k.
Proof.
  intros P v k Hv Hk. change (zrange 8) with [0; 1; 2; 3; 4; 5; 6; 7]%Z in P. cbn [map] in P. injection P as P0 P1 P2 P3 P4 P5 P6 P7.
  unfold at3. destruct (eight v Hv) as [->|[->|[->|[->|[->|[->|[->| ->]]]]]]]; rewrite ?P0, ?P1, ?P2, ?P3, ?P4, ?P5, ?P6, ?P7; destruct (slot3 k Hk) as [->|[->| ->]]; reflexivity.
Qed.
Lemma box_labels (p : pol3) : nv p = 8%Z -> agree box_tab (nb (vb p)) 8 -> labels (nb (vb p)) (nv p) 6 box_lab.
Proof.
  intros E A. rewrite E. apply (labels_table box_tab); [exact A| |vm_compute; reflexivity].
  assert (W : wf3 (PY (VB box_tab (fun _ => V3 0 0 0)) 8%Z : pol3)) by (apply (box_wf RN); [reflexivity|intros v i _ _; reflexivity]). apply W.
Qed.
Theorem init_box_solid MX (p p' : pol3) lo hi : (8 <= MX)%Z -> x3 lo < x3 hi -> y3 lo < y3 hi -> z3 lo < z3 hi -> r3d_init_box RN MX p lo hi = OK p' -> solid3 p' /\ nv p' = 8%Z.
Proof.
  intros HM HX HY HZ E. destruct (init_box_spec3 RN MX p lo hi HM) as (q & E' & Hn & A & P). rn. rewrite E in E'. injection E' as <-. split; auto.
  split; [exact (box_wf RN p' Hn A)|]. exists 6%Z, box_lab, (box_l0 lo hi), box_l. split; [now apply box_labels|]. rewrite Hn. split; [|apply box_turned].
  apply (realized_ext _ _ _ _ (box_pos lo hi)); [|now apply box_realized]. intros v k Hv Hk. symmetry. now apply box_at.
Qed.
(** flat boxes too *)
Theorem init_box_convex MX (p p' : pol3) lo hi : (8 <= MX)%Z -> x3 lo <= x3 hi -> y3 lo <= y3 hi -> z3 lo <= z3 hi -> r3d_init_box RN MX p lo hi = OK p' -> convex3 p' /\ nv p' = 8%Z.
Proof.
  intros HM HX HY HZ E. destruct (init_box_spec3 RN MX p lo hi HM) as (q & E' & Hn & A & P). rn. rewrite E in E'. injection E' as <-. split; auto.
  split; [exact (box_wf RN p' Hn A)|]. exists 6%Z, box_lab. split; [now apply box_labels|]. rewrite Hn. intros e He.
  set (hi' := V3 (x3 hi + e / 2) (y3 hi + e / 2) (z3 hi + e / 2)). exists (box_pos lo hi'), (box_l0 lo hi'), box_l. split; [apply box_realized; cbn; lra|]. split; [apply box_turned|].
  intros v k Hv Hk. rewrite (box_at p' lo hi P v k Hv Hk). unfold box_pos, hi', co3. cbn [x3 y3 z3].
  apply Rabs_def1; destruct (box_bit v k =? 0)%Z; destruct (k =? 0)%Z; try destruct (k =? 1)%Z; lra.
Qed.

(** ** Tetrahedra *)
Definition tet_lab (d : dart) : Z := tet_tab (fst d) ((snd d + 1) mod 3).
Definition tet_l (a b c d : vec) (g : Z) : vec :=
  if (g =? 0)%Z then fun k => - cr (fun k => c k - b k) (fun k => d k - b k) k
  else if (g =? 1)%Z then cr (fun k => c k - a k) (fun k => d k - a k)
  else if (g =? 2)%Z then fun k => - cr (fun k => b k - a k) (fun k => d k - a k) k
  else cr (fun k => b k - a k) (fun k => c k - a k).
Definition tet_l0 (a b c d : vec) (g : Z) : R := if (g =? 0)%Z then - dt (tet_l a b c d g) b else - dt (tet_l a b c d g) a.
Definition tet_pos (a b c d : vec) (v : Z) : vec := if (v =? 0)%Z then a else if (v =? 1)%Z then b else if (v =? 2)%Z then c else d.
Definition tet_vol (a b c d : vec) : R := det3 (fun k => b k - a k) (fun k => c k - a k) (fun k => d k - a k).
Lemma tet_values a b c d v g : (0 <= v < 4)%Z -> (0 <= g < 4)%Z -> linN 3 (tet_l0 a b c d g) (tet_l a b c d g) (tet_pos a b c d v) = if (g =? v)%Z then tet_vol a b c d else 0.
Proof.
  intros Hv Hg. rewrite lin3. unfold tet_l0, tet_l, tet_pos, tet_vol, dt, cr, SpecC3.det3.
  destruct (four v Hv) as [->|[->|[->| ->]]]; destruct (four g Hg) as [->|[->|[->| ->]]]; cbn [Z.eqb Pos.eqb]; ring.
Qed.
Lemma tet_normals a b c d v : (0 <= v < 4)%Z -> det3 (tet_l a b c d (facet tet_lab v 0)) (tet_l a b c d (facet tet_lab v 1)) (tet_l a b c d (facet tet_lab v 2)) = - (tet_vol a b c d * tet_vol a b c d).
Proof.
  intros Hv. destruct (four v Hv) as [->|[->|[->| ->]]]; match goal with |- context [facet tet_lab ?v 0] => let x := eval vm_compute in (facet tet_lab v 0) in let y := eval vm_compute in (facet tet_lab v 1) in let z := eval vm_compute in (facet tet_lab v 2) in
    change (facet tet_lab v 0) with x; change (facet tet_lab v 1) with y; change (facet tet_lab v 2) with z end; unfold tet_l, tet_vol, cr, SpecC3.det3; cbn [Z.eqb Pos.eqb]; ring.
Qed.
Lemma det_inj (u v w y : vec) : det3 u v w <> 0 -> dt u y = 0 -> dt v y = 0 -> dt w y = 0 -> forall k, (0 <= k < 3)%Z -> y k = 0.
Proof.
  intros N A B C k Hk. apply Rmult_eq_reg_l with (det3 u v w); auto. rewrite Rmult_0_r.
  transitivity (dt u y * cr v w k + dt v y * cr w u k + dt w y * cr u v k); [|rewrite A, B, C; ring].
  unfold SpecC3.det3, dt, cr. destruct (slot3 k Hk) as [->|[->| ->]]; cbn [Z.eqb Pos.eqb]; ring.
Qed.
Lemma tet_realized a b c d : 0 < tet_vol a b c d -> realized 3 4 4 (facet tet_lab) (tet_pos a b c d) (tet_l0 a b c d) (tet_l a b c d).
Proof.
  intros HV.
  assert (FT : forall v i, (0 <= v < 4)%Z -> (0 <= i < 3)%Z -> (0 <= facet tet_lab v i < 4)%Z /\ facet tet_lab v i <> v).
  { intros v i Hv Hi. destruct (four v Hv) as [->|[->|[->| ->]]]; destruct (slot3 i Hi) as [->|[->| ->]]; vm_compute; repeat split; congruence. }
  constructor.
  - intros v i Hv Hi. destruct (FT v i Hv Hi) as (F1 & F2). rewrite tet_values by auto. destruct (Z.eqb_spec (facet tet_lab v i) v); [contradiction|reflexivity].
  - intros v g Hv Hg N. rewrite tet_values by auto. destruct (Z.eqb_spec g v) as [_|Ne]; auto. exfalso.
    pose proof (N 0%Z ltac:(lia)) as N0. pose proof (N 1%Z ltac:(lia)) as N1. pose proof (N 2%Z ltac:(lia)) as N2.
    destruct (four v Hv) as [->|[->|[->| ->]]]; vm_compute in N0, N1, N2; destruct (four g Hg) as [->|[->|[->| ->]]]; congruence.
  - intros v y Hv H. assert (D0 : forall i, (0 <= i < 3)%Z -> dt (tet_l a b c d (facet tet_lab v i)) y = 0).
    { intros i Hi. specialize (H i Hi). rewrite lin3 in H. unfold dt. lra. }
    apply (det_inj (tet_l a b c d (facet tet_lab v 0)) (tet_l a b c d (facet tet_lab v 1)) (tet_l a b c d (facet tet_lab v 2))); try (apply D0; lia).
    rewrite tet_normals by auto. assert (0 < tet_vol a b c d * tet_vol a b c d) by (now apply Rmult_lt_0_compat). lra.
  - intros v w Hv Hw H. destruct (Z.eq_dec v w) as [E|E]; auto. exfalso.
    assert (X : linN 3 (tet_l0 a b c d v) (tet_l a b c d v) (tet_pos a b c d v) = linN 3 (tet_l0 a b c d v) (tet_l a b c d v) (tet_pos a b c d w)).
    { rewrite !lin3, !H by lia. reflexivity. }
    rewrite !tet_values, Z.eqb_refl in X by auto. destruct (Z.eqb_spec v w); [contradiction|]. lra.
Qed.
Theorem init_tet_solid MX (p p' : pol3) (a b c d : rvec3 R) : (4 <= MX)%Z -> 0 < (r3d_orient RN a b c d : R) -> r3d_init_tet RN MX p a b c d = OK p' -> solid3 p' /\ nv p' = 4%Z.
Proof.
  intros HM HO E. destruct (init_tet_spec RN MX p a b c d HM) as (q & E' & Hn & A & P). rn. rewrite E in E'. injection E' as <-. split; auto.
  assert (HV : 0 < tet_vol (co3 a) (co3 b) (co3 c) (co3 d)).
  { replace (tet_vol (co3 a) (co3 b) (co3 c) (co3 d)) with (6 * (r3d_orient RN a b c d : R)); [lra|]. unfold r3d_orient, tet_vol, SpecC3.det3, co3. cbn. field. }
  split; [exact (tet_wf RN p' Hn A)|]. exists 4%Z, tet_lab, (tet_l0 (co3 a) (co3 b) (co3 c) (co3 d)), (tet_l (co3 a) (co3 b) (co3 c) (co3 d)).
  split; [|rewrite Hn; split].
  - rewrite Hn. apply (labels_table tet_tab); [exact A| |vm_compute; reflexivity].
    assert (W : wf3 (PY (VB tet_tab (fun _ => V3 0 0 0)) 4%Z : pol3)) by (apply (tet_wf RN); [reflexivity|intros v i _ _; reflexivity]). apply W.
  - apply (realized_ext _ _ _ _ (tet_pos (co3 a) (co3 b) (co3 c) (co3 d))); [|now apply tet_realized].
    change (zrange 4) with [0; 1; 2; 3]%Z in P. cbn [map] in P. injection P as P0 P1 P2 P3.
    intros v k Hv Hk. unfold at3. destruct (four v Hv) as [->|[->|[->| ->]]]; rewrite ?P0, ?P1, ?P2, ?P3; reflexivity.
  - intros v Hv. rewrite tet_normals by auto. assert (0 < tet_vol (co3 a) (co3 b) (co3 c) (co3 d) * tet_vol (co3 a) (co3 b) (co3 c) (co3 d)) by (now apply Rmult_lt_0_compat). lra.
Qed.
