(** * FarkG: the results of the clips in terms of weighted means. *)
From Coq Require Import Reals ZArith List Bool Lia Lra.
From Verif Require Import Base Lib SumR ModelCommon Model2 Model3 ModelN ModelNC RealNum SpecN SpecNC SpecNP Spec2R Spec3R SpecC2 SpecC3 SpecH FarkC.
From Verif Require HullC3 ClipC2 HullN.
Import ListNotations.
Open Scope R_scope.

Theorem clip2_means MX (p p' : poly (rvec2 R)) planes : convex_ccw p -> (nv p <= MX)%Z -> r2d_clip RN MX p planes = OK p' ->
  (forall x, mean2 (nv p') (ps (vb p')) x <-> mean2 (nv p) (ps (vb p)) x /\ holds2 planes x)
  \/ (nv p' = 0%Z /\ exists pl, In pl planes /\ forall x, mean2 (nv p) (ps (vb p)) x -> holds2 planes x -> sdist pl x = 0).
Proof.
  intros CV HM E. destruct (ClipC2.r2d_clip_hull MX p p' planes CV HM E) as (_ & [H|(Z0 & pl & I & H)]).
  - left. intros x. rewrite <- !hull2_means. apply H.
  - right. split; auto. exists pl. split; auto. intros x Hx. apply H. now apply hull2_means.
Qed.
Theorem clip3_means MX (p p' : pol3) planes : convex3 p -> (nv p <= MX)%Z -> r3d_clip RN MX p planes = OK (p', 1%Z) ->
  (forall x, mean3 (nv p') (ps (vb p')) x <-> mean3 (nv p) (ps (vb p)) x /\ holds3 planes x)
  \/ (nv p' = 0%Z /\ exists pl, In pl planes /\ forall x, mean3 (nv p) (ps (vb p)) x -> holds3 planes x -> sdist3 pl x = 0).
Proof.
  intros CV HM E. destruct (HullC3.r3d_clip_hull MX p p' planes CV HM E) as (_ & [H|(Z0 & pl & I & H)]).
  - left. intros x. rewrite <- !hull3_means. apply H.
  - right. split; auto. exists pl. split; auto. intros x Hx. apply H. now apply hull3_means.
Qed.
Theorem clipN_means MX D fuel (p : polyN RN) planes : (3 <= D)%Z -> (Z.to_nat (MX * D * D * D) <= fuel)%nat -> (0 <= nvN RN p <= MX)%Z -> convexN D p ->
  (exists p', rNd_clip RN MX D fuel p planes = OK p'
     /\ ((forall x, meanN D (nvN RN p') (ps (vbN RN p')) x <-> meanN D (nvN RN p) (ps (vbN RN p)) x /\ holds D planes x)
         \/ (nvN RN p' = 0%Z /\ forall x, meanN D (nvN RN p) (ps (vbN RN p)) x -> ~ strictly D planes x)))
  \/ (MX < nvN RN p * (D + 1) ^ Z.of_nat (length planes) /\ rNd_clip RN MX D fuel p planes = Err OutOfBounds)%Z.
Proof.
  intros HD Hf Hn CV. destruct (HullN.rNd_clip_hull MX D fuel HD Hf p planes Hn CV) as [(p' & E & _ & _ & _ & [H|(Z0 & H)])|X]; [left|left|right; exact X]; exists p'; (split; [exact E|]).
  - left. intros x. rewrite <- !hullN_means. exact (H x).
  - right. split; auto. intros x Hx. apply H. now apply hullN_means.
Qed.
(** the middle of the unit cube *)
Lemma cube_mean : mean3 8 (fun v => V3 (IZR (v mod 2)) (IZR ((v / 2) mod 2)) (IZR (v / 4))) (V3 (1/2) (1/2) (1/2)).
Proof. exists (fun _ => 1 / 8). split; [split; [intros; lra|]|]; unfold wsum; change (zrange 8) with [0; 1; 2; 3; 4; 5; 6; 7]%Z; cbn; lra. Qed.
