(** * Glue2: the 2D lemmas in the form stated in Props2. *)
From Coq Require Import Reals ZArith List Bool Lia Lra Psatz.
From Coquelicot Require Import Coquelicot.
From Verif Require Import Base Lib ModelCommon CommonFacts Model2 Spec2 Struct2 Clip2 HPoly HInt RealNum SumR Spec2R Reduce2 Mom2
  Cons2 Shift2 Misc2 Green2 Small2 Wit2.
Import ListNotations.
Open Scope Z_scope.

Lemma F2_impl {A B} (P Q : A -> B -> Prop) l l' : (forall a b, P a b -> Q a b) -> Forall2 P l l' -> Forall2 Q l l'.
Proof. induction 2; constructor; auto. Qed.

(** vertices kept by a plane are those whose signed distance is not below zero *)
Definition kept (N : num) (pl : plane2 (T N)) (p : poly (rvec2 (T N))) (v : Z) : bool :=
  negb (nlt N (nadd N (pd pl) (dot2 N (ps (vb p) v) (pn pl))) (n0 N)).

Section G.
Context (N : num) (MX : Z).
Notation pol := (poly (rvec2 (T N))).

Lemma r2d_clip_linked (p p' : pol) planes : wf2 p -> nv p <= MX -> r2d_clip N MX p planes = OK p' ->
  wf2 p' /\ nv p' <= MX /\ (good2 p -> good2 p').
Proof.
  intros Hw HM E. unfold r2d_clip in E. destruct (Z.leb_spec (nv p) 0) as [L|L]; [inversion E; subst; auto|].
  destruct (clip_planes_struct N MX planes p Hw HM) as [(q & E' & W & M & D)|(E' & _)]; [|congruence].
  rewrite E' in E. inversion E; subst. split; auto. split; auto. intros (_ & X). split; auto.
Qed.

Lemma r2d_clip_pre (p : pol) planes : 0 < nv p -> r2d_clip N MX p planes = clip_planes N MX planes p.
Proof. intros. unfold r2d_clip. destruct (Z.leb_spec (nv p) 0); [lia|auto]. Qed.

Lemma r2d_clip_only_overflow (p : pol) planes e : wf2 p -> nv p <= MX -> r2d_clip N MX p planes = Err e ->
  e = OutOfBounds /\ exists pre pl post q, planes = pre ++ pl :: post /\ r2d_clip N MX p pre = OK q
     /\ MX < nv q + exits 2 (kept N pl q) (nb (vb q)) (nv q).
Proof.
  intros Hw HM E. assert (L : 0 < nv p).
  { unfold r2d_clip in E. destruct (Z.leb_spec (nv p) 0); [discriminate|auto]. }
  rewrite r2d_clip_pre in E by auto.
  destruct (clip_planes_struct N MX planes p Hw HM) as [(q & E' & _)|(E' & pre & pl & post & q & A & B & C)]; [congruence|].
  split; [congruence|]. exists pre, pl, post, q. rewrite r2d_clip_pre by auto. auto.
Qed.

Lemma r2d_clip_safe (p : pol) planes : wf2 p -> nv p <= MX ->
  (forall pre pl post q, planes = pre ++ pl :: post -> r2d_clip N MX p pre = OK q ->
     nv q + exits 2 (kept N pl q) (nb (vb q)) (nv q) <= MX) ->
  exists p', r2d_clip N MX p planes = OK p'.
Proof.
  intros Hw HM H. destruct (r2d_clip N MX p planes) as [p'|e] eqn:E; [eauto|exfalso].
  destruct (r2d_clip_only_overflow p planes e Hw HM E) as (_ & pre & pl & post & q & A & B & C).
  pose proof (H pre pl post q A B). lia.
Qed.

Lemma r2d_clip_room (p : pol) planes : wf2 p -> nv p * 2 ^ Z.of_nat (length planes) <= MX ->
  exists p', r2d_clip N MX p planes = OK p'.
Proof.
  intros Hw HM. unfold r2d_clip. destruct (Z.leb_spec (nv p) 0) as [L|L]; [eauto|].
  now apply clip_planes_room.
Qed.

Lemma r2d_split_linked pl ins outs : r2d_split N MX pl ins = OK outs ->
  Forall2 (fun i o => wf2 (fst i) -> nv (fst i) <= MX ->
     wf2 (fst (snd o)) /\ wf2 (snd (snd o)) /\ nv (fst (snd o)) <= MX /\ nv (snd (snd o)) <= MX
     /\ (good2 (fst i) -> good2 (fst (snd o)) /\ good2 (snd (snd o)))) ins outs.
Proof.
  intros E. apply r2d_split_list in E. eapply F2_impl; [|exact E].
  intros [p [a b]] [q [o0 o1]] X Hw HM. cbn [fst snd] in *.
  destruct (split1_struct N MX pl p a b q o0 o1 Hw HM X) as (A & B & C & D & F).
  split; auto. split; auto. split; auto. split; auto. intros (_ & G). destruct (F G). split; split; auto.
Qed.

Lemma r2d_split_safe pl ins : List.Forall (fun i => wf2 (fst i) /\ 3 * nv (fst i) <= MX) ins ->
  exists outs, r2d_split N MX pl ins = OK outs.
Proof.
  induction 1 as [|[p [a b]] rest (Hw & HM) _ (outs & IH)]; cbn [r2d_split]; [eauto|]. cbn [fst] in *.
  rewrite IH. pose proof Hw as (Hn & HL).
  destruct (split1_spec N MX pl p a b Hw ltac:(lia)) as [(A & E')|[(A & B & E')|[(A & B & E')|(u & v & Hu & Hv & Ru & Rv & [(q' & x & y & E' & S)|(E' & C)])]]];
    try (rewrite E'; cbn [bind]; eauto).
  pose proof (exits_le (fun v => negb (rightv N pl (vb p) v)) (nb (vb p)) (nv p) Hn HL). lia.
Qed.

Lemma num_moments2_eq po : num_moments2 po = (po + 1) * (po + 2) / 2. Proof. reflexivity. Qed.

Lemma moment_index po m : 0 <= po -> 0 <= m < num_moments2 po ->
  exists i j, 0 <= i /\ 0 <= j /\ i + j <= po /\ m = idx2 i j.
Proof.
  intros Hpo. rewrite num_moments2_tri. revert po Hpo. apply (zrange_ind (fun po => 0 <= m < tri2 (po + 1) ->
    exists i j, 0 <= i /\ 0 <= j /\ i + j <= po /\ m = idx2 i j)).
  - intros Hm. exists 0, 0. change (tri2 (0 + 1)) with 1 in Hm. change (idx2 0 0) with 0. lia.
  - intros po Hpo IH Hm. destruct (Z_lt_le_dec m (tri2 (po + 1))) as [L|L].
    + destruct IH as (i & j & A & B & C & D); [lia|]. exists i, j. lia.
    + rewrite tri2_succ in Hm. exists (po + 1 - (m - tri2 (po + 1))), (m - tri2 (po + 1)). unfold idx2.
      replace (po + 1 - (m - tri2 (po + 1)) + (m - tri2 (po + 1))) with (po + 1) by lia. lia.
Qed.

Lemma moment_slots po : 0 <= po ->
  (forall i j, 0 <= i -> 0 <= j -> i + j <= po -> 0 <= idx2 i j < (po + 1) * (po + 2) / 2)
  /\ (forall i j i' j', 0 <= i -> 0 <= j -> 0 <= i' -> 0 <= j' ->
        (idx2 i j < idx2 i' j' <-> i + j < i' + j' \/ i + j = i' + j' /\ j < j'))
  /\ (forall m, 0 <= m < (po + 1) * (po + 2) / 2 -> exists i j, 0 <= i /\ 0 <= j /\ i + j <= po /\ m = idx2 i j).
Proof.
  intros Hpo. split; [|split].
  - intros i j Hi Hj Hs. now apply idx2_range.
  - assert (L : forall i j i' j', 0 <= i -> 0 <= j -> 0 <= i' -> 0 <= j' ->
      i + j < i' + j' \/ i + j = i' + j' /\ j < j' -> idx2 i j < idx2 i' j').
    { intros i j i' j' A B C D [X|(X & Y)]; unfold idx2.
      - pose proof (tri2_mono (i + j + 1) (i' + j') ltac:(lia)) as M. rewrite tri2_succ in M. lia.
      - rewrite X. lia. }
    intros i j i' j' A B C D. split; [|now apply L]. intros X.
    destruct (Z.lt_trichotomy (i + j) (i' + j')) as [Y|[Y|Y]]; auto.
    + destruct (Z.lt_trichotomy j j') as [W|[W|W]]; auto.
      * assert (i = i') by lia. subst. lia.
      * pose proof (L i' j' i j C D A B ltac:(lia)). lia.
    + pose proof (L i' j' i j C D A B ltac:(lia)). lia.
  - intros m Hm. now apply moment_index.
Qed.

Lemma r2d_reduce_fills po (p : pol) mom : 0 <= po -> wf2 p -> nv p <= MX ->
  exists mom', r2d_reduce N MX false p mom po = OK mom'
  /\ (forall m, ~ 0 <= m < (po + 1) * (po + 2) / 2 -> mom' m = mom m)
  /\ (nv p = 0 -> forall m, 0 <= m < (po + 1) * (po + 2) / 2 -> mom' m = n0 N)
  /\ (forall mom2, exists mom2', r2d_reduce N MX false p mom2 po = OK mom2'
        /\ forall m, 0 <= m < (po + 1) * (po + 2) / 2 -> mom2' m = mom' m).
Proof.
  intros Hpo Hw HM. destruct (reduce_spec N MX po p mom Hpo Hw HM) as (m1 & E & A & B).
  exists m1. split; auto. split; auto. split.
  - intros H0 m Hm. destruct (moment_index po m Hpo Hm) as (i & j & Hi & Hj & Hs & ->). rewrite A by auto.
    rewrite H0. reflexivity.
  - intros mom2. destruct (reduce_spec N MX po p mom2 Hpo Hw HM) as (m2 & E2 & A2 & B2). exists m2. split; auto.
    intros m Hm. destruct (moment_index po m Hpo Hm) as (i & j & Hi & Hj & Hs & ->). rewrite A, A2 by auto. reflexivity.
Qed.

Lemma pointed_filter f n v : 0 <= n ->
  Z.of_nat (length (filter (fun d => f (fst d) (snd d) =? v) (list_prod (map Z.of_nat (seq 0 (Z.to_nat n))) [0; 1])))
  = pointed f n v.
Proof.
  intros Hn. change (map Z.of_nat (seq 0 (Z.to_nat n))) with (zrange n). revert n Hn. apply zrange_ind; [reflexivity|].
  intros n Hn IH. unfold pointed in *. rewrite !cnt_succ by auto. rewrite zrange_succ by auto.
  assert (LP : forall (a b c : list Z), list_prod (a ++ b) c = list_prod a c ++ list_prod b c).
  { induction a; intros b c; cbn; auto. rewrite IHa. now rewrite app_assoc. }
  rewrite LP, filter_app, app_length, Nat2Z.inj_add, IH. cbn.
  destruct (f n 0 =? v), (f n 1 =? v); cbn; lia.
Qed.

Lemma is_good_exact (p : pol) : 0 <= nv p <= MX ->
  (forall v s, (0 <= v < nv p)%Z -> s = 0 \/ s = 1 -> 0 <= nb (vb p) v s) ->
  exists r, r2d_is_good N MX p = OK r /\ (r = 0 \/ r = 1)
  /\ (r = 1 <-> forall v, (0 <= v < nv p)%Z ->
        nb (vb p) v 0 < nv p /\ nb (vb p) v 1 < nv p /\ nb (vb p) v 0 <> nb (vb p) v 1
        /\ length (filter (fun d => nb (vb p) (fst d) (snd d) =? v)
             (list_prod (map Z.of_nat (seq 0 (Z.to_nat (nv p)))) [0; 1])) = 2%nat).
Proof.
  intros Hn Hr. destruct (is_good_spec N MX p Hn) as (r & E & A & B).
  { intros v Hv. split; apply Hr; auto. }
  exists r. split; auto. split; auto. rewrite B. split; intros X v Hv; destruct (X v Hv) as (X1 & X2 & X3 & X4);
    pose proof (pointed_filter (nb (vb p)) (nv p) v ltac:(lia)); repeat split; auto; lia.
Qed.

Lemma init_poly_all (p : pol) l d : 3 <= Z.of_nat (length l) <= MX ->
  exists p', r2d_init_poly N MX p l = OK p' /\ nv p' = Z.of_nat (length l) /\ good2 p'
  /\ r2d_is_good N MX p' = OK 1
  /\ (forall v, 0 <= v < nv p' -> ps (vb p') v = nth (Z.to_nat v) l d /\ nb (vb p') v 0 = (v + 1) mod nv p').
Proof.
  intros Hl. destruct (init_poly_spec N MX p l d) as (p' & E & En & I); [lia|].
  assert (G : good2 p').
  { destruct (ring_links (nb (vb p')) (nv p')) as (A & B); [lia|intros v Hv; apply I; auto|].
    split; [split; [lia|auto]|auto]. }
  exists p'. split; auto. split; auto. split; auto. split; [apply good2_is_good; auto; lia|].
  intros v Hv. split; apply I; auto.
Qed.
End G.

Lemma r2d_split_conserves MX (pl : plane2 R) (ins outs : list (pol2 * (pol2 * pol2))) :
  r2d_split RN MX pl ins = OK outs ->
  Forall2 (fun i o => wf2 (fst i) -> nv (fst i) <= MX ->
     forall a b, (moment2 (fst (snd o)) a b + moment2 (snd (snd o)) a b = moment2 (fst i) a b)%R) ins outs.
Proof.
  intros E. apply (r2d_split_list RN) in E. eapply F2_impl; [|exact E].
  intros [p [a b]] [q [o0 o1]] X Hw HM. cbn [fst snd] in *. apply (split1_R MX pl p a b q o0 o1 Hw HM X).
Qed.

Lemma r2d_split_sides MX (pl : plane2 R) (ins outs : list (pol2 * (pol2 * pol2))) :
  r2d_split RN MX pl ins = OK outs ->
  Forall2 (fun i o => wf2 (fst i) -> nv (fst i) <= MX ->
     (forall v, 0 <= v < nv (fst (snd o)) -> (sdist pl (ps (vb (fst (snd o))) v) <= 0)%R)
     /\ (forall v, 0 <= v < nv (snd (snd o)) -> (0 <= sdist pl (ps (vb (snd (snd o))) v))%R)) ins outs.
Proof.
  intros E. apply (r2d_split_list RN) in E. eapply F2_impl; [|exact E].
  intros [p [a b]] [q [o0 o1]] X Hw HM. cbn [fst snd] in *.
  destruct (split1_R MX pl p a b q o0 o1 Hw HM X) as (_ & A & B & _). auto.
Qed.

Lemma split_doc_false :
  ~ (forall (MX : Z) (pl : plane2 R) (p opos oneg q o0 o1 : pol2), wf2 p -> nv p <= MX ->
      r2d_split RN MX pl [(p, (opos, oneg))] = OK [(q, (o0, o1))] ->
      (forall v, 0 <= v < nv o0 -> (0 <= sdist pl (ps (vb o0) v))%R)
      /\ (forall v, 0 <= v < nv o1 -> (sdist pl (ps (vb o1) v) <= 0)%R)).
Proof.
  intros X. destruct (X 256 (PL2 (V2 1 0) 1)%R sq sq sq sq (PY (vb sq) 0) sq (proj1 sq_good) ltac:(cbn; lia)) as (_ & Y).
  - apply (r2d_split_list RN). constructor; [|constructor]. cbn [fst snd].
    apply split_positive; [exact (proj1 sq_good)|cbn; lia|].
    intros v Hv; cbn in Hv; unfold sdist; cbn. destruct (v =? 0), (v =? 1), (v =? 2); cbn; lra.
  - pose proof (Y 0 ltac:(cbn; lia)) as Z0. unfold sdist in Z0; cbn in Z0. lra.
Qed.

Lemma r2d_reduce_exact MX po (p : pol2) (mom : Z -> R) : 0 <= po -> wf2 p -> nv p <= MX ->
  exists mom', r2d_reduce RN MX false p mom po = OK mom'
  /\ forall i j, (i + j <= Z.to_nat po)%nat ->
       mom' (idx2 (Z.of_nat i) (Z.of_nat j)) = moment2 p i j
       /\ mom' (idx2 (Z.of_nat i) (Z.of_nat j))
          = lsum (zrange (nv p)) (fun v => green i j (ps (vb p) v) (ps (vb p) (nb (vb p) v 0))).
Proof.
  intros Hpo Hw HM. destruct (reduce_moment2 MX p mom po Hpo Hw HM) as (m & E & A & _). exists m. split; auto.
  intros i j Hs. split; [auto|]. rewrite A by auto. apply moment2_green. apply Hw.
Qed.

Lemma r2d_reduce_shift_same MX po (p : pol2) (mom : Z -> R) : 0 <= po -> wf2 p -> nv p <= MX ->
  exists mom1 mom2, r2d_reduce RN MX true p mom po = OK mom1 /\ r2d_reduce RN MX false p mom po = OK mom2
  /\ forall m, mom1 m = mom2 m.
Proof.
  intros Hpo Hw HM. destruct (reduce_moment2 MX p mom po Hpo Hw HM) as (m & E & A & B).
  destruct (reduce_shift_moment2 MX p mom po Hpo Hw HM) as (m' & E' & A' & B').
  exists m', m. split; auto. split; auto. intros x.
  assert (D : 0 <= x < num_moments2 po \/ ~ 0 <= x < num_moments2 po) by lia. destruct D as [D|D].
  - destruct (moment_index po x Hpo D) as (i & j & Hi & Hj & Hs & ->).
    rewrite <- (Z2Nat.id i), <- (Z2Nat.id j) by auto. rewrite A, A' by lia. reflexivity.
  - rewrite B, B' by auto. reflexivity.
Qed.

Section T.
Context (MX : Z) (p : pol2).

Lemma translate_all (sh : rvec2 R) : wf2 p -> nv p <= MX ->
  exists p', r2d_translate RN MX p sh = OK p' /\ nv p' = nv p /\ nb (vb p') = nb (vb p)
  /\ (forall v, (0 <= v < nv p)%Z -> ps (vb p') v = V2 (vx (ps (vb p) v) + vx sh) (vy (ps (vb p) v) + vy sh))%R
  /\ moment2 p' 0 0 = moment2 p 0 0
  /\ (forall i j, moment2 p' i j = sum_f_R0 (fun k => sum_f_R0 (fun l =>
        Binomial.C i k * Binomial.C j l * vx sh ^ (i - k) * vy sh ^ (j - l) * moment2 p k l) j) i)%R.
Proof.
  intros Hw HM. destruct (translate_R MX p Hw HM sh) as (p' & E & M). exists p'. split; auto.
  pose proof M as (A & B & C & _). rn. split; auto. split; auto. split; auto.
  pose proof (translate_moment p Hw sh p') as T. split; [|intros; now apply T].
  rewrite T by auto. cbn -[moment2]. unfold Binomial.C. cbn -[moment2]. field.
Qed.
Lemma scale_all (s : R) : wf2 p -> nv p <= MX ->
  exists p', r2d_scale RN MX p s = OK p' /\ nv p' = nv p /\ nb (vb p') = nb (vb p)
  /\ (forall v, (0 <= v < nv p)%Z -> ps (vb p') v = V2 (vx (ps (vb p) v) * s) (vy (ps (vb p) v) * s))%R
  /\ (forall i j, moment2 p' i j = s ^ (i + j + 2) * moment2 p i j)%R.
Proof.
  intros Hw HM. destruct (scale_R MX p Hw HM s) as (p' & E & M). exists p'. split; auto.
  pose proof M as (A & B & C & _). rn. split; auto. split; auto. split; auto. intros i j. now apply scale_moment.
Qed.
Lemma shear_all (s : R) axb axs : wf2 p -> nv p <= MX -> 0 <= axb < 2 -> 0 <= axs < 2 -> axb <> axs ->
  exists p', r2d_shear RN MX p s axb axs = OK p' /\ nv p' = nv p /\ nb (vb p') = nb (vb p)
  /\ (forall v, (0 <= v < nv p)%Z ->
        coordR axb (ps (vb p') v) = coordR axb (ps (vb p) v) + s * coordR axs (ps (vb p) v)
        /\ coordR axs (ps (vb p') v) = coordR axs (ps (vb p) v))%R
  /\ moment2 p' 0 0 = moment2 p 0 0.
Proof.
  intros Hw HM H1 H2 H3. destruct (shear_R MX p Hw HM s axb axs H1 H2) as (p' & E & M). exists p'. split; auto.
  pose proof M as (A & B & C & _). rn. split; auto. split; auto. split; [|now apply (shear_area p Hw s axb axs)].
  intros v Hv. rewrite C by auto. unfold shear_map, coordR.
  destruct (Z.eqb_spec axb 0); destruct (Z.eqb_spec axs 0); try lia; cbn; auto.
Qed.
Lemma affine_all (m : Z -> Z -> R) : wf2 p -> nv p <= MX -> m 2 0 = 0%R -> m 2 1 = 0%R -> m 2 2 = 1%R ->
  exists p', r2d_affine RN MX p m = OK p' /\ nv p' = nv p /\ nb (vb p') = nb (vb p)
  /\ (forall v, (0 <= v < nv p)%Z ->
        vx (ps (vb p') v) = m 0%Z 0%Z * vx (ps (vb p) v) + m 0%Z 1%Z * vy (ps (vb p) v) + m 0%Z 2%Z
        /\ vy (ps (vb p') v) = m 1%Z 0%Z * vx (ps (vb p) v) + m 1%Z 1%Z * vy (ps (vb p) v) + m 1%Z 2%Z)%R
  /\ (moment2 p' 0 0 = (m 0%Z 0%Z * m 1%Z 1%Z - m 0%Z 1%Z * m 1%Z 0%Z) * moment2 p 0 0)%R.
Proof.
  intros Hw HM H1 H2 H3. destruct (affine_R MX p Hw HM m) as (p' & E & M). exists p'. split; auto.
  pose proof M as (A & B & C & _). rn. split; auto. split; auto. split; [|now apply (affine_det p Hw)].
  intros v Hv. rewrite C by auto. unfold affine_map. rewrite H1, H2, H3. cbn [vx vy]. split; field.
Qed.
Lemma rotate_all (theta : R) : wf2 p -> nv p <= MX ->
  exists p', r2d_rotate RN MX p theta = OK p' /\ nv p' = nv p /\ nb (vb p') = nb (vb p)
  /\ (forall v, (0 <= v < nv p)%Z ->
        ps (vb p') v = V2 (sin theta * vx (ps (vb p) v) + cos theta * vy (ps (vb p) v)) (vy (ps (vb p) v)))%R
  /\ (moment2 p' 0 0 = sin theta * moment2 p 0 0)%R.
Proof.
  intros Hw HM. destruct (rotate_R MX p Hw HM theta) as (p' & E & M). exists p'. split; auto.
  pose proof M as (A & B & C & D). rn. split; auto. split; auto. split; auto.
  rewrite (affine_area (sin theta) (cos theta) 0 1 0 0 p p' Hw); [ring|].
  split; auto. split; auto. split; auto. intros v Hv. rewrite C by auto. rn. f_equal; ring.
Qed.
End T.

Lemma rotate_false :
  ~ (forall (MX : Z) (p p' : poly (rvec2 R)) (theta : R), wf2 p -> (nv p <= MX)%Z -> r2d_rotate RN MX p theta = OK p' ->
     forall v, (0 <= v < nv p)%Z ->
       ps (vb p') v = V2 (cos theta * vx (ps (vb p) v) - sin theta * vy (ps (vb p) v))
                         (sin theta * vx (ps (vb p) v) + cos theta * vy (ps (vb p) v)))%R.
Proof.
  intros X. destruct (rotate_all 256 sq (PI / 2) (proj1 sq_good) ltac:(cbn; lia)) as (p' & E & _ & _ & C & _).
  pose proof (C 1 ltac:(cbn; lia)) as C1. rn.
  rewrite (X 256 sq p' (PI / 2)%R (proj1 sq_good) ltac:(cbn; lia) E 1 ltac:(cbn; lia)) in C1.
  rewrite sin_PI2, cos_PI2 in C1. cbn in C1. injection C1 as A B. lra.
Qed.

Lemma box_faces_actual (lo hi q : rvec2 R) :
  (forall f, In f (r2d_box_faces_from_verts RN lo hi) -> (0 <= sdist f q)%R)
  <-> (- vx lo <= vx q <= vx hi /\ - vy lo <= vy q <= vy hi)%R.
Proof.
  unfold r2d_box_faces_from_verts, sdist. cbn. split.
  - intros X. pose proof (X _ (or_introl eq_refl)) as X1. pose proof (X _ (or_intror (or_introl eq_refl))) as X2.
    pose proof (X _ (or_intror (or_intror (or_introl eq_refl)))) as X3.
    pose proof (X _ (or_intror (or_intror (or_intror (or_introl eq_refl))))) as X4. cbn in *. lra.
  - intros X f [<-|[<-|[<-|[<-|[]]]]]; cbn; lra.
Qed.
Lemma box_faces_false : exists lo hi q : rvec2 R, (vx lo <= vx hi /\ vy lo <= vy hi)%R
  /\ (forall f, In f (r2d_box_faces_from_verts RN lo hi) -> (0 <= sdist f q)%R)
  /\ ~ (vx lo <= vx q <= vx hi /\ vy lo <= vy q <= vy hi)%R.
Proof.
  exists (V2 1 1)%R, (V2 2 2)%R, (V2 0 0)%R. split; [cbn; lra|]. split; [|cbn; lra].
  apply box_faces_actual. cbn. lra.
Qed.

Lemma poly_faces_all (l : list (rvec2 R)) :
  length (r2d_poly_faces_from_verts RN l) = length l
  /\ forall f a b q, nth_error l f = Some a -> nth_error l ((f + 1) mod length l) = Some b ->
     exists pl, nth_error (r2d_poly_faces_from_verts RN l) f = Some pl
     /\ (sdist pl a = 0 /\ sdist pl b = 0
         /\ (0 < sdist pl q <-> 0 < (vx b - vx a) * (vy q - vy a) - (vy b - vy a) * (vx q - vx a))
         /\ (0 <= sdist pl q <-> left_of a b q))%R.
Proof.
  split. { unfold r2d_poly_faces_from_verts. now rewrite map_length, seq_length. }
  intros f a b q Ea Eb.
  assert (Hf : (f < length l)%nat) by (apply nth_error_Some; congruence).
  rewrite (poly_faces_nth l f (V2 0 0)%R Hf). eexists. split; [reflexivity|].
  rewrite (nth_error_nth _ _ _ Ea), (nth_error_nth _ _ _ Eb).
  destruct (edge_face_R a b) as (c & Hc & X). rewrite !X. unfold left_of.
  set (k := ((vx b - vx a) * (vy q - vy a) - (vy b - vy a) * (vx q - vx a))%R).
  split; [ring|]. split; [ring|]. split; split; intros Y.
  - apply (Rmult_lt_reg_l c); auto. lra.
  - apply Rmult_lt_0_compat; auto.
  - apply (Rmult_le_reg_l c); auto. lra.
  - apply Rmult_le_pos; auto. lra.
Qed.

Lemma is_good_false : exists p : poly (rvec2 R),
  r2d_is_good RN 256 p = OK 1 /\ (exists v, (0 <= v < nv p)%Z /\ nb (vb p) v 0 = v) /\ ~ linked (nb (vb p)) (nv p).
Proof.
  exists selfish. split; [vm_compute; reflexivity|]. split; [exists 0; cbn; lia|].
  intros L. destruct (L 0 ltac:(cbn; lia)) as (_ & _ & X & _). vm_compute in X. discriminate.
Qed.

Lemma init_box_all MX (p : pol2) (lo hi : rvec2 R) : 4 <= MX ->
  exists p', r2d_init_box RN MX p lo hi = OK p' /\ nv p' = 4 /\ good2 p' /\ r2d_is_good RN MX p' = OK 1
  /\ forall i j, (moment2 p' i j = RInt (fun x => x ^ i) (vx lo) (vx hi) * RInt (fun y => y ^ j) (vy lo) (vy hi))%R.
Proof.
  intros HM. destruct (init_box_spec RN MX p lo hi HM) as (p' & E & En & Ep & Eb). exists p'. rn. split; auto. split; auto.
  assert (G : good2 p').
  { destruct (ring_links (nb (vb p')) (nv p')) as (A & B); rewrite ?En; [lia|auto|].
    rewrite En in A, B. split; [split|]; rn; rewrite En; auto; lia. }
  split; auto. split; [apply (good2_is_good RN); auto; rn; lia|].
  intros i j. now apply box_moment.
Qed.

Lemma orient_all (a b c t : rvec2 R) (MX : Z) (p0 : pol2) : 3 <= MX ->
  (r2d_orient RN a b c = - r2d_orient RN b a c
  /\ r2d_orient RN a b c = r2d_orient RN b c a
  /\ r2d_orient RN (V2 (vx a + vx t) (vy a + vy t)) (V2 (vx b + vx t) (vy b + vy t)) (V2 (vx c + vx t) (vy c + vy t))
     = r2d_orient RN a b c
  /\ exists p, r2d_init_poly RN MX p0 [a; b; c] = OK p /\ moment2 p 0 0 = r2d_orient RN a b c)%R.
Proof.
  intros HM. assert (O : forall a b c : rvec2 R, r2d_orient RN a b c = (/ 2 * ((vx a - vx c) * (vy b - vy c) - (vx b - vx c) * (vy a - vy c)))%R) by reflexivity.
  rewrite !O. cbn [vx vy]. rn. split; [ring|]. split; [ring|]. split; [ring|].
  destruct (init_poly_all RN MX p0 [a; b; c] a ltac:(cbn; lia)) as (p & E & En & _ & _ & I). exists p. split; auto.
  cbn [length] in En. rn. change (Z.of_nat 3) with 3 in En. rewrite En in I. unfold moment2. rewrite En.
  change (zrange 3) with [0; 1; 2]. cbn [lsum].
  destruct (I 0 ltac:(lia)) as (P0 & N0), (I 1 ltac:(lia)) as (P1 & N1), (I 2 ltac:(lia)) as (P2 & N2).
  rewrite N0, N1, N2. change ((0 + 1) mod 3) with 1. change ((1 + 1) mod 3) with 2. change ((2 + 1) mod 3) with 0.
  rewrite P0, P1, P2. change (Z.to_nat 0) with 0%nat. change (Z.to_nat 1) with 1%nat. change (Z.to_nat 2) with 2%nat. cbn [nth].
  rewrite !edge2_00. field.
Qed.

Lemma sq_moments_ok : moment2 sq 0 0 = 1%R /\ moment2 sq 2 1 = (1 / 6)%R.
Proof.
  assert (B : forall i j, moment2 sq i j = (RInt (fun x => x ^ i) 0 1 * RInt (fun y => y ^ j) 0 1)%R).
  { intros i j. apply (box_moment sq (V2 0 0) (V2 1 1))%R; try reflexivity. intros v Hv. split; reflexivity. }
  rewrite !B, !RInt_pow_ab. cbn. lra.
Qed.
