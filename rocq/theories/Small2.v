(** * Small2: transforms, initialisers, faces, orientation, [r2d_is_good] (r2d.c:391-551). *)
From Coq Require Import Reals ZArith List Bool Lia Lra Psatz.
From Coquelicot Require Import Coquelicot.
From Verif Require Import Base Lib ModelCommon CommonFacts Model2 Spec2 Struct2 Clip2 HPoly HShift HInt
  RealNum SumR Spec2R Mom2 Cons2 Green2 Shift2.
Import ListNotations.
Open Scope Z_scope.

Section Gen.
Context (NN : num) (MX : Z).
Notation rv := (rvec2 (T NN)).
Notation pol := (poly rv).

(** every transform is a map over the positions that keeps the linkage *)
Definition mapped (g : rv -> rv) (p p' : pol) : Prop :=
  nv p' = nv p /\ nb (vb p') = nb (vb p)
  /\ (forall v, 0 <= v < nv p -> ps (vb p') v = g (ps (vb p) v))
  /\ (forall v, ~ 0 <= v < nv p -> ps (vb p') v = ps (vb p) v).

Lemma map_pos_spec (f : rv -> res rv) g (p : pol) : 0 <= nv p <= MX ->
  (forall q, f q = OK (g q)) -> exists p', map_pos NN MX f p = OK p' /\ mapped g p p'.
Proof.
  intros Hn Hf. unfold map_pos.
  destruct (for_inv (fun k b => nb b = nb (vb p)
     /\ (forall v, 0 <= v < k -> ps b v = g (ps (vb p) v))
     /\ (forall v, ~ 0 <= v < k -> ps b v = ps (vb p) v)) 0 (nv p)
    (fun v b => let* q := rd_ps MX b v in let* q0 := f q in wr_ps MX b v q0) (vb p)) as (b & E & I1 & I2 & I3); try lia.
  - split; auto. split; auto. intros. lia.
  - intros v b Hv (I1 & I2 & I3). rewrite rd_ps_ok by lia. cbn [bind]. rewrite Hf. cbn [bind].
    rewrite wr_ps_ok by lia. eexists. split; [reflexivity|]. cbn [nb ps]. split; auto. split; intros u Hu.
    + destruct (Z.eq_dec u v) as [->|]; [rewrite upd_eq, I3 by lia; auto|]. rewrite upd_neq by lia. apply I2. lia.
    + rewrite upd_neq by lia. apply I3. lia.
  - rewrite E. cbn [bind]. eexists. split; [reflexivity|]. unfold mapped. cbn [nv vb]. auto.
Qed.

Lemma mapped_wf g p p' : mapped g p p' -> wf2 p -> wf2 p'.
Proof. intros (A & B & _) (C & D). unfold wf2. rewrite A, B. auto. Qed.

(** ** [r2d_is_good] *)
(** number of links pointing at [v] *)
Definition pointed (f : Z -> Z -> Z) (n v : Z) : Z :=
  cnt (fun u => f u 0 =? v) n + cnt (fun u => f u 1 =? v) n.

Lemma is_good_spec (p : pol) : 0 <= nv p <= MX ->
  (forall v, 0 <= v < nv p -> 0 <= nb (vb p) v 0 /\ 0 <= nb (vb p) v 1) ->
  exists r, r2d_is_good NN MX p = OK r /\ (r = 0 \/ r = 1)
  /\ (r = 1 <-> forall v, 0 <= v < nv p ->
        nb (vb p) v 0 < nv p /\ nb (vb p) v 1 < nv p /\ nb (vb p) v 0 <> nb (vb p) v 1
        /\ pointed (nb (vb p)) (nv p) v = 2).
Proof.
  intros Hn Hr. unfold r2d_is_good. set (f := nb (vb p)).
  set (ok := fun v => f v 0 < nv p /\ f v 1 < nv p /\ f v 0 <> f v 1).
  destruct (for_inv (fun k (s : option (Z -> Z)) => match s with
     | None => exists v, 0 <= v < nv p /\ ~ ok v
     | Some c => (forall v, 0 <= v < k -> ok v) /\ forall x, c x = pointed f k x end)
    0 (nv p) (is_good_body NN MX p) (Some (fun _ => 0))) as (s & E & I); try lia.
  - split; [intros; lia|]. reflexivity.
  - intros v [c|] Hv I; cbn [is_good_body].
    2: { exists None. split; auto. }
    destruct I as (I1 & I2). rewrite !rd_nb_ok by lia. cbn [bind]. fold f.
    destruct (Z.eqb_spec (f v 0) (f v 1)) as [X|X].
    { exists None. split; auto. exists v. split; auto. unfold ok. lia. }
    destruct (Z.leb_spec (nv p) (f v 0)) as [X0|X0].
    { exists None. split; auto. exists v. split; auto. unfold ok. lia. }
    destruct (Z.leb_spec (nv p) (f v 1)) as [X1|X1].
    { exists None. split; auto. exists v. split; auto. unfold ok. lia. }
    destruct (Hr v Hv) as (R0 & R1). fold f in R0, R1.
    rewrite rd_ok by lia. cbn [bind]. rewrite wr_ok by lia. cbn [bind].
    rewrite rd_ok by lia. cbn [bind]. rewrite wr_ok by lia. cbn [bind].
    eexists. split; [reflexivity|]. cbv beta iota. split.
    + intros u Hu. destruct (Z.eq_dec u v) as [->|]; [unfold ok; lia|apply I1; lia].
    + intros x. unfold pointed. rewrite !cnt_succ by lia. fold (pointed f v x).
      pose proof (I2 x) as Ix. pose proof (I2 (f v 1)) as I1'. pose proof (I2 (f v 0)) as I0'. unfold pointed in *.
      destruct (Z.eqb_spec (f v 0) x); destruct (Z.eqb_spec (f v 1) x); try lia.
      * rewrite upd_neq by lia. subst x. rewrite upd_eq. lia.
      * subst x. rewrite upd_eq, upd_neq by lia. lia.
      * rewrite !upd_neq by lia. lia.
  - rewrite E. cbn [bind]. destruct s as [c|].
    + destruct I as (I1 & I2).
      destruct (for_inv (fun k (b : bool) => b = true <-> forall v, 0 <= v < k -> c v = 2) 0 (nv p)
         (fun v ok => let* c0 := rd MX c v in OK (if c0 =? 2 then ok else false)) true) as (b & E2 & J); try lia.
      * split; auto. intros; lia.
      * intros v b Hv J. rewrite rd_ok by lia. cbn [bind]. eexists. split; [reflexivity|].
        destruct (Z.eqb_spec (c v) 2) as [C2|C2].
        -- rewrite J. split; intros X u Hu; [|apply X; lia]. destruct (Z.eq_dec u v) as [->|]; auto. apply X. lia.
        -- split; [discriminate|]. intros X. exfalso. apply C2, X. lia.
      * rewrite E2. cbn [bind]. eexists. split; [reflexivity|]. split; [destruct b; auto|].
        destruct b.
        -- split; auto. intros _ v Hv. destruct (I1 v Hv) as (A & B & C). rewrite <- I2.
           repeat split; auto. apply J; auto.
        -- split; [discriminate|]. intros X. exfalso. assert (false = true); [|discriminate]. apply J.
           intros v Hv. rewrite I2. apply X. auto.
    + exists 0. split; auto. split; auto. split; [discriminate|]. intros X. exfalso.
      destruct I as (v & Hv & Y). apply Y. destruct (X v Hv) as (A & B & C & _). unfold ok. auto.
Qed.

Lemma cnt_one K n u : 0 <= u < n -> K u = true -> (forall x, 0 <= x < n -> K x = true -> x = u) -> cnt K n = 1.
Proof.
  intros Hu Ku U. assert (0 <= n) by lia.
  assert (X : forall m, 0 <= m -> m <= n -> cnt K m = if u <? m then 1 else 0).
  { apply (zrange_ind (fun m => m <= n -> cnt K m = if u <? m then 1 else 0)).
    - intros _. rewrite cnt_0. destruct (Z.ltb_spec u 0); lia.
    - intros m Hm IH Hmn. rewrite cnt_succ, IH by lia.
      destruct (K m) eqn:Km.
      + rewrite (U m) in * by (auto; lia). destruct (Z.ltb_spec u u); destruct (Z.ltb_spec u (u + 1)); lia.
      + destruct (Z.ltb_spec u m); destruct (Z.ltb_spec u (m + 1)); try lia.
        assert (m = u) by lia. subst. congruence. }
  rewrite X by lia. destruct (Z.ltb_spec u n); lia.
Qed.

Lemma linked_pointed f n v : linked f n -> 0 <= v < n -> pointed f n v = 2.
Proof.
  intros HL Hv. unfold pointed. destruct (HL v Hv) as (A & B & C & D).
  rewrite (cnt_one _ n (f v 1)); [rewrite (cnt_one _ n (f v 0)); [lia|..]|..]; auto;
    try (now apply Z.eqb_eq);
    intros x Hx E; apply Z.eqb_eq in E; destruct (HL x Hx) as (A' & B' & C' & D'); congruence.
Qed.

Lemma good2_is_good (p : pol) : good2 p -> nv p <= MX -> r2d_is_good NN MX p = OK 1.
Proof.
  intros ((Hn & HL) & HD) HM. destruct (is_good_spec p) as (r & E & _ & I).
  - lia.
  - intros v Hv. destruct (HL v Hv) as (A & B & _). lia.
  - rewrite E. f_equal. apply I. intros v Hv. destruct (HL v Hv) as (A & B & _).
    repeat split; try lia. + apply HD; auto. + apply linked_pointed; auto.
Qed.

(** ** initialisers *)
Lemma init_poly_spec (p : pol) (l : list rv) (d : rv) : Z.of_nat (length l) <= MX ->
  exists p', r2d_init_poly NN MX p l = OK p' /\ nv p' = Z.of_nat (length l)
  /\ forall v, 0 <= v < nv p' ->
       ps (vb p') v = nth (Z.to_nat v) l d
       /\ nb (vb p') v 0 = (v + 1) mod nv p' /\ nb (vb p') v 1 = (v - 1) mod nv p'.
Proof.
  intros HM. unfold r2d_init_poly. set (n := Z.of_nat (length l)) in *.
  match goal with |- context [for_ 0 n ?bd (vb p)] => set (body := bd) end.
  destruct (for_inv (fun k b => forall v, 0 <= v < k -> ps b v = nth (Z.to_nat v) l d
       /\ nb b v 0 = (v + 1) mod n /\ nb b v 1 = (v - 1) mod n) 0 n body (vb p)) as (b & E & I); try lia.
  - intros v b Hv I. unfold body. destruct (nth_error l (Z.to_nat v)) eqn:En.
    2: { apply nth_error_None in En. lia. }
    rewrite wr_ps_ok by lia. cbn [bind]. rewrite !wr_nb_ok by lia. cbn [bind]. rewrite wr_nb_ok by lia.
    eexists. split; [reflexivity|]. cbn [nb ps]. intros u Hu. destruct (Z.eq_dec u v) as [->|].
    + rewrite upd_eq. split; [symmetry; now apply nth_error_nth|].
      rewrite set_nb_eq. rewrite set_nb_neq_p by lia. rewrite set_nb_eq. split; auto.
      rewrite <- (Z_mod_plus_full (v - 1) 1 n). f_equal. lia.
    + rewrite upd_neq by auto. rewrite !set_nb_neq_v by auto. apply I. lia.
  - rewrite E. cbn [bind]. eexists. split; [reflexivity|]. cbn [nv vb]. auto.
Qed.

Lemma ring_links f n : 3 <= n -> (forall v, 0 <= v < n -> f v 0 = (v + 1) mod n /\ f v 1 = (v - 1) mod n) ->
  linked f n /\ distinct2 f n.
Proof.
  intros Hn Hf.
  assert (N : forall v, 0 <= v < n -> (v + 1) mod n = if v =? n - 1 then 0 else v + 1).
  { intros v Hv. destruct (Z.eqb_spec v (n - 1)).
    - subst. replace (n - 1 + 1) with n by lia. apply Z_mod_same_full.
    - apply Z.mod_small. lia. }
  assert (P : forall v, 0 <= v < n -> (v - 1) mod n = if v =? 0 then n - 1 else v - 1).
  { intros v Hv. destruct (Z.eqb_spec v 0).
    - subst. rewrite <- (Z_mod_plus_full (0 - 1) 1 n). rewrite Z.mod_small by lia. lia.
    - apply Z.mod_small. lia. }
  assert (F : forall v, 0 <= v < n -> f v 0 = (if v =? n - 1 then 0 else v + 1) /\ f v 1 = if v =? 0 then n - 1 else v - 1).
  { intros v Hv. destruct (Hf v Hv) as (-> & ->). rewrite N, P; auto. }
  split; intros v Hv.
  - destruct (F v Hv) as (A & B).
    assert (X0 : 0 <= f v 0 < n) by (rewrite A; destruct (Z.eqb_spec v (n - 1)); lia).
    assert (X1 : 0 <= f v 1 < n) by (rewrite B; destruct (Z.eqb_spec v 0); lia).
    split; auto. split; auto. destruct (F _ X0) as (_ & C). destruct (F _ X1) as (D & _).
    rewrite C, D, A, B. split.
    + destruct (Z.eqb_spec v (n - 1)); cbn; [lia|]. destruct (Z.eqb_spec (v + 1) 0); lia.
    + destruct (Z.eqb_spec v 0); [destruct (Z.eqb_spec (n - 1) (n - 1)); lia|]. destruct (Z.eqb_spec (v - 1) (n - 1)); lia.
  - destruct (F v Hv) as (-> & ->). destruct (Z.eqb_spec v (n - 1)); destruct (Z.eqb_spec v 0); lia.
Qed.

Lemma init_box_spec (p : pol) lo hi : 4 <= MX ->
  exists p', r2d_init_box NN MX p lo hi = OK p' /\ nv p' = 4
  /\ map (ps (vb p')) (zrange 4) = [V2 (vx lo) (vy lo); V2 (vx hi) (vy lo); V2 (vx hi) (vy hi); V2 (vx lo) (vy hi)]
  /\ (forall v, 0 <= v < 4 -> nb (vb p') v 0 = (v + 1) mod 4 /\ nb (vb p') v 1 = (v - 1) mod 4).
Proof.
  intros HM. unfold r2d_init_box, set_vert.
  repeat (rewrite wr_nb_ok by lia; cbn [bind]; rewrite wr_nb_ok by lia; cbn [bind]; rewrite wr_ps_ok by lia; cbn [bind]).
  eexists. split; [reflexivity|]. split; [reflexivity|]. split; [reflexivity|].
  intros v Hv. assert (v = 0 \/ v = 1 \/ v = 2 \/ v = 3) as [E|[E|[E|E]]] by lia; rewrite E; split; reflexivity.
Qed.
End Gen.

Open Scope R_scope.
Notation "'mappedR' g p p'" := (@mapped RN g p p') (at level 10, g at level 9, p at level 9, p' at level 9).

(** ** transforms and moments *)
Lemma edge2_00 a b : edge2 0 0 a b = (vx a * vy b - vy a * vx b) / 2.
Proof.
  rewrite edge2_line. rewrite (RInt_ext _ (fun _ => 1)) by (intros; cbn; ring).
  rewrite RInt_const. unfold scal. cbn. unfold mult. cbn. field.
Qed.

Lemma mapped_moment (g : rvec2 R -> rvec2 R) (p p' : pol2) i j : linked (nb (vb p)) (nv p) -> mappedR g p p' ->
  moment2 p' i j = lsum (zrange (nv p)) (fun v => edge2 i j (g (ps (vb p) v)) (g (ps (vb p) (nb (vb p) v 0%Z)))).
Proof.
  intros HL (A & B & C & _). unfold moment2. rn. rewrite A. apply lsum_ext. intros v Hv. apply in_zrange in Hv.
  rewrite B. rewrite C by auto. rewrite C; auto. apply HL. auto.
Qed.

Lemma linked_next_sum (f : Z -> Z -> Z) n (F : Z -> R) : linked f n ->
  lsum (zrange n) (fun v => F (f v 0%Z)) = lsum (zrange n) F.
Proof.
  intros HL. apply (lsum_bij (fun v => f v 0%Z) _ _ F); try apply NoDup_zrange.
  - intros v Hv. apply in_zrange in Hv. apply in_zrange. apply HL; auto.
  - intros u v Hu Hv E. apply in_zrange in Hu. apply in_zrange in Hv.
    destruct (HL u Hu) as (_ & _ & A & _). destruct (HL v Hv) as (_ & _ & B & _). congruence.
  - intros v Hv. apply in_zrange in Hv. exists (f v 1%Z).
    destruct (HL v Hv) as (_ & A & _ & B). split; auto. now apply in_zrange.
Qed.

(** area under an affine map *)
Lemma affine_area (a b c d e f : R) (p p' : pol2) : wf2 p ->
  mappedR (fun q => V2 (a * vx q + b * vy q + e) (c * vx q + d * vy q + f)) p p' ->
  moment2 p' 0 0 = (a * d - b * c) * moment2 p 0 0.
Proof.
  intros (Hn & HL) HM. rewrite (mapped_moment _ _ _ _ _ HL HM). unfold moment2. rewrite <- lsum_scal.
  set (F := fun v => ((e * c - f * a) * vx (ps (vb p) v) + (e * d - f * b) * vy (ps (vb p) v)) / 2).
  transitivity (lsum (zrange (nv p)) (fun v => (a * d - b * c) * edge2 0 0 (ps (vb p) v) (ps (vb p) (nb (vb p) v 0%Z))
     + (F (nb (vb p) v 0%Z) - F v))).
  - apply lsum_ext. intros v _. rewrite !edge2_00. unfold F. rn. cbn [vx vy]. field.
  - rewrite lsum_add, lsum_sub, (linked_next_sum (nb (vb p)) (nv p) F HL). ring.
Qed.

Lemma edge2_scale s a b i j :
  edge2 i j (V2 (vx a * s) (vy a * s)) (V2 (vx b * s) (vy b * s)) = s ^ (i + j + 2) * edge2 i j a b.
Proof.
  rewrite !edge2_line. cbn [vx vy].
  rewrite (RInt_ext (fun t => segx (V2 (vx a * s) (vy a * s)) (V2 (vx b * s) (vy b * s)) t ^ i * segy (V2 (vx a * s) (vy a * s)) (V2 (vx b * s) (vy b * s)) t ^ j)
     (fun t => scal (s ^ i * s ^ j) (segx a b t ^ i * segy a b t ^ j))).
  - rewrite (RInt_scal (V := R_CompleteNormedModule)).
    + unfold scal. cbn -[INR]. unfold mult. cbn -[INR]. rewrite !pow_add. cbn -[INR]. field. apply not_0_INR. lia.
    + eapply ex_RInt_ext; [|exact (ex_seg a b i j 1)]. intros; cbn; ring.
  - intros t _. unfold segx, segy, scal. cbn. unfold mult. cbn.
    replace ((1 - t) * (vx a * s) + t * (vx b * s)) with (s * ((1 - t) * vx a + t * vx b)) by ring.
    replace ((1 - t) * (vy a * s) + t * (vy b * s)) with (s * ((1 - t) * vy a + t * vy b)) by ring.
    rewrite !Rpow_mult_distr. ring.
Qed.

Section T.
Context (MX : Z) (p : pol2).
Hypothesis Hw : wf2 p.
Hypothesis HM : (nv p <= MX)%Z.

Lemma translate_R (sh : rvec2 R) : exists p', r2d_translate RN MX p sh = OK p'
  /\ mappedR (fun q => V2 (vx q + vx sh) (vy q + vy sh)) p p'.
Proof. apply map_pos_spec; [destruct Hw; rn; lia|reflexivity]. Qed.

Lemma translate_moment (sh : rvec2 R) (p' : pol2) i j : mappedR (fun q => V2 (vx q + vx sh) (vy q + vy sh)) p p' ->
  moment2 p' i j = sum_f_R0 (fun k => sum_f_R0 (fun l =>
     Binomial.C i k * Binomial.C j l * vx sh ^ (i - k) * vy sh ^ (j - l) * moment2 p k l) j) i.
Proof.
  intros M. pose proof M as (A & B & C & _). rn.
  assert (HL : linked (nb (vb p')) (nv p')) by (rewrite A, B; apply Hw).
  rewrite <- (moment2_shift sh p' i j HL). apply sum_eq. intros k _. apply sum_eq. intros l _. f_equal.
  unfold moment2_at, moment2. rewrite A. apply lsum_ext. intros v Hv. apply in_zrange in Hv.
  rewrite B, C by auto. rewrite C by (apply Hw; auto).
  unfold vsub2. cbn. f_equal; match goal with |- _ = ?q => destruct q; cbn; f_equal; ring end.
Qed.

Lemma scale_R s : exists p', r2d_scale RN MX p s = OK p' /\ mappedR (fun q => V2 (vx q * s) (vy q * s)) p p'.
Proof. apply map_pos_spec; [destruct Hw; rn; lia|reflexivity]. Qed.
Lemma scale_moment s (p' : pol2) i j : mappedR (fun q => V2 (vx q * s) (vy q * s)) p p' ->
  moment2 p' i j = s ^ (i + j + 2) * moment2 p i j.
Proof.
  intros M. rewrite (mapped_moment _ _ _ _ _ (proj2 Hw) M). unfold moment2. rewrite <- lsum_scal.
  apply lsum_ext. intros. apply edge2_scale.
Qed.

(** replace coordinate [axb] by itself plus [s] times coordinate [axs] *)
Definition shear_map (s : R) (axb axs : Z) (q : rvec2 R) : rvec2 R :=
  if (axb =? 0)%Z then V2 (coordR 0 q + s * coordR axs q) (vy q) else V2 (vx q) (coordR 1 q + s * coordR axs q).
Lemma shear_R s axb axs : (0 <= axb < 2)%Z -> (0 <= axs < 2)%Z ->
  exists p', r2d_shear RN MX p s axb axs = OK p' /\ mappedR (shear_map s axb axs) p p'.
Proof.
  intros H1 H2. apply map_pos_spec; [destruct Hw; rn; lia|]. intros q. unfold vget, vset, shear_map, coordR.
  destruct (Z.eqb_spec axb 0); destruct (Z.eqb_spec axs 0); cbn [bind]; try reflexivity.
  - assert (axs = 1%Z) as -> by lia. reflexivity.
  - assert (axb = 1%Z) as -> by lia. reflexivity.
  - assert (axs = 1%Z) as -> by lia. assert (axb = 1%Z) as -> by lia. reflexivity.
Qed.
Lemma shear_area s axb axs (p' : pol2) : (0 <= axb < 2)%Z -> (0 <= axs < 2)%Z -> axb <> axs ->
  mappedR (shear_map s axb axs) p p' -> moment2 p' 0 0 = moment2 p 0 0.
Proof.
  intros H1 H2 H3 M. rewrite (mapped_moment _ _ _ _ _ (proj2 Hw) M). unfold moment2.
  apply lsum_ext. intros v _. rewrite !edge2_00. unfold shear_map, coordR.
  destruct (Z.eqb_spec axb 0); destruct (Z.eqb_spec axs 0); try lia; cbn; field.
Qed.

(** the affine map of r2d.c:456-472 *)
Definition affine_map (m : Z -> Z -> R) (q : rvec2 R) : rvec2 R :=
  let w := vx q * m 2%Z 0%Z + vy q * m 2%Z 1%Z + m 2%Z 2%Z in
  V2 ((vx q * m 0%Z 0%Z + vy q * m 0%Z 1%Z + m 0%Z 2%Z) / w) ((vx q * m 1%Z 0%Z + vy q * m 1%Z 1%Z + m 1%Z 2%Z) / w).
Lemma affine_R m : exists p', r2d_affine RN MX p m = OK p' /\ mappedR (affine_map m) p p'.
Proof. apply map_pos_spec; [destruct Hw; rn; lia|reflexivity]. Qed.
Lemma affine_det m (p' : pol2) : m 2%Z 0%Z = 0 -> m 2%Z 1%Z = 0 -> m 2%Z 2%Z = 1 -> mappedR (affine_map m) p p' ->
  moment2 p' 0 0 = (m 0%Z 0%Z * m 1%Z 1%Z - m 0%Z 1%Z * m 1%Z 0%Z) * moment2 p 0 0.
Proof.
  intros A B C (M1 & M2 & M3 & M4).
  apply (affine_area (m 0 0) (m 0 1) (m 1 0) (m 1 1) (m 0 2) (m 1 2))%Z; auto.
  split; auto. split; auto. split; auto. intros v Hv. rewrite M3 by auto. unfold affine_map. rewrite A, B, C.
  rn. f_equal; field.
Qed.

(** what [r2d_rotate] really does, r2d.c:428-429 *)
Lemma rotate_R theta : exists p', r2d_rotate RN MX p theta = OK p'
  /\ mappedR (fun q => V2 (sin theta * vx q + cos theta * vy q) (vy q)) p p'.
Proof. apply map_pos_spec; [destruct Hw; rn; lia|reflexivity]. Qed.
End T.

(** ** box moments *)
Lemma box_moment (p : pol2) (lo hi : rvec2 R) i j : nv p = 4%Z ->
  map (ps (vb p)) (zrange 4) = [V2 (vx lo) (vy lo); V2 (vx hi) (vy lo); V2 (vx hi) (vy hi); V2 (vx lo) (vy hi)] ->
  (forall v, (0 <= v < 4)%Z -> nb (vb p) v 0%Z = ((v + 1) mod 4)%Z /\ nb (vb p) v 1%Z = ((v - 1) mod 4)%Z) ->
  moment2 p i j = RInt (fun x => x ^ i) (vx lo) (vx hi) * RInt (fun y => y ^ j) (vy lo) (vy hi).
Proof.
  intros En Ep Eb.
  destruct (ring_links (nb (vb p)) 4 ltac:(lia) Eb) as (HL & _).
  rewrite moment2_green by (now rewrite En).
  assert (EZ : zrange 4 = [0; 1; 2; 3]%Z) by reflexivity. rewrite EZ in Ep. cbn [map] in Ep.
  injection Ep as E0 E1 E2 E3. rewrite En, EZ. cbn [lsum].
  rewrite (proj1 (Eb 0%Z ltac:(lia))), (proj1 (Eb 1%Z ltac:(lia))), (proj1 (Eb 2%Z ltac:(lia))), (proj1 (Eb 3%Z ltac:(lia))).
  change ((0 + 1) mod 4)%Z with 1%Z. change ((1 + 1) mod 4)%Z with 2%Z. change ((2 + 1) mod 4)%Z with 3%Z. change ((3 + 1) mod 4)%Z with 0%Z.
  rewrite E0, E1, E2, E3.
  rewrite (green_h i j (V2 (vx lo) (vy lo))) by reflexivity. rewrite (green_h i j (V2 (vx hi) (vy hi))) by reflexivity.
  rewrite !green_v by reflexivity. cbn [vx vy]. rewrite !RInt_pow_ab. field.
  split; apply not_0_INR; lia.
Qed.

(** ** faces *)
Lemma norm2_R (n : rvec2 R) : exists c, 0 < c /\ norm2 RN n = V2 (vx n * c) (vy n * c).
Proof.
  exists (/ (sqrt (dot2 RN n n) + ntiny RN)). split.
  - apply Rinv_0_lt_compat. pose proof (sqrt_pos (dot2 RN n n)). assert (0 < ntiny RN).
    { unfold RN, ntiny. apply Rinv_0_lt_compat. apply pow_lt. lra. }
    rn. lra.
  - reflexivity.
Qed.

Lemma edge_face_R (p0 p1 : rvec2 R) : exists c, 0 < c /\ forall q,
  sdist (edge_face RN p0 p1) q = c * ((vx p1 - vx p0) * (vy q - vy p0) - (vy p1 - vy p0) * (vx q - vx p0)).
Proof.
  destruct (norm2_R (V2 (vy p0 - vy p1) (vx p1 - vx p0))) as (c & Hc & E).
  exists c. split; auto. intros q. unfold edge_face. cbn zeta. change (nsub RN) with Rminus. rn. rewrite E.
  unfold sdist, dot2. cbn. ring.
Qed.

Lemma poly_faces_nth (l : list (rvec2 R)) f d : (f < length l)%nat ->
  nth_error (r2d_poly_faces_from_verts RN l) f
  = Some (edge_face RN (nth f l d) (nth (Nat.modulo (f + 1) (length l)) l d)).
Proof.
  intros Hf. unfold r2d_poly_faces_from_verts.
  rewrite nth_error_map. rewrite (nth_error_nth' _ 0%nat) by (now rewrite seq_length). cbn [option_map].
  rewrite seq_nth by auto. cbn [Nat.add]. do 2 f_equal; apply nth_indep; auto. apply Nat.mod_upper_bound. lia.
Qed.
