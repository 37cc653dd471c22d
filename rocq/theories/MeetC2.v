(** * MeetC2: a polygon clipped by the edges of another, and a polygon clipped by each of
    the polygons that tile it. *)
From Coq Require Import Reals ZArith List Bool Lia Lra Psatz.
From Verif Require Import Base Lib SumR ModelCommon Model2 Model3 ModelV RealNum Spec2 Spec2R SpecNP SpecNV SpecNJ SpecC2 SpecI SpecM2 HPoly HInt HShift Reduce2 Struct2 Clip2 Cons2 Small2 Misc2 Glue2 VoxFacts Vox2 GlueV2 UniqJ VoxJ JordJ IntJ NearB MeetJ.
From Verif Require Import LoopC2 HullC2 ClipC2 AreaC2 MomC2 RastC2 InitC2 IntC2.
Import ListNotations.
Open Scope R_scope.

(** ** The hull of strictly ordered corners is the intersection of the half-planes of the edges *)
Lemma turn_rot a b c : turn b c a = turn a b c.
Proof. unfold turn. ring. Qed.
Lemma turn_swap a b c : turn b a c = - turn a b c.
Proof. unfold turn. ring. Qed.
Lemma poly_pts_mono l l' x : (forall q, In q l -> In q l') -> poly_pts l x -> poly_pts l' x.
Proof. intros S H g Hg. apply H. auto. Qed.
Lemma fan_hull a x r : forall b, strict_ccw (a :: b :: r) -> r <> [] -> 0 <= turn a b x ->
  (forall i, (Datatypes.S i < length (b :: r))%nat -> 0 <= turn (nth i (b :: r) o2) (nth (Datatypes.S i) (b :: r) o2) x) -> turn a (last r o2) x <= 0 ->
  poly_pts (a :: b :: r) x.
Proof.
  induction r as [|c r IH]; intros b HS N Hb HE HL; [congruence|].
  assert (Habc : 0 < turn a b c) by (destruct HS as (HS & _); inversion HS as [|? ? F _]; subst; inversion F; auto).
  destruct (Rle_lt_dec (turn a c x) 0) as [L|L].
  - apply (poly_pts_mono [a; b; c]); [cbn; tauto|]. apply (hull_tri a b c x Habc). split; [exact Hb|]. split; [exact (HE 0%nat ltac:(cbn; lia))|]. rewrite turn_swap. lra.
  - destruct r as [|d r]; [cbn in HL; lra|]. apply (poly_pts_mono (a :: c :: d :: r)); [cbn; tauto|]. apply IH; [|discriminate|lra| |exact HL].
    + destruct HS as (HS & HS'). cbn [strict_ccw] in *. inversion HS; subst. split; [auto|]. apply HS'.
    + intros i Hi. exact (HE (Datatypes.S i) ltac:(cbn in *; lia)).
Qed.
Lemma strict_cyc l i k : strict_ccw l -> (i < length l)%nat -> (k < length l)%nat -> k <> i -> k <> ((i + 1) mod length l)%nat ->
  0 < turn (nth i l o2) (nth ((i + 1) mod length l) l o2) (nth k l o2).
Proof.
  intros HS Hi Hk N1 N2. assert (D : (i + 1 < length l \/ i + 1 = length l)%nat) by lia. destruct D as [D|D].
  - rewrite Nat.mod_small in * by auto. assert (E : (k < i \/ i + 1 < k)%nat) by lia. destruct E as [E|E].
    + rewrite turn_rot. apply strict_nth; auto; lia.
    + apply strict_nth; auto; lia.
  - rewrite D, Nat.mod_same in * by lia. rewrite <- turn_rot. apply strict_nth; auto; lia.
Qed.
Lemma weak_cyc l i k : strict_ccw l -> (i < length l)%nat -> (k < length l)%nat -> 0 <= turn (nth i l o2) (nth ((i + 1) mod length l) l o2) (nth k l o2).
Proof.
  intros HS Hi Hk. destruct (Nat.eq_dec k i) as [->|N1]; [unfold turn; lra|]. destruct (Nat.eq_dec k ((i + 1) mod length l)) as [->|N2]; [unfold turn; lra|]. left. now apply strict_cyc.
Qed.
Lemma edges_hull l x : corners_ok l -> (poly_pts l x <-> forall i, (i < length l)%nat -> 0 <= turn (nth i l o2) (nth ((i + 1) mod length l) l o2) x).
Proof.
  intros (HL & HS). split.
  - intros H i Hi. rewrite <- chord_turn. apply H. intros q Hq. destruct (In_nth l q o2 Hq) as (k & Hk & <-). rewrite chord_turn. now apply weak_cyc.
  - intros H. destruct l as [|a [|b r]]; cbn in HL; try lia. destruct r as [|c r]; [cbn in HL; lia|]. set (l := a :: b :: c :: r) in *. apply fan_hull; [exact HS|discriminate| | |].
    + specialize (H 0%nat ltac:(cbn; lia)). rewrite Nat.mod_small in H by (cbn; lia). exact H.
    + intros i Hi. specialize (H (Datatypes.S i) ltac:(cbn in *; lia)). rewrite Nat.mod_small in H by (cbn in *; lia). replace (Datatypes.S i + 1)%nat with (Datatypes.S (Datatypes.S i)) in H by lia. exact H.
    + assert (LL : length l = Datatypes.S (Datatypes.S (Datatypes.S (length r)))) by reflexivity. specialize (H (length l - 1)%nat ltac:(lia)).
      replace (length l - 1 + 1)%nat with (length l) in H by lia. rewrite Nat.mod_same in H by lia.
      replace (nth (length l - 1) l o2) with (last (c :: r) o2) in H; [rewrite turn_swap in H; cbn [nth l] in H; lra|].
      replace (last (c :: r) o2) with (last l o2) by reflexivity. clearbody l. clear - LL. induction l as [|y l IH] using rev_ind; [discriminate|]. rewrite last_last, app_length. cbn [length]. replace (length l + 1 - 1)%nat with (length l) by lia. now rewrite nth_middle.
Qed.
Lemma face_at l i : (i < length l)%nat -> exists pl, nth_error (r2d_poly_faces_from_verts RN l) i = Some pl
  /\ sdist pl (nth i l o2) = 0 /\ forall q, (0 < sdist pl q <-> 0 < turn (nth i l o2) (nth ((i + 1) mod length l) l o2) q) /\ (0 <= sdist pl q <-> 0 <= turn (nth i l o2) (nth ((i + 1) mod length l) l o2) q).
Proof.
  intros Hi. destruct (poly_faces_all l) as (_ & H). assert (E1 : nth_error l i = Some (nth i l o2)) by now apply nth_error_nth'.
  assert (E2 : nth_error l ((i + 1) mod length l) = Some (nth ((i + 1) mod length l) l o2)) by (apply nth_error_nth', Nat.mod_upper_bound; lia).
  destruct (H i _ _ o2 E1 E2) as (pl & E & A & _). exists pl. split; auto. split; auto. intros q. destruct (H i _ _ q E1 E2) as (pl' & E' & _ & _ & B & C). rewrite E in E'. injection E' as <-. split; auto.
Qed.
Lemma poly_faces_holds l : corners_ok l -> forall x, holds2 (r2d_poly_faces_from_verts RN l) x <-> poly_pts l x.
Proof.
  intros HC x. rewrite (edges_hull l x HC). split.
  - intros H i Hi. destruct (face_at l i Hi) as (pl & E & _ & G). apply G. apply H. now apply nth_error_In with i.
  - intros H pl Hp. apply In_nth_error in Hp as (i & E). assert (Hi : (i < length l)%nat) by (rewrite <- (proj1 (poly_faces_all l)); apply nth_error_Some; intros X; discriminate (eq_trans (eq_sym E) X)).
    destruct (face_at l i Hi) as (pl' & E' & _ & G). pose proof (eq_trans (eq_sym E) E') as EE. injection EE as <-. apply G. auto.
Qed.
Lemma poly_faces_proper l : corners_ok l -> forall pl, In pl (r2d_poly_faces_from_verts RN l) -> proper2 pl.
Proof.
  intros (HL & HS) pl Hp. apply In_nth_error in Hp as (i & E). assert (Hi : (i < length l)%nat) by (rewrite <- (proj1 (poly_faces_all l)); apply nth_error_Some; intros X; discriminate (eq_trans (eq_sym E) X)).
  destruct (face_at l i Hi) as (pl' & E' & Z0 & G). pose proof (eq_trans (eq_sym E) E') as EE. injection EE as <-.
  assert (K : exists k, (k < length l)%nat /\ k <> i /\ k <> ((i + 1) mod length l)%nat).
  { assert (D : (i + 1 < length l \/ i + 1 = length l)%nat) by lia. destruct D as [D|D].
    - rewrite Nat.mod_small by auto. destruct (Nat.eq_dec i 0) as [->|N]; [exists 2%nat; lia|exists 0%nat; lia].
    - rewrite D, Nat.mod_same by lia. exists 1%nat. lia. }
  destruct K as (k & K1 & K2 & K3). assert (P : 0 < sdist pl (nth k l o2)) by (apply G; now apply strict_cyc).
  unfold proper2, sdist in *. destruct (Req_dec (vx (pn pl)) 0) as [Ex|]; auto. destruct (Req_dec (vy (pn pl)) 0) as [Ey|]; auto. cbn in *. rewrite Ex, Ey in Z0, P. lra.
Qed.

(** ** One clip *)
Lemma clip_moments2 MX sh po (mom : Z -> R) (p : pol2) planes : (0 <= po)%Z -> convex_ccw p -> (nv p + Z.of_nat (length planes) + 1 <= MX)%Z -> (forall pl, In pl planes -> proper2 pl) ->
  exists p' mom', r2d_clip RN MX p planes = OK p' /\ r2d_reduce RN MX sh p' mom po = OK mom'
  /\ forall i j, (i + j <= Z.to_nat po)%nat -> integral2 (fun x => hull2 p x /\ holds2 planes x) (fun x => vx x ^ i * vy x ^ j) (mom' (idx2 (Z.of_nat i) (Z.of_nat j))).
Proof.
  intros Hpo CV HM PP. destruct (ClipC2.r2d_clip_room MX p planes CV HM) as (p' & E & _).
  destruct (r2d_clip_linked RN MX p p' planes (proj1 CV) ltac:(rn; lia) E) as (W' & M' & _).
  destruct (reduce_both MX sh po p' mom Hpo W' M') as (mom' & Er & A). exists p', mom'. split; [exact E|]. split; [exact Er|].
  intros i j Hi. rewrite A by lia. exact (clip_integral MX i j p p' planes CV ltac:(rn; lia) PP E).
Qed.
Lemma poly_init_ok MX p0 l : corners_ok l -> (Z.of_nat (length l) <= MX)%Z -> exists p, r2d_init_poly RN MX p0 l = OK p /\ convex_ccw p /\ nv p = Z.of_nat (length l) /\ forall x, hull2 p x <-> poly_pts l x.
Proof.
  intros (HL & HS) HM. assert (HB : (3 <= Z.of_nat (length l) <= MX)%Z) by lia. destruct (init_poly_all RN MX p0 l o2 HB) as (p & E & _). exists p. split; [exact E|]. exact (init_poly_convex MX p0 p l HB HS E).
Qed.
Lemma integral2_ext (K K' : rvec2 R -> Prop) f t : (forall x, K x <-> K' x) -> integral2 K f t -> integral2 K' f t.
Proof. intros H. apply integral_ext; auto. Qed.
Theorem poly_meet sh po (mom : Z -> R) (p0 : pol2) l l' : (0 <= po)%Z -> corners_ok l -> corners_ok l' -> (length l + length l' <= 255)%nat ->
  exists p p' mom', r2d_init_poly RN 256 p0 l = OK p /\ r2d_clip RN 256 p (r2d_poly_faces_from_verts RN l') = OK p' /\ r2d_reduce RN 256 sh p' mom po = OK mom'
  /\ forall i j, (i + j <= Z.to_nat po)%nat -> integral2 (fun x => poly_pts l x /\ poly_pts l' x) (fun x => vx x ^ i * vy x ^ j) (mom' (idx2 (Z.of_nat i) (Z.of_nat j))).
Proof.
  intros Hpo Hl Hl' HN. destruct (poly_init_ok 256 p0 l Hl ltac:(lia)) as (p & E & CV & En & HH).
  destruct (clip_moments2 256 sh po mom p (r2d_poly_faces_from_verts RN l') Hpo CV) as (p' & mom' & Ec & Er & G); [pose proof (proj1 (poly_faces_all l')); rn; lia|exact (poly_faces_proper l' Hl')|].
  exists p, p', mom'. split; [exact E|]. split; [exact Ec|]. split; [exact Er|]. intros i j Hi. eapply integral2_ext; [|exact (G i j Hi)].
  intros x. cbv beta. rewrite HH, (poly_faces_holds l' Hl'). tauto.
Qed.
Theorem poly_meet_sym sh po (mom1 mom2 : Z -> R) (p0 q0 : pol2) l l' : (0 <= po)%Z -> corners_ok l -> corners_ok l' -> (length l + length l' <= 255)%nat ->
  exists p p' m q q' n, r2d_init_poly RN 256 p0 l = OK p /\ r2d_clip RN 256 p (r2d_poly_faces_from_verts RN l') = OK p' /\ r2d_reduce RN 256 sh p' mom1 po = OK m
  /\ r2d_init_poly RN 256 q0 l' = OK q /\ r2d_clip RN 256 q (r2d_poly_faces_from_verts RN l) = OK q' /\ r2d_reduce RN 256 sh q' mom2 po = OK n
  /\ forall i j, (i + j <= Z.to_nat po)%nat -> m (idx2 (Z.of_nat i) (Z.of_nat j)) = n (idx2 (Z.of_nat i) (Z.of_nat j)).
Proof.
  intros Hpo Hl Hl' HN. destruct (poly_meet sh po mom1 p0 l l' Hpo Hl Hl' HN) as (p & p' & m & E1 & E2 & E3 & G). destruct (poly_meet sh po mom2 q0 l' l Hpo Hl' Hl ltac:(lia)) as (q & q' & n & F1 & F2 & F3 & H).
  exists p, p', m, q, q', n. repeat split; auto. intros i j Hi. apply (integral2_unique _ _ _ _ (G i j Hi)).
  eapply integral2_ext; [|exact (H i j Hi)]. intros x. cbv beta. tauto.
Qed.

(** ** Polygons that tile *)
Lemma convex_bound (p : pol2) : convex_ccw p -> exists M, forall x, hull2 p x -> - M <= vx x <= M /\ - M <= vy x <= M.
Proof.
  intros (_ & _ & l & (_ & L & _) & _). destruct (hull_bound2 (map (ps (vb p)) l)) as (M & HM). exists M. intros x Hx. apply HM. intros g Hg. apply Hx. intros v Hv. apply Hg, in_map, L. exact Hv.
Qed.
Lemma mono_bound2 (p : pol2) i j : convex_ccw p -> exists M, forall x, hull2 p x -> Rabs (vx x ^ i * vy x ^ j) <= M.
Proof.
  intros CV. destruct (convex_bound p CV) as (M & HM). exists (Rabs M ^ i * Rabs M ^ j). intros x Hx. destruct (HM x Hx). pose proof (Rle_abs M). rewrite Rabs_mult.
  apply Rmult_le_compat; try apply Rabs_pos; apply pow_abs_le, Rabs_le; lra.
Qed.
Lemma tiled_sum2 {A} (p : pol2) (cells : list A) (K : A -> rvec2 R -> Prop) (t : A -> R) i j : convex_ccw p ->
  (forall x, hull2 p x -> exists c, In c cells /\ K c x) -> ForallOrdPairs (fun c c' => content2 (fun x => hull2 p x /\ K c x /\ K c' x) 0) cells ->
  (forall c, In c cells -> integral2 (fun x => hull2 p x /\ K c x) (fun x => vx x ^ i * vy x ^ j) (t c)) -> lsum cells t = moment2 p i j.
Proof.
  intros CV HC HP HI. destruct (mono_bound2 p i j CV) as (M & HM).
  apply (integral2_unique (hull2 p) (fun x => vx x ^ i * vy x ^ j)); [|now apply convex_integral].
  apply (integral_parts 2 ltac:(lia) cells (fun c x => hull2 p (V2 (x 0%Z) (x 1%Z)) /\ K c (V2 (x 0%Z) (x 1%Z))) t _ _ M).
  - intros x. cbv beta. split; [intros Hx; destruct (HC _ Hx) as (c & C1 & C2); exists c; auto|]. intros (c & _ & Hx & _). exact Hx.
  - clear - HP. induction HP as [|a l F _ IH]; constructor; auto. eapply Forall_impl; [|exact F]. intros c H. eapply content_ext; [|exact H]. intros x. cbv beta. tauto.
  - exact HI.
  - intros x Hx. exact (HM _ Hx).
Qed.
Theorem clips_conserve2 MX sh po (p : pol2) (cells : list (list (plane2 R))) : (0 <= po)%Z -> convex_ccw p ->
  (forall c, In c cells -> (nv p + Z.of_nat (length c) + 1 <= MX)%Z /\ forall pl, In pl c -> proper2 pl) -> (nv p <= MX)%Z ->
  (forall x, hull2 p x -> exists c, In c cells /\ holds2 c x) -> ForallOrdPairs (fun c c' => content2 (fun x => hull2 p x /\ holds2 c x /\ holds2 c' x) 0) cells ->
  forall mom : Z -> R, exists total parts, r2d_reduce RN MX sh p mom po = OK total
  /\ Forall2 (fun c part => exists p', r2d_clip RN MX p c = OK p' /\ r2d_reduce RN MX sh p' mom po = OK part) cells parts
  /\ forall i j, (i + j <= Z.to_nat po)%nat -> let e := idx2 (Z.of_nat i) (Z.of_nat j) in lsum parts (fun part => part e) = total e.
Proof.
  intros Hpo CV HC HM Cov Ov mom. destruct (reduce_both MX sh po p mom Hpo (proj1 CV) HM) as (total & Et & At).
  assert (G : exists cs : list (list (plane2 R) * (Z -> R)), map fst cs = cells
    /\ forall q, In q cs -> (exists p', r2d_clip RN MX p (fst q) = OK p' /\ r2d_reduce RN MX sh p' mom po = OK (snd q))
       /\ forall i j, (i + j <= Z.to_nat po)%nat -> integral2 (fun x => hull2 p x /\ holds2 (fst q) x) (fun x => vx x ^ i * vy x ^ j) (snd q (idx2 (Z.of_nat i) (Z.of_nat j)))).
  { clear Cov Ov. induction cells as [|c cells IH]; [exists []; split; [reflexivity|intros ? []]|].
    destruct IH as (cs & E & H); [intros; apply HC; now right|]. destruct (HC c (or_introl eq_refl)) as (R & PP).
    destruct (clip_moments2 MX sh po mom p c Hpo CV R PP) as (p' & mom' & Ec & Er & I). exists ((c, mom') :: cs). split; [cbn; now rewrite E|].
    intros q [<-|Hq]; [|auto]. cbn [fst snd]. split; [exists p'; auto|exact I]. }
  destruct G as (cs & E & H). exists total, (map snd cs). split; [exact Et|]. split.
  - clear Cov Ov HC. subst cells. induction cs as [|q cs IH]; cbn [map]; constructor; [apply H; now left|apply IH; intros; apply H; now right].
  - intros i j Hi e. unfold e. rewrite At by lia. rewrite lsum_map.
    apply (tiled_sum2 p cs (fun q => holds2 (fst q))); auto.
    + intros x Hx. destruct (Cov x Hx) as (c & C1 & C2). rewrite <- E in C1. apply in_map_iff in C1 as (q & <- & Hq). exists q. auto.
    + clear - Ov E. subst cells. induction cs as [|q cs IH]; [constructor|]. cbn [map] in Ov. inversion Ov as [|? ? F1 F2]; subst. constructor; auto.
      rewrite Forall_map in F1. exact F1.
    + intros q Hq. now apply H.
Qed.
(** a mesh of convex polygons *)
Theorem mesh_conserves2 sh po (p : pol2) (mesh : list (list (rvec2 R))) : (0 <= po)%Z -> convex_ccw p -> (nv p <= 256)%Z ->
  (forall l, In l mesh -> corners_ok l /\ (nv p + Z.of_nat (length l) <= 255)%Z) -> (forall x, hull2 p x -> exists l, In l mesh /\ poly_pts l x) ->
  ForallOrdPairs (fun l l' => content2 (fun x => poly_pts l x /\ poly_pts l' x) 0) mesh ->
  forall mom : Z -> R, exists total parts, r2d_reduce RN 256 sh p mom po = OK total
  /\ Forall2 (fun l part => exists p', r2d_clip RN 256 p (r2d_poly_faces_from_verts RN l) = OK p' /\ r2d_reduce RN 256 sh p' mom po = OK part) mesh parts
  /\ forall i j, (i + j <= Z.to_nat po)%nat -> let e := idx2 (Z.of_nat i) (Z.of_nat j) in lsum parts (fun part => part e) = total e.
Proof.
  intros Hpo CV HM OKs Cov Ov mom.
  destruct (clips_conserve2 256 sh po p (map (r2d_poly_faces_from_verts RN) mesh) Hpo CV) with (mom := mom) as (total & parts & E & H & G); auto.
  - intros c Hc. apply in_map_iff in Hc as (l & <- & Hl). destruct (OKs l Hl). split; [pose proof (proj1 (poly_faces_all l)); rn; lia|]. now apply poly_faces_proper.
  - intros x Hx. destruct (Cov x Hx) as (l & S1 & S2). exists (r2d_poly_faces_from_verts RN l). split; [now apply in_map|apply poly_faces_holds; auto; now apply OKs].
  - clear - Ov OKs. induction mesh as [|s mesh IH]; cbn [map]; [constructor|]. inversion Ov as [|? ? F1 F2]; subst. constructor; [|apply IH; auto; intros; apply OKs; now right].
    apply Forall_map, Forall_forall. intros t Ht. rewrite Forall_forall in F1. eapply content_zero_sub; [|exact (F1 t Ht)]. intros x (_ & A & B).
    apply poly_faces_holds in A; [|apply OKs; now left]. apply poly_faces_holds in B; [|apply OKs; now right]. auto.
  - exists total, parts. split; [exact E|]. split; [|exact G]. clear - H. revert parts H. induction mesh as [|s mesh IH]; intros parts H; inversion H; subst; constructor; auto.
Qed.
Theorem sides_null2 l l' g : proper2 g -> (forall x, In x l -> 0 <= sdist g x) -> (forall x, In x l' -> sdist g x <= 0) -> content2 (fun x => poly_pts l x /\ poly_pts l' x) 0.
Proof.
  intros Pg A B. destruct (hull_bound2 l) as (M & HM). apply (flat2 _ g M Pg). intros x (Hx & Hx'). split; [|now apply HM].
  pose proof (Hx g A). assert (0 <= sdist (flip g) x) by (apply Hx'; intros q Hq; rewrite sdist_flip; specialize (B q Hq); lra). rewrite sdist_flip in *. lra.
Qed.
(** ** The faces that [r2d_box_faces_from_verts] lists *)
Lemma square_content lo hi : lo < hi -> content2 (fun x => lo <= vx x <= hi /\ lo <= vy x <= hi) ((hi - lo) * (hi - lo)).
Proof.
  intros H. replace ((hi - lo) * (hi - lo)) with (trap_area lo hi 0 lo 0 hi) by (unfold trap_area; field).
  eapply content_ext; [|apply trap_content; lra]. intros x. unfold trap. cbn. split; intros (A & B); split; lra.
Qed.
Theorem box_faces_clip sh po (mom : Z -> R) p0 : (0 <= po)%Z ->
  exists p p' mom', r2d_init_box RN 256 p0 (V2 0 0) (V2 3 3) = OK p /\ r2d_clip RN 256 p (r2d_box_faces_from_verts RN (V2 1 1) (V2 2 2)) = OK p' /\ r2d_reduce RN 256 sh p' mom po = OK mom'
  /\ content2 (fun x => (0 <= vx x <= 3 /\ 0 <= vy x <= 3) /\ (1 <= vx x <= 2 /\ 1 <= vy x <= 2)) 1 /\ mom' 0%Z = 4.
Proof.
  intros Hpo. destruct (init_box_all 256 p0 (V2 0 0) (V2 3 3) ltac:(lia)) as (p & E & _).
  destruct (init_box_convex 256 p0 p (V2 0 0) (V2 3 3) ltac:(lia)) as (CV & En & HH); cbn; try lra; auto.
  destruct (clip_moments2 256 sh po mom p (r2d_box_faces_from_verts RN (V2 1 1) (V2 2 2)) Hpo CV) as (p' & mom' & Ec & Er & G).
  - rn. rewrite En. cbn. lia.
  - intros pl. unfold r2d_box_faces_from_verts. cbn [In]. unfold proper2. intros [<-|[<-|[<-|[<-|[]]]]]; cbn; lra.
  - exists p, p', mom'. split; [exact E|]. split; [exact Ec|]. split; [exact Er|]. split.
    + replace 1 with ((2 - 1) * (2 - 1)) at 1 by ring. eapply content_ext; [|exact (square_content 1 2 ltac:(lra))]. intros x. cbn. lra.
    + apply (integral2_unique _ _ _ _ (G 0%nat 0%nat ltac:(lia))).
      eapply (integral_ext 2 (fun x => 0 <= vx (V2 (x 0%Z) (x 1%Z)) <= 2 /\ 0 <= vy (V2 (x 0%Z) (x 1%Z)) <= 2)); [|intros x _; instantiate (1 := fun _ => 1); cbn; ring|].
      * intros x. rewrite HH. unfold holds2. rewrite box_faces_actual. cbn. lra.
      * replace 4 with (1 * ((2 - 0) * (2 - 0))) by ring. apply integral_const; [lia|]. exact (square_content 0 2 ltac:(lra)).
Qed.
(** a square cut along its diagonal, and a triangle over both *)
Definition tri1 : list (rvec2 R) := [V2 0 0; V2 1 0; V2 1 1].
Definition tri2 : list (rvec2 R) := [V2 0 0; V2 1 1; V2 0 1].
Definition square : list (rvec2 R) := [V2 0 0; V2 1 0; V2 1 1; V2 0 1].
Lemma square_mesh : corners_ok square /\ (forall l, In l [tri1; tri2] -> corners_ok l) /\ (forall x, poly_pts square x -> exists l, In l [tri1; tri2] /\ poly_pts l x)
  /\ ForallOrdPairs (fun l l' => content2 (fun x => poly_pts l x /\ poly_pts l' x) 0) [tri1; tri2].
Proof.
  assert (C0 : corners_ok square) by (split; [cbn; lia|]; cbn [square strict_ccw]; repeat (split || apply FOP_cons || apply FOP_nil || apply Forall_cons || apply Forall_nil); unfold turn; cbn; lra).
  assert (C1 : corners_ok tri1) by (split; [cbn; lia|]; cbn [tri1 strict_ccw]; repeat (split || apply FOP_cons || apply FOP_nil || apply Forall_cons || apply Forall_nil); unfold turn; cbn; lra).
  assert (C2 : corners_ok tri2) by (split; [cbn; lia|]; cbn [tri2 strict_ccw]; repeat (split || apply FOP_cons || apply FOP_nil || apply Forall_cons || apply Forall_nil); unfold turn; cbn; lra).
  split; auto. split; [intros l [<-|[<-|[]]]; auto|]. split.
  - intros x Hx. rewrite (edges_hull square x C0) in Hx. pose proof (Hx 0%nat ltac:(cbn; lia)) as H0. pose proof (Hx 1%nat ltac:(cbn; lia)) as H1. pose proof (Hx 2%nat ltac:(cbn; lia)) as H2. pose proof (Hx 3%nat ltac:(cbn; lia)) as H3.
    unfold turn in *. cbn in H0, H1, H2, H3. destruct (Rle_lt_dec (vy x) (vx x)) as [L|L]; [exists tri1; split; [now left|]; apply edges_hull; auto|exists tri2; split; [right; now left|]; apply edges_hull; auto];
      intros i Hi; cbn in Hi; (assert (I : (i = 0 \/ i = 1 \/ i = 2)%nat) by lia; destruct I as [->|[->| ->]]; unfold turn; cbn; lra).
  - constructor; [constructor; [|constructor]|constructor; constructor]. apply (sides_null2 tri1 tri2 (PL2 (V2 1 (-1)) 0)); [unfold proper2; cbn; lra| |];
      intros x Hx; cbn in Hx; destruct Hx as [<-|[<-|[<-|[]]]]; unfold sdist; cbn; lra.
Qed.
