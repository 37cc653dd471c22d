(** * Conv3: cutting convex polyhedra, over the reals. *)
From Coq Require Import Reals ZArith List Bool Lia Lra.
From Verif Require Import Base Lib SumR ModelCommon CommonFacts Model3 RealNum SpecN SpecNC PolyN TruncN NearN Spec3 Orb3 Cut3 Struct3 Clip3 Spec3R SpecC3.
Import ListNotations.
Open Scope Z_scope.

Lemma mod3_0 i : 0 <= i < 3 -> ((i + 1) mod 3 + 2) mod 3 = i.
Proof. intros H. destruct (slot3 i H) as [->|[->| ->]]; reflexivity. Qed.
Lemma slot_cases i j : 0 <= i < 3 -> 0 <= j < 3 -> j <> i -> j = (i + 1) mod 3 \/ j = (i + 2) mod 3.
Proof. intros H H'. destruct (slot3 i H) as [->|[->| ->]], (slot3 j H') as [->|[->| ->]]; cbn; lia. Qed.

(** the cell structure of a polyhedron with labelled faces *)
Section L.
Context (f : Z -> Z -> Z) (n nh : Z) (lab : dart -> Z).
Hypothesis L : links f (below n).
Hypothesis LA : labels f n nh lab.
Notation h := (facet lab).
Definition bk3 (v i : Z) : Z := slot f (f v i) v.
Definition fd3 (v i j : Z) : Z := facet lab v (3 - i - j).

Lemma lab_dart v i : 0 <= v < n -> 0 <= i < 3 -> lab (v, i) = h v ((i + 1) mod 3).
Proof. intros Hv Hi. unfold facet. f_equal. f_equal. now rewrite mod3_0. Qed.
Lemma lab_opp d : isd (below n) d -> lab (dopp f d) = lab (drot d).
Proof. intros Hd. rewrite <- (la_face _ _ _ _ LA (dopp f d)) by (apply (isd_opp f _ L); auto). now rewrite (fnext_opp f _ L). Qed.
Lemma lab_sf d e : isd (below n) d -> same_face f d e -> lab e = lab d.
Proof. intros Hd (k & ->). induction k; cbn; auto. rewrite (la_face _ _ _ _ LA); auto. apply (isd_iter f _ L); auto. Qed.
(** the two facets along an edge *)
Lemma edge_labels v i : 0 <= v < n -> 0 <= i < 3 -> let w := f v i in let b := bk3 v i in
  h v ((i + 1) mod 3) = h w ((b + 2) mod 3) /\ h v ((i + 2) mod 3) = h w ((b + 1) mod 3).
Proof.
  intros Hv Hi w b. assert (Dd : isd (below n) (v, i)) by (split; auto).
  assert (Eo : dopp f (v, i) = (w, b)) by reflexivity.
  assert (Do : isd (below n) (w, b)) by (rewrite <- Eo; apply (isd_opp f _ L); auto).
  split.
  - rewrite <- lab_dart by auto. rewrite <- (la_face _ _ _ _ LA (v, i) Dd). unfold fnext. rewrite Eo. unfold drot, facet. cbn [fst snd].
    destruct Do as (_ & Hb). cbn in Hb. destruct (slot3 b Hb) as [->|[->| ->]]; reflexivity.
  - rewrite <- lab_dart by (apply Do). rewrite <- Eo, lab_opp by auto. unfold drot, facet. cbn [fst snd].
    destruct (slot3 i Hi) as [->|[->| ->]]; reflexivity.
Qed.

Lemma cells3 : SpecNC.cells 3 (upto n) nh nh f bk3 h fd3.
Proof.
  assert (R : forall v i, upto n v -> 0 <= i < 3 -> 0 <= h v i < nh).
  { intros v i Hv Hi. apply (la_rng _ _ _ _ LA). split; auto. cbn. apply Z.mod_pos_bound. lia. }
  assert (J : forall v i j, upto n v -> 0 <= i < 3 -> 0 <= j < 3 -> h v i = h v j -> i = j).
  { intros v i j Hv Hi Hj E. apply (la_inj _ _ _ _ LA) in E; auto; try (apply Z.mod_pos_bound; lia).
    destruct (slot3 i Hi) as [->|[->| ->]], (slot3 j Hj) as [->|[->| ->]]; cbn in E; lia. }
  assert (B : forall v i, upto n v -> 0 <= i < 3 -> 0 <= bk3 v i < 3 /\ f (f v i) (bk3 v i) = v /\ bk3 (f v i) (bk3 v i) = i).
  { intros v i Hv Hi. assert (Dd : isd (below n) (v, i)) by (split; auto). split; [apply slot_range|].
    pose proof (slot_back f _ L _ Dd) as E. split; [exact E|]. unfold bk3 at 1. unfold bk3. cbn in E. unfold dtgt in E. cbn in E. rewrite E.
    apply (slot_eq f _ L); auto. }
  constructor; auto.
  - intros v i Hv Hi. split; [apply (l_rng _ _ L); auto|apply (l_self _ _ L); auto].
  - intros v i j Hv Hi Hj N. unfold fd3. split; [apply R; auto; lia|f_equal; lia].
  - intros v i j i' j' Hv Hi Hj N Hi' Hj' N' E. unfold fd3 in E. apply J in E; auto; lia.
  - intros v i j Hv Hi Hj N. destruct (edge_labels v i Hv Hi) as (E1 & E2). cbv zeta in E1, E2. destruct (B v i Hv Hi) as (Hb & _).
    assert (M1 : forall a, 0 <= a < 3 -> 3 - a - (a + 1) mod 3 = (a + 2) mod 3) by (intros a Ha; destruct (slot3 a Ha) as [->|[->| ->]]; reflexivity).
    assert (M2 : forall a, 0 <= a < 3 -> 3 - a - (a + 2) mod 3 = (a + 1) mod 3) by (intros a Ha; destruct (slot3 a Ha) as [->|[->| ->]]; reflexivity).
    assert (N2 : forall a, 0 <= a < 3 -> (a + 2) mod 3 <> a /\ (a + 1) mod 3 <> a) by (intros a Ha; destruct (slot3 a Ha) as [->|[->| ->]]; cbn; lia).
    destruct (slot_cases i j Hi Hj N) as [->| ->].
    + exists ((bk3 v i + 2) mod 3). split; [apply Z.mod_pos_bound; lia|]. split; [apply N2; auto|]. split; [auto|]. unfold fd3. rewrite M1, M2 by auto. auto.
    + exists ((bk3 v i + 1) mod 3). split; [apply Z.mod_pos_bound; lia|]. split; [apply N2; auto|]. split; [auto|]. unfold fd3. rewrite M1, M2 by auto. auto.
Qed.
End L.

Open Scope R_scope.
Lemma lin3 c0 c x : linN 3 c0 c x = c0 + (c 0%Z * x 0%Z + (c 1%Z * x 1%Z + c 2%Z * x 2%Z)).
Proof. unfold linN. change (zrange 3) with [0; 1; 2]%Z. cbn [lsum]. ring. Qed.
Lemma sdist3_lin pl q : sdist3 pl q = linN 3 (d3 pl) (co3 (n3 pl)) (co3 q).
Proof. rewrite lin3. unfold sdist3, co3. cbn. ring. Qed.
Lemma lin_sdist3 c0 c q : linN 3 c0 c (co3 q) = sdist3 (PL3 (V3 (c 0%Z) (c 1%Z) (c 2%Z)) c0) q.
Proof. rewrite lin3. unfold sdist3, co3. cbn. ring. Qed.
Lemma hull3_hullN p q : hull3 p q <-> hullN 3 (nv p) (at3 p) (co3 q).
Proof.
  split.
  - intros H c0 c A. unfold halfN. rewrite lin_sdist3. apply H. intros v Hv. rewrite <- lin_sdist3. apply (A v Hv).
  - intros H pl A. rewrite sdist3_lin. apply H. intros v Hv. unfold halfN. unfold at3. rewrite <- sdist3_lin. auto.
Qed.

Lemma det3_exchange s a b c e : linN 3 0 b e = 0 -> linN 3 0 c e = 0 -> linN 3 0 a e * det3 s b c = linN 3 0 s e * det3 a b c.
Proof.
  rewrite !lin3. intros B C. unfold det3.
  set (be := 0 + (b 0%Z * e 0%Z + (b 1%Z * e 1%Z + b 2%Z * e 2%Z))) in *. set (ce := 0 + (c 0%Z * e 0%Z + (c 1%Z * e 1%Z + c 2%Z * e 2%Z))) in *.
  assert (I : (0 + (a 0%Z * e 0%Z + (a 1%Z * e 1%Z + a 2%Z * e 2%Z))) * det3 s b c - (0 + (s 0%Z * e 0%Z + (s 1%Z * e 1%Z + s 2%Z * e 2%Z))) * det3 a b c
     = be * det3 s a c - ce * det3 s a b) by (unfold be, ce, det3; ring).
  rewrite B, C in I. unfold det3 in I. lra.
Qed.
Lemma det3_rot a b c : det3 b c a = det3 a b c. Proof. unfold det3. ring. Qed.
Lemma det3_swap a b c : det3 a c b = - det3 a b c. Proof. unfold det3. ring. Qed.
Lemma turned_slot n h l v i : turned n h l -> (0 <= v < n)%Z -> (0 <= i < 3)%Z -> det3 (l (h v i)) (l (h v ((i + 1) mod 3)%Z)) (l (h v ((i + 2) mod 3)%Z)) < 0.
Proof.
  intros T Hv Hi. specialize (T v Hv). destruct (slot3 i Hi) as [->|[->| ->]]; cbn.
  - exact T.
  - rewrite det3_rot. exact T.
  - rewrite <- det3_rot. exact T.
Qed.

Section Cut.
Context (p p' : pol3) (N : Z) (keep K : Z -> bool) (np : dart -> rvec3 R) (M : dart -> Z) (b' : buf3) (nh : Z) (lab : dart -> Z).
Notation f := (nb (vb p)). Notation n := (nv p).
Hypothesis W : wf3 p.
Hypothesis HK : forall v, (0 <= v < n)%Z -> K v = keep v.
Hypothesis C : cut3 (vb p) n N K np M b'.
Hypothesis CO : compressed 3 K N b' p'.
Hypothesis LA : labels f n nh lab.
Notation cross := (Cut3.cross f n K). Notation sig := (Cut3.sig f n K).
Notation Dom := (Cut3.Dom' f n K M).
Let L : links f (below n) := proj1 (proj2 W).
Let P : simple_faces f (below n) := proj2 (proj2 W).
Let Hn : (0 <= n)%Z := proj1 W.
Let G : cutg f (nb b') n K M := cu_g _ _ _ _ _ _ _ C.
Let HD : forall v, Dom v <-> (0 <= v < N)%Z /\ K v = true := cut3_dom _ _ _ _ _ _ _ C.
Let L' : links (nb b') Dom := cut_links f (nb b') n K M Hn L P G.
Lemma cut_N : (0 <= N)%Z. Proof. pose proof (cu_n _ _ _ _ _ _ _ C). lia. Qed.
Let Hg : forall u i, Dom u -> (0 <= i < 3)%Z -> nb (vb p') (cnt K u) i = cnt K (nb b' u i).
Proof. intros u i Du Hi. apply HD in Du as (Hu & Ku). apply (proj2 CO u Hu Ku). auto. Qed.
Notation ov := (cnt K).
Definition nw3 (v i : Z) : Z := cnt K (M (v, i)).
Lemma cut_nv : nv p' = cnt K N. Proof. apply CO. Qed.
Lemma cut_wf : wf3 p'. Proof. eapply compressed_wf3; eauto. Qed.

Lemma dom_old v : (0 <= v < n)%Z -> K v = true -> Dom v. Proof. intros Hv Kv. left. auto. Qed.
Lemma dom_new x : cross x -> Dom (M x). Proof. intros Hx. right. eauto. Qed.
Lemma cross3 v i : (0 <= v < n)%Z -> (0 <= i < 3)%Z -> K v = true -> K (f v i) = false -> cross (v, i).
Proof. intros. split; [split; auto|]. auto. Qed.
Lemma old_new v x : (0 <= v < n)%Z -> K v = true -> cross x -> cnt K v <> cnt K (M x).
Proof.
  intros Hv Kv Hx E. apply (ren_inj_v Dom N K HD) in E; auto using dom_old, dom_new.
  pose proof (Cut3.c_new _ _ _ _ _ G x Hx). lia.
Qed.
Lemma new_inj x y : cross x -> cross y -> cnt K (M x) = cnt K (M y) -> x = y.
Proof. intros Hx Hy E. apply (ren_inj_v Dom N K HD) in E; auto using dom_new. apply (Cut3.c_inj _ _ _ _ _ G); auto. Qed.

Lemma tverts3 : tverts 3 n K f (nv p') ov nw3.
Proof.
  rewrite cut_nv. constructor.
  - intros v Hv Kv. apply (ren_dom Dom N K HD). now apply dom_old.
  - intros v i Hv Hi Kv Kw. apply (ren_dom Dom N K HD). apply dom_new. now apply cross3.
  - intros u Hu. destruct (ren_surj_v Dom N K cut_N HD u Hu) as (w & Dw & <-). destruct Dw as [(Hw & Kw)|((v & i) & Hx & ->)].
    + left. eauto.
    + right. destruct Hx as ((Hv & Hi) & Kv & Kw). cbn in *. exists v, i. auto.
  - intros v w Hv Hw Kv Kw E. apply (ren_inj_v Dom N K HD) in E; auto using dom_old.
  - intros v i w j Hv Hi Kv Kw Hv' Hj Kv' Kw' E. apply new_inj in E; auto using cross3. inversion E; auto.
  - intros v w j Hv Kv Hw Hj Kw Kw'. apply old_new; auto using cross3.
Qed.

(** the labels of the result: the old faces keep theirs, the new face has label [nh] *)
Lemma labels_cut : exists lab', labels (nb (vb p')) (nv p') (nh + 1) lab'
  /\ (forall v i, (0 <= v < n)%Z -> K v = true -> (0 <= i < 3)%Z -> lab' (cnt K v, i) = lab (v, i))
  /\ forall x, cross x -> lab' (cnt K (M x), 0%Z) = lab (dopp f x) /\ lab' (cnt K (M x), 1%Z) = lab x /\ lab' (cnt K (M x), 2%Z) = nh.
Proof.
  destruct (finite_choice (fun _ : Z => 0%Z) (nv p') (fun u F =>
     (forall v i, (0 <= v < n)%Z -> K v = true -> (0 <= i < 3)%Z -> u = cnt K v -> F i = lab (v, i))
     /\ forall x, cross x -> u = cnt K (M x) -> F 0%Z = lab (dopp f x) /\ F 1%Z = lab x /\ F 2%Z = nh)) as (F & HF).
  { rewrite cut_nv. apply cnt_nonneg. }
  { intros u Hu. rewrite cut_nv in Hu. destruct (ren_surj_v Dom N K cut_N HD u Hu) as (w & Dw & <-). destruct Dw as [(Hw & Kw)|(x & Hx & ->)].
    - exists (fun i => lab (w, i)). split.
      + intros v i Hv Kv Hi E. apply (ren_inj_v Dom N K HD) in E; auto using dom_old. now subst.
      + intros x Hx E. exfalso. revert E. apply old_new; auto.
    - exists (fun i => if (i =? 0)%Z then lab (dopp f x) else if (i =? 1)%Z then lab x else nh). split.
      + intros v i Hv Kv Hi E. exfalso. symmetry in E. revert E. apply old_new; auto.
      + intros y Hy E. apply new_inj in E; auto. subst y. auto. }
  exists (fun d => F (fst d) (snd d)).
  assert (FO : forall v i, (0 <= v < n)%Z -> K v = true -> (0 <= i < 3)%Z -> F (cnt K v) i = lab (v, i)).
  { intros v i Hv Kv Hi. apply (HF (cnt K v)); auto. apply (tv_old _ _ _ _ _ _ _ tverts3); auto. }
  assert (FN : forall x, cross x -> F (cnt K (M x)) 0%Z = lab (dopp f x) /\ F (cnt K (M x)) 1%Z = lab x /\ F (cnt K (M x)) 2%Z = nh).
  { intros x Hx. apply (HF (cnt K (M x))); auto. unfold upto. rewrite cut_nv. apply (ren_dom Dom N K HD). now apply dom_new. }
  cbn [fst snd]. split; [|auto].
  assert (CD : forall d, isd (below (nv p')) d -> exists e, isd Dom e /\ ren K e = d) by (intros d Hd; rewrite cut_nv in Hd; now apply (ren_surj Dom N K cut_N HD)).
  assert (XI : forall x, cross x -> isd (below n) x) by (intros x Hx; apply Hx).
  constructor.
  - intros d Hd. destruct (CD d Hd) as (e & He & <-). unfold ren. cbn [fst snd].
    destruct (isd'_cases f n K M e He) as [((Hv & Hi) & Ke)|(x & Hx & E)].
    + rewrite FO by auto. pose proof (la_rng _ _ _ _ LA e ltac:(split; auto)). destruct e. cbn in *. lia.
    + destruct (FN x Hx) as (F0 & F1 & F2). pose proof (la_rng _ _ _ _ LA x (XI x Hx)).
      pose proof (la_rng _ _ _ _ LA (dopp f x) (isd_opp f _ L _ (XI x Hx))).
      destruct E as [->|[->| ->]]; cbn [fst snd]; rewrite ?F0, ?F1, ?F2; lia.
  - intros d Hd. destruct (CD d Hd) as (e & He & <-). rewrite (ren_fnext (nb b') (nb (vb p')) Dom N K cut_N HD L' Hg e He). unfold ren. cbn [fst snd].
    destruct (isd'_cases f n K M e He) as [((Hv & Hi) & Ke)|(x & Hx & E)].
    + assert (De : isd (below n) e) by (split; auto). destruct (K (dtgt f e)) eqn:Kt.
      * rewrite (fn_in f (nb b') n K M Hn L P G e De Ke Kt). pose proof (isd_fnext f _ L e De) as Df. rewrite !FO by (auto; apply Df).
        pose proof (la_face _ _ _ _ LA e De) as X. rewrite <- surjective_pairing. rewrite X. destruct e; auto.
      * assert (Hx : cross e) by (split; auto). rewrite (fn_cross f (nb b') n K M Hn L P G e Hx). cbn [fst snd].
        rewrite (proj1 (proj2 (FN e Hx))), FO by auto. destruct e; auto.
    + destruct (FN x Hx) as (F0 & F1 & F2). destruct E as [->|[->| ->]]; cbn [fst snd].
      * rewrite (fn_new0 f (nb b') n K M Hn L P G x Hx), F0. unfold drot at 1 2. cbn [fst snd].
        destruct Hx as ((Hv & Hi) & Kx & Kx'). rewrite FO by (auto; apply Z.mod_pos_bound; lia).
        symmetry. apply (lab_opp f n nh lab L LA x). split; auto.
      * destruct (sig_surj f n K L x Hn Hx) as (y & Hy & <-). rewrite (fn_new1 f (nb b') n K M Hn L P G y Hy). cbn [fst snd].
        rewrite (proj1 (FN y Hy)), F1. symmetry. apply (lab_sf f n nh lab L LA); [apply (isd_opp f _ L); auto|]. apply sig_face; auto.
      * rewrite (fn_new2 f (nb b') n K M Hn L P G x Hx). cbn [fst snd]. rewrite F2. apply FN. apply sig_cross; auto.
  - intros u i j Hu Hi Hj E. cbn [fst snd] in E. rewrite cut_nv in Hu. destruct (ren_surj_v Dom N K cut_N HD u Hu) as (w & Dw & <-). destruct Dw as [(Hw & Kw)|(x & Hx & ->)].
    + rewrite !FO in E by auto. apply (la_inj _ _ _ _ LA w); auto.
    + destruct (FN x Hx) as (F0 & F1 & F2). pose proof (la_rng _ _ _ _ LA x (XI x Hx)).
      pose proof (la_rng _ _ _ _ LA (dopp f x) (isd_opp f _ L _ (XI x Hx))).
      assert (X : lab (dopp f x) <> lab x).
      { rewrite (lab_opp f n nh lab L LA x (XI x Hx)). destruct x as [v s]. unfold drot. cbn [fst snd]. destruct (XI _ Hx) as (Hv & Hs). cbn in Hs. intros E'.
        apply (la_inj _ _ _ _ LA) in E'; auto; [|apply Z.mod_pos_bound; lia]. destruct (slot3 s Hs) as [->|[->| ->]]; cbn in E'; lia. }
      destruct (slot3 i Hi) as [->|[->| ->]], (slot3 j Hj) as [->|[->| ->]]; rewrite ?F0, ?F1, ?F2 in E; try reflexivity; try lia; congruence.
Qed.

(** the cut *)
Context (pl : plane3 R).
Hypothesis Kt : forall v, (0 <= v < n)%Z -> keep v = true -> 0 <= sdist3 pl (ps (vb p) v).
Hypothesis Kf : forall v, (0 <= v < n)%Z -> keep v = false -> sdist3 pl (ps (vb p) v) <= 0.
Hypothesis KS : (forall v, (0 <= v < n)%Z -> keep v = true -> 0 < sdist3 pl (ps (vb p) v)) \/ (forall v, (0 <= v < n)%Z -> keep v = false -> sdist3 pl (ps (vb p) v) < 0).
Hypothesis NP : forall v i k, (0 <= v < n)%Z -> (0 <= i < 3)%Z -> (0 <= k < 3)%Z -> keep v = true -> keep (f v i) = false ->
  let w := f v i in let a := sdist3 pl (ps (vb p) v) in let b := sdist3 pl (ps (vb p) w) in
  co3 (np (v, i)) k = (at3 p w k * a - at3 p v k * b) / (a - b).
Notation O := (fun (_ : Z -> Z -> R) (_ : Z -> R) l => turned n (facet lab) l).
Hypothesis PO : near_polytope O 3 n nh (facet lab) (at3 p).

Lemma lin_at v : linN 3 (d3 pl) (co3 (n3 pl)) (at3 p v) = sdist3 pl (ps (vb p) v).
Proof. unfold at3. now rewrite <- sdist3_lin. Qed.
Lemma mixed3 : mixed 3 n f K ov nw3 (fun v => linN 3 (d3 pl) (co3 (n3 pl)) (at3 p v)) (at3 p) (at3 p').
Proof.
  split.
  - intros v k Hv Kv Hk. unfold at3. f_equal. rewrite (proj1 (proj2 CO v ltac:(pose proof (cu_n _ _ _ _ _ _ _ C); unfold upto in Hv; lia) Kv)). apply (cu_ps _ _ _ _ _ _ _ C). auto.
  - intros v i k Hv Hi Hk Kv Kw. pose proof (cross3 v i Hv Hi Kv Kw) as Hx. pose proof (dom_new _ Hx) as Dx. apply HD in Dx as (Dx & KM).
    unfold at3 at 1, nw3. rewrite (proj1 (proj2 CO _ Dx KM)). rewrite (proj2 (cu_new _ _ _ _ _ _ _ C _ Hx)). rewrite NP; auto.
    + cbv zeta. now rewrite !lin_at.
    + now rewrite <- HK.
    + rewrite <- HK; auto. apply (l_rng _ _ L); auto.
Qed.

Lemma cut_convex_labels lab' : labels (nb (vb p')) (nv p') (nh + 1) lab' ->
  (forall v i, (0 <= v < n)%Z -> K v = true -> (0 <= i < 3)%Z -> lab' (cnt K v, i) = lab (v, i)) ->
  (forall x, cross x -> lab' (cnt K (M x), 0%Z) = lab (dopp f x) /\ lab' (cnt K (M x), 1%Z) = lab x /\ lab' (cnt K (M x), 2%Z) = nh) ->
  near_polytope (fun _ _ l => turned (nv p') (facet lab') l) 3 (nv p') (nh + 1) (facet lab') (at3 p')
  /\ forall x v0, (0 <= v0 < n)%Z -> 0 < sdist3 pl (ps (vb p) v0) -> hull3 p' x <-> hull3 p x /\ 0 <= sdist3 pl x.
Proof.
  intros LA' LO LN. pose proof (cells3 f n nh lab L LA) as CE.
  assert (HO : forall v i, upto n v -> K v = true -> (0 <= i < 3)%Z -> facet lab' (cnt K v) i = facet lab v i).
  { intros v i Hv Kv Hi. unfold facet. apply LO; auto. apply Z.mod_pos_bound. lia. }
  assert (NF : forall v i, upto n v -> (0 <= i < 3)%Z -> K v = true -> K (f v i) = false ->
     facet lab' (nw3 v i) 0%Z = nh /\ facet lab' (nw3 v i) 1%Z = facet lab v ((i + 2) mod 3) /\ facet lab' (nw3 v i) 2%Z = facet lab v ((i + 1) mod 3)).
  { intros v i Hv Hi Kv Kw. pose proof (cross3 v i Hv Hi Kv Kw) as Hx. destruct (LN _ Hx) as (L0 & L1 & L2).
    unfold facet at 1 2 4. unfold nw3. change ((0 + 2) mod 3)%Z with 2%Z. change ((1 + 2) mod 3)%Z with 0%Z. change ((2 + 2) mod 3)%Z with 1%Z.
    rewrite L0, L1, L2. split; auto. rewrite (lab_opp f n nh lab L LA) by (apply Hx). unfold drot, facet. cbn [fst snd].
    destruct (slot3 i Hi) as [->|[->| ->]]; auto. }
  assert (H0 : forall v i, upto n v -> (0 <= i < 3)%Z -> K v = true -> K (f v i) = false -> new_slots 3 nh (facet lab) v i (facet lab' (nw3 v i))).
  { intros v i Hv Hi Kv Kw. destruct (NF v i Hv Hi Kv Kw) as (N0 & N1 & N2). split; auto.
    assert (X : (0 <= (i + 1) mod 3 < 3 /\ 0 <= (i + 2) mod 3 < 3 /\ (i + 1) mod 3 <> i /\ (i + 2) mod 3 <> i)%Z) by (destruct (slot3 i Hi) as [->|[->| ->]]; cbn; lia).
    split.
    - intros a Ha. assert (a = 1 \/ a = 2)%Z as [->| ->] by lia; [exists ((i + 2) mod 3)%Z|exists ((i + 1) mod 3)%Z]; repeat split; auto; lia.
    - intros j Hj Nj. destruct (slot_cases i j Hi Hj Nj) as [->| ->]; [exists 2%Z|exists 1%Z]; split; auto; lia. }
  assert (Kt' : forall v, upto n v -> K v = true -> 0 <= linN 3 (d3 pl) (co3 (n3 pl)) (at3 p v)) by (intros v Hv Kv; rewrite lin_at; apply Kt; auto; now rewrite <- HK).
  assert (Kf' : forall v, upto n v -> K v = false -> linN 3 (d3 pl) (co3 (n3 pl)) (at3 p v) <= 0) by (intros v Hv Kv; rewrite lin_at; apply Kf; auto; now rewrite <- HK).
  assert (KS' : (forall v, upto n v -> K v = true -> 0 < linN 3 (d3 pl) (co3 (n3 pl)) (at3 p v)) \/ (forall v, upto n v -> K v = false -> linN 3 (d3 pl) (co3 (n3 pl)) (at3 p v) < 0)).
  { destruct KS as [X|X]; [left|right]; intros v Hv Kv; rewrite lin_at; apply X; auto; now rewrite <- HK. }
  assert (HN' : (0 <= nv p')%Z) by (rewrite cut_nv; apply cnt_nonneg).
  split.
  - apply (trunc_near_polytope 3 n nh nh f (bk3 f) (facet lab) (fd3 lab) ltac:(lia) Hn CE K (nv p') ov nw3 HN' tverts3 (facet lab') HO H0 (at3 p) (at3 p')
      (d3 pl) (co3 (n3 pl)) O PO Kt' Kf' KS' mixed3).
    intros q l0 l e q' Q T K1 K2 MI u Hu.
    assert (LO' : forall g, (0 <= g < nh)%Z -> l' nh l (co3 (n3 pl)) g = l g) by (intros g Hg'; unfold l'; destruct (Z.eqb_spec g nh); [lia|auto]).
    assert (LNh : l' nh l (co3 (n3 pl)) nh = co3 (n3 pl)) by (unfold l'; now rewrite Z.eqb_refl).
    destruct (tv_all _ _ _ _ _ _ _ tverts3 u Hu) as [(v & Hv & Kv & ->)|(v & i & Hv & Hi & Kv & Kw & ->)].
    + rewrite !HO by (auto; lia). rewrite !LO' by (apply (ce_h _ _ _ _ _ _ _ _ CE); auto; lia). apply T; auto.
    + destruct (NF v i Hv Hi Kv Kw) as (-> & -> & ->). rewrite LNh. rewrite !LO' by (apply (ce_h _ _ _ _ _ _ _ _ CE); auto; apply Z.mod_pos_bound; lia).
      set (s := co3 (n3 pl)) in *. set (ed := fun k => q (f v i) k - q v k).
      assert (Hw : upto n (f v i)) by (apply (l_rng _ _ L); auto).
      assert (X : (0 <= (i + 1) mod 3 < 3 /\ 0 <= (i + 2) mod 3 < 3 /\ (i + 1) mod 3 <> i /\ (i + 2) mod 3 <> i)%Z) by (destruct (slot3 i Hi) as [->|[->| ->]]; cbn; lia).
      assert (ZE : forall j, (0 <= j < 3)%Z -> j <> i -> linN 3 0 (l (facet lab v j)) ed = 0).
      { intros j Hj Nj. unfold ed. rewrite lin_sub. pose proof (edge_zero 3 n nh nh f (bk3 f) (facet lab) (fd3 lab) q l0 l CE Q v i j Hv Hi Hj Nj) as A.
        pose proof (re_on _ _ _ _ _ _ _ Q v j Hv Hj) as B. rewrite (linN_split 3 (l0 _)) in A, B. lra. }
      assert (PE : 0 < linN 3 0 (l (facet lab v i)) ed).
      { unfold ed. rewrite lin_sub. pose proof (edge_pos 3 n nh nh f (bk3 f) (facet lab) (fd3 lab) q l0 l CE Q v i Hv Hi) as A.
        pose proof (re_on _ _ _ _ _ _ _ Q v i Hv Hi) as B. rewrite (linN_split 3 (l0 _)) in A, B. lra. }
      assert (SE : linN 3 0 s ed < 0).
      { unfold ed. rewrite lin_sub. pose proof (K1 v Hv Kv) as A. pose proof (K2 _ Hw Kw) as B. rewrite (linN_split 3 (d3 pl + e)) in A, B. lra. }
      pose proof (det3_exchange s (l (facet lab v i)) (l (facet lab v ((i + 2) mod 3)%Z)) (l (facet lab v ((i + 1) mod 3)%Z)) ed (ZE _ (proj1 (proj2 X)) (proj2 (proj2 (proj2 X)))) (ZE _ (proj1 X) (proj1 (proj2 (proj2 X))))) as DE.
      rewrite (det3_swap (l (facet lab v i)) (l (facet lab v ((i + 1) mod 3)%Z))) in DE. pose proof (turned_slot n (facet lab) l v i T Hv Hi) as TS.
      nra.
  - intros x v0 Hv0 S0. rewrite !hull3_hullN, sdist3_lin.
    apply (trunc_hull 3 n nh nh f (bk3 f) (facet lab) (fd3 lab) ltac:(lia) Hn CE K (nv p') ov nw3 HN' tverts3 (at3 p) (at3 p') (d3 pl) (co3 (n3 pl)) O PO Kt' Kf' KS' mixed3 (co3 x) v0 Hv0).
    now rewrite lin_at.
Qed.
End Cut.

Lemma convex3_near p : convex3 p <-> wf3 p /\ exists nh lab, labels (nb (vb p)) (nv p) nh lab /\ near_polytope (fun _ _ l => turned (nv p) (facet lab) l) 3 (nv p) nh (facet lab) (at3 p).
Proof. reflexivity. Qed.

Theorem cut_convex3 (p p' : pol3) N keep (np : dart -> rvec3 R) pl : convex3 p -> cut_of RN p keep np N p' ->
  (forall v, (0 <= v < nv p)%Z -> keep v = true -> 0 <= sdist3 pl (ps (vb p) v)) ->
  (forall v, (0 <= v < nv p)%Z -> keep v = false -> sdist3 pl (ps (vb p) v) <= 0) ->
  ((forall v, (0 <= v < nv p)%Z -> keep v = true -> 0 < sdist3 pl (ps (vb p) v)) \/ (forall v, (0 <= v < nv p)%Z -> keep v = false -> sdist3 pl (ps (vb p) v) < 0)) ->
  (forall v i k, (0 <= v < nv p)%Z -> (0 <= i < 3)%Z -> (0 <= k < 3)%Z -> keep v = true -> keep (nb (vb p) v i) = false ->
    let w := nb (vb p) v i in let a := sdist3 pl (ps (vb p) v) in let b := sdist3 pl (ps (vb p) w) in
    co3 (np (v, i)) k = (at3 p w k * a - at3 p v k * b) / (a - b)) ->
  convex3 p' /\ forall x v0, (0 <= v0 < nv p)%Z -> 0 < sdist3 pl (ps (vb p) v0) -> hull3 p' x <-> hull3 p x /\ 0 <= sdist3 pl x.
Proof.
  intros (W & nh & lab & LA & PO) (b' & K & M & HK & C & CO) Kt Kf KS NP.
  destruct (labels_cut p p' N K np M b' nh lab W C CO LA) as (lab' & LA' & LO & LN).
  destruct (cut_convex_labels p p' N keep K np M b' nh lab W HK C CO LA pl Kt Kf KS NP PO lab' LA' LO LN) as (P' & HU).
  split; auto. split; [eapply cut_wf; eauto|]. eauto.
Qed.
