(** * RotRT: polyhedra with turned slots. *)
From Coq Require Import Reals ZArith List Bool Lia Lra.
From Verif Require Import Base Lib ModelCommon Model3 Spec3R SpecN SpecNC SpecC3 SpecF3 SpecRT Orb3 Conv3 Spec3.
Import ListNotations.
Open Scope Z_scope.

Section Rot.
Context (f f' : Z -> Z -> Z) (n : Z) (k : Z -> Z).
Hypothesis L : links f (below n).
Hypothesis E : forall v i, 0 <= v < n -> 0 <= i < 3 -> f' v i = f v ((i + k v) mod 3).
Definition phi (d : dart) : dart := (fst d, (snd d + k (fst d)) mod 3).
Local Notation isd := (isd (below n)).
Lemma phi_isd d : isd d -> isd (phi d).
Proof. intros (A & B). split; auto. cbn. apply Z.mod_pos_bound. lia. Qed.
Lemma tgt_phi d : isd d -> dtgt f' d = dtgt f (phi d).
Proof. intros (A & B). unfold dtgt. cbn. apply E; auto. Qed.
Lemma phi_inj d e : isd d -> isd e -> phi d = phi e -> d = e.
Proof.
  destruct d as (v, i), e as (w, j). unfold phi. cbn. intros (A & B) (C & D) X. injection X as X1 X2. cbn in *. subst w. f_equal.
  assert ((i - j) mod 3 = 0) by (replace (i - j) with ((i + k v) - (j + k v)) by lia; rewrite Zminus_mod, X2, Z.sub_diag; reflexivity).
  apply Z.mod_divide in H as (q & H); lia.
Qed.
Lemma phi_surj d : isd d -> exists e, isd e /\ phi e = d.
Proof.
  destruct d as (v, i). intros (A & B). cbn in *. exists (v, (i - k v) mod 3). split; [split; cbn; auto; apply Z.mod_pos_bound; lia|].
  unfold phi. cbn. f_equal. rewrite Z.add_mod_idemp_l by lia. replace (i - k v + k v) with i by lia. apply Z.mod_small; lia.
Qed.
Lemma links_rot : links f' (below n).
Proof.
  split.
  - intros v i Hv Hi. rewrite E by auto. apply (l_rng _ _ L); auto. apply Z.mod_pos_bound. lia.
  - intros v i Hv Hi. rewrite E by auto. apply (l_self _ _ L); auto. apply Z.mod_pos_bound. lia.
  - intros v i j Hv Hi Hj X. rewrite !E in X by auto. apply (l_dist _ _ L) in X; auto; try (apply Z.mod_pos_bound; lia).
    assert (Y : (v, i) = (v, j)) by (apply phi_inj; [split; auto..|unfold phi; cbn; now rewrite X]). congruence.
  - intros v i Hv Hi. rewrite E by auto. set (w := f v ((i + k v) mod 3)). assert (Hw : 0 <= w < n) by (apply (l_rng _ _ L); auto; apply Z.mod_pos_bound; lia).
    destruct (l_mut _ _ L v ((i + k v) mod 3) Hv) as (j & Hj & X); [apply Z.mod_pos_bound; lia|]. fold w in X.
    destruct (phi_surj (w, j)) as ((w', i') & (I1 & I2) & I3); [split; auto|]. unfold phi in I3. cbn in *. injection I3 as -> I3. exists i'. split; auto. rewrite E, I3 by auto. auto.
Qed.
Lemma opp_phi d : isd d -> phi (dopp f' d) = dopp f (phi d).
Proof.
  intros Hd. pose proof (isd_opp f' _ links_rot d Hd) as (O1 & O2). unfold dopp in *. cbn [fst snd] in *. unfold phi at 1. cbn [fst snd]. rewrite <- (tgt_phi d Hd). f_equal.
  symmetry. apply (slot_eq f _ L); auto; [apply Z.mod_pos_bound; lia|]. rewrite <- E by auto. rewrite (slot_back f' _ links_rot) by auto. reflexivity.
Qed.
Lemma rot_phi d : phi (drot d) = drot (phi d).
Proof. unfold phi, drot. cbn. f_equal. rewrite !Z.add_mod_idemp_l by lia. f_equal. lia. Qed.
Lemma fnext_phi d : isd d -> phi (fnext f' d) = fnext f (phi d).
Proof. intros Hd. unfold fnext. rewrite rot_phi, opp_phi; auto. Qed.
Lemma iter_phi j d : isd d -> phi (iter j (fnext f') d) = iter j (fnext f) (phi d).
Proof. intros Hd. induction j; cbn [iter]; auto. rewrite fnext_phi, IHj; auto. apply (isd_iter f' _ links_rot); auto. Qed.
Lemma simple_rot : simple_faces f (below n) -> simple_faces f' (below n).
Proof.
  intros S d e Hd He (j & A) (j' & B). apply phi_inj; auto. apply S; auto using phi_isd.
  - exists j. rewrite A. apply iter_phi; auto.
  - exists j'. rewrite <- !opp_phi by auto. rewrite B. apply iter_phi. apply (isd_opp f' _ links_rot); auto.
Qed.
Lemma labels_rot nh lab : labels f n nh lab -> labels f' n nh (fun d => lab (phi d)).
Proof.
  intros A. split.
  - intros d Hd. apply A, phi_isd; auto.
  - intros d Hd. rewrite fnext_phi by auto. apply A, phi_isd; auto.
  - intros v i j Hv Hi Hj X. unfold phi in X. cbn in X. apply A in X; auto; try (apply Z.mod_pos_bound; lia). assert (Y : (v, i) = (v, j)) by (apply phi_inj; [split; auto..|unfold phi; cbn; now rewrite X]). congruence.
Qed.
Lemma facet_phi lab v i : facet (fun d => lab (phi d)) v i = facet lab v ((i + k v) mod 3).
Proof. unfold facet, phi. cbn [fst snd]. rewrite !Z.add_mod_idemp_l by lia. replace (i + 2 + k v) with (i + k v + 2) by lia. reflexivity. Qed.
Lemma facet_back lab v i : facet lab v i = facet (fun d => lab (phi d)) v ((i - k v) mod 3).
Proof. rewrite facet_phi. unfold facet. rewrite !Z.add_mod_idemp_l by lia. rewrite <- Z.add_assoc, Z.add_mod_idemp_l by lia. replace (i - k v + (k v + 2)) with (i + 2) by lia. reflexivity. Qed.
Lemma realized_rot nh lab q l0 l : realized 3 n nh (facet lab) q l0 l -> realized 3 n nh (facet (fun d => lab (phi d))) q l0 l.
Proof.
  intros A. split.
  - intros v i Hv Hi. rewrite facet_phi. apply (re_on _ _ _ _ _ _ _ A); auto. apply Z.mod_pos_bound; lia.
  - intros v g Hv Hg X. apply (re_off _ _ _ _ _ _ _ A); auto. intros i Hi. rewrite facet_back. apply X. apply Z.mod_pos_bound; lia.
  - intros v y Hv X. apply (re_nd _ _ _ _ _ _ _ A v y Hv). intros i Hi. rewrite facet_back. apply X. apply Z.mod_pos_bound; lia.
  - apply (re_inj _ _ _ _ _ _ _ A).
Qed.
Lemma turned_rot lab l : turned n (facet lab) l -> turned n (facet (fun d => lab (phi d))) l.
Proof.
  intros A v Hv. rewrite !facet_phi. pose proof (turned_slot n (facet lab) l v (k v mod 3) A Hv) as X.
  rewrite !Z.add_mod_idemp_l in X by lia. replace (0 + k v) with (k v) by lia. replace (1 + k v) with (k v + 1) by lia. replace (2 + k v) with (k v + 2) by lia.
  apply X. apply Z.mod_pos_bound; lia.
Qed.
End Rot.

Section P.
Context (p p' : pol3).
Hypothesis T : turned_slots p p'.
Lemma turned_wf {V} (q q' : poly V) : turned_slots q q' -> wf3 q -> wf3 q'.
Proof.
  intros (N & _ & k & E) (A & B & C). unfold wf3. rewrite N. split; auto. split; [now apply (links_rot (nb (vb q)) _ _ k)|now apply (simple_rot (nb (vb q)) _ _ k)].
Qed.
Lemma turned_at v i : 0 <= v < nv p -> at3 p' v i = at3 p v i.
Proof. destruct T as (_ & P & _). intros Hv. unfold at3. now rewrite P. Qed.
Lemma turned_hull x : hull3 p' x <-> hull3 p x.
Proof.
  destruct T as (N & P & _). unfold hull3. rewrite N. split; intros H pl Hp; apply H; intros v Hv; specialize (Hp v Hv); rewrite P in *; auto.
Qed.
Lemma realized_pos nh h q q' l0 l : (forall v i, 0 <= v < nv p -> q v i = q' v i) -> realized 3 (nv p) nh h q l0 l -> realized 3 (nv p) nh h q' l0 l.
Proof.
  intros Q A.
  assert (X : forall g v, upto (nv p) v -> linN 3 (l0 g) (l g) (q' v) = linN 3 (l0 g) (l g) (q v)) by (intros g v Hv; unfold linN; f_equal; apply SumR.lsum_ext; intros i _; now rewrite Q).
  split.
  - intros v i Hv Hi. rewrite X by auto. now apply A.
  - intros v g Hv Hg Y. rewrite X by auto. now apply (re_off _ _ _ _ _ _ _ A).
  - apply A.
  - intros v w Hv Hw Y. apply (re_inj _ _ _ _ _ _ _ A); auto. intros i Hi. rewrite !Q by auto. now apply Y.
Qed.
Lemma turned_solid : solid3 p -> solid3 p'.
Proof.
  intros (W & nh & lab & l0 & l & A & B & C). split; [now apply (turned_wf p)|]. destruct W as (W0 & W1 & W2). pose proof turned_at as TA. destruct T as (N & P & k & E).
  exists nh, (fun d => lab (phi k d)), l0, l. rewrite N. split; [now apply (labels_rot (nb (vb p)) _ _ k)|]. split; [|now apply turned_rot].
  apply realized_rot. eapply realized_pos; [|exact B]. intros v i Hv. symmetry. now apply TA.
Qed.
Lemma turned_facets m : facets3 p m -> facets3 p' m.
Proof.
  intros (W & nh & lab & Hn & A & B). split; [now apply (turned_wf p)|]. destruct W as (W0 & W1 & W2). pose proof turned_at as TA. destruct T as (N & P & k & E).
  exists nh, (fun d => lab (phi k d)). rewrite N. split; auto. split; [now apply (labels_rot (nb (vb p)) _ _ k)|].
  intros e He. destruct (B e He) as (q & l0 & l & B1 & B2 & B3). exists q, l0, l. split; [now apply realized_rot|]. split; [now apply turned_rot|].
  intros v i Hv Hi. rewrite TA by auto. now apply B3.
Qed.
Lemma turned_convex : convex3 p -> convex3 p'.
Proof.
  intros (W & nh & lab & A & B). split; [now apply (turned_wf p)|]. destruct W as (W0 & W1 & W2). pose proof turned_at as TA. destruct T as (N & P & k & E).
  exists nh, (fun d => lab (phi k d)). rewrite N. split; [now apply (labels_rot (nb (vb p)) _ _ k)|].
  intros e He. destruct (B e He) as (q & l0 & l & B1 & B2 & B3). exists q, l0, l. split; [now apply realized_rot|]. split; [now apply turned_rot|].
  intros v i Hv Hi. rewrite TA by auto. now apply B3.
Qed.
End P.
