(** * Orb3: darts, opposite darts and face orbits of a linked graph. *)
From Coq Require Import ZArith List Bool Lia.
From Verif Require Import Base Lib ModelCommon Spec3.
Import ListNotations.
Open Scope Z_scope.

Lemma slot3 i : 0 <= i < 3 -> i = 0 \/ i = 1 \/ i = 2.
Proof. lia. Qed.
Lemma mod3_range x : 0 <= x mod 3 < 3.
Proof. apply Z.mod_pos_bound. lia. Qed.
Lemma drot_inj d e : 0 <= snd d < 3 -> 0 <= snd e < 3 -> drot d = drot e -> d = e.
Proof.
  destruct d as [v i], e as [w j]. unfold drot. cbn [fst snd]. intros Hi Hj E.
  apply pair_equal_spec in E as (-> & E). f_equal.
  destruct (slot3 i Hi) as [->|[->| ->]], (slot3 j Hj) as [->|[->| ->]]; cbn in E; lia.
Qed.

Section Orb.
Context (f : Z -> Z -> Z) (Dom : Z -> Prop).
Notation dtgt := (dtgt f). Notation dopp := (dopp f). Notation fnext := (fnext f).
Notation isd := (isd Dom). Notation slot := (slot f). Notation same_face := (same_face f).

Lemma slot_range u v : 0 <= slot u v < 3.
Proof. unfold Spec3.slot. destruct (f u 0 =? v), (f u 1 =? v); lia. Qed.

Section L.
Hypothesis L : links f Dom.

Lemma slot_eq u v i : Dom u -> 0 <= i < 3 -> f u i = v -> slot u v = i.
Proof.
  intros Du Hi E. unfold Spec3.slot.
  destruct (Z.eqb_spec (f u 0) v) as [E0|E0].
  - apply (l_dist _ _ L u); auto; lia || congruence.
  - destruct (Z.eqb_spec (f u 1) v) as [E1|E1].
    + apply (l_dist _ _ L u); auto; lia || congruence.
    + destruct (slot3 i Hi) as [->|[->| ->]]; congruence.
Qed.
Lemma slot_back d : isd d -> f (dtgt d) (slot (dtgt d) (dsrc d)) = dsrc d.
Proof.
  intros (Dd & Hd). destruct (l_mut _ _ L (fst d) (snd d) Dd Hd) as (j & Hj & E).
  rewrite (slot_eq _ _ j); auto. apply (l_rng _ _ L); auto.
Qed.
Lemma isd_opp d : isd d -> isd (dopp d).
Proof. intros (Dd & Hd). split; cbn; [apply (l_rng _ _ L); auto|apply slot_range]. Qed.
Lemma isd_rot d : isd d -> isd (drot d).
Proof. intros (Dd & Hd). split; cbn; auto. apply mod3_range. Qed.
Lemma isd_fnext d : isd d -> isd (fnext d).
Proof. intros. apply isd_rot, isd_opp; auto. Qed.
Lemma isd_iter k d : isd d -> isd (iter k fnext d).
Proof. intros. induction k; cbn; auto. apply isd_fnext; auto. Qed.
Lemma dtgt_opp d : isd d -> dtgt (dopp d) = dsrc d.
Proof. intros. unfold Spec3.dtgt at 1. cbn. now apply slot_back. Qed.
Lemma opp_opp d : isd d -> dopp (dopp d) = d.
Proof.
  intros Hd. unfold Spec3.dopp at 1. rewrite dtgt_opp by auto. destruct Hd as (Dd & Hi).
  destruct d as [v i]. cbn in *. f_equal. apply slot_eq; auto.
Qed.
Lemma opp_inj d e : isd d -> isd e -> dopp d = dopp e -> d = e.
Proof. intros Hd He E. rewrite <- (opp_opp d), <- (opp_opp e) by auto. now rewrite E. Qed.
Lemma opp_neq d : isd d -> dopp d <> d.
Proof.
  intros (Dd & Hd) E. apply (l_self _ _ L (fst d) (snd d)); auto.
  change (f (fst d) (snd d)) with (fst (dopp d)). now rewrite E.
Qed.
Lemma fnext_inj d e : isd d -> isd e -> fnext d = fnext e -> d = e.
Proof.
  intros Hd He E. apply opp_inj; auto. apply drot_inj; auto; apply isd_opp; auto.
Qed.
Lemma iter_inj k d e : isd d -> isd e -> iter k fnext d = iter k fnext e -> d = e.
Proof.
  induction k; cbn; auto. intros Hd He E. apply IHk; auto.
  apply fnext_inj; auto; apply isd_iter; auto.
Qed.
Lemma fnext_opp d : isd d -> fnext (dopp d) = drot d.
Proof. intros. unfold Spec3.fnext. now rewrite opp_opp. Qed.
Lemma fst_fnext d : fst (fnext d) = dtgt d.
Proof. reflexivity. Qed.

Lemma sf_refl d : same_face d d.
Proof. exists O. reflexivity. Qed.
Lemma sf_trans d e g : same_face d e -> same_face e g -> same_face d g.
Proof. intros (k & ->) (l & ->). exists (l + k)%nat. now rewrite iter_add. Qed.
Lemma sf_step d : same_face d (fnext d).
Proof. exists 1%nat. reflexivity. Qed.
Lemma sf_isd d e : isd d -> same_face d e -> isd e.
Proof. intros Hd (k & ->). apply isd_iter; auto. Qed.

Context (n : Z) (Hb : forall v, Dom v -> 0 <= v < n).

Lemma orbit_period d : isd d -> exists p, (0 < p <= Z.to_nat (3 * n))%nat /\ iter p fnext d = d.
Proof.
  intros Hd. pose proof (Hb _ (proj1 Hd)).
  destruct (pigeonhole (fun k => let e := iter k fnext d in 3 * fst e + snd e) (3 * n))
    as (i & j & Hij & E).
  - lia.
  - intros k _. destruct (isd_iter k d Hd) as (D1 & D2). pose proof (Hb _ D1). cbv beta zeta. lia.
  - cbv beta zeta in E.
    assert (E' : iter i fnext d = iter j fnext d).
    { destruct (isd_iter i d Hd) as (_ & I2), (isd_iter j d Hd) as (_ & J2).
      destruct (iter i fnext d), (iter j fnext d). cbn [fst snd] in *. f_equal; lia. }
    exists (j - i)%nat. split; [lia|].
    apply (iter_inj i); auto; [apply isd_iter; auto|].
    rewrite <- iter_add. replace (i + (j - i))%nat with j by lia. auto.
Qed.
Lemma iter_period p k d : iter p fnext d = d -> iter (k * p) fnext d = d.
Proof. intros E. induction k; cbn; auto. now rewrite iter_add, IHk. Qed.
Lemma sf_sym d e : isd d -> same_face d e -> same_face e d.
Proof.
  intros Hd (k & ->). destruct (orbit_period d Hd) as (p & Hp & E).
  exists (k * p - k)%nat. rewrite <- iter_add.
  replace (k * p - k + k)%nat with (k * p)%nat by nia. now rewrite iter_period.
Qed.
(** a bounded number of steps reaches every dart of the face *)
Lemma sf_bound d e : isd d -> same_face d e -> exists k, (k < Z.to_nat (3 * n))%nat /\ e = iter k fnext d.
Proof.
  intros Hd (k & ->). destruct (orbit_period d Hd) as (p & Hp & E).
  exists (k mod p)%nat. split; [pose proof (Nat.mod_upper_bound k p); lia|].
  rewrite (Nat.div_mod_eq k p) at 1. rewrite Nat.add_comm, iter_add.
  rewrite Nat.mul_comm. now rewrite iter_period.
Qed.
Lemma fnext_surj e : isd e -> exists d, isd d /\ fnext d = e.
Proof.
  intros He. destruct (orbit_period e He) as (p & Hp & E).
  exists (iter (p - 1) fnext e). split; [apply isd_iter; auto|].
  replace p with (S (p - 1)) in E by lia. exact E.
Qed.

(** no edge has the same face on both sides *)
Lemma sf_opp d : simple_faces f Dom -> isd d -> ~ same_face d (dopp d).
Proof.
  intros P Hd S. apply (opp_neq d Hd). symmetry. apply P; auto; [apply isd_opp; auto|].
  rewrite opp_opp by auto. apply sf_sym; auto.
Qed.
End L.
End Orb.
