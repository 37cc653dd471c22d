(** * Graph3: extensionality and a decision procedure for [wf3]; faces of small graphs. *)
From Coq Require Import ZArith List Bool Lia.
From Verif Require Import Base Lib ModelCommon CommonFacts Spec3 Orb3 FaceSpec3 Face3.
Import ListNotations.
Open Scope Z_scope.

Definition agree (f g : Z -> Z -> Z) (n : Z) : Prop := forall v i, 0 <= v < n -> 0 <= i < 3 -> f v i = g v i.
Lemma agree_sym f g n : agree f g n -> agree g f n.
Proof. intros H v i Hv Hi. symmetry. auto. Qed.

Section Ext.
Context (f g : Z -> Z -> Z) (n : Z).
Hypothesis A : agree f g n.
Lemma links_ext : links f (below n) -> links g (below n).
Proof.
  unfold below. intros [L1 L2 L3 L4]. cbn beta in *. constructor; cbn beta.
  - intros v i Hv Hi. rewrite <- A by auto. apply L1; auto.
  - intros v i Hv Hi. rewrite <- A by auto. apply L2; auto.
  - intros v i j Hv Hi Hj. rewrite <- !A by auto. apply L3; auto.
  - intros v i Hv Hi. destruct (L4 v i Hv Hi) as (j & Hj & E). exists j. split; auto.
    rewrite <- (A v i) by auto. rewrite <- A; auto.
Qed.
Hypothesis L : links f (below n).
Lemma dtgt_ext d : isd (below n) d -> dtgt f d = dtgt g d.
Proof. intros (H1 & H2). apply A; auto. Qed.
Lemma dopp_ext d : isd (below n) d -> dopp f d = dopp g d.
Proof.
  intros Hd. unfold dopp. rewrite <- (dtgt_ext d Hd). f_equal. unfold slot, dsrc.
  assert (Ht : below n (dtgt f d)) by (apply (l_rng _ _ L); apply Hd). unfold below in Ht.
  rewrite !(A (dtgt f d)) by (auto; lia). reflexivity.
Qed.
Lemma fnext_ext d : isd (below n) d -> fnext f d = fnext g d.
Proof. intros Hd. unfold fnext. now rewrite dopp_ext. Qed.
Lemma iter_fnext_isd k d : isd (below n) d -> isd (below n) (iter k (fnext f) d).
Proof. intros Hd. induction k; cbn [iter]; auto. apply isd_fnext; auto. Qed.
Lemma iter_fnext_ext k d : isd (below n) d -> iter k (fnext f) d = iter k (fnext g) d.
Proof.
  intros Hd. induction k; cbn [iter]; auto. rewrite <- IHk. apply fnext_ext, iter_fnext_isd; auto.
Qed.
Lemma same_face_ext d e : isd (below n) d -> same_face f d e <-> same_face g d e.
Proof. intros Hd. split; intros (k & ->); exists k; now rewrite iter_fnext_ext. Qed.
Lemma simple_ext : simple_faces f (below n) -> simple_faces g (below n).
Proof.
  intros P d e Hd He S1 S2. apply P; auto.
  - now apply same_face_ext.
  - rewrite (dopp_ext d Hd), (dopp_ext e He). apply same_face_ext; auto. rewrite <- (dopp_ext d Hd). apply isd_opp; auto.
Qed.
Lemma on_face_ext d e : isd (below n) d -> on_face f n d e = on_face g n d e.
Proof.
  intros Hd. unfold on_face. induction (seq 0 (Z.to_nat (3 * n))) as [|k l IH]; cbn [existsb]; auto.
  rewrite IH, iter_fnext_ext; auto.
Qed.
Lemma lead_ext d : isd (below n) d -> lead f n d = lead g n d.
Proof.
  intros Hd. unfold lead.
  assert (E : find (on_face f n d) (darts 3 n) = find (on_face g n d) (darts 3 n)).
  { induction (darts 3 n) as [|e l IH]; cbn [find]; auto. rewrite on_face_ext by auto. destruct (on_face g n d e); auto. }
  now rewrite E.
Qed.
End Ext.

Lemma wf3_ext {V W} (p : poly V) (q : poly W) : nv p = nv q -> agree (nb (vb p)) (nb (vb q)) (nv p) -> wf3 p -> wf3 q.
Proof.
  intros E A (Hn & L & P). unfold wf3. rewrite <- E. split; auto. split; [eapply links_ext; eauto|eapply simple_ext; eauto].
Qed.

(** ** A decision procedure *)
Definition deq (d e : dart) : bool := (fst d =? fst e) && (snd d =? snd e).
Lemma deq_eq d e : deq d e = true <-> d = e.
Proof.
  unfold deq. rewrite andb_true_iff, !Z.eqb_eq. destruct d, e; cbn. split; [intros (-> & ->); auto|].
  intros E. inversion E; auto.
Qed.
Definition links_b (f : Z -> Z -> Z) (n : Z) : bool :=
  forallb (fun d => inb n (dtgt f d) && negb (dtgt f d =? fst d)
     && forallb (fun j => (j =? snd d) || negb (f (fst d) j =? dtgt f d)) [0; 1; 2]
     && existsb (fun j => f (dtgt f d) j =? fst d) [0; 1; 2]) (darts 3 n).
Definition simple_b (f : Z -> Z -> Z) (n : Z) : bool :=
  forallb (fun d => forallb (fun e => deq d e
     || negb (on_face f n d e && on_face f n (dopp f d) (dopp f e))) (darts 3 n)) (darts 3 n).

Lemma in012 i : 0 <= i < 3 <-> In i [0; 1; 2].
Proof. cbn. lia. Qed.
Lemma links_b_ok f n : links_b f n = true -> links f (below n).
Proof.
  intros H. assert (G : forall v i, 0 <= v < n -> 0 <= i < 3 ->
     0 <= f v i < n /\ f v i <> v /\ (forall j, 0 <= j < 3 -> f v i = f v j -> i = j)
     /\ exists j, 0 <= j < 3 /\ f (f v i) j = v).
  { intros v i Hv Hi. unfold links_b in H. rewrite forallb_forall in H.
    specialize (H (v, i)). rewrite <- (isd_in n) in H. specialize (H (conj Hv Hi)).
    unfold dtgt in H. cbn [fst snd] in H.
    apply andb_true_iff in H as (H & H4). apply andb_true_iff in H as (H & H3). apply andb_true_iff in H as (H1 & H2).
    split. { unfold inb in H1. lia. } split; [lia|]. split.
    - intros j Hj E. rewrite forallb_forall in H3. apply in012 in Hj. apply H3 in Hj.
      rewrite E, Z.eqb_refl, orb_false_r in Hj. lia.
    - apply existsb_exists in H4 as (j & Hj & E). apply in012 in Hj. apply Z.eqb_eq in E. eauto. }
  unfold below. constructor.
  - intros v i Hv Hi. now apply G.
  - intros v i Hv Hi. now apply G.
  - intros v i j Hv Hi Hj. now apply G.
  - intros v i Hv Hi. now apply G.
Qed.
Lemma simple_b_ok f n : 0 <= n -> links f (below n) -> simple_b f n = true -> simple_faces f (below n).
Proof.
  intros Hn L H d e Hd He S1 S2. unfold simple_b in H. rewrite forallb_forall in H.
  specialize (H d (proj1 (isd_in n d) Hd)). rewrite forallb_forall in H.
  specialize (H e (proj1 (isd_in n e) He)). apply orb_true_iff in H as [H|H]; [now apply deq_eq|].
  exfalso. apply negb_true_iff, andb_false_iff in H. destruct H as [H|H].
  - rewrite (proj2 (on_face_spec f n L d e Hd)) in H; [discriminate|auto].
  - rewrite (proj2 (on_face_spec f n L (dopp f d) (dopp f e) (isd_opp f _ L d Hd))) in H; [discriminate|auto].
Qed.
Definition wf_b (f : Z -> Z -> Z) (n : Z) : bool := links_b f n && simple_b f n.
Lemma wf_b_ok {V} (p : poly V) f : 0 <= nv p -> wf_b f (nv p) = true -> agree f (nb (vb p)) (nv p) -> wf3 p.
Proof.
  intros Hn H A. apply andb_true_iff in H as (H1 & H2). pose proof (links_b_ok _ _ H1) as L.
  split; auto. split; [eapply links_ext; eauto|]. eapply simple_ext; eauto. apply simple_b_ok; auto.
Qed.

(** a graph given by a table *)
Definition table (l : list (Z * Z * Z)) (v i : Z) : Z :=
  match nth_error l (Z.to_nat v) with
  | Some (a, b, c) => if i =? 0 then a else if i =? 1 then b else c
  | None => 0
  end.

(** ** Faces of known length *)
Lemma same_face_period f d k : (0 < k)%nat -> iter k (fnext f) d = d ->
  forall e, same_face f d e -> exists j, (j < k)%nat /\ e = iter j (fnext f) d.
Proof.
  intros Hk E e (m & ->). exists (m mod k)%nat. split; [apply Nat.mod_upper_bound; lia|].
  rewrite (Nat.div_mod_eq m k) at 1. rewrite Nat.add_comm.
  assert (G : forall a, iter (k * a) (fnext f) d = d).
  { induction a; [rewrite Nat.mul_0_r; auto|]. replace (k * S a)%nat with (k * a + k)%nat by lia.
    rewrite iter_add. rewrite E. auto. }
  rewrite iter_add. now rewrite G.
Qed.
