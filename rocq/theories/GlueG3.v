(** * GlueG3: histories of API calls and witnesses for [r3d_is_good]. *)
From Coq Require Import Reals ZArith List Bool Lia.
From Verif Require Import Base Lib ModelCommon CommonFacts Model3 ModelGood Spec3 Orb3 Graph3 Small3 Glue2 Glue3 SpecGood Flood Conn Good3 ThreeConn
  RealNum Spec3R Prism3.
Import ListNotations.
Open Scope Z_scope.

Section H.
Variable N : num.
Variable MX : Z.
Notation pol := (poly (rvec3 (T N))).

(** Polyhedra that a program can build: initialise, then clip, split and transform
    as long as the calls report success.  The targets of the initialisers and the
    outputs of a split may hold anything beforehand. *)
Inductive api3 : pol -> Prop :=
| api_tet p0 q0 q1 q2 q3 p : r3d_init_tet N MX p0 q0 q1 q2 q3 = OK p -> api3 p
| api_box p0 lo hi p : r3d_init_box N MX p0 lo hi = OK p -> api3 p
| api_clip p planes p' : api3 p -> r3d_clip N MX p planes = OK (p', 1) -> api3 p'
| api_split_0 pl ins outs k p ab q o0 o1 : r3d_split N MX pl ins = OK (outs, 1) ->
    nth_error ins k = Some (p, ab) -> nth_error outs k = Some (q, (o0, o1)) -> api3 p -> api3 o0
| api_split_1 pl ins outs k p ab q o0 o1 : r3d_split N MX pl ins = OK (outs, 1) ->
    nth_error ins k = Some (p, ab) -> nth_error outs k = Some (q, (o0, o1)) -> api3 p -> api3 o1
| api_rotate p th ax p' : api3 p -> r3d_rotate N MX p th ax = OK p' -> api3 p'
| api_translate p sh p' : api3 p -> r3d_translate N MX p sh = OK p' -> api3 p'
| api_scale p s p' : api3 p -> r3d_scale N MX p s = OK p' -> api3 p'
| api_shear p s b a p' : api3 p -> r3d_shear N MX p s b a = OK p' -> api3 p'
| api_affine p m p' : api3 p -> r3d_affine N MX p m = OK p' -> api3 p'.

Lemma map_pos3_links (f : rvec3 (T N) -> res (rvec3 (T N))) (p p' : pol) : wf3 p -> nv p <= MX -> map_pos3 N MX f p = OK p' -> wf3 p' /\ nv p' <= MX.
Proof.
  intros Hw HM E. unfold map_pos3 in E. apply bind_OK in E as (b & Eb & E). inversion E; subst p'. clear E.
  assert (nb b = nb (vb p)).
  { pose proof Hw as (Hn & _).
    apply (for_inv_ok (fun _ b => nb b = nb (vb p)) 0 (nv p) _ (vb p) b) in Eb; auto.
    intros v s s' _ I E. apply bind_OK in E as (q & _ & E). apply bind_OK in E as (q' & _ & E).
    unfold wr_ps in E. destruct (inb MX v); inversion E; subst. exact I. }
  destruct Hw as (A & B). cbn [nv]. split; auto. unfold wf3. cbn [vb nv]. rewrite H. auto.
Qed.

Lemma F2_nth {A B} (P : A -> B -> Prop) l l' : Forall2 P l l' -> forall k a b, nth_error l k = Some a -> nth_error l' k = Some b -> P a b.
Proof.
  induction 1; intros [|k] a b; cbn; try discriminate.
  - intros E E'. inversion E; inversion E'; subst; auto.
  - apply IHForall2.
Qed.

Lemma api3_wf (p : pol) : 8 <= MX -> api3 p -> wf3 p /\ nv p <= MX.
Proof.
  intros HM A. induction A.
  - destruct (init_tet_spec N MX p0 q0 q1 q2 q3 ltac:(lia)) as (p' & E & E4 & Ag & _). rewrite E in H. inversion H; subst p'.
    split; [now apply tet_wf|lia].
  - destruct (init_box_spec3 N MX p0 lo hi ltac:(lia)) as (p' & E & E8 & Ag & _). rewrite E in H. inversion H; subst p'.
    split; [now apply box_wf|lia].
  - destruct IHA. now apply (r3d_clip_linked N MX p p' planes).
  - destruct IHA as (W & M). destruct (F2_nth _ _ _ (r3d_split_linked N MX pl ins outs H) k _ _ H0 H1 W M) as (X & _ & Y & _). auto.
  - destruct IHA as (W & M). destruct (F2_nth _ _ _ (r3d_split_linked N MX pl ins outs H) k _ _ H0 H1 W M) as (_ & X & _ & Y). auto.
  - destruct IHA as (W & M). apply (map_pos3_links _ p p' W M H).
  - destruct IHA as (W & M). apply (map_pos3_links _ p p' W M H).
  - destruct IHA as (W & M). apply (map_pos3_links _ p p' W M H).
  - destruct IHA as (W & M). apply (map_pos3_links _ p p' W M H).
  - destruct IHA as (W & M). apply (map_pos3_links _ p p' W M H).
Qed.

Lemma api3_good (p : pol) : 8 <= MX -> api3 p -> wf3 p /\ nv p <= MX /\ (2 * nv p + 1 <= MX -> r3d_is_good MX p = OK 1).
Proof.
  intros HM A. destruct (api3_wf p HM A) as (W & M). split; auto. split; auto. intros H.
  destruct (wf3_is_good MX p W M) as [|(_ & C)]; auto. lia.
Qed.
End H.

(** ** the stack overflow *)
Section Over.
Context (n : Z) (Hn3 : 3 <= n) {V : Type} (pos : Z -> V).
Notation MX := (2 * n).
Notation b := (VB (prism_nb n) pos).
Notation st := ((Z -> Z) * (Z -> option Z) * Z)%type.
(** vertex on top of the stack after [k] rounds *)
Definition topv (k : Z) : Z := if k =? 0 then 0 else n - k.

Definition PI (k : Z) (s : st) : Prop :=
  let '(mk, stk, sz) := s in
  sz = 2 * k + 1 /\ stk (2 * k) = Some (topv k) /\ (forall x, 0 < x <= n - k \/ x = 0 /\ k = 0 -> mk x = 0).

Lemma prism_step k s : 0 <= k < n - 1 -> PI k s -> exists s', flood_step MX 3 b 1 s = OK s' /\ PI (k + 1) s'.
Proof.
  intros Hk. destruct s as ((mk, stk), sz). intros (-> & T & M). cbn [flood_step].
  replace (2 * k + 1 - 1) with (2 * k) by lia.
  assert (Ht : 0 <= topv k < n) by (unfold topv; destruct (Z.eqb_spec k 0); lia).
  unfold rdi. rewrite inb_true by lia. rewrite T. cbn [bind]. rewrite rd_ok by lia. cbn [bind].
  rewrite M by (unfold topv; destruct (Z.eqb_spec k 0); lia). cbn [Z.eqb]. rewrite wr_ok by lia. cbn [bind].
  assert (R : forall v i, 0 <= v < MX -> 0 <= i < 3 -> 0 <= nb b v i < MX).
  { intros v i Hv Hi. apply (l_rng _ _ (prism_links n Hn3) v i Hv Hi). }
  destruct (push_nbrs_spec MX 3 b MX ltac:(lia) ltac:(lia) (topv k) stk (2 * k) ltac:(lia) ltac:(lia)) as [(stk' & E & B & P1 & P2)|(E & B)]; [|lia].
  rewrite E. cbn [bind]. eexists. split; [reflexivity|]. split; [lia|]. split.
  - replace (2 * (k + 1)) with (2 * k + 2) by lia. rewrite P2 by lia. f_equal. cbn [nb].
    destruct (nb_bot n (topv k) Ht) as (_ & _ & ->). unfold pv, topv.
    destruct (Z.eqb_spec k 0), (Z.eqb_spec (k + 1) 0); subst; cbn [Z.eqb]; try lia. destruct (Z.eqb_spec (n - k) 0); lia.
  - intros x Hx. unfold upd. destruct (Z.eqb_spec x (topv k)) as [->|]; [|apply M; lia].
    unfold topv in *. destruct (Z.eqb_spec k 0); lia.
Qed.
Lemma prism_last s : PI (n - 1) s -> flood_step MX 3 b 1 s = Err OutOfBounds.
Proof.
  destruct s as ((mk, stk), sz). intros (-> & T & M). cbn [flood_step].
  replace (2 * (n - 1) + 1 - 1) with (2 * (n - 1)) by lia.
  assert (Ht : topv (n - 1) = 1) by (unfold topv; destruct (Z.eqb_spec (n - 1) 0); lia).
  unfold rdi. rewrite inb_true by lia. rewrite T, Ht. cbn [bind]. rewrite rd_ok by lia. cbn [bind].
  rewrite M by lia. cbn [Z.eqb]. rewrite wr_ok by lia. cbn [bind].
  assert (R : forall v i, 0 <= v < MX -> 0 <= i < 3 -> 0 <= nb b v i < MX).
  { intros v i Hv Hi. apply (l_rng _ _ (prism_links n Hn3) v i Hv Hi). }
  destruct (push_nbrs_spec MX 3 b MX ltac:(lia) ltac:(lia) 1 stk (2 * (n - 1)) ltac:(lia) ltac:(lia)) as [(stk' & E & B & _)|(E & B)]; [lia|].
  now rewrite E.
Qed.
Lemma prism_loop fuel : forall k s, 0 <= k <= n - 1 -> PI k s -> n - k <= Z.of_nat fuel ->
  while_ fuel (fun s => 0 <? snd s) (flood_step MX 3 b 1) s = Err OutOfBounds.
Proof.
  induction fuel; intros k s Hk I F; [lia|]. cbn [while_].
  assert (C : (0 <? snd s) = true). { destruct s as ((mk, stk), sz). destruct I as (-> & _). cbn [snd]. apply Z.ltb_lt. lia. }
  rewrite C. destruct (Z.eq_dec k (n - 1)) as [->|].
  - now rewrite prism_last.
  - destruct (prism_step k s ltac:(lia) I) as (s' & -> & I'). cbn [bind]. apply (IHfuel (k + 1)); auto; lia.
Qed.

Lemma prism_is_good : r3d_is_good MX (prism n pos) = Err OutOfBounds.
Proof.
  set (p := prism n pos). destruct (prism_wf n Hn3 pos) as (H0 & L & SF).
  assert (Hn : 0 <= nv p <= MX) by (change (nv p) with (2 * n); lia).
  pose proof (lk_rng _ _ L) as R. pose proof (links_regular _ _ H0 L) as Rg.
  unfold r3d_is_good. destruct (consistent_spec MX p Hn (fun v i Hv Hi => proj1 (R v i Hv Hi))) as (s & E & H). rewrite E. cbn [bind].
  destruct s as [vct|].
  2: { exfalso. destruct H as (v & Hv & Nv). apply Nv. destruct (Rg v Hv) as (A & B & _). split; auto. }
  destruct H as (_ & H2). destruct (counts_ok_spec MX 3 (nv p) Hn vct) as (ok & Ec & Hok). rewrite Ec. cbn [bind].
  replace ok with true. 2: { symmetry. apply Hok. intros v Hv. rewrite H2. apply (Rg v Hv). }
  unfold components. rewrite for_first by (change (nv p) with (2 * n); lia). cbn [fst snd]. rewrite rd_ok by lia. cbn [bind Z.eqb].
  unfold flood. rewrite wr_ok by lia. cbn [bind]. change (vb p) with b.
  rewrite (prism_loop _ 0); [reflexivity|lia| |lia].
  split; auto.
Qed.
End Over.

Lemma is_good_overflow : exists p : poly (rvec3 R), wf3 p /\ planar_faces p /\ nv p = 512
  /\ (forall e, isd (below (nv p)) e -> exists g, proper g
        /\ (forall e', same_face (nb (vb p)) e e' -> sdist3 g (ps (vb p) (fst e')) = 0%R)
        /\ (forall v, 0 <= v < nv p -> (0 <= sdist3 g (ps (vb p) v))%R))
  /\ r3d_is_good 512 p = Err OutOfBounds.
Proof.
  exists (par_prism 256). split; [apply prism_wf; lia|]. split; [apply prism_planar; lia|]. split; [reflexivity|].
  split; [apply (prism_convex 256); lia|]. apply (prism_is_good 256 ltac:(lia) (prism_pos 256)).
Qed.

(** ** accepted although no link is returned *)
Definition oneway {V} (pos : Z -> V) : poly V := PY (VB (fun v i => (v + 2 ^ i) mod 7) pos) 7.
Lemma oneway_good : r3d_is_good 512 (oneway (fun _ => V3 0%R 0%R 0%R)) = OK 1.
Proof. vm_compute. reflexivity. Qed.
Lemma oneway_false : exists p : poly (rvec3 R), r3d_is_good 512 p = OK 1 /\ 0 < nv p <= 512
  /\ (forall v i, 0 <= v < nv p -> 0 <= i < 3 -> 0 <= nb (vb p) v i < nv p)
  /\ forall v i j, 0 <= v < nv p -> 0 <= i < 3 -> 0 <= j < 3 -> nb (vb p) (nb (vb p) v i) j <> v.
Proof.
  exists (oneway (fun _ => V3 0%R 0%R 0%R)). split; [exact oneway_good|]. cbn [nv vb nb oneway]. split; [lia|].
  split; [intros; apply Z.mod_pos_bound; lia|]. intros v i j Hv Hi Hj.
  assert (v = 0 \/ v = 1 \/ v = 2 \/ v = 3 \/ v = 4 \/ v = 5 \/ v = 6) as [->|[->|[->|[->|[->|[->| ->]]]]]] by lia;
  (destruct (slot3 i Hi) as [->|[->| ->]]); (destruct (slot3 j Hj) as [->|[->| ->]]); vm_compute; discriminate.
Qed.

(** the decision in the three forms used below *)
Lemma is_good_exact {V} MX (p : poly V) r : 0 <= nv p <= MX ->
  (forall v i, 0 <= v < nv p -> 0 <= i < 3 -> 0 <= nb (vb p) v i) -> r3d_is_good MX p = OK r ->
  (r = 0 \/ r = 1) /\ (r = 1 <-> regular (nb (vb p)) 3 (nv p) /\ conn3_least (nb (vb p)) (nv p)).
Proof.
  intros Hn NN E. destruct (is_good3_spec MX p Hn NN) as [(r' & E' & A)|(E' & _)]; rewrite E in E'; inversion E'; subst; auto.
Qed.
Lemma is_good_mutual {V} MX (p : poly V) r : 0 <= nv p <= MX ->
  (forall v i, 0 <= v < nv p -> 0 <= i < 3 -> 0 <= nb (vb p) v i < nv p) -> mutual (nb (vb p)) 3 (nv p) ->
  r3d_is_good MX p = OK r ->
  (r = 0 \/ r = 1) /\ (r = 1 <-> regular (nb (vb p)) 3 (nv p) /\ conn3 (nb (vb p)) (nv p)).
Proof.
  intros Hn R M E. destruct (is_good_exact MX p r Hn (fun v i Hv Hi => proj1 (R v i Hv Hi)) E) as (A & B).
  split; auto. now rewrite <- (conn3_mutual _ _ R M).
Qed.
Lemma is_good_room {V} MX (p : poly V) : 0 <= nv p -> 2 * nv p + 1 <= MX ->
  (forall v i, 0 <= v < nv p -> 0 <= i < 3 -> 0 <= nb (vb p) v i) -> exists r, r3d_is_good MX p = OK r.
Proof.
  intros Hn HM NN. destruct (is_good3_spec MX p ltac:(lia) NN) as [(r & E & _)|(_ & C)]; eauto. lia.
Qed.

(** two tetrahedra joined into a ring through a cut edge each: mutual links, but
    removing one vertex of each joint disconnects the rest *)
Definition necklace : poly (rvec3 R) :=
  PY (VB (table [(1, 2, 7); (0, 2, 3); (0, 1, 3); (1, 2, 4); (5, 6, 3); (4, 6, 7); (4, 5, 7); (5, 6, 0)]) (fun _ => V3 0%R 0%R 0%R)) 8.
Lemma necklace_bad : r3d_is_good 512 necklace = OK 0 /\ links (nb (vb necklace)) (below 8).
Proof. split; [vm_compute; reflexivity|]. apply links_b_ok. vm_compute. reflexivity. Qed.
