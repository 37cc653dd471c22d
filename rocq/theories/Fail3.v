(** * Fail3: what a failed r3d_clip leaves behind, and a polyhedron made of many
    tetrahedra on which it fails. *)
From Coq Require Import Reals ZArith List Bool Lia Lra Psatz.
From Verif Require Import Base Lib ModelCommon CommonFacts Model3 Spec2 Spec3 Orb3 Cut3 Clip2 Struct3 Clip3 FaceSpec3
  HPoly HInt RealNum SumR Spec3R Mom3 Geo3 CutSum3 Cons3 Graph3 Small3.
Import ListNotations.
Open Scope Z_scope.

Section Stale.
Context (NN : num) (MX : Z).
Notation pol := (poly (rvec3 (T NN))).
Notation buf := (vbuf (rvec3 (T NN))).

Definition stale (n : Z) (b0 : buf) (s : buf * Z * bool) : Prop :=
  let '(b, nverts, ok) := s in
  n <= nverts /\ (forall v k, n <= v -> k <> 0 -> nb b v k = nb b0 v k) /\ (ok = false -> nverts = MX).

Lemma wr_nb_inv (b b' : buf) v k x : wr_nb MX 3 b v k x = OK b' -> nb b' = set_nb (nb b) v k x.
Proof. unfold wr_nb. destruct (_ && _); intros E; inversion E; auto. Qed.
Lemma wr_ps_inv (b b' : buf) v x : wr_ps MX b v x = OK b' -> nb b' = nb b.
Proof. unfold wr_ps. destruct (inb _ _); intros E; inversion E; auto. Qed.

Lemma ins_np_stale n b0 sds cl vcur np s s' : 0 <= vcur < n -> stale n b0 s ->
  clip3_ins_np NN MX sds cl vcur np s = OK s' -> stale n b0 s'.
Proof.
  destruct s as [[b nverts] ok]. intros Hv (H1 & H2 & H3) E. unfold clip3_ins_np in E.
  destruct ok; cbn [negb] in E; [|inversion E; subst; cbn; auto].
  apply bind_OK in E as (vn & _ & E). apply bind_OK in E as (c & _ & E).
  destruct (c =? 0); [inversion E; subst; cbn; auto|].
  destruct (Z.eqb_spec nverts MX); [inversion E; subst; cbn; auto|].
  apply bind_OK in E as (b1 & E1 & E). apply bind_OK in E as (b2 & E2 & E).
  apply bind_OK in E as (pc & _ & E). apply bind_OK in E as (sn & _ & E).
  apply bind_OK in E as (pn & _ & E). apply bind_OK in E as (sc & _ & E).
  apply bind_OK in E as (b3 & E3 & E).
  apply wr_nb_inv in E1, E2. apply wr_ps_inv in E3. inversion E; subst. cbn. split; [lia|]. split; [|discriminate].
  intros v k Hvk Hk. rewrite E3, E2. rewrite set_nb_neq_v by lia. rewrite E1, set_nb_neq_p by auto. auto.
Qed.

Lemma cut_stale n (b0 : buf) sds cl p' : 0 <= n -> clip3_cut NN MX b0 n sds cl = OK (p', false) ->
  nv p' = MX /\ forall v k, n <= v -> k <> 0 -> nb (vb p') v k = nb b0 v k.
Proof.
  intros Hn E. unfold clip3_cut in E. apply bind_OK in E as ([[b nverts] ok] & E1 & E).
  apply (for_inv_ok (fun _ => stale n b0)) in E1; auto.
  - destruct E1 as (_ & H2 & H3). destruct ok; cbn [negb] in E.
    + apply bind_OK in E as (? & _ & E). apply bind_OK in E as (? & _ & E). inversion E.
    + inversion E; subst. cbn. auto.
  - cbn. split; [lia|]. split; auto. discriminate.
  - intros v s s' Hv HS EE. unfold clip3_ins_v in EE. apply bind_OK in EE as (c & _ & EE).
    destruct (c =? 0); [|inversion EE; subst; auto].
    apply (for_inv_ok (fun _ => stale n b0)) in EE; auto; [lia|].
    intros np t t' _ HT ET. exact (ins_np_stale n b0 sds cl v np t t' ltac:(lia) HT ET).
Qed.

(** a clip that fails for lack of room ends with the buffer full and with the
    vertices inserted by the last plane still missing two of their links *)
Lemma clip3_planes_stale planes : forall (p p' : pol), wf3 p -> nv p <= MX -> clip3_planes NN MX planes p = OK (p', 0) ->
  exists pre q, (exists pl post, planes = pre ++ pl :: post) /\ clip3_planes NN MX pre p = OK (q, 1)
   /\ wf3 q /\ nv q <= MX /\ nv p' = MX /\ forall v k, nv q <= v -> k <> 0 -> nb (vb p') v k = nb (vb q) v k.
Proof.
  induction planes as [|pl rest IH]; intros p p' Hw HM E; [inversion E|].
  pose proof E as E0. cbn [clip3_planes] in E. apply bind_OK in E as (s & Es & E).
  destruct (nle NN (n0 NN) (smin3 NN s)) eqn:E1.
  { destruct (IH p p' Hw HM E) as (pre & q & (pl' & post & ->) & A & B).
    exists (pl :: pre), q. split; [exists pl', post; auto|]. split; auto. cbn [clip3_planes]. rewrite Es. cbn [bind].
    rewrite E1. auto. }
  destruct (nle NN (smax3 NN s) (n0 NN)) eqn:E2; [inversion E|].
  apply bind_OK in E as ([q ok] & Ec & E).
  destruct (clip3_step_spec NN MX p pl s Hw HM Es) as [(p2 & Q1 & Q2 & Q3)|(p2 & Q1 & Q2)]; rewrite Q1 in Ec; inversion Ec; subst.
  - destruct (cut_of_wf NN p _ _ _ q Hw Q3) as (W' & M').
    destruct (IH q p' W' ltac:(lia) E) as (pre & q' & (pl' & post & ->) & A & B).
    exists (pl :: pre), q'. split; [exists pl', post; auto|]. split; auto. cbn [clip3_planes]. rewrite Es. cbn [bind].
    rewrite E1, E2, Q1. cbn [bind]. auto.
  - inversion E; subst. destruct (cut_stale (nv p) (vb p) _ _ p' (proj1 Hw) Q1) as (C1 & C2).
    exists [], p. split; [exists pl, rest; auto|]. split; auto.
Qed.

Lemma r3d_clip_pre (p : pol) planes : 0 < nv p -> r3d_clip NN MX p planes = clip3_planes NN MX planes p.
Proof. intros. unfold r3d_clip. destruct (Z.leb_spec (nv p) 0); [lia|auto]. Qed.
End Stale.

(** ** [k] tetrahedra *)
Section Tets.
Context {V : Type} (k : Z) (pos : Z -> V).
(** unused entries of the buffer are zero *)
Definition tets_nb (v s : Z) : Z := if v <? 4 * k then 4 * (v / 4) + tet_tab (v mod 4) s else 0.
Definition tets : poly V := PY (VB tets_nb pos) (4 * k).

Lemma tet_tab_links : links tet_tab (below 4) /\ simple_faces tet_tab (below 4).
Proof.
  destruct (wf_b_ok (PY (VB tet_tab (fun _ => 0)) 4) tet_tab) as (_ & A & B); cbn; [lia|vm_compute; reflexivity| |auto].
  intros v s _ _. reflexivity.
Qed.
Let L4 := proj1 tet_tab_links.

Definition dm4 (d : dart) : dart := (fst d mod 4, snd d).
Lemma tets_at v s : 0 <= v < 4 * k -> 0 <= s < 3 ->
  tets_nb v s mod 4 = tet_tab (v mod 4) s /\ tets_nb v s / 4 = v / 4 /\ 0 <= tets_nb v s < 4 * k.
Proof.
  intros Hv Hs. unfold tets_nb. destruct (Z.ltb_spec v (4 * k)); [|lia].
  pose proof (l_rng _ _ L4 (v mod 4) s (Z.mod_pos_bound v 4 ltac:(lia)) Hs) as R. unfold below in R.
  pose proof (Z.div_mod v 4 ltac:(lia)). pose proof (Z.mod_pos_bound v 4 ltac:(lia)).
  set (r := tet_tab (v mod 4) s) in *. split; [|split].
  - rewrite Z.add_comm, Z.mul_comm, Z.mod_add, Z.mod_small; lia.
  - rewrite Z.add_comm, Z.mul_comm, Z.div_add, Z.div_small; lia.
  - lia.
Qed.
Lemma dm4_inj u v : u mod 4 = v mod 4 -> u / 4 = v / 4 -> u = v.
Proof. intros A B. rewrite (Z.div_mod u 4), (Z.div_mod v 4) by lia. lia. Qed.
Lemma mod4_b v : below 4 (v mod 4). Proof. unfold below. apply Z.mod_pos_bound. lia. Qed.

Lemma tets_links : links tets_nb (below (4 * k)).
Proof.
  constructor; unfold below.
  - intros v i Hv Hi. now apply tets_at.
  - intros v i Hv Hi E. destruct (tets_at v i Hv Hi) as (A & B & C). rewrite E in A.
    symmetry in A. revert A. apply (l_self _ _ L4); auto. apply mod4_b.
  - intros v i j Hv Hi Hj E. apply (l_dist _ _ L4 (v mod 4)); auto; [apply mod4_b|].
    rewrite <- (proj1 (tets_at v i Hv Hi)), <- (proj1 (tets_at v j Hv Hj)). now rewrite E.
  - intros v i Hv Hi. destruct (tets_at v i Hv Hi) as (A & B & C).
    destruct (l_mut _ _ L4 (v mod 4) i (mod4_b v) Hi) as (j & Hj & E). exists j. split; auto.
    destruct (tets_at (tets_nb v i) j C Hj) as (A' & B' & C').
    apply dm4_inj; [rewrite A', A; auto|lia].
Qed.

Lemma dopp_dm4 d : isd (below (4 * k)) d -> dm4 (dopp tets_nb d) = dopp tet_tab (dm4 d)
  /\ fst (dopp tets_nb d) / 4 = fst d / 4.
Proof.
  intros (Hv & Hi). unfold below in Hv. destruct d as [v i]. cbn [fst snd] in *.
  destruct (tets_at v i Hv Hi) as (A & B & C). unfold dopp, dm4, dtgt, dsrc. cbn [fst snd].
  rewrite A. split; auto. f_equal.
  assert (X : forall j, 0 <= j < 3 -> (tets_nb (tets_nb v i) j =? v) = (tet_tab (tet_tab (v mod 4) i) j =? v mod 4)).
  { intros j Hj. destruct (tets_at _ j C Hj) as (A' & B' & C'). rewrite A in A'.
    destruct (Z.eqb_spec (tets_nb (tets_nb v i) j) v) as [E|E]; symmetry.
    - apply Z.eqb_eq. rewrite <- A', E. auto.
    - apply Z.eqb_neq. intros E'. apply E. apply dm4_inj; [congruence|lia]. }
  unfold slot. rewrite !X by lia. reflexivity.
Qed.
Lemma fnext_dm4 d : isd (below (4 * k)) d -> dm4 (fnext tets_nb d) = fnext tet_tab (dm4 d)
  /\ fst (fnext tets_nb d) / 4 = fst d / 4 /\ isd (below (4 * k)) (fnext tets_nb d).
Proof.
  intros Hd. destruct (dopp_dm4 d Hd) as (A & B). split; [|split].
  - unfold fnext, drot. rewrite <- A. reflexivity.
  - exact B.
  - split; [apply (l_rng _ _ tets_links); apply Hd|]. unfold fnext, drot. cbn [snd]. apply Z.mod_pos_bound. lia.
Qed.
Lemma iter_dm4 m : forall d, isd (below (4 * k)) d -> dm4 (iter m (fnext tets_nb) d) = iter m (fnext tet_tab) (dm4 d)
  /\ fst (iter m (fnext tets_nb) d) / 4 = fst d / 4 /\ isd (below (4 * k)) (iter m (fnext tets_nb) d).
Proof.
  induction m as [|m IH]; intros d Hd; cbn [iter]; auto.
  destruct (IH d Hd) as (E & F & G). destruct (fnext_dm4 _ G) as (A & B & C). rewrite A, B, E, F. auto.
Qed.
Lemma dopp_isd d : isd (below (4 * k)) d -> isd (below (4 * k)) (dopp tets_nb d).
Proof.
  intros Hd. split; [apply (l_rng _ _ tets_links); apply Hd|]. unfold dopp, slot. cbn [snd].
  destruct (_ =? _); [lia|]. destruct (_ =? _); lia.
Qed.

Lemma tets_wf : 0 <= k -> wf3 tets.
Proof.
  intros Hk. split; [cbn -[Z.mul]; lia|]. split; [exact tets_links|]. cbn [tets nb vb nv].
  intros d e Hd He (m & Em) (m' & Em').
  destruct (iter_dm4 m d Hd) as (A & B & _). rewrite <- Em in A, B.
  destruct (iter_dm4 m' _ (dopp_isd d Hd)) as (A' & B' & _). rewrite <- Em' in A', B'.
  assert (X : dm4 d = dm4 e).
  { apply (proj2 tet_tab_links).
    - split; [apply mod4_b|apply Hd].
    - split; [apply mod4_b|apply He].
    - exists m; auto.
    - exists m'. rewrite <- (proj1 (dopp_dm4 e He)), <- (proj1 (dopp_dm4 d Hd)). auto. }
  destruct d as [v i], e as [w j]. unfold dm4 in X. cbn [fst snd] in *. inversion X. f_equal; auto. now apply dm4_inj.
Qed.

Lemma tets_exits : 0 <= k -> exits 3 (fun v => negb (v mod 4 =? 3)) tets_nb (4 * k) = 3 * k.
Proof.
  intros Hk. unfold exits. change 3%nat with (Z.to_nat 3).
  set (F := fun d : Z * Z => negb (fst d mod 4 =? 3) && negb (negb (tets_nb (fst d) (snd d) mod 4 =? 3))).
  assert (G : forall m, 0 <= m -> m <= k -> Z.of_nat (length (filter F (list_prod (zrange (4 * m)) (zrange 3)))) = 3 * m).
  { intros m Hm. revert m Hm. apply (zrange_ind (fun m => m <= k -> Z.of_nat (length (filter F (list_prod (zrange (4 * m)) (zrange 3)))) = 3 * m)).
    - reflexivity.
    - intros m Hm IH Hmk. replace (4 * (m + 1)) with (4 * m + 1 + 1 + 1 + 1) by lia.
      rewrite !zrange_succ by lia.
      assert (LP : forall (a b c : list Z), list_prod (a ++ b) c = list_prod a c ++ list_prod b c).
      { induction a; intros b c; cbn [list_prod app]; auto. rewrite IHa. now rewrite app_assoc. }
      rewrite !LP, !filter_app, !app_length, !Nat2Z.inj_add, IH by lia.
      assert (T : forall r, 0 <= r < 4 -> filter F (list_prod [4 * m + r] (zrange 3))
         = filter F (map (fun i => (4 * m + r, i)) [0; 1; 2])) by reflexivity.
      assert (M : forall r, 0 <= r < 4 -> (4 * m + r) mod 4 = r).
      { intros r Hr. rewrite Z.add_comm, Z.mul_comm, Z.mod_add, Z.mod_small; lia. }
      replace (4 * m + 1 + 1 + 1) with (4 * m + 3) by lia. replace (4 * m + 1 + 1) with (4 * m + 2) by lia.
      assert (T0 : filter F (list_prod [4 * m] (zrange 3)) = filter F (map (fun i => (4 * m + 0, i)) [0; 1; 2])) by (rewrite Z.add_0_r; reflexivity).
      rewrite T0, !T by lia.
      assert (FE : forall r i, 0 <= r < 4 -> 0 <= i < 3 -> F (4 * m + r, i) = negb (r =? 3) && (tet_tab r i =? 3)).
      { intros r i Hr Hi. unfold F. cbn [fst snd]. destruct (tets_at (4 * m + r) i ltac:(lia) Hi) as (A & _).
        rewrite A, M by lia. now rewrite negb_involutive. }
      cbn [filter map]. rewrite !FE by lia.
      change (tet_tab 0 0 =? 3) with false. change (tet_tab 0 1 =? 3) with true. change (tet_tab 0 2 =? 3) with false.
      change (tet_tab 1 0 =? 3) with false. change (tet_tab 1 1 =? 3) with true. change (tet_tab 1 2 =? 3) with false.
      change (tet_tab 2 0 =? 3) with false. change (tet_tab 2 1 =? 3) with true. change (tet_tab 2 2 =? 3) with false.
      cbn -[Z.mul Z.add]. lia. }
  exact (G k Hk ltac:(lia)).
Qed.
End Tets.

(** positions: vertex 3 of each tetrahedron is the apex *)
Definition tets_pos (v : Z) : rvec3 R :=
  let o := (10 * IZR (v / 4))%R in let r := (v mod 4)%Z in
  if r =? 0 then V3 o 0%R 0%R else if r =? 1 then V3 (o + 1)%R 0%R 0%R
  else if r =? 2 then V3 o 1%R 0%R else V3 o 0%R 1%R.
Definition tets_cut : plane3 R := PL3 (V3 0 0 (-1))%R (/ 2)%R.

Lemma tets_fail MX k : 4 * k < MX -> MX < 7 * k ->
  exists p', r3d_clip RN MX (tets k tets_pos) [tets_cut] = OK (p', 0) /\ nv p' = MX
  /\ forall v i, 4 * k <= v < MX -> 0 < i < 3 -> nb (vb p') v i = 0.
Proof.
  intros H1 H2. assert (Hk : 0 < k) by lia. set (p := tets k tets_pos).
  assert (Hw : wf3 p) by (apply tets_wf; lia).
  assert (S : forall v, sdist3 tets_cut (ps (vb p) v) = if (v mod 4 =? 3)%Z then (- / 2)%R else (/ 2)%R).
  { intros v. unfold p, sdist3, tets_cut. cbn [tets vb ps]. unfold tets_pos. cbv zeta.
    pose proof (Z.mod_pos_bound v 4 ltac:(lia)).
    assert (X : v mod 4 = 0 \/ v mod 4 = 1 \/ v mod 4 = 2 \/ v mod 4 = 3) by lia.
    destruct X as [->|[->|[->| ->]]]; cbn; lra. }
  assert (C : crossings3 tets_cut p = 3 * k).
  { unfold crossings3. rewrite (exits3_ext _ (fun v => negb (v mod 4 =? 3))).
    - apply tets_exits. lia.
    - apply Hw.
    - intros v Hv. unfold keepR. rewrite S. destruct (v mod 4 =? 3); [apply Rleb_false|apply Rleb_true]; lra. }
  assert (Q : 0 < nv p) by (cbn -[Z.mul]; lia).
  destruct (clip3_step_R MX tets_cut [] p Hw ltac:(cbn -[Z.mul]; lia))
    as [(A & _)|[(A & _)|(_ & _ & [(p' & _ & _ & _ & X & _)|(p' & E & _)])]].
  - exfalso. pose proof (A 3%Z ltac:(cbn -[Z.mul]; lia)) as X. rewrite S in X. change (3 mod 4 =? 3) with true in X. lra.
  - exfalso. pose proof (A 0%Z ltac:(cbn -[Z.mul]; lia)) as X. rewrite S in X. change (0 mod 4 =? 3) with false in X. lra.
  - exfalso. rewrite C in X. cbn -[Z.mul] in X. lia.
  - exists p'. split; [exact (eq_trans (r3d_clip_pre RN MX p [tets_cut] Q) E)|].
    destruct (clip3_planes_stale RN MX [tets_cut] p p' Hw ltac:(cbn -[Z.mul]; lia) E) as (pre & q & (pl & post & EP) & Eq & _ & _ & Hn & Hs).
    split; auto. destruct pre as [|x pre]; [|destruct pre; discriminate].
    assert (q = p) as -> by (cbn in Eq; inversion Eq; auto).
    intros v i Hv Hi. rewrite Hs by (cbn -[Z.mul]; lia). cbn. unfold tets_nb. destruct (Z.ltb_spec v (4 * k)); [lia|auto].
Qed.
