(** * InitP7: [r3d_init_poly] on any closed surface. *)
From Coq Require Import ZArith List Bool Lia Relations.
From Verif Require Import Base Lib ModelCommon CommonFacts Model3 ModelB Spec3 SpecB Orb3 InitP InitP2 InitP3 InitP4 InitP5 InitP6 BrepEx.
Import ListNotations.
Open Scope Z_scope.

Section Desc.
Context (nf : Z) (nvf : Z -> Z) (fi : Z -> Z -> Z).
Notation corner := (corner nf nvf).
Notation vat := (vat fi).
Notation vdeg := (vdeg nf nvf fi).
Notation base := (base nf nvf fi).
Notation copy := (copy nf nvf fi).
Context {V : Type} (MX n : Z) (CS : closed_surface nf nvf fi n).

Lemma base3 v : (forall v, 0 <= v < n -> vdeg v = 3) -> 0 <= v <= n -> base v = v.
Proof.
  intros H (H1 & H2). revert H2. pattern v. apply zrange_ind; auto.
  intros k Hk IH Hkn. change (base (k + 1)) with (InitP2.st (fun u => vdeg u - 2) (k + 1)). rewrite st_succ by auto.
  change (InitP2.st (fun u => vdeg u - 2) k) with (base k). rewrite IH, H; lia.
Qed.
Lemma copy3 v w : (forall v, 0 <= v < n -> vdeg v = 3) -> 0 <= v < n -> copy v w <-> w = v.
Proof. intros H Hv. unfold copy. rewrite !base3 by (auto; lia). lia. Qed.

Lemma init_general (p : poly V) (t : vbuf V) (vertices : Z -> V) :
  0 <= nf -> one_ring nf nvf fi -> 3 <= MX -> 0 <= n <= MX -> (forall v, 0 <= v < n -> 3 <= vdeg v) ->
  (0 < n /\ forall v, 0 <= v < n -> vdeg v = 3) \/ fold_right Z.add 0 (map vdeg (zrange n)) <= MX ->
  exists p' delta, r3d_init_poly MX nf nvf fi p t vertices n = OK (p', 1) /\ nv p' = base n
   /\ (forall v w, 0 <= v < n -> copy v w -> ps (vb p') w = vertices v)
   /\ resolves nf nvf fi n (nb (vb p')) delta
   /\ (share_one nf nvf fi -> faces_meet nf nvf fi -> wf3 p').
Proof.
  intros HF OR HM HN DG C.
  assert (Dec : (0 < n /\ forall v, 0 <= v < n -> vdeg v = 3) \/ ~ (0 < n /\ forall v, 0 <= v < n -> vdeg v = 3)).
  { destruct (ip_start nf nvf fi MX n) as (e & mn & mx & _ & _ & _ & A & B); auto.
    - intros f Hf. pose proof (cs_size _ _ _ _ CS f Hf). lia.
    - intros c Hc. pose proof (cs_rng _ _ _ _ CS c Hc). lia.
    - destruct (Z.lt_ge_cases mn 3) as [L|L]; [apply A in L as (v & Hv & L); specialize (DG v Hv); lia|].
      specialize (B L). destruct (Z.eq_dec mx 3); tauto. }
  destruct Dec as [(N0 & T)|NT].
  - destruct (ip_three nf nvf fi MX p t vertices n) as (b & E & P & R); auto; [lia|].
    exists (PY b n), (cdart nvf fi b). cbn [nv vb]. rewrite base3 by (auto; lia). split; auto. split; auto. split.
    { intros v w Hv Hw. apply copy3 in Hw; auto. subst w. auto. }
    assert (BN : base n = n) by (apply base3; auto; lia).
    assert (LK : links (nb b) (below n)) by exact (InitP.out_links nf nvf fi n CS b R).
    split.
    + assert (VR : forall c, corner c -> 0 <= vat c < n) by apply (cs_rng _ _ _ _ CS).
      constructor; rewrite ?BN; auto.
      * intros w Hw. exists w. split; auto. apply copy3; auto.
      * intros v w w' Hv Hw Hw'. apply copy3 in Hw, Hw'; auto. subst. apply rst_refl.
      * intros c Hc. pose proof (cdart_isd nf nvf fi n CS b R c Hc) as (_ & I). split; auto.
        rewrite (cdart_tgt nf nvf fi n CS b R c Hc). split; apply copy3; auto using csucc_corner.
      * intros c d. exact (cdart_inj nf nvf fi n CS b R c d).
      * intros d v Hd Hv _ _. exact (cdart_surj nf nvf fi n CS b R d Hd).
      * intros c Hc. exists 1%nat. split; [lia|]. cbn [iter]. split; [exact (cdart_next nf nvf fi n CS b R c Hc)|lia].
      * intros c d. exact (cdart_face nf nvf fi n CS b R c d).
      * intros d Hd. destruct (cdart_surj nf nvf fi n CS b R d Hd) as (c & Hc & <-). exists c. split; auto. apply sf_refl.
    + intros SH _. split; [cbn; lia|]. split; [exact LK|exact (InitP.out_simple nf nvf fi n CS b R SH)].
  - destruct C as [C|C]; [contradiction|].
    destruct (init_complex nf nvf fi n CS MX HN HF (InitP6.RS1 nf nvf fi n CS OR DG) (InitP6.RS2 nf nvf fi n CS OR DG) DG p t vertices HM C NT)
      as (b & first & G & E & SO & P).
    assert (H0 : 0 <= n) by lia.
    exists (PY b (base n)), (delta nf nvf fi first G). split; [exact E|]. split; auto. cbn [nv vb]. split; [|split].
    + intros v w Hv Hw. destruct (G_surj nf nvf fi n first (nb b) G SO w) as (x & L & <-).
      { apply (copy_below nf nvf fi n DG v); auto. }
      destruct L as (Hx & F1 & F2). rewrite P by auto. f_equal. apply (copy_uniq nf nvf fi n DG _ _ (G x)); auto.
      * apply (cs_rng _ _ _ _ CS); auto.
      * apply (G_copy nf nvf fi n first (nb b) G SO). split; auto.
    + exact (out_resolves nf nvf fi n CS OR DG first (nb b) G SO).
    + intros SH FM. split; [cbn|split].
      * pose proof (base_mono nf nvf fi n DG 0 n ltac:(lia) ltac:(lia)) as B. change (base 0) with 0 in B. lia.
      * exact (InitP6.out_links nf nvf fi n CS OR DG first (nb b) G SO).
      * exact (InitP6.out_simple nf nvf fi n CS OR DG first (nb b) G SO SH FM).
Qed.
End Desc.

(** ** decision procedures for examples *)
Section Chk.
Context (nf : Z) (nvf : Z -> Z) (fi : Z -> Z -> Z).
Notation corners := (corners nf nvf).
Notation vat := (vat fi).
Notation csucc := (csucc nvf).
Notation cpred := (cpred nvf).
Definition tstep (c : Z * Z) : Z * Z :=
  match find (fun d => (vat d =? vat c) && (vat (csucc d) =? vat (cpred c))) corners with Some d => d | None => c end.
Definition or_chk (m : nat) : bool :=
  forallb (fun c => forallb (fun d => if vat c =? vat d then
     existsb (fun k => let x := iter k tstep c in (fst x =? fst d) && (snd x =? snd d)) (seq 0 m) else true) corners) corners.
Lemma or_chk_ok m : or_chk m = true -> one_ring nf nvf fi.
Proof.
  unfold or_chk. intros H c d Hc Hd E. rewrite forallb_forall in H. specialize (H c). rewrite in_corners in H. specialize (H Hc).
  rewrite forallb_forall in H. specialize (H d). rewrite in_corners in H. specialize (H Hd). rewrite E, Z.eqb_refl in H.
  apply existsb_exists in H as (k & _ & Hk). apply andb_true_iff in Hk as (H1 & H2). apply Z.eqb_eq in H1, H2.
  assert (Ed : d = iter k tstep c) by (rewrite (surjective_pairing d), <- H1, <- H2; symmetry; apply surjective_pairing). rewrite Ed. clear -Hc.
  assert (X : corner nf nvf (iter k tstep c) /\ clos_refl_trans _ (turn nf nvf fi) c (iter k tstep c)); [|apply X].
  induction k as [|k (I1 & I2)]; cbn [iter]; [split; auto; apply rt_refl|].
  set (x := iter k tstep c) in *. unfold tstep. destruct (find _ _) as [y|] eqn:F; auto.
  apply find_some in F as (F1 & F2). apply in_corners in F1. apply andb_true_iff in F2 as (F2 & F3). apply Z.eqb_eq in F2, F3. split; auto.
  eapply rt_trans; [exact I2|]. apply rt_step. split; auto.
Qed.
Definition fm_chk : bool :=
  forallb (fun c => forallb (fun d => if fst c =? fst d then if vat c =? vat d then snd c =? snd d else true else true) corners) corners
  && forallb (fun c => forallb (fun d => if fst c =? fst d then true else if vat c =? vat d then
       forallb (fun c' => if fst c =? fst c' then if vat c =? vat c' then true else
         forallb (fun d' => if fst d =? fst d' then if vat c' =? vat d' then
           existsb (fun a => if fst a =? fst c then
             if (vat a =? vat c) && (vat (csucc a) =? vat c') || (vat a =? vat c') && (vat (csucc a) =? vat c) then
               existsb (fun b => (fst b =? fst d) && (vat b =? vat (csucc a)) && (vat (csucc b) =? vat a)) corners
             else false else false) corners
           else true else true) corners else true) corners
       else true) corners) corners.
Lemma fm_chk_ok : fm_chk = true -> faces_meet nf nvf fi.
Proof.
  unfold fm_chk. intros H. apply andb_true_iff in H as (H1 & H2). rewrite forallb_forall in H1, H2. split.
  - intros c d Hc Hd E1 E2. apply in_corners in Hc, Hd. specialize (H1 c Hc). rewrite forallb_forall in H1. specialize (H1 d Hd).
    rewrite E1, E2, !Z.eqb_refl in H1. apply Z.eqb_eq in H1. rewrite (surjective_pairing c), E1, H1. symmetry. apply surjective_pairing.
  - intros c c' d d' Hc Hc' Hd Hd' E1 E2 N V1 V2 V3. apply in_corners in Hc, Hc', Hd, Hd'.
    specialize (H2 c Hc). rewrite forallb_forall in H2. specialize (H2 d Hd). destruct (Z.eqb_spec (fst c) (fst d)); [contradiction|].
    destruct (Z.eqb_spec (vat c) (vat d)); [|contradiction]. rewrite forallb_forall in H2. specialize (H2 c' Hc').
    destruct (Z.eqb_spec (fst c) (fst c')); [|contradiction]. destruct (Z.eqb_spec (vat c) (vat c')); [contradiction|].
    rewrite forallb_forall in H2. specialize (H2 d' Hd'). destruct (Z.eqb_spec (fst d) (fst d')); [|contradiction].
    destruct (Z.eqb_spec (vat c') (vat d')); [|contradiction]. apply existsb_exists in H2 as (a & Ha & H2). apply in_corners in Ha.
    destruct (Z.eqb_spec (fst a) (fst c)) as [A1|]; [|discriminate]. destruct (_ || _) eqn:O in H2; [|discriminate].
    apply existsb_exists in H2 as (b & Hb & H2). apply in_corners in Hb. rewrite !andb_true_iff in H2. destruct H2 as ((B1 & B2) & B3).
    apply Z.eqb_eq in B1, B2, B3. exists a, b. do 6 (split; auto).
    apply orb_true_iff in O as [O|O]; apply andb_true_iff in O as (O1 & O2); apply Z.eqb_eq in O1, O2; auto.
Qed.
End Chk.
