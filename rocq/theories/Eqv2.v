(** * Eqv2: [r2d_clip] on two polygons whose positions are in a relation that the planes respect. *)
From Coq Require Import Reals ZArith List Bool Lia Lra.
From Verif Require Import Base Lib ModelCommon Model2 RealNum RndNum Eqv.
Import ListNotations.
Open Scope Z_scope.

Section E2.
Context (rnd : R -> R) (Hbig : (0 <= rnd (10 ^ 30))%R) (MX : Z) (Q : rvec2 R -> rvec2 R -> Prop).
Notation N := (FN rnd).
Notation brel := (brel Q).
Notation buf := (vbuf (rvec2 R)).

(** the distance as it is computed *)
Definition sdF2 (pl : plane2 R) (x : rvec2 R) : R := nadd N (pd pl) (dot2 N x (pn pl)).
Arguments sdF2 : simpl never.
(** two planes: the same side for points in relation, and cut edges give points in relation *)
Definition prel2 (pl pl' : plane2 R) : Prop :=
  (forall x x', Q x x' -> ((sdF2 pl x < 0)%R <-> (sdF2 pl' x' < 0)%R) /\ ((sdF2 pl x <= 0)%R <-> (sdF2 pl' x' <= 0)%R))
  /\ (forall a a' b b', Q a a' -> Q b b' -> (0 <= sdF2 pl a)%R -> (sdF2 pl b < 0)%R ->
        Q (wav2 N a (- sdF2 pl b)%R b (sdF2 pl a)) (wav2 N a' (- sdF2 pl' b')%R b' (sdF2 pl' a'))).

(** what the distance loop gives after [i] rounds *)
Definition sdok2 (pl : plane2 R) (b : buf) (i : Z) (s : sdst N) : Prop :=
  (forall v, sdists N s v = if inb i v then Some (sdF2 pl (ps b v)) else None)
  /\ (forall v, clipped N s v = if inb i v && Rltb (sdF2 pl (ps b v)) 0 then 1 else 0)
  /\ ((0 <= smin N s)%R <-> forall v, 0 <= v < i -> (0 <= sdF2 pl (ps b v))%R)
  /\ ((smax N s <= 0)%R <-> forall v, 0 <= v < i -> (sdF2 pl (ps b v) <= 0)%R).

Lemma inb2_next i v : 0 <= i -> inb (i + 1) v = (v =? i) || inb i v.
Proof. intros Hi. unfold inb. destruct (Z.leb_spec 0 v), (Z.ltb_spec v (i + 1)), (Z.ltb_spec v i), (Z.eqb_spec v i); cbn; auto; lia. Qed.

Lemma body2_eq (b : buf) (pl : plane2 R) v (s : sdst N) : clip_sd_body N MX b pl v s =
  if inb MX v then
    let* cl := (if Rltb (sdF2 pl (ps b v)) 0 then wr MX (clipped N s) v 1 else OK (clipped N s)) in
    OK (SD N (upd (sdists N s) v (Some (sdF2 pl (ps b v)))) (if Rltb (sdF2 pl (ps b v)) (smin N s) then sdF2 pl (ps b v) else smin N s)
         (if Rltb (smax N s) (sdF2 pl (ps b v)) then sdF2 pl (ps b v) else smax N s) cl)
  else Err OutOfBounds.
Proof. unfold clip_sd_body, rd_ps, wr. destruct (inb MX v); reflexivity. Qed.
Lemma sd2_rel n b b' pl pl' : brel n b b' -> 0 <= n -> prel2 pl pl' ->
  rr (fun s s' => sdok2 pl b n s /\ sdok2 pl' b' n s' /\ clipped N s' = clipped N s) (clip_sd N MX b n pl) (clip_sd N MX b' n pl').
Proof.
  intros (Hnb & HQ) Hn (Hs & _). unfold clip_sd.
  apply (rr_for (fun i s s' => sdok2 pl b i s /\ sdok2 pl' b' i s' /\ clipped N s' = clipped N s)); auto.
  - intros i s s' Hi ((A1 & A2 & A3 & A4) & (B1 & B2 & B3 & B4) & HC). rewrite !body2_eq. destruct (inb MX i) eqn:Ei; [|reflexivity].
    destruct (Hs _ _ (HQ i ltac:(lia))) as (S1 & _).
    assert (ES : Rltb (sdF2 pl' (ps b' i)) 0 = Rltb (sdF2 pl (ps b i)) 0).
    { apply Rltb_iff. tauto. }
    rewrite ES, HC. set (cl := if Rltb (sdF2 pl (ps b i)) 0 then wr MX (clipped N s) i 1 else OK (clipped N s)).
    assert (Hcl : exists c, cl = OK c /\ forall v, c v = if inb (i + 1) v && Rltb (sdF2 pl (ps b v)) 0 then 1 else 0).
    { unfold cl. destruct (Rltb (sdF2 pl (ps b i)) 0) eqn:X.
      - unfold wr. rewrite Ei. eexists; split; [reflexivity|]. intros v. unfold upd. rewrite inb2_next by lia. destruct (Z.eqb_spec v i) as [->|]; cbn; [now rewrite X|]. now rewrite A2.
      - eexists; split; [reflexivity|]. intros v. rewrite inb2_next by lia. rewrite A2. destruct (Z.eqb_spec v i) as [->|]; cbn; auto. rewrite X. now rewrite andb_false_r. }
    destruct Hcl as (c & -> & Hc). cbn [bind rr].
    assert (Hc' : forall v, c v = if inb (i + 1) v && Rltb (sdF2 pl' (ps b' v)) 0 then 1 else 0).
    { intros v. rewrite Hc. destruct (inb_spec (i + 1) v) as [Hv|Hv]; cbn; auto. destruct (Hs _ _ (HQ v ltac:(lia))) as (S2 & _).
      destruct (Rltb (sdF2 pl (ps b v)) 0) eqn:X, (Rltb (sdF2 pl' (ps b' v)) 0) eqn:Y; auto; [apply Rltb_true in X; apply Rltb_false in Y; apply S2 in X; lra|apply Rltb_true in Y; apply Rltb_false in X; apply S2 in Y; lra]. }
    split; [|split; auto].
    + split; [|split; [exact Hc|split]].
      * intros v. cbn [sdists]. unfold upd. rewrite inb2_next by lia. destruct (Z.eqb_spec v i) as [->|]; cbn; auto.
      * cbn [smin]. rewrite all_step by lia. rewrite <- A3. apply min_step.
      * cbn [smax]. rewrite all_step by lia. rewrite <- A4. apply max_step.
    + split; [|split; [exact Hc'|split]].
      * intros v. cbn [sdists]. unfold upd. rewrite inb2_next by lia. destruct (Z.eqb_spec v i) as [->|]; cbn; auto.
      * cbn [smin]. rewrite all_step by lia. rewrite <- B3. apply min_step.
      * cbn [smax]. rewrite all_step by lia. rewrite <- B4. apply max_step.
  - assert (X : forall pl b, sdok2 pl b 0 (SD N (fun _ => None) (nbig N) (nopp N (nbig N)) (fun _ => 0))).
    { intros g c. assert (Y : forall v, inb 0 v = false) by (intros v; apply inb_false; lia). split; [|split; [|split]]; cbn [sdists clipped smin smax].
      - intros v. now rewrite Y.
      - intros v. now rewrite Y.
      - cbn. split; intros; [lia|]. exact Hbig.
      - split; intros; [lia|]. change (- rnd (10 ^ 30) <= 0)%R. lra. }
    split; [apply X|split; [apply X|reflexivity]].
Qed.

Lemma wr_in n (b b' : buf) v i x : brel n b b' -> rr (fun c c' => (brel n c c' /\ ps c = ps b /\ ps c' = ps b') /\ 0 <= v < MX) (wr_nb MX 2 b v i x) (wr_nb MX 2 b' v i x).
Proof.
  intros H. pose proof (brel_wr Q MX n b b' 2 v i x H) as X. unfold wr_nb in *. destruct (inb_spec MX v) as [Hv|Hv]; cbn [andb] in *; [|reflexivity].
  destruct (inb 2 i); [|reflexivity]. split; auto.
Qed.
Definition irel2 (b0 b0' : buf) (onv : Z) (s s' : buf * Z) : Prop :=
  brel (snd s) (fst s) (fst s') /\ snd s' = snd s /\ onv <= snd s <= MX
  /\ (forall v, 0 <= v < onv -> ps (fst s) v = ps b0 v /\ ps (fst s') v = ps b0' v).

Lemma ins2_rel onv b0 b0' pl pl' st st' : 0 <= onv <= MX -> brel onv b0 b0' -> prel2 pl pl' -> sdok2 pl b0 onv st -> sdok2 pl' b0' onv st' ->
  rr (irel2 b0 b0' onv) (for_ 0 onv (clip_ins_v N MX (sdists N st) (clipped N st)) (b0, onv)) (for_ 0 onv (clip_ins_v N MX (sdists N st') (clipped N st)) (b0', onv)).
Proof.
  intros Ho HB (Hs & Hw) (A1 & A2 & _) (B1 & _).
  apply rr_for'; [|split; [exact HB|]; cbn; split; auto; split; [lia|auto]].
  intros vcur s s' Hv HI. unfold clip_ins_v. apply rr_same. intros c Ec.
  assert (Hc0 : c = clipped N st vcur) by (unfold rd in Ec; destruct (inb MX vcur); congruence). clear Ec. subst c. rewrite A2. rewrite (inb_true onv vcur) by lia. cbn [andb].
  destruct (Rltb (sdF2 pl (ps b0 vcur)) 0) eqn:Ec; [exact HI|]. apply Rltb_false in Ec. cbn [Z.eqb].
  apply rr_for'; auto. clear s s' HI. intros np (b, m) (b', m') _ (H1 & H2 & H4 & H5). cbn [fst snd] in *. subst m'.
  unfold clip_ins_np.
  rewrite (brel_nb Q MX m b b') by auto. apply rr_same. intros vnext _. apply rr_same. intros c Ecn.
  assert (Hcn : c = clipped N st vnext) by (unfold rd in Ecn; destruct (inb MX vnext); congruence). clear Ecn. subst c. rewrite A2.
  destruct (inb_spec onv vnext) as [Hn|Hn]; cbn [andb]; [|cbn; split; [exact H1|]; cbn; auto].
  destruct (Rltb (sdF2 pl (ps b0 vnext)) 0) eqn:En; [|cbn; split; [exact H1|]; cbn; auto]. apply Rltb_true in En. cbn [Z.eqb].
  eapply rr_bind; [exact (wr_in m b b' m (1 - np) vcur H1)|]. intros b1 b1' ((K1 & P1 & P1') & Hm).
  eapply rr_bind; [exact (brel_wr Q MX m b1 b1' 2 m np (-1) K1)|]. intros b2 b2' (K2 & P2 & P2').
  eapply rr_bind; [exact (brel_wr Q MX m b2 b2' 2 vcur np m K2)|]. intros b3 b3' (K3 & P3 & P3').
  unfold rd_ps, rdi. destruct (inb MX vcur); cbn [bind]; [|reflexivity]. destruct (inb MX vnext); cbn [bind]; [|reflexivity].
  rewrite !A1, !B1. rewrite !inb_true by lia. cbn [bind].
  cbn [T FN]. rewrite P3, P3', P2, P2', P1, P1'. destruct (H5 vcur Hv) as (E1 & E2). destruct (H5 vnext Hn) as (E3 & E4). rewrite E1, E2, E3, E4.
  destruct HB as (_ & HQ). pose proof (Hw _ _ _ _ (HQ vcur Hv) (HQ vnext Hn) Ec En) as HW.
  eapply rr_bind; [exact (brel_ps Q MX m b3 b3' _ _ K3 HW ltac:(lia))|].
  intros b4 b4' (K4 & P4). cbn. split; [exact K4|]. cbn. split; auto. split; [lia|]. intros v Hv'.
    destruct (P4 v ltac:(lia)) as (-> & ->). rewrite P3, P3', P2, P2', P1, P1'. auto.
Qed.

Lemma relink2_rel onv n b b' : brel n b b' -> rr (brel n) (relink N MX onv n b) (relink N MX onv n b').
Proof.
  intros HB. unfold relink. apply rr_for'; auto. clear b b' HB. intros v b b' Hv HB. unfold relink_body. rewrite !(brel_nb Q MX n b b') by auto.
  apply rr_same. intros q _. destruct (0 <=? q); [exact HB|]. apply rr_same. intros vnext _.
  assert (W : forall s, relink_walk N MX b' onv s = relink_walk N MX b onv s).
  { intros s. destruct b as (nbs, q0), b' as (nbs', q'). destruct HB as (E & _). cbn in E. subst nbs'. reflexivity. }
  rewrite W. apply rr_same. intros vcur _. eapply rr_bind; [exact (brel_wr Q MX n b b' 2 v 1 vcur HB)|]. intros c c' (K & _).
  eapply rr_mono; [exact (brel_wr Q MX n c c' 2 vcur 0 v K)|]. intros d d' (Kd & _). exact Kd.
Qed.
Lemma reindex2_rel n cl m b b' : brel n b b' -> rr (brel n) (for_ 0 m (reindex_body N MX cl) b) (for_ 0 m (reindex_body N MX cl) b').
Proof.
  intros HB. apply rr_for'; auto. clear b b' HB. intros v b b' Hv HB. unfold reindex_body. rewrite !(brel_nb Q MX n b b') by auto.
  apply rr_same. intros x _. apply rr_same. intros c _. eapply rr_bind; [exact (brel_wr Q MX n b b' 2 v 0 c HB)|]. intros d d' (K & _).
  rewrite !(brel_nb Q MX n d d') by auto. apply rr_same. intros y _. apply rr_same. intros e _.
  eapply rr_mono; [exact (brel_wr Q MX n d d' 2 v 1 e K)|]. intros f f' (Kd & _). exact Kd.
Qed.

Definition polrel2 (p p' : poly (rvec2 R)) : Prop := nv p' = nv p /\ 0 <= nv p <= MX /\ brel (nv p) (vb p) (vb p').
Lemma cut2_rel n b b' pl pl' st st' : 0 <= n <= MX -> brel n b b' -> prel2 pl pl' -> sdok2 pl b n st -> sdok2 pl' b' n st' ->
  rr polrel2 (clip_cut N MX b n (sdists N st) (clipped N st)) (clip_cut N MX b' n (sdists N st') (clipped N st)).
Proof.
  intros Hn HB HP HA HA'. unfold clip_cut. eapply rr_bind; [exact (ins2_rel n b b' pl pl' st st' Hn HB HP HA HA')|].
  intros (b1, m) (b1', m') (H1 & H2 & H4 & _). cbn [fst snd] in *. subst m'.
  eapply rr_bind; [exact (relink2_rel n m b1 b1' H1)|]. intros b2 b2' H5.
  eapply rr_bind; [apply (compress_rel Q MX m b2 b2' (clipped N st)); auto; lia|].
  intros ((b3, c3), k) ((b3', c3'), k') (K1 & K2 & K3 & K4). cbn [fst snd] in *. subst c3' k'.
  eapply rr_bind; [exact (reindex2_rel m c3 k b3 b3' K1)|]. intros b4 b4' K5. cbn. split; [auto|split; [cbn; lia|]]. cbn [nv vb]. eapply brel_mono; [exact K5|lia].
Qed.

Lemma planes2_rel planes planes' : Forall2 prel2 planes planes' -> forall p p', polrel2 p p' ->
  rr polrel2 (clip_planes N MX planes p) (clip_planes N MX planes' p').
Proof.
  induction 1 as [|pl pl' r r' HP _ IH]; intros (b, n) (b', n') (E1 & HM & HB); cbn [nv vb] in *; subst n'; cbn [clip_planes nv vb].
  - cbn. split; auto.
  - eapply rr_bind; [exact (sd2_rel n b b' pl pl' HB (proj1 HM) HP)|]. intros s s' (A & A' & EC).
    assert (X : nle N (n0 N) (smin N s') = nle N (n0 N) (smin N s)).
    { cbn. apply Rleb_iff. rewrite (proj1 (proj2 (proj2 A'))), (proj1 (proj2 (proj2 A))). destruct HB as (_ & HQ).
      split; intros H v Hv; specialize (H v Hv); destruct (proj1 HP _ _ (HQ v Hv)) as (S1 & _); apply Rnot_lt_le; intros Y; apply S1 in Y; lra. }
    assert (Y : nle N (smax N s') (n0 N) = nle N (smax N s) (n0 N)).
    { cbn. apply Rleb_iff. rewrite (proj2 (proj2 (proj2 A'))), (proj2 (proj2 (proj2 A))). destruct HB as (_ & HQ).
      split; intros H v Hv; specialize (H v Hv); destruct (proj1 HP _ _ (HQ v Hv)) as (_ & S2); now apply S2. }
    rewrite X, Y. destruct (nle N (n0 N) (smin N s)); [apply IH; auto; split; auto|]. destruct (nle N (smax N s) (n0 N)).
    + cbn. split; auto. cbn. destruct HB as (E & _). split; [lia|]. split; auto. intros; lia.
    + rewrite EC. eapply rr_bind; [exact (cut2_rel n b b' pl pl' s s' HM HB HP A A')|]. intros o o' K. now apply IH.
Qed.
Theorem clip2_rel planes planes' p p' : Forall2 prel2 planes planes' -> polrel2 p p' -> rr polrel2 (r2d_clip N MX p planes) (r2d_clip N MX p' planes').
Proof.
  destruct p as (b, n), p' as (b', n'). intros HF (E & HM & HB). cbn [nv vb] in *. subst n'. unfold r2d_clip. cbn [nv vb]. destruct (Z.leb_spec n 0) as [H|H].
  - cbn. split; auto.
  - apply planes2_rel; auto. split; auto.
Qed.
End E2.
