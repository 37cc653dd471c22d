(** * Eqv3: [r3d_clip] on two polyhedra whose positions are in a relation that the planes respect. *)
From Coq Require Import Reals ZArith List Bool Lia Lra.
From Verif Require Import Base Lib ModelCommon Model3 RealNum RndNum Eqv.
Import ListNotations.
Open Scope Z_scope.

Section E3.
Context (rnd : R -> R) (Hbig : (0 <= rnd (10 ^ 30))%R) (MX : Z) (Q : rvec3 R -> rvec3 R -> Prop).
Notation N := (FN rnd).
Notation brel := (brel Q).
Notation buf := (vbuf (rvec3 R)).

(** the distance as it is computed *)
Definition sdF (pl : plane3 R) (x : rvec3 R) : R := nadd N (d3 pl) (dot3 N x (n3 pl)).
Arguments sdF : simpl never.
(** two planes: the same side for points in relation, and cut edges give points in relation *)
Definition prel (pl pl' : plane3 R) : Prop :=
  (forall x x', Q x x' -> ((sdF pl x < 0)%R <-> (sdF pl' x' < 0)%R) /\ ((sdF pl x <= 0)%R <-> (sdF pl' x' <= 0)%R))
  /\ (forall a a' b b', Q a a' -> Q b b' -> (0 <= sdF pl a)%R -> (sdF pl b < 0)%R ->
        Q (wav3 N a (- sdF pl b)%R b (sdF pl a)) (wav3 N a' (- sdF pl' b')%R b' (sdF pl' a'))).

(** what the distance loop gives after [i] rounds *)
Definition sdok (pl : plane3 R) (b : buf) (i : Z) (s : sdst3 N) : Prop :=
  (forall v, sdists3 N s v = if inb i v then Some (sdF pl (ps b v)) else None)
  /\ (forall v, clipped3 N s v = if inb i v && Rltb (sdF pl (ps b v)) 0 then 1 else 0)
  /\ ((0 <= smin3 N s)%R <-> forall v, 0 <= v < i -> (0 <= sdF pl (ps b v))%R)
  /\ ((smax3 N s <= 0)%R <-> forall v, 0 <= v < i -> (sdF pl (ps b v) <= 0)%R).

Lemma inb_next i v : 0 <= i -> inb (i + 1) v = (v =? i) || inb i v.
Proof. intros Hi. unfold inb. destruct (Z.leb_spec 0 v), (Z.ltb_spec v (i + 1)), (Z.ltb_spec v i), (Z.eqb_spec v i); cbn; auto; lia. Qed.

Lemma body_eq (b : buf) (pl : plane3 R) v (s : sdst3 N) : clip3_sd_body N MX b pl v s =
  if inb MX v then
    let* cl := (if Rltb (sdF pl (ps b v)) 0 then wr MX (clipped3 N s) v 1 else OK (clipped3 N s)) in
    OK (SD3 N (upd (sdists3 N s) v (Some (sdF pl (ps b v)))) (if Rltb (sdF pl (ps b v)) (smin3 N s) then sdF pl (ps b v) else smin3 N s)
         (if Rltb (smax3 N s) (sdF pl (ps b v)) then sdF pl (ps b v) else smax3 N s) cl)
  else Err OutOfBounds.
Proof. unfold clip3_sd_body, rd_ps, wr. destruct (inb MX v); reflexivity. Qed.
Lemma sd_rel n b b' pl pl' : brel n b b' -> 0 <= n -> prel pl pl' ->
  rr (fun s s' => sdok pl b n s /\ sdok pl' b' n s' /\ clipped3 N s' = clipped3 N s) (clip3_sd N MX b n pl) (clip3_sd N MX b' n pl').
Proof.
  intros (Hnb & HQ) Hn (Hs & _). unfold clip3_sd.
  apply (rr_for (fun i s s' => sdok pl b i s /\ sdok pl' b' i s' /\ clipped3 N s' = clipped3 N s)); auto.
  - intros i s s' Hi ((A1 & A2 & A3 & A4) & (B1 & B2 & B3 & B4) & HC). rewrite !body_eq. destruct (inb MX i) eqn:Ei; [|reflexivity].
    destruct (Hs _ _ (HQ i ltac:(lia))) as (S1 & _).
    assert (ES : Rltb (sdF pl' (ps b' i)) 0 = Rltb (sdF pl (ps b i)) 0).
    { apply Rltb_iff. tauto. }
    rewrite ES, HC. set (cl := if Rltb (sdF pl (ps b i)) 0 then wr MX (clipped3 N s) i 1 else OK (clipped3 N s)).
    assert (Hcl : exists c, cl = OK c /\ forall v, c v = if inb (i + 1) v && Rltb (sdF pl (ps b v)) 0 then 1 else 0).
    { unfold cl. destruct (Rltb (sdF pl (ps b i)) 0) eqn:X.
      - unfold wr. rewrite Ei. eexists; split; [reflexivity|]. intros v. unfold upd. rewrite inb_next by lia. destruct (Z.eqb_spec v i) as [->|]; cbn; [now rewrite X|]. now rewrite A2.
      - eexists; split; [reflexivity|]. intros v. rewrite inb_next by lia. rewrite A2. destruct (Z.eqb_spec v i) as [->|]; cbn; auto. rewrite X. now rewrite andb_false_r. }
    destruct Hcl as (c & -> & Hc). cbn [bind rr].
    assert (Hc' : forall v, c v = if inb (i + 1) v && Rltb (sdF pl' (ps b' v)) 0 then 1 else 0).
    { intros v. rewrite Hc. destruct (inb_spec (i + 1) v) as [Hv|Hv]; cbn; auto. destruct (Hs _ _ (HQ v ltac:(lia))) as (S2 & _).
      destruct (Rltb (sdF pl (ps b v)) 0) eqn:X, (Rltb (sdF pl' (ps b' v)) 0) eqn:Y; auto; [apply Rltb_true in X; apply Rltb_false in Y; apply S2 in X; lra|apply Rltb_true in Y; apply Rltb_false in X; apply S2 in Y; lra]. }
    split; [|split; auto].
    + split; [|split; [exact Hc|split]].
      * intros v. cbn [sdists3]. unfold upd. rewrite inb_next by lia. destruct (Z.eqb_spec v i) as [->|]; cbn; auto.
      * cbn [smin3]. rewrite all_step by lia. rewrite <- A3. apply min_step.
      * cbn [smax3]. rewrite all_step by lia. rewrite <- A4. apply max_step.
    + split; [|split; [exact Hc'|split]].
      * intros v. cbn [sdists3]. unfold upd. rewrite inb_next by lia. destruct (Z.eqb_spec v i) as [->|]; cbn; auto.
      * cbn [smin3]. rewrite all_step by lia. rewrite <- B3. apply min_step.
      * cbn [smax3]. rewrite all_step by lia. rewrite <- B4. apply max_step.
  - assert (X : forall pl b, sdok pl b 0 (SD3 N (fun _ => None) (nbig N) (nopp N (nbig N)) (fun _ => 0))).
    { intros g c. assert (Y : forall v, inb 0 v = false) by (intros v; apply inb_false; lia). split; [|split; [|split]]; cbn [sdists3 clipped3 smin3 smax3].
      - intros v. now rewrite Y.
      - intros v. now rewrite Y.
      - cbn. split; intros; [lia|]. exact Hbig.
      - split; intros; [lia|]. change (- rnd (10 ^ 30) <= 0)%R. lra. }
    split; [apply X|split; [apply X|reflexivity]].
Qed.

Definition irel (b0 b0' : buf) (onv : Z) (s s' : buf * Z * bool) : Prop :=
  brel (snd (fst s)) (fst (fst s)) (fst (fst s')) /\ snd (fst s') = snd (fst s) /\ snd s' = snd s /\ onv <= snd (fst s) <= MX
  /\ (forall v, 0 <= v < onv -> ps (fst (fst s)) v = ps b0 v /\ ps (fst (fst s')) v = ps b0' v).

Lemma ins_rel onv b0 b0' pl pl' st st' : 0 <= onv <= MX -> brel onv b0 b0' -> prel pl pl' -> sdok pl b0 onv st -> sdok pl' b0' onv st' ->
  rr (irel b0 b0' onv) (for_ 0 onv (clip3_ins_v N MX (sdists3 N st) (clipped3 N st)) (b0, onv, true)) (for_ 0 onv (clip3_ins_v N MX (sdists3 N st') (clipped3 N st)) (b0', onv, true)).
Proof.
  intros Ho HB (Hs & Hw) (A1 & A2 & _) (B1 & _).
  apply rr_for'; [|split; [exact HB|]; cbn; split; auto; split; auto; split; [lia|auto]].
  intros vcur s s' Hv HI. unfold clip3_ins_v. apply rr_same. intros c Ec.
  assert (Hc0 : c = clipped3 N st vcur) by (unfold rd in Ec; destruct (inb MX vcur); congruence). clear Ec. subst c. rewrite A2. rewrite (inb_true onv vcur) by lia. cbn [andb].
  destruct (Rltb (sdF pl (ps b0 vcur)) 0) eqn:Ec; [exact HI|]. apply Rltb_false in Ec. cbn [Z.eqb].
  apply rr_for'; auto. clear s s' HI. intros np ((b, m), ok) ((b', m'), ok') _ (H1 & H2 & H3 & H4 & H5). cbn [fst snd] in *. subst m' ok'.
  unfold clip3_ins_np. destruct ok; cbn [negb]; [|cbn; split; [exact H1|]; cbn; auto].
  rewrite (brel_nb Q MX m b b') by auto. apply rr_same. intros vnext _. apply rr_same. intros c Ecn.
  assert (Hcn : c = clipped3 N st vnext) by (unfold rd in Ecn; destruct (inb MX vnext); congruence). clear Ecn. subst c. rewrite A2.
  destruct (inb_spec onv vnext) as [Hn|Hn]; cbn [andb]; [|cbn; split; [exact H1|]; cbn; auto].
  destruct (Rltb (sdF pl (ps b0 vnext)) 0) eqn:En; [|cbn; split; [exact H1|]; cbn; auto]. apply Rltb_true in En. cbn [Z.eqb].
  destruct (Z.eqb_spec m MX) as [|Hm]; [cbn; split; [exact H1|]; cbn; auto|].
  eapply rr_bind; [exact (brel_wr Q MX m b b' 3 m 0 vcur H1)|]. intros b1 b1' (K1 & P1 & P1').
  eapply rr_bind; [exact (brel_wr Q MX m b1 b1' 3 vcur np m K1)|]. intros b2 b2' (K2 & P2 & P2').
  unfold rd_ps, rdi. destruct (inb MX vcur); cbn [bind]; [|reflexivity]. destruct (inb MX vnext); cbn [bind]; [|reflexivity].
  rewrite !A1, !B1. rewrite !inb_true by lia. cbn [bind].
  cbn [T FN]. rewrite P2, P2', P1, P1'. destruct (H5 vcur Hv) as (E1 & E2). destruct (H5 vnext Hn) as (E3 & E4). rewrite E1, E2, E3, E4.
  destruct HB as (_ & HQ). pose proof (Hw _ _ _ _ (HQ vcur Hv) (HQ vnext Hn) Ec En) as HW.
  eapply rr_bind; [exact (brel_ps Q MX m b2 b2' _ _ K2 HW ltac:(lia))|].
  intros b3 b3' (K3 & P3). cbn. split; [exact K3|]. cbn. split; auto. split; auto. split; [lia|]. intros v Hv'.
    destruct (P3 v ltac:(lia)) as (-> & ->). rewrite P2, P2', P1, P1'. auto.
Qed.

Lemma relink_rel onv n b b' : brel n b b' -> rr (brel n) (relink3 N MX onv n b) (relink3 N MX onv n b').
Proof.
  intros HB. unfold relink3. apply rr_for'; auto. clear b b' HB. intros v b b' Hv HB. unfold relink3_body. rewrite (brel_nb Q MX n b b') by auto.
  apply rr_same. intros vnext _.
  assert (W : forall s, relink3_walk N MX b' onv s = relink3_walk N MX b onv s).
  { intros s. destruct b as (nbs, q), b' as (nbs', q'). destruct HB as (E & _). cbn in E. subst nbs'. reflexivity. }
  rewrite W. apply rr_same. intros (vcur, w) _. eapply rr_bind; [exact (brel_wr Q MX n b b' 3 v 2 vcur HB)|]. intros c c' (K & _).
  eapply rr_mono; [exact (brel_wr Q MX n c c' 3 vcur 1 v K)|]. intros d d' (Kd & _). exact Kd.
Qed.

Definition polrel (p p' : poly (rvec3 R)) : Prop := nv p' = nv p /\ 0 <= nv p <= MX /\ brel (nv p) (vb p) (vb p').
Lemma cut_rel n b b' pl pl' st st' : 0 <= n <= MX -> brel n b b' -> prel pl pl' -> sdok pl b n st -> sdok pl' b' n st' ->
  rr (fun o o' => polrel (fst o) (fst o') /\ snd o' = snd o /\ 0 <= nv (fst o)) (clip3_cut N MX b n (sdists3 N st) (clipped3 N st)) (clip3_cut N MX b' n (sdists3 N st') (clipped3 N st)).
Proof.
  intros Hn HB HP HA HA'. unfold clip3_cut. eapply rr_bind; [exact (ins_rel n b b' pl pl' st st' Hn HB HP HA HA')|].
  intros ((b1, m), ok) ((b1', m'), ok') (H1 & H2 & H3 & H4 & _). cbn [fst snd] in *. subst m' ok'. destruct ok; cbn [negb].
  - eapply rr_bind; [exact (relink_rel n m b1 b1' H1)|]. intros b2 b2' H5.
    eapply rr_bind with (R := fun o o' => polrel o o' /\ 0 <= nv o).
    + eapply rr_bind; [apply (compress_rel Q MX m b2 b2' (clipped3 N st)); auto; lia|].
      intros ((b3, c3), k) ((b3', c3'), k') (K1 & K2 & K3 & K4). cbn [fst snd] in *. subst c3' k'.
      eapply rr_bind; [exact (reindex_rel Q MX m 3 c3 k b3 b3' K1)|]. intros b4 b4' K5. cbn. split; [split; [auto|split; [cbn; lia|]]|lia]. cbn [nv vb]. eapply brel_mono; [exact K5|lia].
    + intros o o' (Ho & Hp). cbn. auto.
  - cbn. split; [split; [auto|split; [cbn; lia|auto]]|]. split; auto. lia.
Qed.

Lemma planes_rel planes planes' : Forall2 prel planes planes' -> forall p p', 0 <= nv p -> polrel p p' ->
  rr (fun o o' => polrel (fst o) (fst o') /\ snd o' = snd o) (clip3_planes N MX planes p) (clip3_planes N MX planes' p').
Proof.
  induction 1 as [|pl pl' r r' HP _ IH]; intros (b, n) (b', n') Hp (E1 & HM & HB); cbn [nv vb] in *; subst n'; cbn [clip3_planes nv vb].
  - cbn. split; [split|]; auto.
  - eapply rr_bind; [exact (sd_rel n b b' pl pl' HB Hp HP)|]. intros s s' (A & A' & EC).
    assert (X : nle N (n0 N) (smin3 N s') = nle N (n0 N) (smin3 N s)).
    { cbn. apply Rleb_iff. rewrite (proj1 (proj2 (proj2 A'))), (proj1 (proj2 (proj2 A))). destruct HB as (_ & HQ).
      split; intros H v Hv; specialize (H v Hv); destruct (proj1 HP _ _ (HQ v Hv)) as (S1 & _); apply Rnot_lt_le; intros Y; apply S1 in Y; lra. }
    assert (Y : nle N (smax3 N s') (n0 N) = nle N (smax3 N s) (n0 N)).
    { cbn. apply Rleb_iff. rewrite (proj2 (proj2 (proj2 A'))), (proj2 (proj2 (proj2 A))). destruct HB as (_ & HQ).
      split; intros H v Hv; specialize (H v Hv); destruct (proj1 HP _ _ (HQ v Hv)) as (_ & S2); now apply S2. }
    rewrite X, Y. destruct (nle N (n0 N) (smin3 N s)); [apply IH; auto; split; auto|]. destruct (nle N (smax3 N s) (n0 N)).
    + cbn. split; auto. split; auto. cbn. destruct HB as (E & _). split; [lia|]. split; auto. intros; lia.
    + rewrite EC. eapply rr_bind; [exact (cut_rel n b b' pl pl' s s' HM HB HP A A')|].
      intros (o, ok) (o', ok') (K1 & K2 & K3). cbn [fst snd] in *. subst ok'. destruct ok; [now apply IH|]. cbn. auto.
Qed.
Theorem clip3_rel planes planes' p p' : Forall2 prel planes planes' -> polrel p p' ->
  rr (fun o o' => polrel (fst o) (fst o') /\ snd o' = snd o) (r3d_clip N MX p planes) (r3d_clip N MX p' planes').
Proof.
  destruct p as (b, n), p' as (b', n'). intros HF (E & HM & HB). cbn [nv vb] in *. subst n'. unfold r3d_clip. cbn [nv vb]. destruct (Z.leb_spec n 0) as [H|H].
  - cbn. split; auto. split; auto.
  - apply planes_rel; auto; [cbn; lia|split; auto].
Qed.
End E3.
