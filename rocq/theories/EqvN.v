(** * EqvN: [rNd_clip] on two polytopes whose positions are in a relation that the planes respect. *)
From Coq Require Import Reals ZArith List Bool Lia Lra.
From Verif Require Import Base Lib ModelCommon ModelN ModelNC RealNum RndNum TransN InsN ClipN Eqv Eqv3.
Import ListNotations.
Open Scope Z_scope.

Lemma rr_dowhile {S S'} (R : S -> S' -> Prop) f g fuel : (forall s s', R s s' -> rr (fun o o' => R (fst o) (fst o') /\ snd o' = snd o) (f s) (g s')) ->
  forall s s', R s s' -> rr R (dowhile fuel f s) (dowhile fuel g s').
Proof.
  intros H. induction fuel as [|k IH]; intros s s' Hs; cbn [dowhile]; [reflexivity|].
  eapply rr_bind; [exact (H s s' Hs)|]. intros (t, c) (t', c') (Ht & Hc). cbn [fst snd] in *. subst c'. destruct c; auto.
Qed.

Section EN.
Context (rnd : R -> R) (Hbig : (0 <= rnd (10 ^ 30))%R) (MX D : Z) (HD : 0 <= D) (Q : (Z -> R) -> (Z -> R) -> Prop).
Notation N := (FN rnd).
Notation brel := (brel Q).
Notation buf := (vbuf (Z -> R)).
Notation fds := (Z -> Z -> Z -> Z).
Hypothesis Qext : forall x x' y y', Q x x' -> (forall i, 0 <= i < D -> y i = x i) -> (forall i, 0 <= i < D -> y' i = x' i) -> Q y y'.

(** the distance and the point of a cut edge as they are computed *)
Definition sdX (pl : planeN N) (x : Z -> R) : R := fold_left (fun s i => nadd N s (nmul N (x i) (nN N pl i))) (zrange D) (dN N pl).
Arguments sdX : simpl never.
Definition cutX (a b : Z -> R) (sa sb : R) (i : Z) : R := ndiv N (nsub N (nmul N (b i) sa) (nmul N (a i) sb)) (nsub N sa sb).
Definition prelN (pl pl' : planeN N) : Prop :=
  (forall x x', Q x x' -> ((sdX pl x < 0)%R <-> (sdX pl' x' < 0)%R) /\ ((sdX pl x <= 0)%R <-> (sdX pl' x' <= 0)%R))
  /\ (forall a a' b b', Q a a' -> Q b b' -> (0 <= sdX pl a)%R -> (sdX pl b < 0)%R ->
        Q (cutX a b (sdX pl a) (sdX pl b)) (cutX a' b' (sdX pl' a') (sdX pl' b'))).

Definition sdokN (pl : planeN N) (b : buf) (i : Z) (s : sdN N) : Prop :=
  (forall v, 0 <= v < i -> sdistsN N s v = Some (sdX pl (ps b v)))
  /\ (forall v, clippedN N s v = if inb i v && Rltb (sdX pl (ps b v)) 0 then 1 else 0)
  /\ ((0 <= sminN N s)%R <-> forall v, 0 <= v < i -> (0 <= sdX pl (ps b v))%R)
  /\ ((smaxN N s <= 0)%R <-> forall v, 0 <= v < i -> (sdX pl (ps b v) <= 0)%R).
Lemma body_eqN (b : buf) (pl : planeN N) v (s : sdN N) : 0 <= v < MX -> clipN_sd_body N MX D b pl v s =
    let* cl := (if Rltb (sdX pl (ps b v)) 0 then wr MX (clippedN N s) v 1 else OK (clippedN N s)) in
    OK (SDN N (upd (sdistsN N s) v (Some (sdX pl (ps b v)))) (if Rltb (sdX pl (ps b v)) (sminN N s) then sdX pl (ps b v) else sminN N s)
         (if Rltb (smaxN N s) (sdX pl (ps b v)) then sdX pl (ps b v) else smaxN N s) cl).
Proof.
  intros Hv. unfold clipN_sd_body.
  match goal with |- context [for_ 0 D ?bd (dN N pl)] => set (body := bd) end.
  destruct (for_inv (fun k w => w = fold_left (fun s j => nadd N s (nmul N (ps b v j) (nN N pl j))) (zrange k) (dN N pl)) 0 D body (dN N pl)) as (w & Ew & Hw); try lia; auto.
  { intros j w Hj ->. unfold body. rewrite rd_xyz_ok by lia. cbn [bind]. eexists. split; [reflexivity|]. rewrite zrange_succ, fold_left_app by lia. reflexivity. }
  rewrite Ew. cbn [bind]. subst w. fold (sdX pl (ps b v)). rewrite wr_ok by lia. reflexivity.
Qed.
Lemma sd_relN n b b' pl pl' : brel n b b' -> 0 <= n <= MX -> prelN pl pl' ->
  rr (fun s s' => sdokN pl b n s /\ sdokN pl' b' n s' /\ clippedN N s' = clippedN N s) (clipN_sd N MX D b n pl) (clipN_sd N MX D b' n pl').
Proof.
  intros (Hnb & HQ) Hn (Hs & _). unfold clipN_sd.
  apply (rr_for (fun i s s' => sdokN pl b i s /\ sdokN pl' b' i s' /\ clippedN N s' = clippedN N s)); [lia| |].
  - intros i s s' Hi ((A1 & A2 & A3 & A4) & (B1 & B2 & B3 & B4) & HC). rewrite !body_eqN by lia.
    destruct (Hs _ _ (HQ i ltac:(lia))) as (S1 & _).
    assert (ES : Rltb (sdX pl' (ps b' i)) 0 = Rltb (sdX pl (ps b i)) 0) by (apply Rltb_iff; tauto).
    rewrite ES, HC. set (cl := if Rltb (sdX pl (ps b i)) 0 then wr MX (clippedN N s) i 1 else OK (clippedN N s)).
    assert (Hcl : exists c, cl = OK c /\ forall v, c v = if inb (i + 1) v && Rltb (sdX pl (ps b v)) 0 then 1 else 0).
    { unfold cl. destruct (Rltb (sdX pl (ps b i)) 0) eqn:X.
      - rewrite wr_ok by lia. eexists; split; [reflexivity|]. intros v. unfold upd. rewrite inb_next by lia. destruct (Z.eqb_spec v i) as [->|]; cbn; [now rewrite X|]. now rewrite A2.
      - eexists; split; [reflexivity|]. intros v. rewrite inb_next by lia. rewrite A2. destruct (Z.eqb_spec v i) as [->|]; cbn; auto. rewrite X. now rewrite andb_false_r. }
    destruct Hcl as (c & -> & Hc). cbn [bind rr].
    assert (Hc' : forall v, c v = if inb (i + 1) v && Rltb (sdX pl' (ps b' v)) 0 then 1 else 0).
    { intros v. rewrite Hc. destruct (inb_spec (i + 1) v) as [Hv|Hv]; cbn; auto. destruct (Hs _ _ (HQ v ltac:(lia))) as (S2 & _).
      destruct (Rltb (sdX pl (ps b v)) 0) eqn:X, (Rltb (sdX pl' (ps b' v)) 0) eqn:Y; auto; [apply Rltb_true in X; apply Rltb_false in Y; apply S2 in X; lra|apply Rltb_true in Y; apply Rltb_false in X; apply S2 in Y; lra]. }
    split; [|split; auto].
    + split; [|split; [exact Hc|split]].
      * intros v Hv. cbn [sdistsN]. unfold upd. destruct (Z.eqb_spec v i) as [->|]; auto. apply A1. lia.
      * cbn [sminN]. rewrite all_step by lia. rewrite <- A3. apply min_step.
      * cbn [smaxN]. rewrite all_step by lia. rewrite <- A4. apply max_step.
    + split; [|split; [exact Hc'|split]].
      * intros v Hv. cbn [sdistsN]. unfold upd. destruct (Z.eqb_spec v i) as [->|]; auto. apply B1. lia.
      * cbn [sminN]. rewrite all_step by lia. rewrite <- B3. apply min_step.
      * cbn [smaxN]. rewrite all_step by lia. rewrite <- B4. apply max_step.
  - assert (X : forall pl b, sdokN pl b 0 (SDN N (fun _ => None) (nbig N) (nopp N (nbig N)) (fun _ => 0))).
    { intros g c. assert (Y : forall v, inb 0 v = false) by (intros v; apply inb_false; lia). split; [|split; [|split]]; cbn [sdistsN clippedN sminN smaxN].
      - intros v Hv. lia.
      - intros v. now rewrite Y.
      - cbn. split; intros; [lia|]. exact Hbig.
      - split; intros; [lia|]. change (- rnd (10 ^ 30) <= 0)%R. lra. }
    split; [apply X|split; [apply X|reflexivity]].
Qed.

Definition irelN (b0 b0' : buf) (onv : Z) (s s' : buf * fds * Z) : Prop :=
  brel (snd s) (fst (fst s)) (fst (fst s')) /\ snd (fst s') = snd (fst s) /\ snd s' = snd s /\ onv <= snd s <= MX
  /\ (forall v, 0 <= v < onv -> ps (fst (fst s)) v = ps b0 v /\ ps (fst (fst s')) v = ps b0' v).
Lemma ins_relN onv b0 b0' fd pl pl' st st' : 0 <= onv <= MX -> brel onv b0 b0' -> prelN pl pl' -> sdokN pl b0 onv st -> sdokN pl' b0' onv st' ->
  rr (irelN b0 b0' onv) (for_ 0 onv (insN_v N MX D (sdistsN N st) (clippedN N st)) (b0, fd, onv)) (for_ 0 onv (insN_v N MX D (sdistsN N st') (clippedN N st)) (b0', fd, onv)).
Proof.
  intros Ho HB (Hs & Hw) (A1 & A2 & _) (B1 & _).
  apply rr_for'; [|split; [exact HB|]; cbn; split; auto; split; auto; split; [lia|auto]].
  intros vcur s s' Hv HI. unfold insN_v. apply rr_same. intros c Ec.
  assert (Hc0 : c = clippedN N st vcur) by (unfold rd in Ec; destruct (inb MX vcur); congruence). clear Ec. subst c. rewrite A2. rewrite (inb_true onv vcur) by lia. cbn [andb].
  destruct (Rltb (sdX pl (ps b0 vcur)) 0) eqn:Ec; [exact HI|]. apply Rltb_false in Ec. cbn [Z.eqb].
  apply rr_for'; auto. clear s s' HI. intros np ((b, fdx), m) ((b', fd'), m') Hnp (H1 & H2 & H3 & H4 & H5). cbn [fst snd] in *. subst m' fd'.
  unfold insN_np. rewrite (brel_nb Q MX m b b') by auto. apply rr_same. intros vnext _. apply rr_same. intros c Ecn.
  assert (Hcn : c = clippedN N st vnext) by (unfold rd in Ecn; destruct (inb MX vnext); congruence). clear Ecn. subst c. rewrite A2.
  destruct (inb_spec onv vnext) as [Hn|Hn]; cbn [andb]; [|cbn; split; [exact H1|]; cbn; auto].
  destruct (Rltb (sdX pl (ps b0 vnext)) 0) eqn:En; [|cbn; split; [exact H1|]; cbn; auto]. apply Rltb_true in En. cbn [Z.eqb].
  destruct (Z_lt_dec m MX) as [Hm|Hm].
  2:{ unfold wr_nb at 1 3. rewrite (inb_false MX m) by lia. reflexivity. }
  eapply rr_bind; [exact (brel_wr Q MX m b b' D m 0 vcur H1)|]. intros b1 b1' (K1 & P1 & P1').
  eapply rr_bind; [exact (brel_wr Q MX m b1 b1' D vcur np m K1)|]. intros b2 b2' (K2 & P2 & P2').
  destruct (pos_spec N MX D onv (sdistsN N st) (fun v => sdX pl (ps b0 v)) ltac:(lia) A1 vcur vnext m b2 Hv Hn ltac:(lia)) as (b3 & E3 & N3 & O3 & G3).
  destruct (pos_spec N MX D onv (sdistsN N st') (fun v => sdX pl' (ps b0' v)) ltac:(lia) B1 vcur vnext m b2' Hv Hn ltac:(lia)) as (b3' & E3' & N3' & O3' & G3').
  rewrite E3, E3'. cbn [bind]. cbn [T FN] in N3, N3', O3, O3', G3, G3', P1, P1', P2, P2', b1, b1', b2, b2', b3, b3'.
  destruct (H5 vcur Hv) as (F1 & F2). destruct (H5 vnext Hn) as (F3 & F4).
  assert (K3 : brel (m + 1) b3 b3').
  { split; [rewrite N3, N3'; apply K2|]. intros v Hv'. destruct (Z.eq_dec v m) as [->|Hvm].
    - apply (Qext (cutX (ps b0 vcur) (ps b0 vnext) (sdX pl (ps b0 vcur)) (sdX pl (ps b0 vnext))) (cutX (ps b0' vcur) (ps b0' vnext) (sdX pl' (ps b0' vcur)) (sdX pl' (ps b0' vnext)))).
      + destruct HB as (_ & HQ). apply Hw; auto.
      + intros i Hi. rewrite G3 by auto. unfold newposN, cutX. cbn [T FN]. rewrite P2, P1, F1, F3. reflexivity.
      + intros i Hi. rewrite G3' by auto. unfold newposN, cutX. cbn [T FN]. rewrite P2', P1', F2, F4. reflexivity.
    - rewrite O3, O3' by auto. apply K2. lia. }
  apply rr_same. intros (fd1, np1) _.
  assert (B : rr (fun c c' => brel (m + 1) c c' /\ ps c = ps b3 /\ ps c' = ps b3') (insN_blank N MX D m b3) (insN_blank N MX D m b3')).
  { unfold insN_blank. apply rr_for'; auto. intros i c c' Hi (X1 & X2 & X3).
    eapply rr_mono; [exact (brel_wr Q MX (m + 1) c c' D m i (-1) X1)|]. intros d d' (Y1 & Y2 & Y3). split; auto. split; congruence. }
  eapply rr_bind; [exact B|]. intros b4 b4' (K4 & P4 & P4'). apply rr_same. intros fd2 _. cbn. split; [exact K4|]. cbn. split; auto. split; auto. split; [lia|].
  intros v Hv'. rewrite P4, P4', O3, O3' by lia. cbn [T FN] in *. rewrite P2, P2', P1, P1'. auto.
Qed.

Definition crel (n : Z) (s s' : buf * fds * Z) : Prop := brel n (fst (fst s)) (fst (fst s')) /\ snd (fst s') = snd (fst s) /\ snd s' = snd s.
Definition jrel (n : Z) (s s' : buf * fds) : Prop := brel n (fst s) (fst s') /\ snd s' = snd s.
Lemma join_relN n a1 a2 a3 a4 a5 s s' : jrel n s s' -> rr (jrel n) (joinN N MX D a1 a2 a3 a4 a5 s) (joinN N MX D a1 a2 a3 a4 a5 s').
Proof.
  destruct s as (b, fd), s' as (b', fd'). intros (HB & E). cbn [fst snd] in *. subst fd'. unfold joinN.
  apply rr_same. intros x _. apply rr_same. intros y _. apply rr_same. intros z _.
  eapply rr_bind; [exact (brel_wr Q MX n b b' D a3 x a4 HB)|]. intros c c' (K & _).
  eapply rr_bind; [exact (brel_wr Q MX n c c' D a4 y a3 K)|]. intros d d' (Kd & _).
  apply rr_same. intros f1 _. apply rr_same. intros f2 _. cbn. split; auto.
Qed.
Definition wrel (n : Z) (s s' : wst N) : Prop :=
  brel n (w_b N s) (w_b N s') /\ w_fd N s' = w_fd N s /\ w_prev N s' = w_prev N s /\ w_cur N s' = w_cur N s /\ w_f N s' = w_f N s /\ w_adj N s' = w_adj N s /\ w_new N s' = w_new N s.
Lemma turn_relN n onv nf s s' : wrel n s s' -> rr (wrel n) (turnN N MX D onv nf s) (turnN N MX D onv nf s').
Proof.
  destruct s as (b, fd, a, c, f, g, w), s' as (b', fd', a', c', f', g', w'). intros (HB & E1 & E2 & E3 & E4 & E5 & E6). cbn [w_b w_fd w_prev w_cur w_f w_adj w_new] in *. subst.
  unfold turnN. cbn [w_b w_fd w_prev w_cur w_f w_adj w_new]. destruct (c <? onv); [cbn; split; auto 10|].
  eapply rr_bind; [apply (join_relN n); split; [exact HB|reflexivity]|]. intros (b1, fd1) (b1', fd1') (K & E). cbn [fst snd] in *. subst fd1'.
  rewrite (brel_nb Q MX n b1 b1') by auto. apply rr_same. intros x _. cbn. split; auto 10.
Qed.
Lemma step_relN n s s' : wrel n s s' -> rr (wrel n) (stepN N MX D s) (stepN N MX D s').
Proof.
  destruct s as ((nbs, q), fd, a, c, f, g, w), s' as ((nbs', q'), fd', a', c', f', g', w'). intros ((HB & HQ) & E1 & E2 & E3 & E4 & E5 & E6). cbn [nb w_b w_fd w_prev w_cur w_f w_adj w_new] in *. subst.
  unfold stepN. cbn [w_b w_fd w_prev w_cur w_f w_adj w_new].
  eapply rr_bind; [exact (rr_refl _)|]. intros x x' <-. apply rr_same. intros y _. apply rr_same. intros z _. apply rr_same. intros t _.
  eapply rr_bind; [exact (rr_refl _)|]. intros u u' <-. cbn. split; [split; auto|]. cbn. auto 10.
Qed.
Lemma close_relN fuel n onv nverts s s' : crel n s s' -> rr (crel n) (closeN N MX D fuel onv nverts s) (closeN N MX D fuel onv nverts s').
Proof.
  intros H. unfold closeN. apply rr_for'; auto. clear s s' H. intros v s s' _ H. apply rr_for'; auto. clear s s' H. intros np0 s s' _ H. apply rr_for'; auto. clear s s' H.
  intros np1 ((b, fd), nf) ((b', fd'), nf') _ (HB & E1 & E2). cbn [fst snd] in *. subst fd' nf'. unfold closeN_pair.
  apply rr_same. intros x _. destruct (0 <=? x); [cbn; split; auto|]. apply rr_same. intros fc _. apply rr_same. intros fa _.
  rewrite (brel_nb Q MX n b b') by auto. apply rr_same. intros vc _.
  eapply rr_bind; [unfold walkN; apply (rr_dowhile (wrel n))|].
  - intros t t' Ht. eapply rr_bind; [exact (turn_relN n onv nf t t' Ht)|]. intros t1 t1' H1. eapply rr_bind; [exact (step_relN n t1 t1' H1)|]. intros t2 t2' H2. cbn. split; auto.
    destruct H2 as (_ & _ & _ & E & _). now rewrite E.
  - split; [exact HB|]. cbn. auto 10.
  - intros t t' (K1 & K2 & K3 & K4 & K5 & K6 & K7). rewrite K2, K4, K5, K6, K7.
    eapply rr_bind; [apply (join_relN n); split; [exact K1|reflexivity]|]. intros (c, fd1) (c', fd1') (K & E). cbn [fst snd] in *. subst fd1'. cbn. split; auto.
Qed.
Lemma compress_relN n b b' fd cl : 0 <= n -> brel n b b' ->
  rr (fun s s' => brel n (fst (fst (fst s))) (fst (fst (fst s'))) /\ snd (fst (fst s')) = snd (fst (fst s)) /\ snd (fst s') = snd (fst s) /\ snd s' = snd s /\ 0 <= snd s <= n)
     (for_ 0 n (compressN_body N MX) (b, fd, cl, 0)) (for_ 0 n (compressN_body N MX) (b', fd, cl, 0)).
Proof.
  intros Hn HB. eapply rr_mono; [apply (rr_for (fun i s s' => brel n (fst (fst (fst s))) (fst (fst (fst s'))) /\ snd (fst (fst s')) = snd (fst (fst s)) /\ snd (fst s') = snd (fst s) /\ snd s' = snd s /\ 0 <= snd s <= i))|]; auto.
  - intros i (((c, g), k), m) (((c', g'), k'), m') Hi (H1 & H2 & H3 & H4 & H5). cbn [fst snd] in *. subst g' k' m'. unfold compressN_body.
    apply rr_same. intros x _. destruct (x =? 0).
    + eapply rr_bind; [apply (brel_cp Q MX n c c' m i H1); lia|]. intros d d' Hd. apply rr_same. intros k1 _. cbn. split; auto. split; auto. split; auto. split; auto. lia.
    + cbn. split; auto. split; auto. split; auto. split; auto. lia.
  - cbn. split; auto. split; auto. split; auto. split; auto. lia.
Qed.

Definition polrelN (p p' : polyN N) : Prop :=
  nvN N p' = nvN N p /\ nfN N p' = nfN N p /\ fdN N p' = fdN N p /\ 0 <= nvN N p <= MX /\ brel (nvN N p) (vbN N p) (vbN N p').
Lemma cut_relN fuel p p' pl pl' st st' : polrelN p p' -> prelN pl pl' -> sdokN pl (vbN N p) (nvN N p) st -> sdokN pl' (vbN N p') (nvN N p) st' ->
  rr polrelN (clipN_cut N MX D fuel p (sdistsN N st) (clippedN N st)) (clipN_cut N MX D fuel p' (sdistsN N st') (clippedN N st)).
Proof.
  destruct p as (b, fd, n, nf), p' as (b', fd', n', nf'). intros (E1 & E2 & E3 & Hn & HB) HP HA HA'. cbn [vbN fdN nvN nfN] in *. subst.
  unfold clipN_cut. cbn [vbN fdN nvN nfN]. eapply rr_bind; [exact (ins_relN n b b' fd pl pl' st st' Hn HB HP HA HA')|].
  intros ((b1, fd1), m) ((b1', fd1'), m') (H1 & H2 & H3 & H4 & _). cbn [fst snd] in *. subst m' fd1'.
  eapply rr_bind; [apply (close_relN fuel m n m); split; [exact H1|auto]|]. intros ((b2, fd2), nf2) ((b2', fd2'), nf2') (K1 & K2 & K3). cbn [fst snd] in *. subst fd2' nf2'.
  eapply rr_bind; [apply (compress_relN m b2 b2' fd2 (clippedN N st)); auto; lia|].
  intros (((b3, fd3), c3), k) (((b3', fd3'), c3'), k') (L1 & L2 & L3 & L4 & L5). cbn [fst snd] in *. subst fd3' c3' k'.
  eapply rr_bind; [exact (reindex_rel Q MX m D c3 k b3 b3' L1)|]. intros b4 b4' K5. cbn. split; [reflexivity|]. split; [reflexivity|]. split; [reflexivity|]. split; [cbn; lia|].
  eapply brel_mono; [exact K5|cbn; lia].
Qed.
Lemma planes_relN fuel planes planes' : Forall2 prelN planes planes' -> forall p p', polrelN p p' -> rr polrelN (clipN_planes N MX D fuel planes p) (clipN_planes N MX D fuel planes' p').
Proof.
  induction 1 as [|pl pl' r r' HP _ IH]; intros p p' Hp; cbn [clipN_planes]; [exact Hp|].
  destruct Hp as (E1 & E2 & E3 & Hn & HB). pose proof (conj E1 (conj E2 (conj E3 (conj Hn HB))) : polrelN p p') as Hp.
  rewrite E1. eapply rr_bind; [exact (sd_relN (nvN N p) (vbN N p) (vbN N p') pl pl' HB Hn HP)|]. intros s s' (A & A' & EC).
  assert (X : nle N (n0 N) (sminN N s') = nle N (n0 N) (sminN N s)).
  { cbn. apply Rleb_iff. rewrite (proj1 (proj2 (proj2 A'))), (proj1 (proj2 (proj2 A))). destruct HB as (_ & HQ).
    split; intros H v Hv; specialize (H v Hv); destruct (proj1 HP _ _ (HQ v Hv)) as (S1 & _); apply Rnot_lt_le; intros Y; apply S1 in Y; lra. }
  assert (Y : nle N (smaxN N s') (n0 N) = nle N (smaxN N s) (n0 N)).
  { cbn. apply Rleb_iff. rewrite (proj2 (proj2 (proj2 A'))), (proj2 (proj2 (proj2 A))). destruct HB as (_ & HQ).
    split; intros H v Hv; specialize (H v Hv); destruct (proj1 HP _ _ (HQ v Hv)) as (_ & S2); now apply S2. }
  rewrite X, Y. destruct (nle N (n0 N) (sminN N s)); [now apply IH|]. destruct (nle N (smaxN N s) (n0 N)).
  - cbn. split; auto. split; auto. split; auto. cbn. split; [lia|]. split; [apply HB|]. intros; lia.
  - rewrite EC. eapply rr_bind; [exact (cut_relN fuel p p' pl pl' s s' Hp HP A A')|]. exact IH.
Qed.
Theorem clipN_rel fuel planes planes' p p' : Forall2 prelN planes planes' -> polrelN p p' -> rr polrelN (rNd_clip N MX D fuel p planes) (rNd_clip N MX D fuel p' planes').
Proof.
  intros HF Hp. unfold rNd_clip. destruct Hp as (E1 & Hp). rewrite E1. destruct (Z.leb_spec (nvN N p) 0) as [H|H]; [exact (conj E1 Hp)|]. apply planes_relN; auto. exact (conj E1 Hp).
Qed.
End EN.
