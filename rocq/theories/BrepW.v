(** * BrepW: one walk around a face in [r3d_init_brep]. *)
From Coq Require Import ZArith List Bool Lia Permutation.
From Verif Require Import Base Lib ModelCommon CommonFacts Model3 ModelBR Spec3 Orb3 Face3 SpecGood SpecBR BrepO.
Import ListNotations.
Open Scope Z_scope.

Lemma find_spec lo hi (P : Z -> res bool) (pb : Z -> bool) : lo <= hi -> (forall i, lo <= i < hi -> P i = OK (pb i)) ->
  exists r, find_ lo hi P = OK r /\ lo <= r <= hi /\ (r < hi -> pb r = true) /\ forall i, lo <= i < r -> pb i = false.
Proof.
  intros H HP. unfold find_. match goal with |- context [for_ lo hi ?bd _] => set (body := bd) end.
  destruct (for_inv (fun k (o : option Z) => match o with
     | Some r => lo <= r < k /\ pb r = true /\ forall i, lo <= i < r -> pb i = false
     | None => forall i, lo <= i < k -> pb i = false end) lo hi body None) as (o & E & I).
  - lia.
  - lia.
  - intros k [r|] Hk I; unfold body.
    + eexists. split; [reflexivity|]. destruct I as (? & ? & ?). split; [lia|auto].
    + rewrite HP by lia. cbn [bind]. eexists. split; [reflexivity|]. destruct (pb k) eqn:E.
      * split; [lia|auto].
      * intros i Hi. destruct (Z.eq_dec i k) as [->|]; auto. apply I. lia.
  - rewrite E. cbn [bind]. destruct o as [r|].
    + exists r. destruct I as (? & ? & ?). split; auto. split; [lia|]. auto.
    + exists hi. split; auto. split; [lia|]. split; [lia|auto].
Qed.
Lemma find_err lo hi (P : Z -> res bool) e : lo < hi -> P lo = Err e -> find_ lo hi P = Err e.
Proof. intros H E. unfold find_. rewrite for_first by lia. rewrite E. reflexivity. Qed.

Definition deqb (d e : Z * Z) : bool := (fst d =? fst e) && (snd d =? snd e).
Lemma deqb_spec d e : reflect (d = e) (deqb d e).
Proof.
  destruct d as (a, b), e as (c, d). unfold deqb. cbn [fst snd].
  destruct (Z.eqb_spec a c), (Z.eqb_spec b d); constructor; congruence.
Qed.
(** how often a list of directed edges leaves [v]; contains [e] *)
Definition cv (v : Z) (l : list (Z * Z)) : Z := Z.of_nat (length (filter (fun d => fst d =? v) l)).
Definition cd (e : Z * Z) (l : list (Z * Z)) : Z := Z.of_nat (length (filter (deqb e) l)).
Lemma cv_app v l l' : cv v (l ++ l') = cv v l + cv v l'.
Proof. unfold cv. rewrite filter_app, app_length. lia. Qed.
Lemma cd_app e l l' : cd e (l ++ l') = cd e l + cd e l'.
Proof. unfold cd. rewrite filter_app, app_length. lia. Qed.
Lemma cv_one v d : cv v [d] = if fst d =? v then 1 else 0.
Proof. unfold cv. cbn. now destruct (fst d =? v). Qed.
Lemma cd_one e d : cd e [d] = if deqb e d then 1 else 0.
Proof. unfold cd. cbn. now destruct (deqb e d). Qed.
Lemma cd_in e l : NoDup l -> (In e l /\ cd e l = 1) \/ (~ In e l /\ cd e l = 0).
Proof.
  intros H. induction H as [|d l Hd H IH]; [right; auto|].
  change (cd e (d :: l)) with (cd e ([d] ++ l)). rewrite cd_app, cd_one. destruct (deqb_spec e d) as [->|N].
  - left. split; [left; auto|]. destruct IH as [(I & _)|(_ & ->)]; [tauto|lia].
  - destruct IH as [(I & ->)|(I & ->)]; [left|right]; split; auto; cbn; auto. intros [?|?]; auto.
Qed.
Lemma cv_cd v l : (forall d, In d l -> 0 <= snd d < 3) -> cv v l = cd (v, 0) l + cd (v, 1) l + cd (v, 2) l.
Proof.
  induction l as [|d l IH]; intros H; [reflexivity|].
  change (d :: l) with ([d] ++ l). rewrite cv_app, !cd_app, IH by (intros; apply H; cbn; auto). rewrite cv_one, !cd_one.
  pose proof (H d (or_introl eq_refl)) as R. destruct d as (w, i). cbn [fst snd] in *. unfold deqb. cbn [fst snd].
  rewrite (Z.eqb_sym w v). destruct (v =? w); cbn [andb]; [|lia].
  generalize (cd (v, 0) l) (cd (v, 1) l) (cd (v, 2) l). intros x y z. destruct (Z.eqb_spec 0 i), (Z.eqb_spec 1 i), (Z.eqb_spec 2 i); lia.
Qed.
Lemma filter_length_le' {A} (g : A -> bool) l : (length (filter g l) <= length l)%nat.
Proof. induction l as [|x l IH]; cbn; auto. destruct (g x); cbn; lia. Qed.

Section W.
Context {V : Type} (veq : V -> V -> bool) (MX : Z) (b : vbuf V) (n : Z) (Hn : 0 < n <= MX).
Notation f := (nb b).
Hypothesis L : links f (below n).
Hypothesis P : simple_faces f (below n).
Local Notation isd := (isd (below n)).
Local Notation gn := (gnext f).

Lemma rep_exists v : 0 <= v -> exists u, rep veq (ps b) v u.
Proof.
  intros H. apply (zrange_ind (fun v => exists u, rep veq (ps b) v u)); auto.
  - exists 0. split; [lia|]. split; [lia|auto].
  - intros k Hk (u & H1 & H2 & H3). destruct (veq (ps b (k + 1)) (ps b (k + 1 - 1))) eqn:E.
    + exists u. split; [lia|]. split; auto. intros w Hw. destruct (Z.eq_dec w (k + 1)) as [->|]; auto. apply H2; lia.
    + exists (k + 1). split; [lia|]. split; [lia|auto].
Qed.
Lemma br_map_spec : exists m mp, br_map veq MX b n = OK m /\ (forall v, 0 <= v < n -> m v = Some (mp v) /\ rep veq (ps b) v (mp v)).
Proof.
  unfold br_map. rewrite wr_ok by lia. cbn [bind]. match goal with |- context [for_ 1 n ?bd _] => set (body := bd) end.
  destruct (for_inv (fun k (m : Z -> option Z) => forall v, 0 <= v < k -> exists u, m v = Some u /\ rep veq (ps b) v u) 1 n body (upd (fun _ => None) 0 (Some 0))) as (m & E & I).
  - lia.
  - intros v Hv. assert (v = 0) as -> by lia. exists 0. split; [apply upd_eq|]. split; [lia|]. split; [lia|auto].
  - intros k m Hk I. unfold body. rewrite !rd_ps_ok by lia. cbn [bind]. destruct (veq (ps b k) (ps b (k - 1))) eqn:E.
    + destruct (I (k - 1) ltac:(lia)) as (u & Eu & R). unfold rdi. rewrite inb_true, Eu by lia. cbn [bind]. rewrite wr_ok by lia.
      eexists. split; [reflexivity|]. intros v Hv. destruct (Z.eq_dec v k) as [->|].
      * exists u. split; [apply upd_eq|]. destruct R as (R1 & R2 & R3). split; [lia|]. split; auto. intros w Hw.
        destruct (Z.eq_dec w k) as [->|]; auto. apply R2. lia.
      * rewrite upd_neq by auto. apply I. lia.
    + rewrite wr_ok by lia. eexists. split; [reflexivity|]. intros v Hv. destruct (Z.eq_dec v k) as [->|].
      * exists k. split; [apply upd_eq|]. split; [lia|]. split; [lia|auto].
      * rewrite upd_neq by auto. apply I. lia.
  - exists m, (fun v => match m v with Some u => u | None => 0 end). split; auto. intros v Hv. destruct (I v Hv) as (u & E1 & R). rewrite E1. auto.
Qed.

Context (m : Z -> option Z) (mp : Z -> Z).
Hypothesis Hm : forall v, 0 <= v < n -> m v = Some (mp v).
Hypothesis Hr : forall v, 0 <= v < n -> 0 <= mp v < n.

(** an edge whose ends are not merged *)
Definition kept (d : Z * Z) : bool := negb (mp (fst d) =? mp (dtgt f d)).
Definition nz (vic : Z -> Z) (x : Z) : bool := negb (vic x =? 0).
Definition cont (l : list (Z * Z)) : list Z := map (fun d => mp (fst d)) (filter kept l).
Lemma cnt_upd K x : 0 <= x < n -> K x = false -> cnt (fun y => if y =? x then true else K y) n = cnt K n + 1.
Proof.
  intros Hx E. unfold cnt. destruct Hn as (Hn1 & _).
  assert (G : forall l, NoDup l -> Z.of_nat (length (filter (fun y => if y =? x then true else K y) l))
    = Z.of_nat (length (filter K l)) + (if in_dec Z.eq_dec x l then 1 else 0)).
  { intros l. induction 1 as [|a l Ha Hl IH]; [reflexivity|]. cbn [filter]. destruct (Z.eqb_spec a x) as [->|N].
    - rewrite E. cbn [length]. rewrite Nat2Z.inj_succ, IH. destruct (in_dec Z.eq_dec x l); [tauto|]. destruct (in_dec Z.eq_dec x (x :: l)) as [|F]; [lia|].
      exfalso. apply F. cbn; auto.
    - assert (Q : (if in_dec Z.eq_dec x (a :: l) then 1 else 0) = (if in_dec Z.eq_dec x l then 1 else 0)).
      { destruct (in_dec Z.eq_dec x (a :: l)) as [I|I], (in_dec Z.eq_dec x l) as [J|J]; auto; exfalso; cbn in I; intuition. }
      rewrite Q. destruct (K a); cbn [length]; lia. }
  pose proof (G (zrange n) (NoDup_zrange n)) as G'. destruct (in_dec Z.eq_dec x (zrange n)) as [|F]; [exact G'|]. exfalso. apply F, in_zrange. auto.
Qed.

Record winv (vm : Z -> Z) (em : Z -> Z -> Z) (vic : Z -> Z) (l : list (Z * Z)) (w : wst) : Prop := {
  wi_vm : forall v, w_vm w v = vm v + cv v l;
  wi_em : forall v i, w_em w v i = em v i + cd (v, i) l;
  wi_vic : forall x, w_vic w x <> 0 <-> vic x <> 0 \/ exists d, In d l /\ mp (fst d) = x;
  wi_nvc : w_nvc w = cnt (nz (w_vic w)) n;
  wi_kept : w_kept w = Z.of_nat (length (cont l));
  wi_tmp : forall i, 0 <= i < w_kept w -> w_tmp w i = Some (nth (Z.to_nat i) (cont l) 0) }.

Lemma cont_snoc l d : cont (l ++ [d]) = cont l ++ (if kept d then [mp (fst d)] else []).
Proof. unfold cont. rewrite filter_app, map_app. cbn [filter]. now destruct (kept d). Qed.
Lemma step_spec vm em vic l w vstart d : winv vm em vic l w -> isd d -> w_cur w = fst d -> w_pe w = snd d ->
  Z.of_nat (length l) < MX ->
  exists w' c, br_step MX b n m vstart w = OK (w', c) /\ winv vm em vic (l ++ [d]) w'
    /\ (c = false <-> dtgt f d = vstart) /\ (c = true -> w_cur w' = fst (gn d) /\ w_pe w' = snd (gn d)).
Proof.
  intros I Hd Ec Ep Hl. destruct d as (v, i). cbn [fst snd] in *. pose proof Hd as (Hv & Hi). unfold below in Hv. cbn [fst snd] in Hv, Hi.
  assert (Ht : 0 <= f v i < n) by (apply (l_rng _ _ L); auto).
  unfold br_step. rewrite Ec, Ep. rewrite rd_ok by lia. cbn [bind]. rewrite wr_ok by lia. cbn [bind].
  unfold inc_em, rd_em. rewrite !inb_true by lia. cbn [andb bind].
  unfold rdi at 1. rewrite inb_true, Hm by lia. cbn [bind]. pose proof (Hr v Hv) as Hmv.
  rewrite rd_ok by lia. cbn [bind].
  destruct (wi_nvc _ _ _ _ _ I), (wi_kept _ _ _ _ _ I).
  assert (Hk : 0 <= w_kept w < MX).
  { rewrite (wi_kept _ _ _ _ _ I). unfold cont. rewrite map_length. pose proof (filter_length_le' kept l) as Q. lia. }
  assert (Evic : exists vic', (if w_vic w (mp v) =? 0 then wr MX (w_vic w) (mp v) 1 else OK (w_vic w)) = OK vic'
     /\ (forall x, vic' x <> 0 <-> w_vic w x <> 0 \/ x = mp v)
     /\ (if w_vic w (mp v) =? 0 then w_nvc w + 1 else w_nvc w) = cnt (nz vic') n).
  { destruct (Z.eqb_spec (w_vic w (mp v)) 0) as [Z0|Z0].
    - rewrite wr_ok by lia. eexists. split; [reflexivity|]. split.
      + intros x. destruct (Z.eq_dec x (mp v)) as [->|]; [rewrite upd_eq|rewrite upd_neq by auto]; intuition lia.
      + rewrite (wi_nvc _ _ _ _ _ I). rewrite <- (cnt_upd (nz (w_vic w)) (mp v)); auto; [|unfold nz; rewrite Z0; auto].
        apply cnt_ext. intros u _. unfold nz, upd. destruct (u =? mp v); auto.
    - eexists. split; [reflexivity|]. split.
      + intros x. split; [auto|]. intros [| ->]; auto.
      + apply (wi_nvc _ _ _ _ _ I). }
  destruct Evic as (vic' & Ev1 & Ev2 & Ev3). rewrite Ev1. cbn [bind].
  rewrite rd_nb_ok by lia. cbn [bind]. unfold rdi at 1. rewrite inb_true, Hm by lia. cbn [bind].
  assert (Etmp : exists tmp', (if mp v =? mp (f v i) then OK (w_tmp w) else wr MX (w_tmp w) (w_kept w) (Some (mp v))) = OK tmp'
     /\ (if mp v =? mp (f v i) then w_kept w else w_kept w + 1) = Z.of_nat (length (cont (l ++ [(v, i)])))
     /\ forall j, 0 <= j < (if mp v =? mp (f v i) then w_kept w else w_kept w + 1) -> tmp' j = Some (nth (Z.to_nat j) (cont (l ++ [(v, i)])) 0)).
  { rewrite cont_snoc. unfold kept, dtgt. cbn [fst snd]. pose proof (wi_kept _ _ _ _ _ I) as Kk. pose proof (wi_tmp _ _ _ _ _ I) as Kt.
    destruct (Z.eqb_spec (mp v) (mp (f v i))); cbn [negb].
    - rewrite app_nil_r. eauto.
    - rewrite wr_ok by lia. eexists. split; [reflexivity|]. rewrite app_length. cbn [length]. split; [lia|].
      intros j Hj. destruct (Z.eq_dec j (w_kept w)) as [->|].
      + rewrite upd_eq. rewrite app_nth2 by lia. replace (Z.to_nat (w_kept w) - length (cont l))%nat with O by lia. reflexivity.
      + rewrite upd_neq by auto. rewrite app_nth1 by lia. apply Kt. lia. }
  destruct Etmp as (tmp' & Et1 & Et2 & Et3). rewrite Et1. cbn [bind].
  assert (W : forall cur pe, winv vm em vic (l ++ [(v, i)]) (WS (upd (w_vm w) v (w_vm w v + 1)) (upd (w_em w) v (upd (w_em w v) i (w_em w v i + 1)))
     vic' (if w_vic w (mp v) =? 0 then w_nvc w + 1 else w_nvc w) tmp' (if mp v =? mp (f v i) then w_kept w else w_kept w + 1) cur pe)).
  { intros cur pe. split; cbn [w_vm w_em w_vic w_nvc w_tmp w_kept]; auto.
    - intros u. rewrite cv_app, cv_one. cbn [fst]. pose proof (wi_vm _ _ _ _ _ I u) as Q. unfold upd.
      destruct (Z.eqb_spec u v) as [->|N]; [rewrite Z.eqb_refl; lia|]. destruct (Z.eqb_spec v u); [congruence|lia].
    - intros u j. rewrite cd_app, cd_one. pose proof (wi_em _ _ _ _ _ I u j) as Q. unfold upd.
      destruct (deqb_spec (u, j) (v, i)) as [E|N].
      + inversion E; subst. rewrite !Z.eqb_refl. lia.
      + destruct (Z.eqb_spec u v) as [->|]; [|lia]. destruct (Z.eqb_spec j i) as [->|]; [congruence|lia].
    - intros x. rewrite Ev2. rewrite (wi_vic _ _ _ _ _ I). split.
      + intros [[?|(d & Hd' & E)]| ->]; auto.
        * right. exists d. split; auto. apply in_or_app; auto.
        * right. exists (v, i). split; auto. apply in_or_app; cbn; auto.
      + intros [?|(d & Hd' & E)]; auto. apply in_app_or in Hd' as [Hd'|[<-|[]]]; auto. left. right. exists d. auto. }
  assert (Ed : dtgt f (v, i) = f v i) by reflexivity.
  destruct (Z.eqb_spec (f v i) vstart) as [E|N].
  - eexists _, false. split; [reflexivity|]. split; auto. split; [rewrite Ed; tauto|discriminate].
  - destruct (find_spec 0 3 (fun np => let* x := rd_nb MX 3 b (f v i) np in OK (x =? v)) (fun np => f (f v i) np =? v)) as (r & Er & Rr & Fr & Nr).
    + lia.
    + intros j Hj. rewrite rd_nb_ok by lia. reflexivity.
    + rewrite Er. cbn [bind]. eexists _, true. split; [reflexivity|]. split; auto. split; [rewrite Ed; split; [discriminate|tauto]|].
      intros _. cbn [w_cur w_pe fst gnext snd]. split; auto.
      destruct (l_mut _ _ L v i Hv Hi) as (j & Hj & Ej).
      assert (r < 3). { destruct (Z_lt_dec r 3); auto. specialize (Nr j ltac:(lia)). rewrite Ej, Z.eqb_refl in Nr. discriminate. }
      specialize (Fr ltac:(auto)). apply Z.eqb_eq in Fr. unfold gnext. cbn [snd]. rewrite Ed. unfold dsrc. cbn [fst].
      rewrite (slot_eq f (below n) L (f v i) v r); auto. lia.
Qed.
Lemma gloop_S s k : map (fun j => iter j gn s) (seq 0 (S k)) = map (fun j => iter j gn s) (seq 0 k) ++ [iter k gn s].
Proof. rewrite seq_S, map_app. reflexivity. Qed.
Lemma walk_spec fuel vm em vic nvc tmp s : isd s -> nvc = cnt (nz vic) n -> (Z.to_nat n <= fuel)%nat ->
  exists w, dowhile fuel (br_step MX b n m (fst s)) (WS vm em vic nvc tmp 0 (fst s) (snd s)) = OK w
    /\ winv vm em vic (gface f n s) w.
Proof.
  intros Hs Ec Hf. destruct (gper_ok f n ltac:(lia) L P s Hs) as (q & Eq & Hq & Ep & Mq). unfold gface. rewrite Eq.
  set (Q := fun r => exists w, r = OK w /\ winv vm em vic (map (fun j => iter j gn s) (seq 0 q)) w). change (Q (dowhile fuel (br_step MX b n m (fst s)) (WS vm em vic nvc tmp 0 (fst s) (snd s)))).
  apply (dowhile_meas _ (fun r w => (r < q)%nat /\ winv vm em vic (map (fun j => iter j gn s) (seq 0 (q - 1 - r))) w
     /\ w_cur w = fst (iter (q - 1 - r) gn s) /\ w_pe w = snd (iter (q - 1 - r) gn s)) Q) with (m := (q - 1)%nat).
  - intros r w (Hr' & I & E1 & E2). set (k := (q - 1 - r)%nat) in *.
    destruct (step_spec vm em vic _ w (fst s) (iter k gn s) I) as (w' & c & E & I' & Hc & Hc'); auto.
    + apply isd_gi; auto.
    + rewrite map_length, seq_length. lia.
    + rewrite <- gloop_S in I'. destruct c.
      * left. exists w', (r - 1)%nat. split; auto.
        assert (r <> 0)%nat.
        { intros ->. destruct Hc as (_ & Hc). assert (dtgt f (iter k gn s) = fst s); [|specialize (Hc H); discriminate].
          change (dtgt f (iter k gn s)) with (fst (iter (S k) gn s)). replace (S k) with q by lia. now rewrite Ep. }
        split; [lia|]. split; [lia|]. replace (q - 1 - (r - 1))%nat with (S k) by lia. destruct (Hc' eq_refl) as (C1 & C2). auto.
      * right. left. exists w'. split; auto. exists w'. split; auto.
        assert (E0 : dtgt f (iter k gn s) = fst s) by (apply Hc; auto). change (dtgt f (iter k gn s)) with (fst (iter (S k) gn s)) in E0.
        destruct (Nat.eq_dec (S k) q) as [E3|N]; [rewrite E3 in I'; auto|]. exfalso. apply (Mq (S k)); auto. lia.
  - split; [lia|]. replace (q - 1 - (q - 1))%nat with O by lia. cbn [seq map iter]. split; [|auto].
    split; cbn [w_vm w_em w_vic w_nvc w_tmp w_kept]; auto.
    + intros v. unfold cv. cbn. lia.
    + intros v i. unfold cd. cbn. lia.
    + intros x. split; auto. intros [|(d & [] & _)]; auto.
    + lia.
  - lia.
Qed.
End W.
