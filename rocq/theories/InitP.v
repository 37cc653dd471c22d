(** * InitP: [r3d_init_poly], counting and the case of three faces per vertex. *)
From Coq Require Import ZArith List Bool Lia.
From Verif Require Import Base Lib ModelCommon CommonFacts Model3 ModelB Spec3 SpecB.
Import ListNotations.
Open Scope Z_scope.

Lemma NoDup_app4 {A} (l l' : list A) : NoDup l -> NoDup l' -> (forall y, In y l -> In y l' -> False) -> NoDup (l ++ l').
Proof.
  induction l as [|x l IH]; intros H1 H2 H; cbn; auto. inversion H1; subst. constructor.
  - intros [I|I]%in_app_or; auto. apply (H x); cbn; auto.
  - apply IH; auto. intros y Y. apply H. cbn. auto.
Qed.
Lemma zrange_cut a n : 0 <= a < n -> exists r, zrange n = zrange a ++ a :: r.
Proof.
  intros H. unfold zrange. replace (Z.to_nat n) with (Z.to_nat a + S (Z.to_nat (n - a - 1)))%nat by lia.
  rewrite seq_app, map_app. cbn [seq map]. eexists. f_equal. f_equal. lia.
Qed.

Section Desc.
Context (nf : Z) (nvf : Z -> Z) (fi : Z -> Z -> Z).
Notation corner := (corner nf nvf).
Notation corners := (corners nf nvf).
Notation vat := (vat fi).
Notation csucc := (csucc nvf).
Notation cpred := (cpred nvf).

Lemma in_corners c : In c corners <-> corner c.
Proof.
  unfold corners, corner. rewrite in_flat_map. split.
  - intros (f & Hf & H). apply in_map_iff in H as (k & <- & Hk). apply in_zrange in Hf, Hk. cbn. auto.
  - intros (Hf & Hk). exists (fst c). split; [now apply in_zrange|]. apply in_map_iff. exists (snd c).
    split; [now destruct c|now apply in_zrange].
Qed.
Lemma NoDup_corners : NoDup corners.
Proof.
  unfold corners. pose proof (NoDup_zrange nf) as H. induction H as [|f l Hf Hl IH]; cbn [flat_map]; [constructor|].
  apply NoDup_app4.
  - apply FinFun.Injective_map_NoDup; [|apply NoDup_zrange]. intros x y E. now inversion E.
  - auto.
  - intros c H1 H2. apply in_map_iff in H1 as (k & <- & _). apply in_flat_map in H2 as (g & Hg & H2).
    apply in_map_iff in H2 as (k' & E & _). inversion E; subst. auto.
Qed.
Lemma csucc_corner c : corner c -> corner (csucc c).
Proof. intros (H1 & H2). split; cbn; auto. apply Z.mod_pos_bound. lia. Qed.
Lemma cpred_corner c : corner c -> corner (cpred c).
Proof. intros (H1 & H2). split; cbn; auto. apply Z.mod_pos_bound. lia. Qed.
Lemma csucc_cpred c : corner c -> csucc (cpred c) = c.
Proof.
  intros (H1 & H2). unfold csucc, cpred. cbn [fst snd]. rewrite Z.add_mod_idemp_l by lia.
  replace (snd c - 1 + 1) with (snd c) by lia. rewrite Z.mod_small by lia. now destruct c.
Qed.
Lemma cpred_csucc c : corner c -> cpred (csucc c) = c.
Proof.
  intros (H1 & H2). unfold csucc, cpred. cbn [fst snd]. rewrite Zminus_mod_idemp_l by lia.
  replace (snd c + 1 - 1) with (snd c) by lia. rewrite Z.mod_small by lia. now destruct c.
Qed.
Lemma csucc_2 c : corner c -> (snd c + 2) mod nvf (fst c) = snd (csucc (csucc c)).
Proof. intros (H1 & H2). cbn [csucc fst snd SpecB.csucc]. rewrite Z.add_mod_idemp_l by lia. f_equal. lia. Qed.

(** the nested loops visit the corners in order *)
Lemma corners_inv {S} (P : list (Z * Z) -> S -> Prop) (body : Z -> Z -> S -> res S) s :
  0 <= nf -> (forall f, 0 <= f < nf -> 0 <= nvf f) -> P [] s ->
  (forall l c r s, corners = l ++ c :: r -> P l s -> exists s', body (fst c) (snd c) s = OK s' /\ P (l ++ [c]) s') ->
  exists s', for_ 0 nf (fun f => for_ 0 (nvf f) (body f)) s = OK s' /\ P corners s'.
Proof.
  intros Hf Hk P0 Hs.
  apply (for_inv (fun f s => P (flat_map (fun f => map (pair f) (zrange (nvf f))) (zrange f)) s)); auto.
  intros f s1 Hf1 P1.
  destruct (for_inv (fun k s => P (flat_map (fun f => map (pair f) (zrange (nvf f))) (zrange f) ++ map (pair f) (zrange k)) s)
    0 (nvf f) (body f) s1) as (s2 & E & P2).
  - auto.
  - rewrite app_nil_r. auto.
  - intros k s2 Hk2 P2.
    destruct (zrange_cut f nf ltac:(lia)) as (rf & Ef). destruct (zrange_cut k (nvf f) ltac:(lia)) as (rk & Ek).
    destruct (Hs (flat_map (fun f => map (pair f) (zrange (nvf f))) (zrange f) ++ map (pair f) (zrange k)) (f, k)
       (map (pair f) rk ++ flat_map (fun f => map (pair f) (zrange (nvf f))) rf) s2) as (s3 & E3 & P3); auto.
    + unfold corners. rewrite Ef, flat_map_app. cbn [flat_map].
      rewrite Ek, map_app. cbn [map]. rewrite <- !app_assoc. reflexivity.
    + exists s3. split; auto. rewrite zrange_succ, map_app, app_assoc by lia. exact P3.
  - exists s2. split; auto. rewrite zrange_succ, flat_map_app by lia. cbn [flat_map]. now rewrite app_nil_r.
Qed.

(** ** counting *)
Context (MX : Z).
Definition cntl (l : list (Z * Z)) (v : Z) : Z := Z.of_nat (length (filter (fun c => vat c =? v) l)).
Lemma ip_count_spec : 0 <= nf -> (forall f, 0 <= f < nf -> 0 <= nvf f) -> (forall c, corner c -> 0 <= vat c < MX) ->
  exists e, ip_count MX nf nvf fi = OK e /\ forall v, e v = vdeg nf nvf fi v.
Proof.
  intros H1 H2 HR. unfold ip_count.
  apply (corners_inv (fun l e => forall v, e v = cntl l v)
    (fun f k e => let* c := rd MX e (fi f k) in wr MX e (fi f k) (c + 1))); auto.
  intros l c r e El I. pose proof (HR c) as Hc. rewrite <- in_corners, El in Hc. specialize (Hc ltac:(apply in_or_app; cbn; auto)). unfold SpecB.vat in Hc.
  rewrite rd_ok by auto. cbn [bind]. rewrite wr_ok by auto. eexists. split; [reflexivity|].
  intros v. unfold cntl. rewrite filter_app, app_length. cbn [filter]. unfold SpecB.vat at 2. unfold upd. rewrite !I.
  destruct (Z.eqb_spec v (fi (fst c) (snd c))) as [->|N].
  - rewrite Z.eqb_refl. cbn [length]. unfold cntl. lia.
  - destruct (Z.eqb_spec (fi (fst c) (snd c)) v); [congruence|]. cbn [length]. unfold cntl. lia.
Qed.
Lemma ip_minmax_spec n e : 0 <= n <= MX -> exists mn mx, ip_minmax MX n e = OK (mn, mx)
  /\ mn <= MX /\ 0 <= mx /\ (forall v, 0 <= v < n -> mn <= e v <= mx)
  /\ (mn = MX \/ exists v, 0 <= v < n /\ e v = mn) /\ (mx = 0 \/ exists v, 0 <= v < n /\ e v = mx).
Proof.
  intros Hn. unfold ip_minmax. match goal with |- context [for_ 0 n ?bd _] => set (body := bd) end.
  destruct (for_inv (fun k (s : Z * Z) => fst s <= MX /\ 0 <= snd s /\ (forall v, 0 <= v < k -> fst s <= e v <= snd s)
     /\ (fst s = MX \/ exists v, 0 <= v < k /\ e v = fst s) /\ (snd s = 0 \/ exists v, 0 <= v < k /\ e v = snd s)) 0 n body (MX, 0)) as (s & E & I).
  - lia.
  - cbn. split; [lia|]. split; [lia|]. split; [lia|]. auto.
  - intros k (mn, mx) Hk (I1 & I2 & I3 & I4 & I5). unfold body. rewrite rd_ok by lia. cbn [bind fst snd] in *. eexists. split; [reflexivity|].
    cbn [fst snd].
    destruct (Z.ltb_spec (e k) mn), (Z.ltb_spec mx (e k)).
    all: split; [lia|]; split; [lia|]; split;
      [intros v Hv; destruct (Z.eq_dec v k) as [->|]; [lia|specialize (I3 v ltac:(lia)); lia]|].
    all: assert (J4 : mn = MX \/ exists v, 0 <= v < k + 1 /\ e v = mn)
      by (destruct I4 as [A|(v & A & B)]; [auto|right; exists v; split; [lia|auto]]).
    all: assert (J5 : mx = 0 \/ exists v, 0 <= v < k + 1 /\ e v = mx)
      by (destruct I5 as [A|(v & A & B)]; [auto|right; exists v; split; [lia|auto]]).
    all: assert (Jk : exists v, 0 <= v < k + 1 /\ e v = e k) by (exists k; split; [lia|auto]).
    all: split; auto.
  - destruct s as (mn, mx). exists mn, mx. auto.
Qed.

(** ** three faces per vertex *)
Context (n : Z) (CS : closed_surface nf nvf fi n).
Definition tri v x y := exists c, corner c /\ vat c = x /\ vat (csucc c) = v /\ vat (csucc (csucc c)) = y.
Lemma tri_fun v x y y' : tri v x y -> tri v x y' -> y = y'.
Proof.
  intros (c & Hc & <- & <- & <-) (d & Hd & E1 & E2 & <-). rewrite (cs_once _ _ _ _ CS c d); auto.
Qed.
Lemma tri_inj v x x' y : tri v x y -> tri v x' y -> x = x'.
Proof.
  intros (c & Hc & <- & <- & <-) (d & Hd & <- & E2 & E3).
  assert (E : csucc c = csucc d) by (apply (cs_once _ _ _ _ CS); auto using csucc_corner).
  rewrite <- (cpred_csucc c), <- (cpred_csucc d), E; auto.
Qed.
Lemma tri_next v x y : tri v x y -> exists z, tri v y z.
Proof.
  intros (c & Hc & <- & <- & <-). destruct (cs_back _ _ _ _ CS (csucc c)) as (d & Hd & E1 & E2); auto using csucc_corner.
  exists (vat (csucc (csucc d))). exists d. auto.
Qed.
Lemma tri_ne v x y : tri v x y -> x <> y /\ x <> v /\ v <> y.
Proof.
  intros (c & Hc & <- & <- & <-). split; [apply (cs_turn _ _ _ _ CS); auto|].
  split; apply (cs_loop _ _ _ _ CS); auto using csucc_corner.
Qed.
Lemma tri_rng v x y : tri v x y -> 0 <= v < n /\ 0 <= x < n /\ 0 <= y < n.
Proof.
  intros (c & Hc & <- & <- & <-). repeat split; apply (cs_rng _ _ _ _ CS); auto using csucc_corner.
Qed.
Definition cyc v x y z := tri v x y /\ tri v y z /\ tri v z x /\ x <> y /\ y <> z /\ z <> x
  /\ forall a b, tri v a b -> (a = x /\ b = y) \/ (a = y /\ b = z) \/ (a = z /\ b = x).
Lemma cyc_rot v x y z : cyc v x y z -> cyc v y z x.
Proof.
  intros (A & B & C & D1 & D2 & D3 & E). do 6 (split; auto). intros a b T. destruct (E a b T) as [?|[?|?]]; auto.
Qed.
Lemma deg3 v : vdeg nf nvf fi v = 3 -> exists x y z, cyc v x y z.
Proof.
  intros H. unfold vdeg in H.
  assert (P : forall c, In c (filter (fun c => vat c =? v) corners) <-> corner c /\ vat c = v).
  { intros c. rewrite filter_In, in_corners, Z.eqb_eq. tauto. }
  assert (N : NoDup (filter (fun c => vat c =? v) corners)) by (apply NoDup_filter, NoDup_corners).
  destruct (filter (fun c => vat c =? v) corners) as [|c1 [|c2 [|c3 [|? ?]]]]; cbn [length] in H; try lia.
  assert (T : forall c, corner c -> vat c = v -> tri v (vat (cpred c)) (vat (csucc c))).
  { intros c Hc <-. exists (cpred c). rewrite csucc_cpred by auto. auto using cpred_corner. }
  assert (P1 : corner c1 /\ vat c1 = v) by (apply P; cbn; auto).
  assert (P2 : corner c2 /\ vat c2 = v) by (apply P; cbn; auto).
  assert (P3 : corner c3 /\ vat c3 = v) by (apply P; cbn; auto).
  destruct P1 as (K1 & V1), P2 as (K2 & V2), P3 as (K3 & V3).
  assert (INJ : forall c d, corner c -> corner d -> vat c = v -> vat d = v -> vat (cpred c) = vat (cpred d) -> c = d).
  { intros c d Hc Hd Ec Ed E.
    assert (cpred c = cpred d) as E' by (apply (cs_once _ _ _ _ CS); auto using cpred_corner; rewrite !csucc_cpred by auto; congruence).
    rewrite <- (csucc_cpred c), <- (csucc_cpred d), E'; auto. }
  apply NoDup_cons_iff in N as (N1 & N'). apply NoDup_cons_iff in N' as (N2 & _).
  assert (c1 <> c2 /\ c1 <> c3 /\ c2 <> c3) as (M1 & M2 & M3).
  { cbn in N1, N2. repeat split; intros E; subst; tauto. }
  assert (X : forall a b, tri v a b -> a = vat (cpred c1) \/ a = vat (cpred c2) \/ a = vat (cpred c3)).
  { intros a b (c & Hc & <- & E & _). assert (csucc c = c1 \/ csucc c = c2 \/ csucc c = c3) as W.
    { destruct (P (csucc c)) as (_ & W). destruct W as [W|[W|[W|[]]]]; auto using csucc_corner. }
    rewrite <- (cpred_csucc c) by auto. destruct W as [<-|[<-|<-]]; auto. }
  pose proof (T c1 K1 V1) as T1. pose proof (T c2 K2 V2) as T2. pose proof (T c3 K3 V3) as T3.
  assert (vat (cpred c1) <> vat (cpred c2)) by (intros E; apply M1, INJ; auto).
  assert (vat (cpred c1) <> vat (cpred c3)) by (intros E; apply M2, INJ; auto).
  assert (vat (cpred c2) <> vat (cpred c3)) by (intros E; apply M3, INJ; auto).
  set (a := vat (cpred c1)) in *. set (b := vat (cpred c2)) in *. set (c := vat (cpred c3)) in *.
  set (a' := vat (csucc c1)) in *. set (b' := vat (csucc c2)) in *. set (c' := vat (csucc c3)) in *.
  assert (Q : forall x y, tri v x y -> (x = a /\ y = a') \/ (x = b /\ y = b') \/ (x = c /\ y = c')).
  { intros x y Tx. destruct (X x y Tx) as [->|[->| ->]]; [left|right; left|right; right]; split; auto; eapply tri_fun; eauto. }
  assert (Y : forall x y, tri v x y -> y = a \/ y = b \/ y = c).
  { intros x y Tx. destruct (tri_next _ _ _ Tx) as (w & Tw). eapply X; eauto. }
  destruct (tri_ne _ _ _ T1) as (F1 & _). destruct (tri_ne _ _ _ T2) as (F2 & _). destruct (tri_ne _ _ _ T3) as (F3 & _).
  assert (a' <> b') by (intros E; apply H0; eapply tri_inj; eauto; rewrite E; eauto).
  assert (a' <> c') by (intros E; apply H1; eapply tri_inj; eauto; rewrite E; eauto).
  assert (b' <> c') by (intros E; apply H2; eapply tri_inj; eauto; rewrite E; eauto).
  destruct (Y _ _ T1) as [E|[E|E]]; [congruence| |].
  - assert (b' = c) by (destruct (Y _ _ T3), (Y _ _ T2) as [|[|]]; intuition congruence).
    assert (c' = a) by (destruct (Y _ _ T3) as [|[|]]; intuition congruence).
    exists a, b, c. rewrite E in T1. rewrite H6 in T2. rewrite H7 in T3. do 6 (split; auto).
    intros x y Tx. destruct (Q x y Tx) as [(-> & ->)|[(-> & ->)|(-> & ->)]]; auto.
  - assert (c' = b) by (destruct (Y _ _ T3) as [|[|]], (Y _ _ T2) as [|[|]]; intuition congruence).
    assert (b' = a) by (destruct (Y _ _ T2) as [|[|]]; intuition congruence).
    exists a, c, b. rewrite E in T1. rewrite H7 in T2. rewrite H6 in T3. do 6 (split; auto).
    intros x y Tx. destruct (Q x y Tx) as [(-> & ->)|[(-> & ->)|(-> & ->)]]; auto.
Qed.

Context {V : Type}.
Notation buf := (vbuf V).
Definition row (b : buf) v x y z := nb b v 0 = x /\ nb b v 1 = y /\ nb b v 2 = z.
Definition rowinv (l : list (Z * Z)) (b : buf) v :=
  (row b v MX MX MX /\ forall c, In c l -> vat (csucc c) <> v)
  \/ (exists x y z, cyc v x y z /\ row b v y x MX /\ forall c, In c l -> vat (csucc c) = v -> vat c = x)
  \/ (exists x y z, cyc v x y z /\ row b v y x z).
Lemma ip_find_row (b : buf) v x y z p q : row b v x y z -> 0 <= v < MX ->
  ip_find MX b p v q = OK (if x =? p then Some (0, true) else if x =? q then Some (0, false)
    else if y =? p then Some (1, true) else if y =? q then Some (1, false)
    else if z =? p then Some (2, true) else if z =? q then Some (2, false) else None).
Proof.
  intros (<- & <- & <-) Hv. unfold ip_find. rewrite for_3. rewrite rd_nb_ok by lia. cbn [bind].
  destruct (nb b v 0 =? p); cbn [bind]; auto. destruct (nb b v 0 =? q); cbn [bind]; auto.
  rewrite rd_nb_ok by lia. cbn [bind].
  destruct (nb b v 1 =? p); cbn [bind]; auto. destruct (nb b v 1 =? q); cbn [bind]; auto.
  rewrite rd_nb_ok by lia. cbn [bind]. auto.
Qed.

Context (HMX : n <= MX) (D3 : forall v, 0 <= v < n -> vdeg nf nvf fi v = 3).
Lemma row_other (b b' : buf) l c v : (forall i, nb b' v i = nb b v i) -> vat (csucc c) <> v -> rowinv l b v -> rowinv (l ++ [c]) b' v.
Proof.
  intros E N. unfold rowinv, row. rewrite !E.
  intros [(R & H)|[(x & y & z & C & R & H)|(x & y & z & C & R)]].
  - left. split; auto. intros d Hd. apply in_app_or in Hd as [Hd|[<-|[]]]; auto.
  - right. left. exists x, y, z. do 2 (split; auto). intros d Hd Ed. apply in_app_or in Hd as [Hd|[<-|[]]]; [auto|congruence].
  - right. right. exists x, y, z. auto.
Qed.
Ltac nbs := cbn [nb ps]; rewrite ?set_nb_eq; repeat (rewrite set_nb_neq_p by lia; rewrite ?set_nb_eq); auto.
Lemma corner_step l c r (b : buf) : corners = l ++ c :: r -> (forall v, 0 <= v < n -> rowinv l b v) ->
  exists b', ip_corner MX b (vat c) (vat (csucc c)) (vat (csucc (csucc c))) = OK b'
    /\ ps b' = ps b /\ (forall v, 0 <= v < n -> rowinv (l ++ [c]) b' v).
Proof.
  intros El I. assert (Hc : corner c) by (apply in_corners; rewrite El; apply in_or_app; cbn; auto).
  assert (Ht : tri (vat (csucc c)) (vat c) (vat (csucc (csucc c)))) by (exists c; auto).
  remember (vat c) as p eqn:Ep. remember (vat (csucc c)) as v eqn:Ev. remember (vat (csucc (csucc c))) as q eqn:Eq.
  destruct (tri_rng _ _ _ Ht) as (Rv & Rp & Rq). destruct (tri_ne _ _ _ Ht) as (Npq & Npv & Nvq).
  assert (K : forall b', ps b' = ps b -> (forall u i, u <> v -> nb b' u i = nb b u i) -> rowinv (l ++ [c]) b' v ->
    ps b' = ps b /\ (forall v, 0 <= v < n -> rowinv (l ++ [c]) b' v)).
  { intros b' E1 E2 E3. split; auto. intros u Hu. destruct (Z.eq_dec u v) as [->|Nu]; auto.
    apply (row_other b); auto. congruence. }
  unfold ip_corner. destruct (I v Rv) as [(R & H)|[(x & y & z & C & R & H)|(x & y & z & C & R)]].
  - rewrite (ip_find_row _ _ _ _ _ _ _ R) by lia. cbn [bind].
    destruct (Z.eqb_spec MX p); [lia|]. destruct (Z.eqb_spec MX q); [lia|].
    rewrite !wr_nb_ok by lia. cbn [bind]. rewrite !wr_nb_ok by lia. eexists. split; [reflexivity|]. apply K; auto.
    + intros u i Hu. cbn [nb]. now rewrite !set_nb_neq_v by auto.
    + right. left. destruct (deg3 v (D3 v Rv)) as (x & y & z & C).
      assert (C' : exists w, cyc v p q w).
      { pose proof (cyc_rot _ _ _ _ C) as C2. pose proof (cyc_rot _ _ _ _ C2) as C3.
        pose proof C as (_ & _ & _ & _ & _ & _ & A). destruct (A _ _ Ht) as [(-> & ->)|[(-> & ->)|(-> & ->)]]; eauto. }
      destruct C' as (w & C'). exists p, q, w. do 2 (split; auto).
      * unfold row. destruct R as (R0 & R1 & R2). cbn [nb]. split; [nbs|]. split; nbs.
      * intros d Hd Ed. apply in_app_or in Hd as [Hd|[<-|[]]]; [exfalso; apply (H d); auto|auto].
  - rewrite (ip_find_row _ _ _ _ _ _ _ R) by lia. cbn [bind]. pose proof C as (T1 & T2 & T3 & N1 & N2 & N3 & A).
    pose proof (tri_rng _ _ _ T2) as Rz.
    destruct (A _ _ Ht) as [(-> & ->)|[(-> & ->)|(-> & ->)]].
    + destruct (Z.eqb_spec y x); [lia|]. rewrite Z.eqb_refl. rewrite wr_nb_ok by (cbn; lia). eexists. split; [reflexivity|].
      apply K; auto. { intros u i Hu. cbn [nb]. now rewrite !set_nb_neq_v by auto. }
      right. left. exists x, y, z. do 2 (split; auto).
      * destruct R as (R0 & R1 & R2). change ((0 + 1) mod 3) with 1. split; [nbs|]. split; nbs.
      * intros d Hd Ed. apply in_app_or in Hd as [Hd|[<-|[]]]; auto.
    + rewrite Z.eqb_refl. rewrite wr_nb_ok by (cbn; lia). eexists. split; [reflexivity|].
      apply K; auto. { intros u i Hu. cbn [nb]. now rewrite !set_nb_neq_v by auto. }
      right. right. exists x, y, z. split; auto.
      destruct R as (R0 & R1 & R2). change ((0 + 2) mod 3) with 2. split; [nbs|]. split; nbs.
    + destruct (Z.eqb_spec y z); [lia|]. destruct (Z.eqb_spec y x); [lia|]. destruct (Z.eqb_spec x z); [lia|]. rewrite Z.eqb_refl.
      rewrite wr_nb_ok by (cbn; lia). eexists. split; [reflexivity|].
      apply K; auto. { intros u i Hu. cbn [nb]. now rewrite !set_nb_neq_v by auto. }
      right. right. exists x, y, z. split; auto.
      destruct R as (R0 & R1 & R2). change ((1 + 1) mod 3) with 2. split; [nbs|]. split; nbs.
  - rewrite (ip_find_row _ _ _ _ _ _ _ R) by lia. cbn [bind]. pose proof C as (T1 & T2 & T3 & N1 & N2 & N3 & A).
    pose proof (tri_rng _ _ _ T2) as Rz.
    destruct (A _ _ Ht) as [(-> & ->)|[(-> & ->)|(-> & ->)]].
    + destruct (Z.eqb_spec y x); [lia|]. rewrite Z.eqb_refl. rewrite wr_nb_ok by (cbn; lia). eexists. split; [reflexivity|].
      apply K; auto. { intros u i Hu. cbn [nb]. now rewrite !set_nb_neq_v by auto. }
      right. right. exists x, y, z. split; auto.
      destruct R as (R0 & R1 & R2). change ((0 + 1) mod 3) with 1. split; [nbs|]. split; nbs.
    + rewrite Z.eqb_refl. rewrite wr_nb_ok by (cbn; lia). eexists. split; [reflexivity|].
      apply K; auto. { intros u i Hu. cbn [nb]. now rewrite !set_nb_neq_v by auto. }
      right. right. exists x, y, z. split; auto.
      destruct R as (R0 & R1 & R2). change ((0 + 2) mod 3) with 2. split; [nbs|]. split; nbs.
    + destruct (Z.eqb_spec y z); [lia|]. destruct (Z.eqb_spec y x); [lia|]. destruct (Z.eqb_spec x z); [lia|]. rewrite Z.eqb_refl.
      rewrite wr_nb_ok by (cbn; lia). eexists. split; [reflexivity|].
      apply K; auto. { intros u i Hu. cbn [nb]. now rewrite !set_nb_neq_v by auto. }
      right. right. exists x, y, z. split; auto.
      destruct R as (R0 & R1 & R2). change ((1 + 1) mod 3) with 2. split; [nbs|]. split; nbs.
Qed.
Lemma simple_spec (b : buf) vertices : 0 <= nf -> 0 <= n ->
  exists b', ip_simple MX nf nvf fi b vertices n = OK b' /\ (forall v, 0 <= v < n -> ps b' v = vertices v)
    /\ forall v, 0 <= v < n -> exists x y z, cyc v x y z /\ row b' v y x z.
Proof.
  intros Hf Hn. unfold ip_simple. match goal with |- context [for_ 0 n ?bd b] => set (body := bd) end.
  destruct (for_inv (fun k (b : buf) => forall v, 0 <= v < k -> ps b v = vertices v /\ row b v MX MX MX) 0 n body b) as (b1 & E1 & I1).
  - lia.
  - lia.
  - intros v b1 Hv I. unfold body. rewrite wr_ps_ok by lia. cbn [bind]. rewrite for_3.
    do 3 (rewrite wr_nb_ok by lia; cbn [bind nb ps]). eexists. split; [reflexivity|].
    intros u Hu. unfold row. cbn [nb ps]. destruct (Z.eq_dec u v) as [->|Nu].
    + rewrite upd_eq. split; auto. split; [nbs|]. split; nbs.
    + rewrite upd_neq by auto. rewrite !set_nb_neq_v by auto. apply I. lia.
  - rewrite E1. cbn [bind].
    destruct (corners_inv (fun l (b : buf) => (forall v, 0 <= v < n -> ps b v = vertices v) /\ forall v, 0 <= v < n -> rowinv l b v)
      (fun f v b => ip_corner MX b (fi f v) (fi f ((v + 1) mod nvf f)) (fi f ((v + 2) mod nvf f))) b1) as (b2 & E2 & I2 & I3); auto.
    + intros f Hf'. pose proof (cs_size _ _ _ _ CS f Hf'). lia.
    + split; intros v Hv; [apply I1; auto|]. left. split; [apply I1; auto|]. intros c [].
    + intros l c r b2 El (P1 & P2). destruct (corner_step l c r b2 El P2) as (b3 & E3 & Ep & P3).
      exists b3. split; [|rewrite Ep; auto].
      assert (Hc : corner c) by (apply in_corners; rewrite El; apply in_or_app; cbn; auto).
      rewrite csucc_2 by auto. exact E3.
    + exists b2. split; auto. split; auto. intros v Hv. destruct (I3 v Hv) as [(R & H)|[(x & y & z & C & R & H)|?]]; auto; exfalso.
      * destruct (deg3 v (D3 v Hv)) as (x & y & z & (c & Hc & _ & E & _) & _). apply (H c); auto. now apply in_corners.
      * destruct C as (_ & (c & Hc & E & E' & _) & _ & N & _). apply N. rewrite <- E. symmetry. apply H; auto. now apply in_corners.
Qed.

(** ** the graph and its faces *)
Section Out.
Context (b : buf) (HB : forall v, 0 <= v < n -> exists x y z, cyc v x y z /\ row b v y x z).
Let f := nb b.
Lemma out_tri v i : 0 <= v < n -> 0 <= i < 3 -> tri v (f v i) (f v ((i + 2) mod 3)).
Proof.
  intros Hv Hi. destruct (HB v Hv) as (x & y & z & (A & B & C & _) & (R0 & R1 & R2)). unfold f.
  assert (i = 0 \/ i = 1 \/ i = 2) as [->|[->| ->]] by lia.
  - change ((0 + 2) mod 3) with 2. rewrite R0, R2. auto.
  - change ((1 + 2) mod 3) with 0. rewrite R0, R1. auto.
  - change ((2 + 2) mod 3) with 1. rewrite R1, R2. auto.
Qed.
Lemma out_tri_inv v x y : tri v x y -> exists i, 0 <= i < 3 /\ f v i = x /\ f v ((i + 2) mod 3) = y.
Proof.
  intros T. destruct (tri_rng _ _ _ T) as (Hv & _).
  destruct (HB v Hv) as (x' & y' & z' & (A & B & C & _ & _ & _ & H) & (R0 & R1 & R2)). unfold f.
  destruct (H x y T) as [(-> & ->)|[(-> & ->)|(-> & ->)]]; [exists 1|exists 0|exists 2];
    (split; [lia|]); split; auto.
Qed.
Lemma out_links : links f (below n).
Proof.
  unfold below. split.
  - intros v i Hv Hi. destruct (tri_rng _ _ _ (out_tri v i Hv Hi)) as (_ & H & _). auto.
  - intros v i Hv Hi. destruct (tri_ne _ _ _ (out_tri v i Hv Hi)) as (_ & H & _). auto.
  - intros v i j Hv Hi Hj E. destruct (HB v Hv) as (x & y & z & (_ & _ & _ & N1 & N2 & N3 & _) & (R0 & R1 & R2)).
    unfold f in E. assert (i = 0 \/ i = 1 \/ i = 2) as [->|[->| ->]] by lia; assert (j = 0 \/ j = 1 \/ j = 2) as [->|[->| ->]] by lia; congruence.
  - intros v i Hv Hi. destruct (out_tri v i Hv Hi) as (c & Hc & E1 & E2 & _).
    destruct (cs_back _ _ _ _ CS c Hc) as (d & Hd & F1 & F2).
    destruct (out_tri_inv (f v i) v (vat (csucc (csucc d)))) as (j & Hj & G & _); eauto.
    exists d. rewrite <- E1, <- E2. auto.
Qed.
Lemma slot_eq v i x : 0 <= v < n -> 0 <= i < 3 -> f v i = x -> slot f v x = i.
Proof.
  intros Hv Hi <-. unfold slot. pose proof (l_dist _ _ out_links v) as L.
  destruct (Z.eqb_spec (f v 0) (f v i)) as [E|N0]; [apply L in E; unfold below; auto; lia|].
  destruct (Z.eqb_spec (f v 1) (f v i)) as [E|N1]; [apply L in E; unfold below; auto; lia|].
  assert (i <> 0) by congruence. assert (i <> 1) by congruence. lia.
Qed.
(** the dart of a corner: from its successor to it *)
Definition cdart (c : Z * Z) : Z * Z := (vat (csucc c), slot f (vat (csucc c)) (vat c)).
Lemma cdart_spec c : corner c -> exists i, cdart c = (vat (csucc c), i) /\ 0 <= i < 3 /\ f (vat (csucc c)) i = vat c
  /\ f (vat (csucc c)) ((i + 2) mod 3) = vat (csucc (csucc c)).
Proof.
  intros Hc. destruct (out_tri_inv (vat (csucc c)) (vat c) (vat (csucc (csucc c)))) as (i & Hi & E1 & E2); [exists c; auto|].
  exists i. split; auto. unfold cdart. f_equal. apply slot_eq; auto. apply (cs_rng _ _ _ _ CS), csucc_corner; auto.
Qed.
Lemma cdart_isd c : corner c -> isd (below n) (cdart c).
Proof.
  intros Hc. destruct (cdart_spec c Hc) as (i & E & Hi & _). rewrite E. split; cbn; auto.
  apply (cs_rng _ _ _ _ CS), csucc_corner; auto.
Qed.
Lemma cdart_tgt c : corner c -> dtgt f (cdart c) = vat c.
Proof. intros Hc. destruct (cdart_spec c Hc) as (i & E & Hi & E1 & _). rewrite E. exact E1. Qed.
Lemma cdart_inj c d : corner c -> corner d -> cdart c = cdart d -> c = d.
Proof.
  intros Hc Hd E. apply (cs_once _ _ _ _ CS); auto.
  - rewrite <- !cdart_tgt by auto. now rewrite E.
  - now inversion E.
Qed.
Lemma cdart_surj e : isd (below n) e -> exists c, corner c /\ cdart c = e.
Proof.
  destruct e as (v, i). intros (Hv & Hi). cbn [fst snd] in *. destruct (out_tri v i Hv Hi) as (c & Hc & E1 & E2 & _).
  exists c. split; auto. unfold cdart. rewrite E1, E2. f_equal. apply slot_eq; auto.
Qed.
Lemma cdart_opp c : corner c -> exists d, corner d /\ vat d = vat (csucc c) /\ vat (csucc d) = vat c /\ dopp f (cdart c) = cdart d.
Proof.
  intros Hc. destruct (cs_back _ _ _ _ CS c Hc) as (d & Hd & F1 & F2). exists d. do 3 (split; auto).
  unfold dopp. rewrite cdart_tgt by auto. cbn [dsrc fst cdart]. unfold cdart, dsrc. cbn [fst]. now rewrite F1, F2.
Qed.
Lemma cdart_next c : corner c -> fnext f (cdart c) = cdart (cpred c).
Proof.
  intros Hc. unfold fnext, dopp. rewrite cdart_tgt by auto. unfold dsrc, cdart at 1. cbn [fst].
  pose proof (cpred_corner c Hc) as Hp. destruct (cdart_spec (cpred c) Hp) as (i & E & Hi & E1 & E2). rewrite E.
  rewrite csucc_cpred in E1, E2 |- * by auto. unfold drot. cbn [fst snd]. f_equal.
  rewrite (slot_eq (vat c) ((i + 2) mod 3)); auto.
  - rewrite Z.add_mod_idemp_l by lia. replace (i + 2 + 1) with (i + 1 * 3) by lia. rewrite Z.mod_add by lia. apply Z.mod_small; lia.
  - apply (cs_rng _ _ _ _ CS); auto.
  - apply Z.mod_pos_bound. lia.
Qed.
Lemma cpred_iter k c : corner c -> corner (iter k cpred c) /\ iter k cpred c = (fst c, (snd c - Z.of_nat k) mod nvf (fst c)).
Proof.
  intros Hc. induction k as [|k (IH1 & IH2)].
  - split; auto. cbn. destruct Hc as (H1 & H2). rewrite Z.sub_0_r, Z.mod_small by lia. now destruct c.
  - cbn [iter]. split; [apply cpred_corner; auto|]. rewrite IH2. unfold SpecB.cpred. cbn [fst snd]. f_equal.
    rewrite Zminus_mod_idemp_l. f_equal. lia.
Qed.
Lemma cdart_iter k c : corner c -> iter k (fnext f) (cdart c) = cdart (iter k cpred c).
Proof.
  intros Hc. induction k as [|k IH]; auto. cbn [iter]. rewrite IH. apply cdart_next. apply cpred_iter; auto.
Qed.
Lemma cdart_face c d : corner c -> corner d -> (same_face f (cdart c) (cdart d) <-> fst c = fst d).
Proof.
  intros Hc Hd. split.
  - intros (k & E). rewrite cdart_iter in E by auto. apply cdart_inj in E; [|auto|apply cpred_iter; auto].
    rewrite E. destruct (cpred_iter k c Hc) as (_ & ->). auto.
  - intros E. pose proof Hc as (H1 & H2). pose proof Hd as (H3 & H4). rewrite <- E in H4.
    exists (Z.to_nat ((snd c - snd d) mod nvf (fst c))). rewrite cdart_iter by auto. f_equal.
    destruct (cpred_iter (Z.to_nat ((snd c - snd d) mod nvf (fst c))) c Hc) as (_ & ->).
    rewrite Z2Nat.id by (apply Z.mod_pos_bound; lia). rewrite Zminus_mod_idemp_r.
    replace (snd c - (snd c - snd d)) with (snd d) by lia. rewrite Z.mod_small by lia. rewrite E. now destruct d.
Qed.
Lemma out_simple : share_one nf nvf fi -> simple_faces f (below n).
Proof.
  intros SH d e Hd He S1 S2. destruct (cdart_surj d Hd) as (c & Hc & <-). destruct (cdart_surj e He) as (c' & Hc' & <-).
  destruct (cdart_opp c Hc) as (o & Ho & A1 & A2 & E). destruct (cdart_opp c' Hc') as (o' & Ho' & A1' & A2' & E').
  rewrite E, E' in S2. apply cdart_face in S1, S2; auto. f_equal. apply (SH c c' o o'); auto.
Qed.
End Out.
End Desc.
