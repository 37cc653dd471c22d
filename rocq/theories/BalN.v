(** * BalN: the graph of a simple convex polytope stays connected when fewer than [D]
    vertices are removed. *)
From Coq Require Import Reals ZArith List Bool Lia Lra Psatz.
From Verif Require Import Base Lib SumR SpecN SpecNC PolyN SpecGood.
Import ListNotations.
Open Scope R_scope.

(** fewer equations than unknowns *)
Lemma hom_sol (J : list Z) : NoDup J -> forall rows : list (Z -> R), (length rows < length J)%nat ->
  exists c : Z -> R, (exists j, In j J /\ c j <> 0) /\ forall r, In r rows -> lsum J (fun j => c j * r j) = 0.
Proof.
  induction J as [|j0 J IH]; intros N rows Hl; [cbn in Hl; lia|]. inversion N; subst.
  assert (Hd : (exists r, In r rows /\ r j0 <> 0) \/ forall r, In r rows -> r j0 = 0).
  { clear. induction rows as [|r rs IH]; [right; intros r []|]. destruct (Req_dec (r j0) 0) as [E|E]; [|left; exists r; split; [now left|auto]].
    destruct IH as [(r' & A & B)|A]; [left; exists r'; split; [now right|auto]|right]. intros r' [<-|Hr]; auto. }
  destruct Hd as [(r0 & Hr & Hz)|Hz].
  - apply in_split in Hr as (l1 & l2 & ->). rewrite app_length in Hl. cbn in Hl.
    set (e := fun r : Z -> R => fun j => r j - r j0 / r0 j0 * r0 j).
    destruct (IH ltac:(assumption) (map e (l1 ++ l2))) as (c & (j & Hj & Cj) & Hc); [rewrite map_length, app_length; lia|].
    set (s := lsum J (fun j => c j * r0 j)).
    assert (EJ : forall r, lsum J (fun j => (if (j =? j0)%Z then - s / r0 j0 else c j) * r j) = lsum J (fun j => c j * r j)).
    { intros r. apply lsum_ext. intros k Hk. destruct (Z.eqb_spec k j0) as [->|]; [contradiction|reflexivity]. }
    exists (fun j => if (j =? j0)%Z then - s / r0 j0 else c j). split.
    { exists j. split; [now right|]. destruct (Z.eqb_spec j j0) as [->|]; [contradiction|auto]. }
    assert (G : forall r, In r (l1 ++ l2) -> lsum J (fun j => c j * r j) = r j0 / r0 j0 * s).
    { intros r Hr. specialize (Hc (e r) (in_map _ _ _ Hr)). unfold e in Hc.
      rewrite (lsum_ext _ _ (fun j => c j * r j - r j0 / r0 j0 * (c j * r0 j))) in Hc by (intros; ring). rewrite lsum_sub, lsum_scal in Hc. fold s in Hc. lra. }
    intros r Hr. cbn [lsum]. rewrite Z.eqb_refl, EJ. apply in_app_or in Hr as [Hr|[<-|Hr]].
    + rewrite (G r) by (apply in_or_app; auto). field. auto.
    + fold s. field. auto.
    + rewrite (G r) by (apply in_or_app; auto). field. auto.
  - exists (fun j => if (j =? j0)%Z then 1 else 0). split; [exists j0; rewrite Z.eqb_refl; split; [now left|lra]|].
    intros r Hr. cbn [lsum]. rewrite Z.eqb_refl, (Hz r Hr). rewrite lsum_0; [lra|]. intros k Hk. destruct (Z.eqb_spec k j0) as [->|]; [contradiction|lra].
Qed.
(** an affine function that vanishes at [D] points *)
Lemma affine_through D (pts : list (Z -> R)) : (0 <= D)%Z -> (Z.of_nat (length pts) <= D)%Z ->
  exists c0 c, (c0 <> 0 \/ exists k, (0 <= k < D)%Z /\ c k <> 0) /\ forall x, In x pts -> linN D c0 c x = 0.
Proof.
  intros HD Hl. destruct (hom_sol ((-1)%Z :: zrange D)) with (rows := map (fun x : Z -> R => fun j => if (j =? -1)%Z then 1 else x j) pts) as (c & (j & Hj & Cj) & H).
  - constructor; [rewrite in_zrange; lia|apply NoDup_zrange].
  - rewrite map_length. cbn [length]. unfold zrange. rewrite map_length, seq_length. lia.
  - exists (c (-1)%Z), c. split.
    + destruct Hj as [<-|Hj]; auto. apply in_zrange in Hj. eauto.
    + intros x Hx. specialize (H _ (in_map _ _ _ Hx)). cbn [lsum] in H. cbv beta in H. replace (-1 =? -1)%Z with true in H by reflexivity. unfold linN. rewrite <- H. rewrite Rmult_1_r. f_equal. apply lsum_ext.
      intros k Hk. apply in_zrange in Hk. destruct (Z.eqb_spec k (-1)%Z); [lia|reflexivity].
Qed.

Section B.
Context (D : Z).
Lemma linN_mix A B c0 c d0 d x :
  linN D (A * c0 + B * d0) (fun k => A * c k + B * d k) x = A * linN D c0 c x + B * linN D d0 d x.
Proof.
  unfold linN. rewrite (lsum_ext _ _ (fun k => A * (c k * x k) + B * (d k * x k))) by (intros; ring). rewrite lsum_add, !lsum_scal. ring.
Qed.
Lemma linN_sum (l : list Z) c0 (c : Z -> Z -> R) x :
  linN D (lsum l c0) (fun k => lsum l (fun i => c i k)) x = lsum l (fun i => linN D (c0 i) (c i) x).
Proof.
  induction l; cbn [lsum].
  - unfold linN. rewrite lsum_0; [lra|intros; lra].
  - rewrite <- IHl. pose proof (linN_mix 1 1 (c0 a) (c a) (lsum l c0) (fun k => lsum l (fun i => c i k)) x) as E.
    rewrite !Rmult_1_l in E. rewrite <- E. unfold linN. f_equal. apply lsum_ext. intros. ring.
Qed.

Context (n nf nh : Z) (f bk h : Z -> Z -> Z) (fd : Z -> Z -> Z -> Z) (p : Z -> Z -> R) (l0 : Z -> R) (l : Z -> Z -> R).
Hypothesis HD : (1 <= D)%Z.
Hypothesis C : cells D (upto n) nf nh f bk h fd.
Hypothesis Q : realized D n nh h p l0 l.
Notation L g x := (linN D (l0 g) (l g) x).
Notation U := (upto n).
Notation I i := (0 <= i < D)%Z.

(** downhill to the only lowest vertex *)
Lemma lower_neighbour c0 c v b : U v -> U b -> linN D c0 c (p b) < linN D c0 c (p v) ->
  exists i, I i /\ linN D c0 c (p (f v i)) < linN D c0 c (p v).
Proof.
  intros Hv Hb Lt. destruct (find (fun i => if Rlt_dec (linN D c0 c (p (f v i))) (linN D c0 c (p v)) then true else false) (zrange D)) as [i|] eqn:E.
  - apply find_some in E as (Hi & E). apply in_zrange in Hi. exists i. split; auto. destruct (Rlt_dec _ _); [auto|discriminate].
  - exfalso. assert (linN D c0 c (p v) <= linN D c0 c (p b)); [|lra].
    apply (local_min D n nf nh f bk h fd p l0 l C Q c0 c v (p b) Hv).
    + intros i Hi. pose proof (find_none _ _ E i ltac:(apply in_zrange; auto)) as X. cbv beta in X. destruct (Rlt_dec _ _); [discriminate|lra].
    + intros i Hi. apply (facet_nonneg D n nh h p l0 l Q); auto. apply (ch D n nf nh f bk h fd C); auto.
Qed.
Lemma descend (X : Z -> Prop) c0 c a b : U a -> U b -> ~ X a ->
  (forall v, U v -> v <> b -> linN D c0 c (p b) < linN D c0 c (p v)) ->
  (forall v, U v -> linN D c0 c (p v) < linN D c0 c (p a) -> ~ X v) -> walk f D X a b.
Proof.
  intros Ha Hb Xa Low Av. set (phi := fun v => linN D c0 c (p v)).
  set (cnt := fun v => length (filter (fun w => if Rlt_dec (phi w) (phi v) then true else false) (zrange n))).
  assert (G : forall k v, (cnt v < k)%nat -> U v -> phi v <= phi a -> walk f D X a v -> walk f D X a b).
  { induction k; intros v Hk Hv Le Wk; [lia|]. destruct (Z.eq_dec v b) as [->|Nb]; auto.
    destruct (lower_neighbour c0 c v b Hv Hb (Low v Hv Nb)) as (i & Hi & Lt). fold (phi v) in Lt. fold (phi (f v i)) in Lt.
    assert (Hw : U (f v i)) by (apply (cf D n nf nh f bk h fd C); auto).
    apply (IHk (f v i)); auto; [|lra|apply walk_step; auto; apply Av; auto; unfold phi in *; lra].
    assert (cnt (f v i) < cnt v)%nat; [|lia]. unfold cnt. clear -Lt Hw.
    assert (Y : In (f v i) (zrange n)) by (apply in_zrange; exact Hw). revert Y. generalize (zrange n) as r.
    assert (Sub : forall r, (length (filter (fun w => if Rlt_dec (phi w) (phi (f v i)) then true else false) r) <= length (filter (fun w => if Rlt_dec (phi w) (phi v) then true else false) r))%nat).
    { induction r as [|w r IH]; cbn; auto. destruct (Rlt_dec (phi w) (phi (f v i))), (Rlt_dec (phi w) (phi v)); cbn; lia || lra. }
    induction r as [|w r IH]; intros Y; [destruct Y|]. destruct Y as [->|Y]; cbn [filter].
    - destruct (Rlt_dec (phi (f v i)) (phi (f v i))); [lra|]. destruct (Rlt_dec (phi (f v i)) (phi v)); [|lra]. specialize (Sub r). cbn. lia.
    - specialize (IH Y). destruct (Rlt_dec (phi w) (phi (f v i))), (Rlt_dec (phi w) (phi v)); cbn; lia || lra. }
  apply (G (S (cnt a)) a); auto; [lra|apply walk_refl; auto].
Qed.

(** the sum of the facet functions of a vertex is least there only *)
Definition peak0 (t : Z) : R := lsum (zrange D) (fun i => l0 (h t i)).
Definition peak (t k : Z) : R := lsum (zrange D) (fun i => l (h t i) k).
Lemma peak_at t v : linN D (peak0 t) (peak t) (p v) = lsum (zrange D) (fun i => L (h t i) (p v)).
Proof. unfold peak0, peak. apply (linN_sum (zrange D) (fun i => l0 (h t i)) (fun i => l (h t i))). Qed.
Lemma peak_self t : U t -> linN D (peak0 t) (peak t) (p t) = 0.
Proof. intros Ht. rewrite peak_at. apply lsum_0. intros i Hi. apply in_zrange in Hi. apply (re_on _ _ _ _ _ _ _ Q); auto. Qed.
Lemma peak_other t v : U t -> U v -> v <> t -> 0 < linN D (peak0 t) (peak t) (p v).
Proof.
  intros Ht Hv N. rewrite peak_at.
  assert (P : forall i, I i -> 0 <= L (h t i) (p v)) by (intros; apply (facet_nonneg D n nh h p l0 l Q); auto; apply (ch D n nf nh f bk h fd C); auto).
  destruct (find (fun i => if Rlt_dec 0 (L (h t i) (p v)) then true else false) (zrange D)) as [i|] eqn:E.
  - apply find_some in E as (Hi & E). destruct (Rlt_dec 0 (L (h t i) (p v))) as [G|]; [clear E|discriminate].
    apply in_split in Hi as (r1 & r2 & E).
    assert (G1 : forall r, incl r (zrange D) -> 0 <= lsum r (fun i => L (h t i) (p v))).
    { intros r Hr. apply lsum_nonneg. intros j Hj. apply P. apply in_zrange, Hr, Hj. }
    rewrite E. rewrite lsum_app. cbn [lsum].
    assert (0 <= lsum r1 (fun i => L (h t i) (p v))) by (apply G1; rewrite E; apply incl_appl, incl_refl).
    assert (0 <= lsum r2 (fun i => L (h t i) (p v))) by (apply G1; rewrite E; apply incl_appr, incl_tl, incl_refl). lra.
  - exfalso. apply N. apply (re_inj _ _ _ _ _ _ _ Q); auto. intros k Hk. apply Rminus_diag_uniq.
    apply (re_nd _ _ _ _ _ _ _ Q t (fun k => p v k - p t k)); auto. intros i Hi. rewrite lin_sub.
    pose proof (find_none _ _ E i ltac:(apply in_zrange; auto)) as X. cbv beta in X. destruct (Rlt_dec _ _) as [|Y]; [discriminate|].
    pose proof (P i Hi). pose proof (re_on _ _ _ _ _ _ _ Q t i Ht Hi) as Z. rewrite linN_split in Z. rewrite (linN_split D (l0 (h t i))) in Y, H. lra.
Qed.

Theorem realized_conn a b : U a -> U b -> conn f D a b.
Proof.
  intros Ha Hb. apply (descend _ (peak0 b) (peak b)); auto.
  intros v Hv N. rewrite (peak_self b Hb). now apply peak_other.
Qed.

(** above a plane through removed vertices, everything left reaches the top *)
Lemma reach_top (X : Z -> Prop) c0 c a t : U a -> U t -> ~ X a ->
  (forall v, U v -> X v -> linN D c0 c (p v) <= 0) -> 0 < linN D c0 c (p t) ->
  (forall v, U v -> linN D c0 c (p v) <= linN D c0 c (p t)) -> 0 <= linN D c0 c (p a) -> walk f D X a t.
Proof.
  intros Ha Ht Xa HX Pt Top Pa.
  assert (G : forall a, U a -> ~ X a -> 0 < linN D c0 c (p a) -> walk f D X a t).
  { clear a Ha Xa Pa. intros a Ha Xa Pa.
    set (A := linN D (peak0 t) (peak t) (p a)). set (M := (A + 1) / linN D c0 c (p a)).
    assert (A0 : 0 <= A). { unfold A. destruct (Z.eq_dec a t) as [->|N]; [rewrite peak_self by auto; lra|]. left. now apply peak_other. }
    assert (M0 : 0 < M) by (apply Rdiv_lt_0_compat; lra).
    assert (EM : M * linN D c0 c (p a) = A + 1) by (unfold M; field; lra).
    apply (descend X (1 * peak0 t + (- M) * c0) (fun k => 1 * peak t k + (- M) * c k)); auto.
    - intros v Hv N. rewrite !linN_mix. rewrite (peak_self t Ht). pose proof (peak_other t v Ht Hv N). pose proof (Top v Hv).
      assert (M * linN D c0 c (p v) <= M * linN D c0 c (p t)) by (apply Rmult_le_compat_l; lra). lra.
    - intros v Hv Lt Xv. rewrite !linN_mix in Lt. fold A in Lt. pose proof (HX v Hv Xv).
      assert (0 <= linN D (peak0 t) (peak t) (p v)). { destruct (Z.eq_dec v t) as [->|N]; [rewrite peak_self by auto; lra|]. left. now apply peak_other. }
      assert (M * linN D c0 c (p v) <= M * 0) by (apply Rmult_le_compat_l; lra). lra. }
  destruct (Rle_lt_or_eq_dec _ _ Pa) as [P|P]; [now apply G|].
  destruct (lower_neighbour (- c0) (fun k => - c k) a t Ha Ht) as (i & Hi & Lt).
  { rewrite !(linN_split D (- c0)). pose proof (linN_split D c0 c (p a)). pose proof (linN_split D c0 c (p t)).
    assert (E : forall x, linN D 0 (fun k => - c k) x = - linN D 0 c x) by (intros x; unfold linN; rewrite (lsum_ext _ _ (fun k => (-1) * (c k * x k))) by (intros; ring); rewrite lsum_scal; ring).
    rewrite !E. lra. }
  assert (E : forall x, linN D (- c0) (fun k => - c k) x = - linN D c0 c x) by (intros x; unfold linN; rewrite (lsum_ext _ _ (fun k => (-1) * (c k * x k))) by (intros; ring); rewrite lsum_scal; ring).
  rewrite !E in Lt. assert (Hw : U (f a i)) by (apply (cf D n nf nh f bk h fd C); auto).
  assert (Xw : ~ X (f a i)) by (intros Y; pose proof (HX _ Hw Y); lra).
  assert (Wk : walk f D X (f a i) t) by (apply G; auto; lra).
  clear -Wk Xa Hi Xw. induction Wk; [apply walk_step; auto; now apply walk_refl|apply walk_step; auto].
Qed.

Lemma walk_rev (X : Z -> Prop) a b : U a -> walk f D X a b -> walk f D X b a.
Proof.
  intros Ha Wk. assert (T : forall x y z, walk f D X x y -> walk f D X y z -> walk f D X x z) by (intros x y z A B; induction B; [auto|apply walk_step; auto]).
  assert (U b /\ ~ X b /\ walk f D X b a); [|tauto].
  induction Wk as [N|v i Wk (Hv & Xv & IH) Hi N]; [split; [auto|split; [auto|now apply walk_refl]]|].
  split; [apply (cf D n nf nh f bk h fd C); auto|]. split; auto.
  destruct (ce_bk _ _ _ _ _ _ _ _ C v i Hv Hi) as (Hb & Eb & _).
  apply (T _ v); auto. rewrite <- Eb at 2. apply walk_step; [now apply walk_refl|auto|now rewrite Eb].
Qed.
Lemma walk_trans (X : Z -> Prop) x y z : walk f D X x y -> walk f D X y z -> walk f D X x z.
Proof. intros A B. induction B; [auto|apply walk_step; auto]. Qed.

Theorem balinski (S : list Z) u w : (Z.of_nat (length S) < D)%Z -> (forall s, In s S -> U s) -> U u -> U w -> ~ In u S -> ~ In w S ->
  walk f D (fun x => In x S) u w.
Proof.
  intros Hl HS Hu Hw Nu Nw. set (X := fun x => In x S).
  destruct (affine_through D (map p (u :: S))) as (c0 & c & NZ & Z); [lia|rewrite map_length; cbn [length]; lia|].
  set (phi := fun v => linN D c0 c (p v)).
  assert (Zu : phi u = 0) by (apply Z, in_map; now left).
  assert (ZS : forall s, In s S -> phi s = 0) by (intros s Hs; apply Z, in_map; now right).
  assert (Hn : (0 < n)%Z) by (unfold upto in Hu; lia).
  assert (Neg : forall x, linN D (- c0) (fun k => - c k) x = - linN D c0 c x) by (intros x; unfold linN; rewrite (lsum_ext _ _ (fun k => (-1) * (c k * x k))) by (intros; ring); rewrite lsum_scal; ring).
  destruct (least_vertex n phi Hn) as (tm & Htm & Lo).
  destruct (least_vertex n (fun v => - phi v) Hn) as (tp & Htp & Hi).
  assert (Up : 0 < phi tp -> forall v, U v -> ~ In v S -> 0 <= phi v -> walk f D X v tp).
  { intros P v Hv Nv Pv. apply (reach_top X c0 c); auto.
    - intros s _ Hs. right. now apply ZS.
    - intros s Hs. specialize (Hi s Hs). cbv beta in Hi. unfold phi in Hi. lra. }
  assert (Dn : phi tm < 0 -> forall v, U v -> ~ In v S -> phi v <= 0 -> walk f D X v tm).
  { intros P v Hv Nv Pv. apply (reach_top X (- c0) (fun k => - c k)); auto.
    - intros s _ Hs. rewrite Neg. right. pose proof (ZS s Hs) as E. unfold phi in E. lra.
    - rewrite Neg. unfold phi in P. lra.
    - intros s Hs. rewrite !Neg. specialize (Lo s Hs). unfold phi in Lo. lra.
    - rewrite Neg. unfold phi in Pv. lra. }
  assert (Or : 0 < phi tp \/ phi tm < 0).
  { destruct (Rlt_dec 0 (phi tp)) as [|A]; auto. destruct (Rlt_dec (phi tm) 0) as [|B]; auto. exfalso.
    assert (All : forall v, U v -> phi v = 0) by (intros v Hv; specialize (Lo v Hv); specialize (Hi v Hv); cbv beta in Hi; lra).
    assert (Zx : forall x, linN D c0 c x = 0).
    { intros x. rewrite (affine_expand D n nf nh f bk h fd p l0 l C Q c0 c u x Hu). fold (phi u). rewrite Zu. rewrite lsum_0; [lra|].
      intros i Hj. apply in_zrange in Hj. fold (phi (f u i)). rewrite (All (f u i)) by (apply (cf D n nf nh f bk h fd C); auto). ring. }
    assert (C0 : c0 = 0). { pose proof (Zx (fun _ => 0)) as E. unfold linN in E. rewrite lsum_0 in E by (intros; ring). lra. }
    destruct NZ as [|(k & Hk & Ck)]; [contradiction|]. apply Ck.
    pose proof (Zx (fun j => if (j =? k)%Z then 1 else 0)) as E. unfold linN in E. rewrite (lsum_single _ _ k (NoDup_zrange _)) in E.
    - rewrite Z.eqb_refl in E. lra.
    - now apply in_zrange.
    - intros j _ Nj. destruct (Z.eqb_spec j k); [contradiction|ring]. }
  assert (Ju : forall t, walk f D X u t -> walk f D X w t -> walk f D X u w) by (intros t A B; apply (walk_trans X u t); auto; now apply walk_rev).
  destruct (Rtotal_order (phi w) 0) as [A|[A|A]].
  - assert (P : phi tm < 0) by (specialize (Lo w Hw); lra). apply (Ju tm); apply Dn; auto; lra.
  - destruct Or as [P|P]; [apply (Ju tp); apply Up; auto; lra|apply (Ju tm); apply Dn; auto; lra].
  - assert (P : 0 < phi tp) by (specialize (Hi w Hw); cbv beta in Hi; lra). apply (Ju tp); apply Up; auto; lra.
Qed.
End B.
