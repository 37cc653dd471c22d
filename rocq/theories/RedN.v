(** * RedN: [rNd_reduce] computes the sum over flags, in any arithmetic. *)
From Coq Require Import ZArith List Bool Lia.
From Verif Require Import Base Lib ModelCommon CommonFacts ModelN ModelNC TransN InitN SpecNR.
Import ListNotations.
Open Scope Z_scope.

Section R.
Context (N : num) (MX D : Z).
Hypothesis HD : 0 <= D.
Notation real := (T N).
Notation dotN := (dotN N D).
Notation orthN := (orthN N D).
Notation unitN := (unitN N D).
Notation termN := (termN N D).
Notation flagsN := (flagsN N D).

Lemma fold_left_ext {A B} (l : list B) (f g : A -> B -> A) s : (forall s b, In b l -> f s b = g s b) -> fold_left f l s = fold_left g l s.
Proof. revert s. induction l as [|b l IH]; intros s H; cbn; auto. rewrite H by now left. apply IH. intros. apply H. now right. Qed.
Definition eqv (a a' : Z -> real) : Prop := forall j, 0 <= j < D -> a j = a' j.
Lemma dot_ext a a' c c' : eqv a a' -> eqv c c' -> dotN a c = dotN a' c'.
Proof. intros A C. apply fold_left_ext. intros s j Hj. apply in_zrange in Hj. now rewrite A, C. Qed.
Lemma orth_ext L L' d e e' : (forall dd, 0 <= dd < d -> eqv (L dd) (L' dd)) -> eqv e e' -> eqv (orthN L d e) (orthN L' d e').
Proof.
  intros HL He. unfold SpecNR.orthN. assert (G : forall l a a', (forall dd, In dd l -> eqv (L dd) (L' dd)) -> eqv a a' ->
    eqv (fold_left (fun a dd => let t := dotN a (L dd) in fun j => nsub N (a j) (nmul N t (L dd j))) l a)
        (fold_left (fun a dd => let t := dotN a (L' dd) in fun j => nsub N (a j) (nmul N t (L' dd j))) l a')).
  { induction l as [|dd l IH]; intros a a' H A; cbn [fold_left]; auto. apply IH; [intros; apply H; now right|].
    intros j Hj. cbn. rewrite (dot_ext a a' _ (L' dd) A) by (apply H; now left). rewrite A by auto. rewrite (H dd (or_introl eq_refl) j Hj). reflexivity. }
  apply G; auto. intros dd Hd. apply HL. now apply in_zrange.
Qed.
Lemma unit_ext a a' : eqv a a' -> eqv (unitN a) (unitN a').
Proof. intros A j Hj. unfold SpecNR.unitN. cbn. rewrite (dot_ext a a' a a' A A), A; auto. Qed.
Lemma term_ext x x' L L' : eqv x x' -> (forall dd, 0 <= dd < D -> eqv (L dd) (L' dd)) -> termN x L = termN x' L'.
Proof. intros X H. apply fold_left_ext. intros s dd Hd. apply in_zrange in Hd. rewrite (dot_ext (L dd) (L' dd) x x'); auto. Qed.
Lemma flags_ext k : forall x x' E E' u u' L L', Z.of_nat k <= D -> eqv x x' -> (forall i, 0 <= i < D -> eqv (E i) (E' i)) ->
  (forall i, 0 <= i < D -> u i = u' i) -> (forall dd, 0 <= dd < D - Z.of_nat k -> eqv (L dd) (L' dd)) -> flagsN k x E u L = flagsN k x' E' u' L'.
Proof.
  induction k as [|k IH]; intros x x' E E' u u' L L' Hk X HE HU HL; cbn [SpecNR.flagsN].
  - apply term_ext; auto. intros dd Hd. apply HL. lia.
  - apply fold_left_ext. intros s i Hi. apply in_zrange in Hi. rewrite <- HU by auto. destruct (u i); auto. f_equal.
    apply IH; auto; try lia.
    + intros j Hj. unfold upd. destruct (j =? i); auto.
    + intros dd Hd. unfold upd. destruct (Z.eqb_spec dd (D - Z.of_nat (Datatypes.S k))).
      * apply unit_ext, orth_ext; auto.
      * apply HL. lia.
Qed.

(** a loop that cannot fail is a fold *)
Lemma for_fold {S} (Q : Z -> S -> Prop) (g : S -> Z -> S) hi (body : Z -> S -> res S) s : 0 <= hi -> Q 0 s ->
  (forall i s, 0 <= i < hi -> Q i s -> body i s = OK (g s i) /\ Q (i + 1) (g s i)) -> for_ 0 hi body s = OK (fold_left g (zrange hi) s).
Proof.
  intros Hh H0 Hb. destruct (for_inv (fun k t => t = fold_left g (zrange k) s /\ Q k t) 0 hi body s) as (t & E & -> & _); auto.
  intros i t Hi (Et & Qt). destruct (Hb i t Hi Qt) as (E & Q'). eexists. split; [exact E|]. split; auto.
  rewrite zrange_succ, fold_left_app by lia. cbn. now rewrite <- Et.
Qed.

Context (b : vbuf (Z -> real)) (n : Z).
Hypothesis Hn : n <= MX.
Hypothesis Hb : forall v i, 0 <= v < n -> 0 <= i < D -> 0 <= nb b v i < n.
Notation rd_xyz := (rd_xyz N MX D).
Lemma xyz_ok v j : 0 <= v < n -> 0 <= j < D -> rd_xyz b v j = OK (ps b v j).
Proof. intros. apply rd_xyz_ok; lia. Qed.

Lemma frame_spec v d w ltd : 0 <= v < n -> 0 <= w < n -> 0 <= d < D ->
  exists ltd', frameN N MX D b v d w ltd = OK ltd' /\ (forall dd, dd <> d -> ltd' dd = ltd dd)
    /\ eqv (ltd' d) (unitN (orthN ltd d (fun j => nsub N (ps b v j) (ps b w j)))).
Proof.
  intros Hv Hw Hd. unfold frameN.
  match goal with |- context [for_ 0 D ?f ltd] => set (f1 := f) end.
  destruct (for_inv (fun k l => (forall dd, dd <> d -> l dd = ltd dd) /\ forall j, 0 <= j < k -> l d j = nsub N (ps b v j) (ps b w j)) 0 D f1 ltd)
    as (l1 & E1 & A1 & B1); try lia; [split; [auto|intros; lia]| |].
  { intros j l Hj (A & B). unfold f1. rewrite !xyz_ok by lia. cbn [bind]. rewrite wr_ok by lia. eexists. split; [reflexivity|]. split.
    - intros dd Nd. rewrite upd_neq by auto. auto.
    - intros j' Hj'. rewrite upd_eq. unfold upd. destruct (Z.eqb_spec j' j) as [->|]; auto. apply B. lia. }
  rewrite E1. cbn [bind]. clear f1 E1.
  match goal with |- context [for_ 0 d ?f l1] => set (f2 := f) end.
  destruct (for_inv (fun k l => (forall dd, dd <> d -> l dd = ltd dd) /\ eqv (l d) (orthN ltd k (fun j => nsub N (ps b v j) (ps b w j)))) 0 d f2 l1)
    as (l2 & E2 & A2 & B2); try lia; [split; [auto|intros j Hj; rewrite B1 by auto; reflexivity]| |].
  { intros dd l Hdd (A & B). unfold f2.
    rewrite (for_fold (fun _ _ => True) (fun t j => nadd N t (nmul N (l d j) (l dd j)))); auto.
    2: { intros j t Hj _. rewrite !rd_ok by lia. cbn [bind]. auto. }
    cbn [bind]. change (fold_left _ (zrange D) (n0 N)) with (dotN (l d) (l dd)).
    set (t := dotN (l d) (l dd)).
    match goal with |- context [for_ 0 D ?f l] => set (f3 := f) end.
    destruct (for_inv (fun k l' => (forall dd, dd <> d -> l' dd = ltd dd) /\ (forall j, 0 <= j < k -> l' d j = nsub N (l d j) (nmul N t (l dd j))) /\ forall j, k <= j -> l' d j = l d j) 0 D f3 l)
      as (l3 & E3 & A3 & B3 & _); try lia; [split; [auto|split; [intros; lia|auto]]| |].
    { intros j l' Hj (A' & B' & C'). unfold f3. rewrite !rd_ok by lia. cbn [bind]. rewrite wr_ok by lia. eexists. split; [reflexivity|]. split; [|split].
      - intros d2 Nd. rewrite upd_neq by auto. auto.
      - intros j' Hj'. rewrite upd_eq. unfold upd. destruct (Z.eqb_spec j' j) as [->|]; [|apply B'; lia].
        rewrite (C' j) by lia. rewrite (A' dd), <- (A dd) by lia. reflexivity.
      - intros j' Hj'. rewrite upd_eq. rewrite upd_neq by lia. apply C'. lia. }
    exists l3. split; auto. split; auto. intros j Hj. rewrite B3 by auto.
    unfold SpecNR.orthN. rewrite zrange_succ, fold_left_app by lia. cbn [fold_left]. cbv zeta.
    fold (orthN ltd dd (fun j => nsub N (ps b v j) (ps b w j))). unfold t. rewrite (dot_ext (l d) (orthN ltd dd (fun j => nsub N (ps b v j) (ps b w j))) (l dd) (ltd dd)); auto.
    - rewrite B by auto. rewrite A by lia. reflexivity.
    - intros j' Hj'. rewrite A by lia. reflexivity. }
  rewrite E2. cbn [bind]. clear f2 E2.
  rewrite (for_fold (fun _ _ => True) (fun t j => nadd N t (nmul N (l2 d j) (l2 d j)))); auto.
  2: { intros j t Hj _. rewrite !rd_ok by lia. cbn [bind]. auto. }
  cbn [bind]. change (fold_left _ (zrange D) (n0 N)) with (dotN (l2 d) (l2 d)).
  set (len := nsqrt N (dotN (l2 d) (l2 d))).
  match goal with |- context [for_ 0 D ?f l2] => set (f4 := f) end.
  destruct (for_inv (fun k l => (forall dd, dd <> d -> l dd = ltd dd) /\ (forall j, 0 <= j < k -> l d j = ndiv N (l2 d j) len) /\ forall j, k <= j -> l d j = l2 d j) 0 D f4 l2)
    as (l4 & E4 & A4 & B4 & _); try lia; [split; [auto|split; [intros; lia|auto]]| |].
  { intros j l' Hj (A' & B' & C'). unfold f4. rewrite !rd_ok by lia. cbn [bind]. rewrite wr_ok by lia. eexists. split; [reflexivity|]. split; [|split].
    - intros d2 Nd. rewrite upd_neq by auto. auto.
    - intros j' Hj'. rewrite upd_eq. unfold upd. destruct (Z.eqb_spec j' j) as [->|]; [|apply B'; lia]. rewrite (C' j) by lia. reflexivity.
    - intros j' Hj'. rewrite upd_eq. rewrite upd_neq by lia. apply C'. lia. }
  rewrite E4. exists l4. split; auto. split; auto. intros j Hj. rewrite B4 by auto. unfold len.
  pose proof (unit_ext _ _ B2 j Hj) as U. unfold SpecNR.unitN in U at 1. cbv zeta in U. exact U.
Qed.

Lemma ltd_spec v ltd : 0 <= v < n -> ltd_term N MX D b v ltd = OK (termN (ps b v) ltd).
Proof.
  intros Hv. unfold ltd_term.
  rewrite (for_fold (fun _ _ => True) (fun t dd => nmul N t (ndiv N (nmul N (n1 N) (dotN (ltd dd) (ps b v))) (nofZ N (dd + 1))))); auto.
  intros dd t Hd _. split; auto.
  rewrite (for_fold (fun _ _ => True) (fun t j => nadd N t (nmul N (ltd dd j) (ps b v j)))); auto.
  intros j s Hj _. split; auto. rewrite rd_ok by lia. cbn [bind]. rewrite xyz_ok by lia. reflexivity.
Qed.

Lemma helper_spec k : forall v proc ltd, Z.of_nat k <= D -> 0 <= v < n ->
  exists ltd', reduce_helper N MX D k b v proc ltd = OK (flagsN k (ps b v) (edgeN N (ps b) (nb b) v) (fun i => negb (proc i =? 0)) ltd, ltd')
    /\ forall dd, 0 <= dd < D - Z.of_nat k -> ltd' dd = ltd dd.
Proof.
  induction k as [|k IH]; intros v proc ltd Hk Hv; cbn [reduce_helper].
  - rewrite ltd_spec by auto. cbn [bind]. exists ltd. split; auto.
  - set (d := D - Z.of_nat (Datatypes.S k)).
    set (E := edgeN N (ps b) (nb b) v). set (u := fun i => negb (proc i =? 0)).
    set (g := fun s i => if u i then s else nadd N s (flagsN k (ps b v) E (upd u i true) (upd ltd d (unitN (orthN ltd d (E i)))))).
    match goal with |- context [for_ 0 D ?f _] => set (f0 := f) end.
    destruct (for_inv (fun m s => fst s = fold_left g (zrange m) (n0 N) /\ forall dd, 0 <= dd < d -> snd s dd = ltd dd) 0 D f0 (n0 N, ltd)) as ((s & l) & Es & A & B); try lia; auto.
    2: { exists l. cbn [fst snd] in A, B. rewrite Es, A. split; auto. }
    intros i (s & l) Hi (A & B). cbn [fst snd] in A, B. unfold f0. rewrite rd_ok by lia. cbn [bind].
    rewrite zrange_succ, fold_left_app by lia. cbn [fold_left]. rewrite <- A.
    destruct (negb (proc i =? 0)) eqn:Ep.
    { eexists. split; [reflexivity|]. cbn [fst snd]. split; auto. unfold g, u. now rewrite Ep. }
    rewrite rd_nb_ok by lia. cbn [bind].
    destruct (frame_spec v d (nb b v i) l Hv (Hb v i Hv Hi) ltac:(unfold d; lia)) as (l1 & E1 & A1 & B1). fold d. rewrite E1. cbn [bind].
    destruct (IH v (upd proc i 1) l1 ltac:(lia) Hv) as (l2 & E2 & A2). rewrite E2. cbn [bind].
    eexists. split; [reflexivity|]. cbn [fst snd]. split.
    + unfold g, u at 1. rewrite Ep. f_equal. apply flags_ext; try lia; try (intros; intros j Hj; reflexivity).
      * intros j Hj. unfold upd, u. destruct (j =? i); auto.
      * intros dd Hdd. unfold upd. destruct (Z.eqb_spec dd d) as [->|].
        { intros j Hj. rewrite B1 by auto. apply unit_ext; auto. apply orth_ext; [|intros j' Hj'; reflexivity]. intros d2 Hd2 j' Hj'. now rewrite B. }
        { intros j Hj. rewrite A1 by auto. rewrite B by (unfold d in *; lia). reflexivity. }
    + intros dd Hdd. rewrite A2 by (unfold d in *; lia). rewrite A1 by lia. auto.
Qed.

End R.

Theorem rNd_reduce_flags N MX D ltd0 (p : polyN N) : 0 <= D -> 0 <= nvN N p <= MX ->
  (forall v i, 0 <= v < nvN N p -> 0 <= i < D -> 0 <= nb (vbN N p) v i < nvN N p) ->
  rNd_reduce N MX D ltd0 p = OK (flag_sum N D (nvN N p) (ps (vbN N p)) (nb (vbN N p))).
Proof.
  intros HD Hn Hb. unfold rNd_reduce.
  apply (for_fold (fun _ _ => True) (fun s v => nadd N s (vertexN N D (ps (vbN N p) v) (edgeN N (ps (vbN N p)) (nb (vbN N p)) v)))); auto; try lia.
  intros v s Hv _. split; auto.
  destruct (helper_spec N MX D HD (vbN N p) (nvN N p) ltac:(lia) Hb (Z.to_nat D) v (fun _ => 0) ltd0 ltac:(lia) Hv) as (l & E & _). rewrite E. cbn [bind]. do 2 f_equal.
  unfold vertexN. apply flags_ext; auto; try lia; intros; intros j Hj; reflexivity.
Qed.
