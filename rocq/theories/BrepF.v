(** * BrepF: the faces of one component in [r3d_init_brep]. *)
From Coq Require Import ZArith List Bool Lia Permutation.
From Verif Require Import Base Lib ModelCommon CommonFacts Model3 ModelBR Spec3 Orb3 Face3 SpecGood Conn SpecBR BrepO BrepW.
Import ListNotations.
Open Scope Z_scope.

(** ** the heap *)
Section H.
Context (h0 : heap) (H0 : forall a, hlive h0 a = true -> a < hnext h0).
(** [own]: what has been allocated since [h0] and not freed *)
Definition heapi (h : heap) (own : list Z) : Prop :=
  (forall a, hlive h a = true <-> hlive h0 a = true \/ In a own) /\ NoDup own
  /\ hnext h0 <= hnext h /\ (forall a, In a own -> hnext h0 <= a < hnext h).
Lemma heapi_perm h l l' : Permutation l l' -> heapi h l -> heapi h l'.
Proof.
  intros Pm (A & B & C & D). split; [|split; [|split]]; auto.
  - intros a. rewrite A. split; intros [|I]; auto; right; [now apply (Permutation_in _ Pm)|now apply (Permutation_in _ (Permutation_sym Pm))].
  - now apply (Permutation_NoDup Pm).
  - intros a Ha. apply D. now apply (Permutation_in _ (Permutation_sym Pm)).
Qed.
Lemma heapi_malloc h l a h' : heapi h l -> malloc h = (a, h') -> heapi h' (a :: l).
Proof.
  intros (A & B & C & D) E. unfold malloc in E. injection E as <- <-. split; [|split; [|split]]; cbn [hlive hnext].
  - intros a. unfold upd. destruct (Z.eqb_spec a (hnext h)) as [->|N].
    + split; auto. intros _. right. cbn; auto.
    + rewrite A. cbn. intuition congruence.
  - constructor; auto. intros I. apply D in I. lia.
  - lia.
  - intros a [<-|I]; [lia|]. apply D in I. lia.
Qed.
Lemma heapi_free h l a : heapi h (a :: l) -> exists h', free h a = OK h' /\ heapi h' l.
Proof.
  intros (A & B & C & D). unfold free. assert (hlive h a = true) as -> by (apply A; right; cbn; auto).
  eexists. split; [reflexivity|]. apply NoDup_cons_iff in B as (B1 & B2). split; [|split; [|split]]; cbn [hlive hnext]; auto.
  - intros x. unfold upd. destruct (Z.eqb_spec x a) as [->|N].
    + split; [discriminate|]. intros [X|X]; [|tauto]. apply H0 in X. specialize (D a (or_introl eq_refl)). lia.
    + rewrite A. cbn. intuition congruence.
  - intros x I. apply D. cbn; auto.
Qed.
Lemma heapi_realloc h l a : heapi h (a :: l) -> exists a' h', realloc h a = OK (a', h') /\ heapi h' (a' :: l).
Proof.
  intros I. destruct (heapi_free _ _ _ I) as (h' & E & I'). unfold realloc. rewrite E. cbn [bind].
  destruct (malloc h') as (a', h'') eqn:Em. exists a', h''. split; auto. eapply heapi_malloc; eauto.
Qed.
Lemma for_free {ids : Z -> list Z} n (body : Z -> heap -> res heap) : 0 <= n ->
  (forall i h rest, 0 <= i < n -> heapi h (ids i ++ rest) -> exists h', body i h = OK h' /\ heapi h' rest) ->
  forall h rest, heapi h (flat_map ids (zrange n) ++ rest) -> exists h', for_ 0 n body h = OK h' /\ heapi h' rest.
Proof.
  intros Hn Hb h rest I.
  destruct (for_inv (fun i h => exists r, zrange n = zrange i ++ r /\ heapi h (flat_map ids r ++ rest)) 0 n body h) as (h' & E & r & Er & I'); auto.
  - exists (zrange n). auto.
  - intros i h1 Hi (r & Er & I1).
    assert (exists r', r = i :: r') as (r' & ->).
    { assert (In i (zrange n)) as J by (apply in_zrange; auto). rewrite Er in J. apply in_app_or in J as [J|J]; [apply in_zrange in J; lia|].
      destruct r as [|x r']; [destruct J|]. exists r'. f_equal.
      pose proof (f_equal (fun l => nth (Z.to_nat i) l 0) Er) as Q. cbv beta in Q.
      rewrite app_nth2 in Q by (rewrite length_zrange_nat; lia). rewrite length_zrange_nat, Nat.sub_diag in Q. cbn [nth] in Q. rewrite <- Q.
      unfold zrange. rewrite (nth_indep _ _ (Z.of_nat 0)) by (rewrite map_length, seq_length; lia). rewrite map_nth, seq_nth by lia. lia. }
    cbn [flat_map] in I1. rewrite <- app_assoc in I1. destruct (Hb i h1 _ Hi I1) as (h2 & E2 & I2). exists h2. split; auto.
    exists r'. split; auto. rewrite zrange_succ, <- app_assoc by lia. exact Er.
  - exists h'. split; auto. assert (r = []) as ->; auto.
    rewrite <- (app_nil_r (zrange n)) in Er at 1. now apply app_inv_head in Er.
Qed.
End H.

Section F.
Context {V : Type} (MX : Z) (b : vbuf V) (n : Z) (Hn : 0 < n <= MX).
Notation f := (nb b).
Hypothesis L : links f (below n).
Hypothesis P : simple_faces f (below n).
Local Notation isd := (isd (below n)).
Local Notation gn := (gnext f).
Local Notation gfc := (gface f n).
Context (m : Z -> option Z) (mp : Z -> Z).
Hypothesis Hm : forall v, 0 <= v < n -> m v = Some (mp v).
Hypothesis Hr : forall v, 0 <= v < n -> 0 <= mp v < n.
Local Notation cont := (cont b mp).
Local Notation cn := (conn f 3).

(** all directed edges of the faces started at [A] *)
Definition ed (A : list (Z * Z)) : list (Z * Z) := flat_map gfc A.
Lemma ed_app A B : ed (A ++ B) = ed A ++ ed B. Proof. apply flat_map_app. Qed.
Lemma ed_one s : ed [s] = gfc s. Proof. unfold ed. cbn. now rewrite app_nil_r. Qed.
Lemma ed_in A d : In d (ed A) <-> exists s, In s A /\ In d (gfc s). Proof. apply in_flat_map. Qed.
Lemma ed_isd A d : Forall isd A -> In d (ed A) -> isd d.
Proof. rewrite Forall_forall, ed_in. intros H (s & Hs & I). eapply gface_isd; eauto; lia. Qed.
Lemma ed_next A d : Forall isd A -> In d (ed A) -> In (gn d) (ed A).
Proof. rewrite Forall_forall. intros H I. apply ed_in in I as (s & Hs & I). apply ed_in. exists s. split; auto. apply gface_next; auto. lia. Qed.
Lemma ed_new A s : Forall isd A -> isd s -> NoDup (ed A) -> ~ In s (ed A) -> NoDup (ed (A ++ [s])).
Proof.
  intros HA Hs N I. rewrite ed_app, ed_one. apply NoDup_app'; auto; [apply gface_NoDup; auto; lia|].
  intros d H1 H2. apply I. apply ed_in in H1 as (a & Ha & H1). rewrite Forall_forall in HA. apply ed_in. exists a. split; auto.
  apply (gface_trans f n) with d; auto; [lia|]. apply gface_sym; auto. lia.
Qed.
Lemma ed_length A : Forall isd A -> NoDup (ed A) -> (length A <= Z.to_nat n)%nat.
Proof.
  intros HA N. assert (G : (3 * length A <= length (ed A))%nat).
  { clear N. induction HA as [|s A Hs HA IH]; [cbn; lia|]. cbn [ed flat_map length]. rewrite app_length. fold (ed A).
    pose proof (gface_length f n ltac:(lia) L P s Hs). lia. }
  assert (I : incl (ed A) (darts 3 n)).
  { intros d Hd. destruct d as (v, i). pose proof (ed_isd _ _ HA Hd) as (H1 & H2). apply in_darts. auto. }
  pose proof (NoDup_incl_length N I) as LE.
  assert (Z.of_nat (length (darts 3 n)) = 3 * n).
  { clear - Hn. destruct Hn as (H & _). assert (G : 0 <= n) by lia. clear H Hn. revert n G. apply (zrange_ind (fun n => Z.of_nat (length (darts 3 n)) = 3 * n)); auto.
    intros k Hk IH. rewrite darts_succ, app_length, map_length by lia. rewrite Nat2Z.inj_add, IH, length_zrange by lia. lia. }
  lia.
Qed.
Lemma conn_gface r s d : isd s -> cn r (fst s) -> In d (gfc s) -> cn r (fst d).
Proof.
  intros Hs Hc I. apply gface_in in I as (k & ->); auto; [|lia]. induction k as [|k IH]; auto. cbn [iter].
  rewrite fst_gn. apply conn_trans with (fst (iter k gn s)); auto. apply conn_link. apply (isd_gi f n L k s Hs).
Qed.

(** ** the state between faces *)
Context (h0 : heap) (H0 : forall a, hlive h0 a = true -> a < hnext h0).
(** faces that belong to finished components take all edges of their vertices *)
Definition full (A : list (Z * Z)) : Prop := forall d i, In d (ed A) -> 0 <= i < 3 -> In (fst d, i) (ed A).

Record marks (A : list (Z * Z)) (vm : Z -> Z) (em : Z -> Z -> Z) : Prop := {
  mk_isd : Forall isd A;
  mk_nd : NoDup (ed A);
  mk_vm : forall v, vm v = cv v (ed A);
  mk_em : forall v i, em v i = cd (v, i) (ed A) }.
Lemma marks_vm A vm em v : marks A vm em -> vm v = em v 0 + em v 1 + em v 2.
Proof.
  intros M. rewrite (mk_vm _ _ _ M), !(mk_em _ _ _ M). apply cv_cd. intros d Hd. apply (ed_isd A d); auto. apply (mk_isd _ _ _ M).
Qed.
Lemma marks_em A vm em v i : marks A vm em -> (In (v, i) (ed A) /\ em v i = 1) \/ (~ In (v, i) (ed A) /\ em v i = 0).
Proof. intros M. rewrite (mk_em _ _ _ M). apply cd_in. apply (mk_nd _ _ _ M). Qed.

(** contents of the local arrays for the faces [S], with blocks [B] *)
Definition faces (S : list (Z * Z)) (B : list Z) (npf : Z -> option Z) (fi : Z -> option face) : Prop :=
  length B = length S /\
  forall k, (k < length S)%nat -> exists ind,
    npf (Z.of_nat k) = Some (Z.of_nat (length (cont (gfc (nth k S (0, 0))))))
    /\ fi (Z.of_nat k) = Some (FC (nth k B 0) (Z.of_nat (length (cont (gfc (nth k S (0, 0)))))) ind)
    /\ forall i : nat, (i < length (cont (gfc (nth k S (0%Z, 0%Z)))))%nat -> ind (Z.of_nat i) = Some (nth i (cont (gfc (nth k S (0, 0)))) 0).
Record finv (own : list Z) (S0 : list (Z * Z)) (r : Z) (S : list (Z * Z)) (B : list Z) (c : cst) : Prop := {
  fi_mk : marks (S0 ++ S) (c_vm c) (c_em c);
  fi_nf : c_nf c = Z.of_nat (length S);
  fi_vic : forall x, c_vic c x <> 0 <-> exists d, In d (ed S) /\ mp (fst d) = x;
  fi_nvc : c_nvc c = cnt (nz (c_vic c)) n;
  fi_faces : faces S B (c_npf c) (c_fi c);
  fi_heap : heapi h0 (c_h c) (B ++ own);
  fi_conn : Forall (fun s => cn r (fst s)) S }.
(** the next face to walk *)
Definition fstart (S0 : list (Z * Z)) (r : Z) (S : list (Z * Z)) (c : cst) : Prop :=
  isd (c_vs c, c_pe c) /\ ~ In (c_vs c, c_pe c) (ed (S0 ++ S)) /\ cn r (c_vs c) /\ (S = [] -> (c_vs c, c_pe c) = (r, 0)) /\ (S <> [] -> In (r, 0) S).
(** a component is done *)
Definition fdone (S0 : list (Z * Z)) (r : Z) (S : list (Z * Z)) : Prop :=
  In (r, 0) S /\ full (S0 ++ S).

Lemma copy_spec' k (tmp : Z -> option Z) (l : list Z) : k = Z.of_nat (length l) -> k <= MX ->
  (forall i, 0 <= i < k -> tmp i = Some (nth (Z.to_nat i) l 0)) ->
  exists pv, for_ 0 k (fun i pv => let* x := rdi MX tmp i in wr k pv i (Some x)) (fun _ => None) = OK pv
   /\ forall i, (i < length l)%nat -> pv (Z.of_nat i) = Some (nth i l 0).
Proof.
  intros Ek Hk Ht.
  destruct (for_inv (fun j (pv : Z -> option Z) => forall i, 0 <= i < j -> pv i = Some (nth (Z.to_nat i) l 0)) 0 k
     (fun i pv => let* x := rdi MX tmp i in wr k pv i (Some x)) (fun _ => None)) as (pv & E & I).
  - lia.
  - lia.
  - intros j pv Hj I. unfold rdi. rewrite inb_true, Ht by lia. cbn [bind]. rewrite wr_ok by lia. eexists. split; [reflexivity|].
    intros i Hi. destruct (Z.eq_dec i j) as [->|]; [apply upd_eq|rewrite upd_neq by auto; apply I; lia].
  - exists pv. split; auto. intros i Hi. rewrite I by lia. now rewrite Nat2Z.id.
Qed.
Lemma cont_length A : (length (cont A) <= length A)%nat.
Proof. unfold BrepW.cont. rewrite map_length. apply filter_length_le'. Qed.

Lemma face_step fuel own S0 r S B c : (Z.to_nat n <= fuel)%nat -> full S0 -> ~ In (r, 0) (ed S0) -> finv own S0 r S B c -> fstart S0 r S c ->
  let s := (c_vs c, c_pe c) in
  (exists c' B', br_face MX fuel b n m c = OK (c', true) /\ finv own S0 r (S ++ [s]) B' c' /\ fstart S0 r (S ++ [s]) c')
  \/ (n < MX /\ exists c' B', br_face MX fuel b n m c = OK (c', false) /\ finv own S0 r (S ++ [s]) B' c' /\ fdone S0 r (S ++ [s]))
  \/ (n = MX /\ br_face MX fuel b n m c = Err OutOfBounds).
Proof.
  intros Hf F0 R0 I (Hs & Hu & Hc & Hs0 & Hs1) s.
  pose proof (fi_mk _ _ _ _ _ _ I) as M.
  destruct (walk_spec MX b n Hn L P m mp Hm Hr fuel (c_vm c) (c_em c) (c_vic c) (c_nvc c) (c_tmp c) s Hs (fi_nvc _ _ _ _ _ _ I) Hf) as (w & Ew & W).
  assert (M' : marks (S0 ++ S ++ [s]) (w_vm w) (w_em w)).
  { rewrite app_assoc. split.
    - apply Forall_app. split; [apply (mk_isd _ _ _ M)|auto].
    - apply ed_new; auto; [apply (mk_isd _ _ _ M)|apply (mk_nd _ _ _ M)].
    - intros v. rewrite (wi_vm _ _ _ _ _ _ _ _ W), (mk_vm _ _ _ M), (ed_app (S0 ++ S) [s]), ed_one, cv_app. auto.
    - intros v i. rewrite (wi_em _ _ _ _ _ _ _ _ W), (mk_em _ _ _ M), (ed_app (S0 ++ S) [s]), ed_one, cd_app. auto. }
  unfold br_face. change (c_vs c) with (fst s). change (c_pe c) with (snd s). rewrite Ew. cbn [bind].
  destruct (malloc (c_h c)) as (blk, h) eqn:Em.
  pose proof (gface_length f n ltac:(lia) L P s Hs) as Lg. pose proof (cont_length (gfc s)) as Lc.
  destruct (copy_spec' (w_kept w) (w_tmp w) (cont (gfc s))) as (pv & Epv & Ipv); [apply (wi_kept _ _ _ _ _ _ _ _ W)|rewrite (wi_kept _ _ _ _ _ _ _ _ W); lia|apply (wi_tmp _ _ _ _ _ _ _ _ W)|].
  rewrite Epv. cbn [bind]. pose proof (ed_length _ (mk_isd _ _ _ M') (mk_nd _ _ _ M')) as LA. rewrite !app_length in LA. cbn [length] in LA.
  assert (Hnf : 0 <= c_nf c < MX) by (rewrite (fi_nf _ _ _ _ _ _ I); lia).
  rewrite !wr_ok by auto. cbn [bind]. rewrite ?wr_ok by auto. cbn [bind].
  destruct (find_spec 0 n (fun v => let* c := rd MX (w_vm w) v in OK ((0 <? c) && (c <? 3))) (fun v => (0 <? w_vm w v) && (w_vm w v <? 3))) as (nv & Env & Rnv & Fnv & Nnv).
  { lia. } { intros v Hv. rewrite rd_ok by lia. reflexivity. }
  rewrite Env. cbn [bind].
  set (c' := fun np => CS (w_vm w) (w_em w) (w_tmp w) h nv np (c_nf c + 1) (w_nvc w) (w_vic w) (upd (c_npf c) (c_nf c) (Some (w_kept w)))
     (upd (c_fi c) (c_nf c) (Some (FC blk (w_kept w) pv)))).
  assert (I' : forall np, finv own S0 r (S ++ [s]) (B ++ [blk]) (c' np)).
  { intros np. split; cbn [c' c_vm c_em c_nf c_vic c_nvc c_npf c_fi c_h]; auto.
    - rewrite app_length, (fi_nf _ _ _ _ _ _ I). cbn [length]. lia.
    - intros x. rewrite (wi_vic _ _ _ _ _ _ _ _ W), (fi_vic _ _ _ _ _ _ I). rewrite ed_app, ed_one. split.
      + intros [(d & Hd & E)|(d & Hd & E)]; exists d; (split; auto; apply in_or_app; auto).
      + intros (d & Hd & E). apply in_app_or in Hd as [Hd|Hd]; [left|right]; exists d; auto.
    - apply (wi_nvc _ _ _ _ _ _ _ _ W).
    - destruct (fi_faces _ _ _ _ _ _ I) as (LB & FB). split; [rewrite !app_length; cbn [length]; lia|].
      rewrite app_length. cbn [length]. intros k Hk. rewrite (fi_nf _ _ _ _ _ _ I). unfold upd.
      destruct (Nat.eq_dec k (length S)) as [->|Nk].
      + rewrite !Z.eqb_refl. rewrite (app_nth2 B) by lia. rewrite (app_nth2 S) by lia. rewrite LB, Nat.sub_diag. cbn [nth]. exists pv. rewrite (wi_kept _ _ _ _ _ _ _ _ W). auto.
      + assert (Hk' : (k < length S)%nat) by lia. destruct (FB k Hk') as (ind & E1 & E2 & E3).
        destruct (Z.eqb_spec (Z.of_nat k) (Z.of_nat (length S))); [lia|].
        rewrite (app_nth1 B) by lia. rewrite (app_nth1 S) by lia. exists ind. auto.
    - apply (heapi_perm h0 _ (blk :: B ++ own)); [|eapply heapi_malloc; eauto; apply (fi_heap _ _ _ _ _ _ I)].
      rewrite <- app_assoc. cbn [app]. apply Permutation_middle.
    - apply Forall_app. split; [apply (fi_conn _ _ _ _ _ _ I)|auto]. }
  assert (R1 : In (r, 0) (S ++ [s])).
  { apply in_or_app. destruct S as [|x S1]; [right; rewrite <- (Hs0 eq_refl); cbn; auto|left; apply Hs1; discriminate]. }
  destruct (Z_lt_dec nv n) as [Ln|Ln].
  - left. specialize (Fnv Ln). apply andb_true_iff in Fnv as (V0 & V3). apply Z.ltb_lt in V0, V3.
    pose proof (marks_vm _ _ _ nv M') as Sv.
    destruct (find_spec 0 3 (fun np => let* e := rd_em MX (w_em w) nv np in OK (e =? 0)) (fun np => w_em w nv np =? 0)) as (np & Enp & Rnp & Fnp & Nnp).
    { lia. } { intros i Hi. unfold rd_em. rewrite !inb_true by lia. reflexivity. }
    rewrite Enp. cbn [bind]. exists (c' np), (B ++ [blk]). destruct (Z.ltb_spec nv n); [|lia]. split; [reflexivity|]. split; auto.
    assert (Hnp : np < 3).
    { destruct (Z_lt_dec np 3); auto. exfalso.
      pose proof (Nnp 0 ltac:(lia)) as Q0. pose proof (Nnp 1 ltac:(lia)) as Q1. pose proof (Nnp 2 ltac:(lia)) as Q2. cbv beta in Q0, Q1, Q2.
      apply Z.eqb_neq in Q0, Q1, Q2.
      destruct (marks_em _ _ _ nv 0 M') as [(_ & ?)|(_ & ?)]; [|congruence].
      destruct (marks_em _ _ _ nv 1 M') as [(_ & ?)|(_ & ?)]; [|congruence].
      destruct (marks_em _ _ _ nv 2 M') as [(_ & ?)|(_ & ?)]; [|congruence]. lia. }
    specialize (Fnp Hnp). apply Z.eqb_eq in Fnp.
    split; [|split; [|split; [|split]]]; cbn [c' c_vs c_pe].
    + split; cbn; unfold below; lia.
    + destruct (marks_em _ _ _ nv np M') as [(_ & ?)|(? & _)]; auto. congruence.
    + assert (exists i, 0 <= i < 3 /\ In (nv, i) (ed (S0 ++ S ++ [s]))) as (i & Hi & Ii).
      { destruct (marks_em _ _ _ nv 0 M') as [(? & _)|(_ & ?)]; [exists 0; split; auto; lia|].
        destruct (marks_em _ _ _ nv 1 M') as [(? & _)|(_ & ?)]; [exists 1; split; auto; lia|].
        destruct (marks_em _ _ _ nv 2 M') as [(? & _)|(_ & ?)]; [exists 2; split; auto; lia|]. lia. }
      rewrite ed_app in Ii. apply in_app_or in Ii as [Ii|Ii].
      * exfalso. destruct (marks_em _ _ _ nv np M') as [(_ & ?)|(X & _)]; [congruence|]. apply X. rewrite ed_app. apply in_or_app. left.
        apply (F0 (nv, i) np Ii). lia.
      * apply ed_in in Ii as (s' & Hs' & Ii). change nv with (fst (nv, i)). apply conn_gface with s'; auto.
        -- pose proof (mk_isd _ _ _ M') as X. apply Forall_app in X as (_ & X). rewrite Forall_forall in X. auto.
        -- pose proof (fi_conn _ _ _ _ _ _ (I' np)) as X. rewrite Forall_forall in X. auto.
    + intros X. destruct S; discriminate.
    + auto.
  - assert (nv = n) as -> by lia. destruct (Z_lt_dec n MX) as [LM|LM].
    + right. left. split; auto.
      destruct (find_spec 0 3 (fun np => let* e := rd_em MX (w_em w) n np in OK (e =? 0)) (fun np => w_em w n np =? 0)) as (np & Enp & Rnp & Fnp & Nnp).
      { lia. } { intros i Hi. unfold rd_em. rewrite !inb_true by lia. reflexivity. }
      rewrite Enp. cbn [bind]. exists (c' np), (B ++ [blk]). rewrite Z.ltb_irrefl. split; [reflexivity|]. split; auto.
      split; auto. intros (v, j) i Hd Hi. cbn [fst].
      pose proof (ed_isd _ _ (mk_isd _ _ _ M') Hd) as (Hv & Hj). unfold below in Hv. cbn [fst snd] in Hv, Hj.
      specialize (Nnv v Hv). cbv beta in Nnv. pose proof (marks_vm _ _ _ v M') as Sv.
      destruct (marks_em _ _ _ v 0 M') as [(I0 & E0)|(I0 & E0)];
      destruct (marks_em _ _ _ v 1 M') as [(I1 & E1)|(I1 & E1)];
      destruct (marks_em _ _ _ v 2 M') as [(I2 & E2)|(I2 & E2)];
        rewrite E0, E1, E2 in Sv; rewrite Sv in Nnv; try discriminate Nnv;
        destruct (slot3 i Hi) as [->|[->| ->]]; auto;
        destruct (slot3 j Hj) as [->|[->| ->]]; tauto.
    + right. right. split; [lia|]. rewrite (find_err 0 3 _ OutOfBounds); [reflexivity|lia|].
      unfold rd_em. rewrite inb_false by lia. reflexivity.
Qed.
Lemma faces_spec fuel own S0 r c : (Z.to_nat n < fuel)%nat -> full S0 -> ~ In (r, 0) (ed S0) -> finv own S0 r [] [] c -> fstart S0 r [] c ->
  (n < MX /\ exists c' S B, dowhile fuel (br_face MX fuel b n m) c = OK c' /\ finv own S0 r S B c' /\ fdone S0 r S)
  \/ (n = MX /\ dowhile fuel (br_face MX fuel b n m) c = Err OutOfBounds).
Proof.
  intros Hf F0 R0 I St.
  apply (dowhile_meas _ (fun k c => exists S B, finv own S0 r S B c /\ fstart S0 r S c /\ (k = Z.to_nat n - length (S0 ++ S))%nat)
    (fun res => (n < MX /\ exists c' S B, res = OK c' /\ finv own S0 r S B c' /\ fdone S0 r S) \/ (n = MX /\ res = Err OutOfBounds))) with (m := (Z.to_nat n - length (S0 ++ []))%nat).
  - intros k c1 (S & B & I1 & St1 & Ek). destruct (face_step fuel own S0 r S B c1 ltac:(lia) F0 R0 I1 St1) as [(c' & B' & E & I' & St')|[(LM & c' & B' & E & I' & D')|(LM & E)]].
    + left. exists c', (Z.to_nat n - length (S0 ++ S ++ [(c_vs c1, c_pe c1)]))%nat. split; auto. split; [|exists (S ++ [(c_vs c1, c_pe c1)]), B'; auto].
      pose proof (fi_mk _ _ _ _ _ _ I') as M. pose proof (ed_length _ (mk_isd _ _ _ M) (mk_nd _ _ _ M)) as LA.
      subst k. rewrite !app_length in LA |- *. cbn [length] in LA |- *. pose proof (app_length S0 S). lia.
    + right. left. exists c'. split; auto. left. split; auto. exists c', (S ++ [(c_vs c1, c_pe c1)]), B'. auto.
    + right. right. exists OutOfBounds. split; auto.
  - exists [], []. auto.
  - lia.
Qed.
(** what has been walked is the component *)
Lemma fdone_cover S0 r S vm em : marks (S0 ++ S) vm em -> full S0 -> ~ In (r, 0) (ed S0) -> fdone S0 r S ->
  full S /\ forall v i, cn r v -> 0 <= i < 3 -> In (v, i) (ed S).
Proof.
  intros M F0 R0 (D1 & D2). pose proof (mk_isd _ _ _ M) as Is. apply Forall_app in Is as (Is0 & Is). pose proof (mk_nd _ _ _ M) as N. rewrite ed_app in N.
  assert (FS : full S).
  { intros d i Hd Hi. assert (Q : In (fst d, i) (ed (S0 ++ S))) by (apply D2; auto; rewrite ed_app; apply in_or_app; auto).
    rewrite ed_app in Q. apply in_app_or in Q as [Q|Q]; auto. exfalso.
    assert (X : In d (ed S0)).
    { pose proof (F0 _ (snd d) Q) as X. cbn [fst] in X. rewrite (surjective_pairing d). apply X. apply (ed_isd _ _ Is Hd). }
    clear - N X Hd. induction (ed S0) as [|x l IH]; [destruct X|]. cbn in N. apply NoDup_cons_iff in N as (N1 & N2).
    destruct X as [->|X]; auto. apply N1, in_or_app. auto. }
  split; auto. intros v i Hc. revert i.
  apply (walk_closed f 3 (fun v => forall i, 0 <= i < 3 -> In (v, i) (ed S)) (fun _ => False) r v); auto.
  - intros i Hi. apply (FS (r, 0) i); auto. apply ed_in. exists (r, 0). split; auto. apply gface_self; auto; [lia|].
    rewrite Forall_forall in Is. auto.
  - intros u i Hu Hi _ j Hj. pose proof (Hu i Hi) as Q. apply ed_next in Q; auto. apply (FS _ j Q Hj).
Qed.
End F.
