(** * BrepRT: [r3d_init_poly] of the description that [r3d_init_brep] gives. *)
From Coq Require Import ZArith List Bool Lia.
From Verif Require Import Base Lib ModelCommon CommonFacts ModelB ModelBR SpecB SpecGood SpecBR Orb3 Face3 InitP InitP2 BrepO BrepW BrepC SpecRT Spec3.
Import ListNotations.
Open Scope Z_scope.

Lemma NoDup_inj {A B} (g : A -> B) l x y : NoDup (map g l) -> In x l -> In y l -> g x = g y -> x = y.
Proof.
  induction l as [|a l IH]; cbn; intros N Hx Hy E; [destruct Hx|]. inversion N as [|? ? N1 N2]; subst.
  destruct Hx as [->|Hx], Hy as [->|Hy]; auto; exfalso; apply N1; [rewrite E|rewrite <- E]; now apply in_map.
Qed.
Lemma filter_all_true {A} (g : A -> bool) l : forallb g l = true -> filter g l = l.
Proof. induction l as [|a l IH]; cbn; auto. intros H. apply andb_true_iff in H as (H1 & H2). rewrite H1, IH; auto. Qed.
Lemma map_flat_map {A B C} (g : B -> C) (F : A -> list B) l : map g (flat_map F l) = flat_map (fun x => map g (F x)) l.
Proof. induction l as [|a l IH]; cbn; auto. now rewrite map_app, IH. Qed.
Lemma map_nth_seq {A} (l : list A) d : map (fun i => nth i l d) (seq 0 (length l)) = l.
Proof.
  induction l as [|a l IH]; cbn; auto. f_equal. rewrite <- seq_shift, map_map. exact IH.
Qed.
Lemma flat_nth {A B} (F : A -> list B) l d : flat_map (fun i => F (nth (Z.to_nat i) l d)) (zrange (Z.of_nat (length l))) = flat_map F l.
Proof.
  rewrite <- (map_nth_seq l d) at 2. unfold zrange. rewrite Nat2Z.id. rewrite !flat_map_concat_map, !map_map. f_equal. apply map_ext. intros i. now rewrite Nat2Z.id.
Qed.
Lemma mono_id (c : Z -> Z) n m : 0 < n -> (forall u v, 0 <= u < n -> 0 <= v < n -> u < v -> c u < c v) -> (forall v, 0 <= v < n -> 0 <= c v < m) ->
  (forall j, 0 <= j < m -> exists v, 0 <= v < n /\ c v = j) -> m = n /\ forall v, 0 <= v < n -> c v = v.
Proof.
  intros Hn M Rg Su.
  assert (G : forall v, 0 <= v -> v < n -> c v >= v).
  { intros v Hv. pattern v. apply natlike_ind; auto; [intros _; pose proof (Rg 0 ltac:(lia)); lia|]. intros x Hx IH Hl. pose proof (M x (Z.succ x) ltac:(lia) ltac:(lia) ltac:(lia)). lia. }
  assert (I : forall v, 0 <= v < n -> c v = v).
  { intros v. pattern v. apply (well_founded_ind (Z.lt_wf 0)). clear v. intros v IH Hv. pose proof (G v ltac:(lia) ltac:(lia)). destruct (Z.eq_dec (c v) v); auto.
    destruct (Su v) as (u & Hu & E); [pose proof (Rg v Hv); lia|]. destruct (Z.lt_trichotomy u v) as [Lt|[->|Gt]]; [|lia|].
    - rewrite (IH u) in E by lia. lia.
    - pose proof (M v u ltac:(lia) ltac:(lia) Gt). lia. }
  split; auto. pose proof (Rg (n - 1) ltac:(lia)). rewrite I in H by lia. destruct (Z.eq_dec m n); auto. destruct (Su n ltac:(lia)) as (u & Hu & E). rewrite I in E by lia. lia.
Qed.

Section R.
Context {V : Type} (veq : V -> V -> bool) (p : poly V) (dv : V) (br : @brep V) (r : Z) (starts : list dart).
Notation f := (nb (vb p)).
Notation n := (nv p).
Hypothesis W : wf3 p.
Hypothesis Hn : 0 < n.
Hypothesis Conn : forall v, 0 <= v < n -> conn f 3 r v.
Hypothesis NC : forall w, 0 < w < n -> veq (ps (vb p) w) (ps (vb p) (w - 1)) = false.
Hypothesis BR : brep_of veq p r br starts.
Notation nf := (b_nf br).
Notation nvf := (brep_nvf br).
Notation fi := (brep_fi br).
Notation gf k := (gface f n (nth (Z.to_nat k) starts (0, 0))).

Lemma Lk : links f (below n). Proof. apply W. Qed.
Lemma Sf : simple_faces f (below n). Proof. apply W. Qed.
Lemma H0n : 0 <= n. Proof. lia. Qed.

Lemma brep_plain : b_nv br = n /\ (forall v, 0 <= v < n -> brep_vs dv br v = ps (vb p) v)
  /\ (forall s, In s starts -> isd (below n) s) /\ NoDup (flat_map (gface f n) starts) /\ (forall d, isd (below n) d -> In d (flat_map (gface f n) starts))
  /\ nf = Z.of_nat (length starts)
  /\ forall k, 0 <= k < nf -> nvf k = Z.of_nat (length (gf k)) /\ forall i : nat, (i < length (gf k))%nat -> fi k (Z.of_nat i) = fst (nth i (gf k) (0, 0)).
Proof.
  destruct BR as (mp & cm & B1 & B2 & B3 & B4 & B5 & B6 & B7 & B8 & B9).
  assert (M : forall v, 0 <= v < n -> mp v = v).
  { intros v Hv. destruct (B1 v Hv) as (A & B & _). destruct (Z.eq_dec (mp v) v); auto. specialize (B v ltac:(lia)). rewrite NC in B by lia. discriminate. }
  destruct (mono_id cm n (b_nv br) Hn) as (E1 & E2).
  - intros u v Hu Hv H. specialize (B3 u v Hu Hv (Conn u Hu) (Conn v Hv)). rewrite !M in B3 by auto. auto.
  - intros v Hv. destruct (B2 v Hv (Conn v Hv)) as (A & _). now rewrite M in A.
  - intros j Hj. destruct (B4 j Hj) as (v & Hv & _ & E). exists v. rewrite M in E; auto.
  - split; auto. split.
    { intros v Hv. unfold brep_vs. destruct (B2 v Hv (Conn v Hv)) as (_ & A). rewrite M, E2 in A by auto. now rewrite A. }
    assert (SI : forall s, In s starts -> isd (below n) s) by (intros s Hs; now apply B5).
    split; auto. split; auto. split; [intros d Hd; apply B7; auto; apply Conn, Hd|]. split; auto.
    intros k Hk. specialize (B9 (Z.to_nat k) ltac:(lia)). rewrite Z2Nat.id in B9 by lia.
    assert (Is : isd (below n) (nth (Z.to_nat k) starts (0, 0))) by (apply SI, nth_In; lia).
    assert (FT : filter (fun d => negb (mp (fst d) =? mp (dtgt f d))) (gf k) = gf k).
    { apply filter_all_true. apply forallb_forall. intros d Hd. apply (gface_isd f n H0n Lk Sf) in Hd; auto. destruct Hd as (D1 & D2).
      pose proof (l_rng _ _ Lk _ _ D1 D2) as R. unfold dtgt. rewrite !M by auto. apply negb_true_iff, Z.eqb_neq. intros X. now apply (l_self _ _ Lk _ _ D1 D2). }
    cbv zeta in B9. rewrite FT in B9. destruct B9 as (A1 & fc & A2 & _ & A3). split; [unfold brep_nvf; now rewrite A1|].
    intros i Hi. unfold brep_fi. rewrite A2, A3 by auto.
    assert (Id : isd (below n) (nth i (gf k) (0, 0))) by (apply (gface_isd f n H0n Lk Sf) with (d := nth (Z.to_nat k) starts (0, 0)); auto; now apply nth_In).
    rewrite M, E2; auto; apply Id.
Qed.
(** the directed edge of a corner *)
Definition dc (c : Z * Z) : dart := nth (Z.to_nat (snd c)) (gf (fst c)) (0, 0).
Lemma start_isd k : 0 <= k < nf -> isd (below n) (nth (Z.to_nat k) starts (0, 0)).
Proof. destruct brep_plain as (_ & _ & A & _ & _ & B & _). intros Hk. apply A, nth_In. lia. Qed.
Lemma dc_isd c : corner nf nvf c -> isd (below n) (dc c).
Proof.
  intros (A & B). destruct brep_plain as (_ & _ & _ & _ & _ & _ & P). destruct (P _ A) as (P1 & _). apply (gface_isd f n H0n Lk Sf) with (d := nth (Z.to_nat (fst c)) starts (0, 0)); [now apply start_isd|].
  apply nth_In. lia.
Qed.
Lemma vat_dc c : corner nf nvf c -> vat fi c = fst (dc c).
Proof.
  intros (A & B). destruct brep_plain as (_ & _ & _ & _ & _ & _ & P). destruct (P _ A) as (P1 & P2). unfold vat, dc. rewrite <- P2 by lia. now rewrite Z2Nat.id by lia.
Qed.
Lemma dc_next c : corner nf nvf c -> dc (csucc nvf c) = gnext f (dc c).
Proof.
  intros (A & B). destruct brep_plain as (_ & _ & _ & _ & _ & _ & P). destruct (P _ A) as (P1 & _). unfold dc, csucc. cbn [fst snd].
  pose proof (start_isd _ A) as Is. set (s := nth (Z.to_nat (fst c)) starts (0, 0)) in *. destruct (gper_ok f n H0n Lk Sf s Is) as (q & Eq & Hq & Ep & _).
  assert (Lq : length (gface f n s) = q) by (unfold gface; rewrite map_length, seq_length; auto). rewrite P1, Lq in *.
  assert (NI : forall i : nat, (i < q)%nat -> nth i (gface f n s) (0, 0) = iter i (gnext f) s).
  { intros i Hi. unfold gface. rewrite Eq. rewrite (nth_indep _ _ (iter 0 (gnext f) s)) by (rewrite map_length, seq_length; lia). rewrite (map_nth (fun j => iter j (gnext f) s)), seq_nth by lia. reflexivity. }
  assert (Hi : (Z.to_nat (snd c) < q)%nat) by lia. rewrite (NI (Z.to_nat (snd c))) by auto.
  destruct (Z.eq_dec (snd c + 1) (Z.of_nat q)) as [X|X].
  - rewrite X, Z_mod_same_full. cbn [Z.to_nat]. rewrite NI by lia. cbn [iter]. transitivity (iter q (gnext f) s); [now rewrite Ep|]. replace q with (S (Z.to_nat (snd c))) by lia. reflexivity.
  - rewrite Z.mod_small by lia. replace (Z.to_nat (snd c + 1)) with (S (Z.to_nat (snd c))) by lia. rewrite NI by lia. reflexivity.
Qed.
Lemma map_dc : map dc (corners nf nvf) = flat_map (gface f n) starts.
Proof.
  destruct brep_plain as (_ & _ & _ & _ & _ & N & P). unfold corners. rewrite map_flat_map, <- (flat_nth (gface f n) starts (0, 0)), <- N.
  apply flat_map_ext'. intros k Hk. apply in_zrange in Hk. rewrite map_map. unfold dc. cbn [fst snd]. destruct (P k Hk) as (P1 & _). rewrite P1. unfold zrange. rewrite Nat2Z.id, map_map.
  rewrite <- (map_nth_seq (gf k) (0, 0)) at 2. apply map_ext. intros i. now rewrite Nat2Z.id.
Qed.
Lemma dc_inj c d : corner nf nvf c -> corner nf nvf d -> dc c = dc d -> c = d.
Proof.
  intros Hc Hd. destruct brep_plain as (_ & _ & _ & N & _). rewrite <- map_dc in N. apply (NoDup_inj dc (corners nf nvf)); auto; now apply in_corners.
Qed.
Lemma dc_surj d : isd (below n) d -> exists c, corner nf nvf c /\ dc c = d.
Proof.
  intros Hd. destruct brep_plain as (_ & _ & _ & _ & C & _). specialize (C d Hd). rewrite <- map_dc in C. apply in_map_iff in C as (c & E & Hc). apply in_corners in Hc. eauto.
Qed.
Lemma succ_corner c : corner nf nvf c -> corner nf nvf (csucc nvf c).
Proof. intros (A & B). split; auto. cbn. apply Z.mod_pos_bound. lia. Qed.
Lemma vat_succ c : corner nf nvf c -> vat fi (csucc nvf c) = dtgt f (dc c).
Proof. intros Hc. rewrite vat_dc, dc_next by auto using succ_corner. reflexivity. Qed.
Lemma opp_tgt d : isd (below n) d -> dtgt f (dopp f d) = dsrc d.
Proof. intros Hd. apply (slot_back f _ Lk d Hd). Qed.

Lemma brep_closed : closed_surface nf nvf fi n.
Proof.
  split.
  - intros k Hk. destruct brep_plain as (_ & _ & _ & _ & _ & _ & P). destruct (P k Hk) as (P1 & _). rewrite P1. pose proof (gface_length f n H0n Lk Sf _ (start_isd k Hk)). lia.
  - intros c Hc. rewrite vat_dc by auto. apply dc_isd; auto.
  - intros c d Hc Hd A B. rewrite !vat_succ in B by auto. rewrite !vat_dc in A by auto. apply dc_inj; auto. pose proof (dc_isd c Hc) as (I1 & I2). pose proof (dc_isd d Hd) as (J1 & J2).
    unfold dtgt in B. rewrite (surjective_pairing (dc c)), (surjective_pairing (dc d)), <- A. f_equal. rewrite <- A in B. now apply (l_dist _ _ Lk (fst (dc c))).
  - intros c Hc. destruct (dc_surj (dopp f (dc c))) as (d & Hd & E); [apply (isd_opp f _ Lk), dc_isd; auto|]. exists d. split; auto. rewrite vat_dc, !vat_succ, E, opp_tgt by auto using dc_isd.
    split; auto. symmetry. apply vat_dc; auto.
  - intros c Hc. rewrite vat_succ, vat_dc by auto. pose proof (dc_isd c Hc) as (I1 & I2). intros X. apply (l_self _ _ Lk _ _ I1 I2). symmetry. exact X.
  - intros c Hc. rewrite vat_succ, dc_next, vat_dc by auto using succ_corner. pose proof (dc_isd c Hc) as I. intros X. unfold gnext, dtgt at 1 in X. cbn [fst snd] in X.
    pose proof (slot_back f _ Lk (dc c) I) as Y. unfold dsrc in *. pose proof (l_rng _ _ Lk _ _ (proj1 I) (proj2 I)) as Rg. fold (dtgt f (dc c)) in Rg.
    pose proof (slot_range f (dtgt f (dc c)) (fst (dc c))) as S2. assert (Z1 := eq_trans Y X). apply (l_dist _ _ Lk) in Z1; auto; [|apply Z.mod_pos_bound; lia].
    destruct (slot3 _ S2) as [Q|[Q|Q]]; rewrite Q in Z1; discriminate.
Qed.
Lemma brep_deg v : 0 <= v < n -> vdeg nf nvf fi v = 3.
Proof.
  intros Hv. destruct brep_plain as (_ & _ & _ & N & C & _). unfold vdeg.
  assert (E : length (filter (fun c => vat fi c =? v) (corners nf nvf)) = length (filter (fun d => fst d =? v) (map dc (corners nf nvf)))).
  { assert (G : forall l, (forall c, In c l -> corner nf nvf c) -> length (filter (fun c => vat fi c =? v) l) = length (filter (fun d => fst d =? v) (map dc l))).
    { induction l as [|a l IH]; intros H; cbn; auto. rewrite vat_dc by (apply H; now left). destruct (fst (dc a) =? v); cbn; rewrite IH; auto; intros; apply H; now right. }
    apply G. intros c. apply in_corners. }
  rewrite E, map_dc. change (cv v (flat_map (gface f n) starts) = 3). rewrite cv_cd.
  - assert (O : forall i, 0 <= i < 3 -> cd (v, i) (flat_map (gface f n) starts) = 1) by (intros i Hi; destruct (cd_in (v, i) _ N) as [(_ & X)|(X & _)]; auto; exfalso; apply X, C; split; auto).
    rewrite !O by lia. reflexivity.
  - intros d Hd. rewrite <- map_dc in Hd. apply in_map_iff in Hd as (c & <- & Hc). apply in_corners in Hc. apply dc_isd; auto.
Qed.
(** ** What [r3d_init_poly] makes of it *)
Lemma tri_slots v a b : 0 <= v < n -> tri nf nvf fi v a b -> exists i, 0 <= i < 3 /\ f v i = a /\ f v ((i + 2) mod 3) = b.
Proof.
  intros Hv (c & Hc & A & B & C). pose proof (dc_isd c Hc) as I. rewrite vat_succ in B by auto. rewrite vat_dc in A by auto. rewrite vat_succ, dc_next in C by auto using succ_corner.
  exists (slot f v a). split; [apply slot_range|]. rewrite <- A, <- B. split; [exact (slot_back f _ Lk (dc c) I)|]. rewrite <- C. reflexivity.
Qed.
Theorem brep_rebuilt MX (q : poly V) t : 3 <= MX -> n <= MX ->
  exists p', r3d_init_poly MX nf nvf fi q t (brep_vs dv br) (b_nv br) = OK (p', 1) /\ turned_slots p p'.
Proof.
  intros H3 Hm. destruct brep_plain as (E1 & E2 & _ & _ & _ & Nf & _). rewrite E1.
  destruct (ip_three nf nvf fi MX q t (brep_vs dv br) n ltac:(lia) brep_closed H3 ltac:(lia) brep_deg) as (b & E & P & Rw).
  exists (PY b n). split; auto. split; [reflexivity|]. cbn [nv vb]. split; [intros v Hv; rewrite P, E2; auto|].
  exists (fun v => slot f v (nb b v 0)). intros v i Hv Hi. destruct (Rw v Hv) as (x & y & z & (T1 & T2 & T3 & _) & R0 & R1 & R2).
  destruct (tri_slots v x y Hv T1) as (i1 & I1 & X1 & Y1). destruct (tri_slots v y z Hv T2) as (i2 & I2 & Y2 & Z2). destruct (tri_slots v z x Hv T3) as (i3 & I3 & Z3 & X3).
  rewrite R0. assert (S : slot f v y = (i1 + 2) mod 3) by (apply (Orb3.slot_eq f _ Lk); auto; apply Z.mod_pos_bound; lia). rewrite S.
  assert (J2 : i2 = (i1 + 2) mod 3) by (apply (l_dist _ _ Lk v); auto; [apply Z.mod_pos_bound; lia|congruence]).
  destruct (slot3 i1 I1) as [Q1|[Q1|Q1]]; rewrite Q1 in *; cbn in J2; rewrite J2 in *; destruct (slot3 i Hi) as [->|[->| ->]]; cbn in *; congruence.
Qed.
End R.
