(** * BrepC: components, and the whole of [r3d_init_brep] and [r3d_free_brep]. *)
From Coq Require Import ZArith List Bool Lia Permutation.
From Verif Require Import Base Lib ModelCommon CommonFacts Model3 ModelBR Spec3 Orb3 Face3 SpecGood Conn SpecBR BrepO BrepW BrepF.
Import ListNotations.
Open Scope Z_scope.

Lemma nth_zrange n k : (Z.of_nat k < n) -> nth k (zrange n) 0 = Z.of_nat k.
Proof.
  intros H. unfold zrange. change 0 with (Z.of_nat 0). rewrite map_nth, seq_nth by lia. reflexivity.
Qed.

Lemma flat_map_ext' {A B} (F G : A -> list B) l : (forall x, In x l -> F x = G x) -> flat_map F l = flat_map G l.
Proof. induction l as [|x l IH]; intros H; auto. cbn. rewrite H, IH; auto; cbn; auto. intros; apply H; cbn; auto. Qed.

Section C.
Context {V : Type} (veq : V -> V -> bool) (MX : Z) (b : vbuf V) (n : Z) (Hn : 0 < n <= MX).
Notation f := (nb b).
Hypothesis L : links f (below n).
Hypothesis P : simple_faces f (below n).
Local Notation isd := (isd (below n)).
Local Notation gfc := (gface f n).
Context (m : Z -> option Z) (mp : Z -> Z).
Hypothesis Hm : forall v, 0 <= v < n -> m v = Some (mp v).
Hypothesis Hrep : forall v, 0 <= v < n -> rep veq (ps b) v (mp v).
Local Notation cont := (cont b mp).
Local Notation cn := (conn f 3).
Local Notation ed := (ed b n).
Lemma Hr v : 0 <= v < n -> 0 <= mp v < n.
Proof. intros Hv. destruct (Hrep v Hv) as (H & _). lia. Qed.

Lemma br_verts_spec vic nvc : nvc = cnt (nz vic) n ->
  exists cm vs j, br_verts MX b n nvc vic = OK (cm, vs, j)
   /\ forall i, 0 <= i < n -> vic i <> 0 -> cm i = cnt (nz vic) i /\ vs (cnt (nz vic) i) = Some (ps b i).
Proof.
  intros Ec. unfold br_verts. match goal with |- context [for_ 0 n ?bd _] => set (body := bd) end.
  destruct (for_inv (fun i (s : (Z -> Z) * (Z -> option V) * Z) => snd s = cnt (nz vic) i
     /\ forall u, 0 <= u < i -> vic u <> 0 -> fst (fst s) u = cnt (nz vic) u /\ snd (fst s) (cnt (nz vic) u) = Some (ps b u)) 0 n body
     ((fun _ => 0), (fun _ => None), 0)) as (((cm, vs), j) & E & I1 & I2).
  - lia.
  - split; [reflexivity|lia].
  - intros i ((cm, vs), j) Hi (I1 & I2). cbn [fst snd] in *. unfold body. rewrite rd_ok by lia. cbn [bind].
    destruct (Z.eqb_spec (vic i) 0) as [Z0|Z0].
    + eexists. split; [reflexivity|]. cbn [fst snd]. rewrite cnt_succ by lia. unfold nz at 2. rewrite Z0. cbn [negb]. split; [cbn; lia|].
      intros u Hu Nu. destruct (Z.eq_dec u i) as [->|]; [congruence|]. apply I2; auto. lia.
    + assert (K : nz vic i = true) by (unfold nz; destruct (Z.eqb_spec (vic i) 0); auto).
      pose proof (cnt_lt (nz vic) i n ltac:(lia) K) as Lt. pose proof (cnt_nonneg (nz vic) i).
      rewrite wr_ok by lia. cbn [bind]. rewrite rd_ps_ok by lia. cbn [bind]. rewrite wr_ok by lia. cbn [bind].
      eexists. split; [reflexivity|]. cbn [fst snd]. rewrite cnt_succ, K by lia. split; [lia|]. subst j.
      intros u Hu Nu. destruct (Z.eq_dec u i) as [->|Ne]; [rewrite !upd_eq; auto|].
      rewrite upd_neq by auto. destruct (I2 u ltac:(lia) Nu) as (A1 & A2). split; auto. rewrite upd_neq; auto.
      intros Q. apply Ne. apply (cnt_inj (nz vic)); auto; try lia. unfold nz. destruct (Z.eqb_spec (vic u) 0); auto.
  - exists cm, vs, j. split; auto.
Qed.
Lemma map_ind (ind : Z -> option Z) (l : list Z) (cm : Z -> Z) : (forall x, In x l -> 0 <= x < MX) ->
  (forall i : nat, (i < length l)%nat -> ind (Z.of_nat i) = Some (nth i l 0)) ->
  exists ind', for_ 0 (Z.of_nat (length l)) (fun j ind =>
      let* x := rdi (Z.of_nat (length l)) ind j in
      let* y := rd MX cm x in
      wr (Z.of_nat (length l)) ind j (Some y)) ind = OK ind'
   /\ forall i : nat, (i < length l)%nat -> ind' (Z.of_nat i) = Some (cm (nth i l 0)).
Proof.
  intros Hl Hi. match goal with |- context [for_ 0 _ ?bd _] => set (body := bd) end.
  destruct (for_inv (fun j (q : Z -> option Z) => (forall i : nat, Z.of_nat i < j -> q (Z.of_nat i) = Some (cm (nth i l 0)))
     /\ forall i : nat, j <= Z.of_nat i < Z.of_nat (length l) -> q (Z.of_nat i) = Some (nth i l 0)) 0 (Z.of_nat (length l)) body ind) as (q & E & I1 & I2).
  - lia.
  - split; [lia|]. intros i H. apply Hi. lia.
  - intros j q Hj (I1 & I2). unfold body. unfold rdi. rewrite inb_true by lia.
    pose proof (I2 (Z.to_nat j) ltac:(lia)) as Q. rewrite Z2Nat.id in Q by lia. rewrite Q. cbn [bind].
    rewrite rd_ok by (apply Hl, nth_In; lia). cbn [bind]. rewrite wr_ok by lia. eexists. split; [reflexivity|]. split.
    + intros i H. destruct (Z.eq_dec (Z.of_nat i) j) as [<-|]; [rewrite upd_eq, Nat2Z.id; auto|rewrite upd_neq by auto; apply I1; lia].
    + intros i H. rewrite upd_neq by lia. apply I2. lia.
  - exists q. split; auto. intros i H. apply I1. lia.
Qed.
Definition pfaces (S : list (Z * Z)) (B : list Z) (cm : Z -> Z) (pf : Z -> option Z) (fi : Z -> option face) : Prop :=
  forall k, (k < length S)%nat -> exists ind,
    pf (Z.of_nat k) = Some (Z.of_nat (length (cont (gfc (nth k S (0, 0))))))
    /\ fi (Z.of_nat k) = Some (FC (nth k B 0) (Z.of_nat (length (cont (gfc (nth k S (0, 0)))))) ind)
    /\ forall i : nat, (i < length (cont (gfc (nth k S (0%Z, 0%Z)))))%nat -> ind (Z.of_nat i) = Some (cm (nth i (cont (gfc (nth k S (0, 0)))) 0)).
Lemma br_faces_spec S B npf fi cm : Forall isd S -> faces b n mp S B npf fi -> Z.of_nat (length S) <= MX ->
  exists pf pfi, br_faces MX (Z.of_nat (length S)) npf fi cm = OK (pf, pfi) /\ pfaces S B cm pf pfi.
Proof.
  intros HS (LB & FB) LM. unfold br_faces. match goal with |- context [for_ 0 _ ?bd _] => set (body := bd) end.
  destruct (for_inv (fun j (q : (Z -> option Z) * (Z -> option face)) => forall k, (k < length S)%nat -> Z.of_nat k < j -> exists ind,
    fst q (Z.of_nat k) = Some (Z.of_nat (length (cont (gfc (nth k S (0, 0))))))
    /\ snd q (Z.of_nat k) = Some (FC (nth k B 0) (Z.of_nat (length (cont (gfc (nth k S (0, 0)))))) ind)
    /\ forall i : nat, (i < length (cont (gfc (nth k S (0%Z, 0%Z)))))%nat -> ind (Z.of_nat i) = Some (cm (nth i (cont (gfc (nth k S (0, 0)))) 0)))
    0 (Z.of_nat (length S)) body ((fun _ => None), (fun _ => None))) as ((pf, pfi) & E & I).
  - lia.
  - lia.
  - intros j (pf, pfi) Hj I. cbn [fst snd] in *. unfold body. assert (Hk : (Z.to_nat j < length S)%nat) by lia.
    destruct (FB _ Hk) as (ind & E1 & E2 & E3). rewrite Z2Nat.id in E1, E2 by lia.
    unfold rdi at 1. rewrite inb_true, E1 by lia. cbn [bind]. rewrite wr_ok by lia. cbn [bind]. unfold rdi at 1. rewrite inb_true, E2 by lia. cbn [bind f_len f_ind f_blk].
    destruct (map_ind ind (cont (gfc (nth (Z.to_nat j) S (0, 0)))) cm) as (ind' & Ei & Pi); auto.
    { intros x Hx. unfold BrepW.cont in Hx. apply in_map_iff in Hx as (d & <- & Hd). apply filter_In in Hd as (Hd & _).
      assert (D : isd d). { apply (gface_isd f n ltac:(lia) L P (nth (Z.to_nat j) S (0, 0))); auto. rewrite Forall_forall in HS. apply HS, nth_In. auto. }
      destruct D as (D & _). pose proof (Hr _ D). lia. }
    rewrite Ei. cbn [bind]. rewrite wr_ok by lia. cbn [bind]. eexists. split; [reflexivity|]. cbn [fst snd].
    intros k Hk' Lk. destruct (Z.eq_dec (Z.of_nat k) j) as [<-|Ne].
    + rewrite !upd_eq. rewrite Nat2Z.id in *. exists ind'. auto.
    + rewrite !upd_neq by auto. apply I; auto. lia.
  - exists pf, pfi. split; auto. intros k Hk. apply I; auto. lia.
Qed.

Definition br_ids (o : option (@brep V)) : list Z :=
  match o with
  | Some br => b_vblk br :: map (fun k => match b_fi br k with Some fc => f_blk fc | None => 0 end) (zrange (b_nf br)) ++ [b_fblk br; b_pblk br]
  | None => [] end.
Lemma ids_faces S B cm pf fi : length B = length S -> pfaces S B cm pf fi ->
  map (fun k => match fi k with Some fc => f_blk fc | None => 0 end) (zrange (Z.of_nat (length S))) = B.
Proof.
  intros LB FB. apply (nth_ext _ _ 0 0); rewrite map_length, length_zrange_nat, Nat2Z.id; auto. intros k Hk.
  set (F := fun k => match fi k with Some fc => f_blk fc | None => 0 end).
  rewrite (nth_indep _ 0 (F 0)) by (rewrite map_length, length_zrange_nat; lia).
  rewrite (map_nth F), nth_zrange by lia. unfold F.
  destruct (FB k Hk) as (ind & _ & E & _). rewrite E. reflexivity.
Qed.

Context (h0 : heap) (H0 : forall a, hlive h0 a = true -> a < hnext h0).
Notation PP n := (PY b n).
Record ginv (R : list Z) (SS : list (list (Z * Z))) (g : @gst V) : Prop := {
  gi_mk : marks b n (concat SS) (g_vm g) (g_em g);
  gi_full : full b n (concat SS);
  gi_nc : g_nc g = Z.of_nat (length R);
  gi_len : length SS = length R;
  gi_br : forall k, (k < length R)%nat -> exists br, g_br g (Z.of_nat k) = Some br /\ brep_of veq (PP n) (nth k R 0) br (nth k SS []);
  gi_cov : forall r v i, In r R -> cn r v -> 0 <= i < 3 -> In (v, i) (ed (concat SS));
  gi_sep : forall i j, (i < j < length R)%nat -> ~ cn (nth i R 0) (nth j R 0);
  gi_from : forall d, In d (ed (concat SS)) -> exists r, In r R /\ cn r (fst d);
  gi_rng : Forall (below n) R;
  gi_heap : heapi h0 (g_h g) (g_blk g :: flat_map (fun c => br_ids (g_br g c)) (zrange (g_nc g)));
  gi_max : g_nc g <= g_max g /\ 2 <= g_max g }.
Definition gstart (SS : list (list (Z * Z))) (g : @gst V) : Prop :=
  below n (g_vs g) /\ g_pe g = 0 /\ forall i, ~ In (g_vs g, i) (ed (concat SS)).
Definition gdone (R : list Z) : Prop := forall v, 0 <= v < n -> exists r, In r R /\ cn r v.

Lemma comp_step fuel R SS g : (Z.to_nat n < fuel)%nat -> ginv R SS g -> gstart SS g ->
  (exists g' S, br_comp MX fuel b n m g = OK (g', true) /\ ginv (R ++ [g_vs g]) (SS ++ [S]) g' /\ S <> [] /\ gstart (SS ++ [S]) g')
  \/ (n < MX /\ exists g' S, br_comp MX fuel b n m g = OK (g', false) /\ ginv (R ++ [g_vs g]) (SS ++ [S]) g' /\ gdone (R ++ [g_vs g]))
  \/ (n = MX /\ br_comp MX fuel b n m g = Err OutOfBounds).
Proof.
  intros Hf I (Hs & Hp & Hu). pose proof (gi_mk _ _ _ I) as M. set (r := g_vs g) in *.
  unfold br_comp. fold r. rewrite Hp. set (c0 := CS _ _ _ _ _ _ _ _ _ _ _).
  set (own := g_blk g :: flat_map (fun c => br_ids (g_br g c)) (zrange (g_nc g))) in *.
  destruct (faces_spec MX b n Hn L P m mp Hm Hr h0 fuel own (concat SS) r c0 Hf (gi_full _ _ _ I) (Hu 0)) as [(LM & c & S & B & Ec & Ic & Dc)|(LM & Ec)].
  { split; cbn [c0 c_vm c_em c_nf c_vic c_nvc c_npf c_fi c_h]; auto.
    - rewrite app_nil_r. auto.
    - intros x. split; [lia|]. intros (d & [] & _).
    - unfold cnt. rewrite (filter_ext _ (fun _ => false)) by reflexivity. clear. induction (zrange n); auto.
    - split; auto. intros k Hk. cbn in Hk. lia.
    - apply (gi_heap _ _ _ I). }
  { split; [split; cbn; auto; lia|]. cbn [c0 c_vs c_pe]. rewrite app_nil_r. split; [apply Hu|]. split; [apply conn_refl|]. split; [auto|congruence]. }
  2: { right. right. rewrite Ec. auto. }
  rewrite Ec. cbn [bind]. pose proof (fi_mk _ _ _ _ _ _ _ _ _ _ Ic) as M'.
  destruct (fdone_cover MX b n Hn L P (concat SS) r S _ _ M' (gi_full _ _ _ I) (Hu 0) Dc) as (FS & CV).
  pose proof (mk_isd _ _ _ _ _ M') as Is. apply Forall_app in Is as (Is0 & Is).
  pose proof (fi_conn _ _ _ _ _ _ _ _ _ _ Ic) as Cs. rewrite Forall_forall in Cs, Is.
  assert (CI : forall d, In d (ed S) -> cn r (fst d)).
  { intros d Hd. apply ed_in in Hd as (s & Hs' & Hd). apply (conn_gface MX b n Hn L P r s d); auto. }
  destruct (gi_max _ _ _ I) as (Mx1 & Mx2).
  set (rest := flat_map (fun c => br_ids (g_br g c)) (zrange (g_nc g))) in *.
  assert (Hre : exists blk h mx, (if g_nc g =? g_max g then let* (a, h) := realloc (c_h c) (g_blk g) in OK (a, h, 2 * g_max g)
     else OK (g_blk g, c_h c, g_max g)) = OK (blk, h, mx) /\ g_nc g < mx /\ 2 <= mx /\ heapi h0 h (blk :: B ++ rest)).
  { assert (I2 : heapi h0 (c_h c) (g_blk g :: B ++ rest)).
    { apply (heapi_perm h0 _ (B ++ own)); [apply Permutation_sym, Permutation_middle|apply (fi_heap _ _ _ _ _ _ _ _ _ _ Ic)]. }
    destruct (Z.eqb_spec (g_nc g) (g_max g)).
    - destruct (heapi_realloc h0 H0 _ _ _ I2) as (a & h & Er & Ir). rewrite Er. cbn [bind]. exists a, h, (2 * g_max g). split; auto. split; [lia|]. split; [lia|auto].
    - exists (g_blk g), (c_h c), (g_max g). split; auto. split; [lia|]. auto. }
  destruct Hre as (blk & h & mx & Ere & Lmx & Lmx2 & Ih). rewrite Ere. cbn [bind].
  destruct (malloc h) as (vblk, h1) eqn:E1. pose proof (heapi_malloc h0 _ _ _ _ Ih E1) as Ih1.
  destruct (br_verts_spec (c_vic c) (c_nvc c) (fi_nvc _ _ _ _ _ _ _ _ _ _ Ic)) as (cm & vs & jj & Ev & Pv). rewrite Ev. cbn [bind].
  destruct (malloc h1) as (pblk, h2) eqn:E2. pose proof (heapi_malloc h0 _ _ _ _ Ih1 E2) as Ih2.
  destruct (malloc h2) as (fblk, h3) eqn:E3. pose proof (heapi_malloc h0 _ _ _ _ Ih2 E3) as Ih3.
  pose proof (ed_length MX b n Hn L P _ (mk_isd _ _ _ _ _ M') (mk_nd _ _ _ _ _ M')) as LA. pose proof (app_length (concat SS) S) as LA2.
  destruct (fi_faces _ _ _ _ _ _ _ _ _ _ Ic) as (LB & FB).
  rewrite (fi_nf _ _ _ _ _ _ _ _ _ _ Ic).
  destruct (br_faces_spec S B (c_npf c) (c_fi c) cm ltac:(now apply Forall_forall) (conj LB FB) ltac:(lia)) as (pf & pfi & Ef & Pf). rewrite Ef. cbn [bind].
  assert (Nc0 : 0 <= g_nc g) by (rewrite (gi_nc _ _ _ I); lia).
  rewrite wr_ok by lia. cbn [bind].
  destruct (find_spec 0 n (fun np => let* x := rd MX (c_vm c) np in OK (x =? 0)) (fun np => c_vm c np =? 0)) as (np & Enp & Rnp & Fnp & Nnp).
  { lia. } { intros v Hv. rewrite rd_ok by lia. reflexivity. }
  rewrite Enp. cbn [bind]. set (br := BP _ _ _ _ _ _ _ _).
  assert (Hcat : concat (SS ++ [S]) = concat SS ++ S) by (rewrite concat_app; cbn; now rewrite app_nil_r).
  assert (Hmark : forall v i, cn r v -> 0 <= i < 3 -> In (v, i) (ed (concat (SS ++ [S])))).
  { intros v i Hv Hi. rewrite Hcat, ed_app. apply in_or_app. right. auto. }
  assert (MO : mutual f 3 n). { intros v i Hv Hi. apply (l_mut _ _ L); auto. }
  assert (RO : forall v i, 0 <= v < n -> 0 <= i < 3 -> 0 <= f v i < n). { intros v i Hv Hi. apply (l_rng _ _ L); auto. }
  assert (Hbr : brep_of veq (PP n) r br S).
  { assert (VI : forall v, cn r v -> c_vic c (mp v) <> 0).
    { intros v Hv. apply (fi_vic _ _ _ _ _ _ _ _ _ _ Ic). exists (v, 0). split; auto. apply CV; auto; lia. }
    assert (KI : forall v, cn r v -> nz (c_vic c) (mp v) = true).
    { intros v Hv. specialize (VI v Hv). unfold nz. destruct (Z.eqb_spec (c_vic c (mp v)) 0); auto. }
    exists mp, cm. cbn [vb nv br b_nv b_vs b_nf b_pf b_fi].
    split; [auto|]. split; [|split; [|split; [|split; [|split; [|split; [|split]]]]]]; auto.
    - intros v Hv Hc'. pose proof (Hr v Hv) as Hmv. destruct (Pv (mp v) Hmv (VI v Hc')) as (Q1 & Q2). rewrite Q1. split; auto.
      rewrite (fi_nvc _ _ _ _ _ _ _ _ _ _ Ic). split; [apply cnt_nonneg|apply cnt_lt; auto].
    - intros u v Hu' Hv Cu Cw Lt. pose proof (Hr u Hu') as Hmu. pose proof (Hr v Hv) as Hmv.
      destruct (Pv (mp v) Hmv (VI v Cw)) as (-> & _). destruct (Pv (mp u) Hmu (VI u Cu)) as (-> & _). apply cnt_lt; auto; lia.
    - intros j Hj. rewrite (fi_nvc _ _ _ _ _ _ _ _ _ _ Ic) in Hj. destruct (cnt_surj _ n j ltac:(lia) Hj) as (x & Hx & Kx & Ex).
      assert (Vx : c_vic c x <> 0) by (unfold nz in Kx; destruct (Z.eqb_spec (c_vic c x) 0); [discriminate|auto]).
      pose proof Vx as Vx'. apply (fi_vic _ _ _ _ _ _ _ _ _ _ Ic) in Vx' as (d & Hd & Ed). exists (fst d).
      assert (D : isd d) by (apply (ed_isd MX b n Hn L P S); auto; now apply Forall_forall). split; [apply D|]. split; [auto|].
      rewrite Ed. destruct (Pv x Hx Vx) as (-> & _). auto.
    - pose proof (mk_nd _ _ _ _ _ M') as N. rewrite ed_app in N. clear - N. induction (ed (concat SS)); auto. apply IHl. cbn in N. now apply NoDup_cons_iff in N.
    - intros (v, i) (Hv & Hi) Hc'. apply CV; auto.
    - intros k Hk. destruct (Pf k Hk) as (ind & Q1 & Q2 & Q3). unfold BrepW.cont in Q1, Q2, Q3. rewrite map_length in Q1, Q2, Q3.
      split; [exact Q1|]. eexists. split; [exact Q2|]. split; [reflexivity|]. intros i Hi. cbn [f_ind]. rewrite Q3 by exact Hi. f_equal. f_equal.
      set (F := fun d : Z * Z => mp (fst d)). rewrite (nth_indep _ 0 (F (0, 0))) by (rewrite map_length; auto). rewrite (map_nth F). reflexivity. }
  assert (LS : S <> []) by (destruct Dc as (Dc & _); destruct S; [destruct Dc|discriminate]).
  set (g' := GS _ _ _ _ _ _ _ _ _ _ _ _).
  assert (I' : ginv (R ++ [r]) (SS ++ [S]) g').
  { pose proof (gi_nc _ _ _ I) as Nc. pose proof (gi_len _ _ _ I) as Ln.
    split; cbn [g' g_vm g_em g_nc g_br g_h g_blk g_max].
    - rewrite Hcat. auto.
    - rewrite Hcat. apply Dc.
    - rewrite app_length. cbn [length]. lia.
    - rewrite !app_length. cbn [length]. lia.
    - rewrite app_length. cbn [length]. intros k Hk. unfold upd. destruct (Z.eqb_spec (Z.of_nat k) (g_nc g)) as [E|N].
      + exists br. split; auto. rewrite !app_nth2 by lia. replace (k - length R)%nat with O by lia. replace (k - length SS)%nat with O by lia. auto.
      + rewrite !app_nth1 by lia. apply (gi_br _ _ _ I). lia.
    - intros r' v i Hr' Hc' Hi. apply in_app_or in Hr' as [Hr'|[<-|[]]]; auto. rewrite Hcat, ed_app. apply in_or_app. left. eapply (gi_cov _ _ _ I); eauto.
    - rewrite app_length. cbn [length]. intros i j Hij. destruct (Nat.eq_dec j (length R)) as [->|].
      + rewrite app_nth1 by lia. rewrite app_nth2 by lia. rewrite Nat.sub_diag. cbn [nth]. intros X.
        apply (Hu 0). apply (gi_cov _ _ _ I (nth i R 0)); auto; [apply nth_In; lia|lia].
      + rewrite !app_nth1 by lia. apply (gi_sep _ _ _ I). lia.
    - rewrite Hcat, ed_app. intros d Hd. apply in_app_or in Hd as [Hd|Hd].
      + destruct (gi_from _ _ _ I d Hd) as (r' & H1 & H2). exists r'. split; auto. apply in_or_app. auto.
      + exists r. split; auto. apply in_or_app. cbn. auto.
    - apply Forall_app. split; [apply (gi_rng _ _ _ I)|auto].
    - apply (heapi_perm h0 _ (fblk :: pblk :: vblk :: blk :: B ++ rest)); auto.
      rewrite zrange_succ, flat_map_app by lia. cbn [flat_map]. rewrite upd_eq, app_nil_r.
      rewrite (flat_map_ext' (fun c0 => br_ids (upd (g_br g) (g_nc g) (Some br) c0)) (fun c0 => br_ids (g_br g c0))).
      2: { intros x Hx. apply in_zrange in Hx. now rewrite upd_neq by lia. }
      fold rest. cbn [br_ids br b_vblk b_fi b_nf b_fblk b_pblk]. rewrite (ids_faces S B cm pf pfi LB Pf).
      apply (Permutation_count_occ Z.eq_dec). intros x. cbn [app count_occ]. rewrite !count_occ_app. cbn [count_occ]. rewrite !count_occ_app. cbn [count_occ].
      repeat destruct (Z.eq_dec _ _); lia.
    - lia. }
  pose proof (marks_vm MX b n Hn L P _ _ _ np M') as Sv.
  destruct (Z.ltb_spec np n) as [Ln|Ln].
  - left. exists g', S. split; [reflexivity|]. split; auto. split; auto. specialize (Fnp Ln). apply Z.eqb_eq in Fnp.
    split; [unfold below; cbn [g' g_vs]; lia|]. split; [reflexivity|]. cbn [g' g_vs]. intros i Hi. rewrite Hcat in Hi.
    assert (X : 0 < cv np (ed (concat SS ++ S))).
    { unfold cv. assert (J : In (np, i) (filter (fun d => fst d =? np) (ed (concat SS ++ S)))) by (apply filter_In; split; auto; cbn; apply Z.eqb_refl).
      destruct (filter _ _); [destruct J|cbn; lia]. }
    rewrite <- (mk_vm _ _ _ _ _ M') in X. lia.
  - right. left. split; auto. exists g', S. split; [reflexivity|]. split; auto.
    intros v Hv. assert (np = n) as -> by lia. specialize (Nnp v Hv). cbv beta in Nnp. apply Z.eqb_neq in Nnp.
    pose proof (marks_vm MX b n Hn L P _ _ _ v M') as Sw.
    assert (exists i, In (v, i) (ed (concat SS ++ S))) as (i & Hi).
    { destruct (marks_em b n _ _ _ v 0 M') as [(? & _)|(_ & ?)]; [eauto|].
      destruct (marks_em b n _ _ _ v 1 M') as [(? & _)|(_ & ?)]; [eauto|].
      destruct (marks_em b n _ _ _ v 2 M') as [(? & _)|(_ & ?)]; [eauto|]. lia. }
    rewrite <- Hcat in Hi. destruct (gi_from _ _ _ I' _ Hi) as (r' & H1 & H2). exists r'. auto.
Qed.
Lemma comps_spec fuel g : (Z.to_nat n < fuel)%nat -> ginv [] [] g -> gstart [] g ->
  (n < MX /\ exists g' R SS, dowhile fuel (br_comp MX fuel b n m) g = OK g' /\ ginv R SS g' /\ gdone R)
  \/ (n = MX /\ dowhile fuel (br_comp MX fuel b n m) g = Err OutOfBounds).
Proof.
  intros Hf I St.
  apply (dowhile_meas _ (fun k g => exists R SS, ginv R SS g /\ gstart SS g /\ (k = Z.to_nat n - length (concat SS))%nat)
    (fun res => (n < MX /\ exists g' R SS, res = OK g' /\ ginv R SS g' /\ gdone R) \/ (n = MX /\ res = Err OutOfBounds))) with (m := (Z.to_nat n - 0)%nat).
  - intros k g1 (R & SS & I1 & St1 & Ek). destruct (comp_step fuel R SS g1 Hf I1 St1) as [(g' & S & E & I' & LS & St')|[(LM & g' & S & E & I' & D')|(LM & E)]].
    + left. exists g', (Z.to_nat n - length (concat (SS ++ [S])))%nat. split; auto. split; [|eauto].
      pose proof (gi_mk _ _ _ I') as M. pose proof (ed_length MX b n Hn L P _ (mk_isd _ _ _ _ _ M) (mk_nd _ _ _ _ _ M)) as LA.
      rewrite concat_app, app_length in LA |- *. cbn [concat] in LA |- *. rewrite app_nil_r in LA |- *. destruct S; [congruence|]. cbn [length] in LA |- *. lia.
    + right. left. exists g'. split; auto. left. split; auto. exists g', (R ++ [g_vs g1]), (SS ++ [S]). auto.
    + right. right. exists OutOfBounds. auto.
  - exists [], []. auto.
  - lia.
Qed.
End C.

(** ** the whole function, and freeing its result *)
Section All.
Context {V : Type} (veq : V -> V -> bool) (MX : Z) (p : poly V) (W : wf3 p).
Lemma free_spec h0 (H0 : fresh h0) h (bs : @breps V) rest : 0 <= bs_nc bs <= bs_max bs ->
  (forall k, 0 <= k < bs_nc bs -> exists br, bs_br bs k = Some br /\ 0 <= b_nf br
     /\ forall j, 0 <= j < b_nf br -> exists fc, b_fi br j = Some fc) ->
  heapi h0 h (flat_map (fun c => br_ids (bs_br bs c)) (zrange (bs_nc bs)) ++ bs_blk bs :: rest) ->
  exists h', r3d_free_brep h bs = OK h' /\ heapi h0 h' rest.
Proof.
  intros Hm Hb Ih. unfold r3d_free_brep.
  match goal with |- context [for_ 0 (bs_nc bs) ?bd _] => set (body := bd) end.
  destruct (for_free (ids := fun c => br_ids (bs_br bs c)) h0 (bs_nc bs) body ltac:(lia)) with (h := h) (rest := bs_blk bs :: rest) as (h1 & E & I1); auto.
  - intros i h1 rest1 Hi I1. unfold body. destruct (Hb i Hi) as (br & Eb & Nf & Fc). rewrite Eb in I1. unfold rdi at 1. rewrite inb_true, Eb by lia. cbn [bind].
    cbn [br_ids] in I1. cbn [app] in I1. destruct (heapi_free h0 H0 _ _ _ I1) as (h2 & E2 & I2). rewrite E2. cbn [bind].
    match goal with |- context [for_ 0 (b_nf br) ?bd _] => set (body2 := bd) end.
    destruct (for_free (ids := fun k => [match b_fi br k with Some fc => f_blk fc | None => 0 end]) h0 (b_nf br) body2 Nf) with (h := h2) (rest := [b_fblk br; b_pblk br] ++ rest1) as (h3 & E3 & I3).
    + intros j h3 rest2 Hj I3. unfold body2. destruct (Fc j Hj) as (fc & Ef). rewrite Ef in I3. unfold rdi. rewrite inb_true, Ef by lia. cbn [bind].
      apply (heapi_free h0 H0 _ _ _ I3).
    + rewrite <- app_assoc in I2. replace (flat_map _ (zrange (b_nf br))) with (map (fun k => match b_fi br k with Some fc => f_blk fc | None => 0 end) (zrange (b_nf br))); auto.
    + rewrite E3. cbn [bind]. cbn [app] in I3. destruct (heapi_free h0 H0 _ _ _ I3) as (h4 & E4 & I4). rewrite E4. cbn [bind]. apply (heapi_free h0 H0 _ _ _ I4).
  - rewrite E. cbn [bind]. apply (heapi_free h0 H0 _ _ _ I1).
Qed.

Lemma init_brep_spec h0 fuel : 0 < nv p <= MX -> (Z.to_nat (nv p) < fuel)%nat -> fresh h0 ->
  (nv p < MX /\ exists bs h1 roots starts, r3d_init_brep veq MX fuel h0 p = OK (bs, h1) /\ breps_of veq p bs roots starts
     /\ (forall a, hlive h0 a = true -> hlive h1 a = true)
     /\ exists h2, r3d_free_brep h1 bs = OK h2 /\ forall a, hlive h2 a = hlive h0 a)
  \/ (nv p = MX /\ r3d_init_brep veq MX fuel h0 p = Err OutOfBounds).
Proof.
  intros Hn Hf H0. destruct p as (b, n). cbn [nv vb] in *. destruct W as (_ & L & P). cbn [nv vb] in *.
  unfold r3d_init_brep. cbn [nv vb].
  destruct (br_map_spec veq MX b n Hn) as (m & mp & Em & Hm). rewrite Em. cbn [bind].
  destruct (malloc h0) as (blk, h) eqn:Eh.
  set (g0 := GS _ _ _ _ _ _ _ _ _ _ _ _).
  assert (I0 : heapi h0 h0 []).
  { split; [|split; [constructor|split; [lia|intros a []]]]. intros a. split; auto. intros [|[]]; auto. }
  destruct (comps_spec veq MX b n Hn L P m mp (fun v Hv => proj1 (Hm v Hv)) (fun v Hv => proj2 (Hm v Hv)) h0 H0 fuel g0 Hf) as [(LM & g' & R & SS & E & I & D)|(LM & E)].
  - split; cbn [g0 g_vm g_em g_nc g_br g_h g_blk g_max]; auto; try (cbn; lia).
    + split; auto; constructor.
    + intros d i [].
    + cbn. eapply heapi_malloc; eauto.
  - split; [cbn; unfold below; lia|]. split; [reflexivity|]. intros i [].
  - left. split; auto. rewrite E. cbn [bind]. eexists. exists (g_h g'), R, SS. split; [reflexivity|].
    assert (MO : mutual (nb b) 3 n). { intros v i Hv Hi. apply (l_mut _ _ L); auto. }
    assert (RO : forall v i, 0 <= v < n -> 0 <= i < 3 -> 0 <= nb b v i < n). { intros v i Hv Hi. apply (l_rng _ _ L); auto. }
    pose proof (gi_rng _ _ _ _ _ _ _ I) as RR. rewrite Forall_forall in RR.
    split; [|split].
    + split; cbn [bs_nc bs_br]; [apply (gi_nc _ _ _ _ _ _ _ I)|]. split; [apply (gi_len _ _ _ _ _ _ _ I)|]. split; [exact RR|]. split; [|apply (gi_br _ _ _ _ _ _ _ I)].
      intros v Hv. destruct (D v Hv) as (r & Hr & Hc). apply (In_nth _ _ 0) in Hr as (k & Hk & <-). exists k. split; auto. split; auto.
      intros j Hj Hcj. pose proof (gi_sep _ _ _ _ _ _ _ I) as Sp.
      assert (X : forall x y, below n x -> below n y -> conn (nb b) 3 x v -> conn (nb b) 3 y v -> conn (nb b) 3 x y).
      { intros x y Hx Hy H1 H2. apply conn_trans with v; auto. apply (walk_sym (nb b) 3 n RO MO); auto. }
      destruct (Nat.lt_trichotomy j k) as [Lt|[Eq|Lt]]; auto; exfalso.
      * apply (Sp j k); [lia|]. apply X; auto; apply RR, nth_In; lia.
      * apply (Sp k j); [lia|]. apply X; auto; apply RR, nth_In; lia.
    + intros a Ha. apply (gi_heap _ _ _ _ _ _ _ I). auto.
    + destruct (gi_max _ _ _ _ _ _ _ I) as (Mx1 & Mx2). pose proof (gi_nc _ _ _ _ _ _ _ I) as Nc.
      match goal with |- context [r3d_free_brep _ ?x] => set (bs := x) end.
      destruct (free_spec h0 H0 (g_h g') bs []) as (h2 & E2 & (A & _)).
      * cbn [bs bs_nc bs_max]. lia.
      * cbn [bs bs_nc bs_br]. intros k Hk. destruct (gi_br _ _ _ _ _ _ _ I (Z.to_nat k) ltac:(lia)) as (br & Eb & Hb). rewrite Z2Nat.id in Eb by lia.
        exists br. split; auto. destruct Hb as (mp' & cm & _ & _ & _ & _ & _ & _ & _ & Nf & Q). cbn [vb nv] in *.
        split; [lia|]. intros j Hj. destruct (Q (Z.to_nat j) ltac:(lia)) as (_ & fc & Ef & _). rewrite Z2Nat.id in Ef by lia. eauto.
      * cbn [bs bs_nc bs_br bs_blk]. eapply heapi_perm; [|apply (gi_heap _ _ _ _ _ _ _ I)]. apply Permutation_cons_append.
      * exists h2. split; auto. intros a. apply eq_true_iff_eq. rewrite A. cbn. tauto.
  - right. split; auto. rewrite E. reflexivity.
Qed.
Lemma init_brep_empty h0 fuel : nv p = 0 -> r3d_init_brep veq MX fuel h0 p = Err OutOfBounds.
Proof. intros E. unfold r3d_init_brep, br_map. rewrite E. reflexivity. Qed.
End All.
