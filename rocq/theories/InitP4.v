(** * InitP4: [r3d_init_poly], the general case: taking two duplicates of each vertex out. *)
From Coq Require Import ZArith List Bool Lia Permutation.
From Verif Require Import Base Lib ModelCommon CommonFacts Model3 ModelB Spec3 SpecB InitP InitP2 InitP3.
Import ListNotations.
Open Scope Z_scope.

Section Desc.
Context (nf : Z) (nvf : Z -> Z) (fi : Z -> Z -> Z).
Notation corner := (corner nf nvf).
Notation corners := (corners nf nvf).
Notation vat := (vat fi).
Notation csucc := (csucc nvf).
Notation cpred := (cpred nvf).
Notation vdeg := (vdeg nf nvf fi).
Context (n : Z) (CS : closed_surface nf nvf fi n).
Notation copp := (copp nf nvf fi).
Notation rs := (rs nf nvf fi).
Notation rsi := (rsi nf nvf fi).
Notation st := (st vdeg).
Context {V : Type} (MX : Z) (HN : 0 <= n <= MX).
Notation buf := (vbuf V).
Context (vs : Z -> option Z) (VS : forall v, 0 <= v < n -> vs v = Some (st v)) (HS : st n <= MX).
Context (D : Z * Z -> Z) (ND : numbering nf nvf fi n D).
Context (RS1 : forall c, corner c -> rs c <> c) (RS2 : forall c, corner c -> rs (rs c) <> c).
Context (DG : forall v, 0 <= v < n -> 3 <= vdeg v).
Let rs_c c : corner c -> corner (rs c) := rs_corner nf nvf fi n CS c.
Let rsi_c c : corner c -> corner (rsi c) := rsi_corner nf nvf fi n CS c.
Let cop_c c : corner c -> corner (copp c) := copp_corner nf nvf fi n CS c.
Let rsv c : corner c -> vat (rs c) = vat c := rs_vat nf nvf fi n CS c.
Let rsiv c : corner c -> vat (rsi c) = vat c := rsi_vat nf nvf fi n CS c.
Let rr c : corner c -> rs (rsi c) = c := rs_rsi nf nvf fi n CS c.
Let ri c : corner c -> rsi (rs c) = c := rsi_rs nf nvf fi n CS c.
Let coco c : corner c -> copp (copp c) = c := copp_copp nf nvf fi n CS c.
Let cone c : corner c -> vat (copp c) <> vat c := copp_ne nf nvf fi n CS c.
Let dinj := nu_inj _ _ _ _ _ ND.

(** first and last duplicate of its vertex *)
Definition isf (x : Z * Z) : bool := D x =? st (vat x).
Definition isl (x : Z * Z) : bool := isf (rs x).
Definition out (k : Z) (x : Z * Z) : bool := (vat x <? k) && (isf x || isl x).
Definition host (k : Z) (x : Z * Z) : Z * Z :=
  if vat x <? k then if isf x then rs x else if isl x then rsi x else x else x.
Definition sl (k : Z) (x : Z * Z) : Z :=
  if vat x <? k then if isf x then 0 else if isl x then 2 else 1 else 1.

Lemma isf_uniq x y : corner x -> corner y -> vat x = vat y -> isf x = true -> isf y = true -> x = y.
Proof. unfold isf. intros Hx Hy E. rewrite !Z.eqb_eq. intros A B. apply dinj; auto. congruence. Qed.
Lemma isl_uniq x y : corner x -> corner y -> vat x = vat y -> isl x = true -> isl y = true -> x = y.
Proof.
  unfold isl. intros Hx Hy E A B. rewrite <- (ri x), <- (ri y) by auto. f_equal. apply isf_uniq; auto. rewrite !rsv; auto.
Qed.
Lemma isfl x : corner x -> isf x = true -> isl x = false.
Proof.
  intros Hx A. apply not_true_is_false. intros B. apply (RS1 x Hx). apply isf_uniq; auto.
Qed.
Lemma isf_rs x : corner x -> isf x = true -> isf (rs x) = false.
Proof. intros Hx A. apply not_true_is_false. intros B. apply (RS1 x Hx). apply isf_uniq; auto. Qed.
Lemma isl_rs x : corner x -> isf x = true -> isl (rs x) = false.
Proof. intros Hx A. apply not_true_is_false. intros B. apply (RS2 x Hx). apply isf_uniq; auto. rewrite !rsv; auto. Qed.
Lemma isf_rsi x : corner x -> isl x = true -> isf (rsi x) = false.
Proof.
  intros Hx A. apply not_true_is_false. intros B. apply (RS2 (rsi x)); auto. rewrite rr by auto.
  apply isf_uniq; auto. rewrite rsv, rsiv; auto.
Qed.
Lemma isl_rsi x : corner x -> isl x = true -> isl (rsi x) = false.
Proof.
  intros Hx A. unfold isl. rewrite rr by auto. apply not_true_is_false. intros B. rewrite (isfl x Hx B) in A. discriminate.
Qed.
Lemma host_corner k x : corner x -> corner (host k x).
Proof. intros H. unfold host. destruct (_ <? _), (isf x), (isl x); auto. Qed.
Lemma host_vat k x : corner x -> vat (host k x) = vat x.
Proof. intros H. unfold host. destruct (_ <? _), (isf x), (isl x); auto. Qed.
Lemma host_in k x : corner x -> out k (host k x) = false.
Proof.
  intros H. unfold out. rewrite host_vat by auto. unfold host. destruct (_ <? _); auto. cbn [andb].
  destruct (isf x) eqn:A; [rewrite isf_rs, isl_rs; auto|]. destruct (isl x) eqn:B; [rewrite isf_rsi, isl_rsi; auto|]. rewrite A, B. auto.
Qed.
Lemma host_hi k x : k <= vat x -> host k x = x /\ sl k x = 1.
Proof. intros H. unfold host, sl. destruct (Z.ltb_spec (vat x) k); [lia|auto]. Qed.
Lemma host_id k x : out k x = false -> host k x = x /\ sl k x = 1.
Proof. unfold out, host, sl. destruct (_ <? _); auto. destruct (isf x), (isl x); cbn; auto; discriminate. Qed.
Lemma sl_rng k x : 0 <= sl k x < 3.
Proof. unfold sl. destruct (_ <? _), (isf x), (isl x); lia. Qed.
Lemma loc_inj k x y : corner x -> corner y -> host k x = host k y -> sl k x = sl k y -> x = y.
Proof.
  intros Hx Hy E1 E2. assert (Ev : vat x = vat y) by (rewrite <- (host_vat k x), <- (host_vat k y), E1; auto).
  revert E1 E2. unfold host, sl. rewrite Ev. destruct (_ <? _); auto.
  destruct (isf x) eqn:A, (isf y) eqn:B; try (destruct (isl y)); try (destruct (isl x)); intros E1 E2; try lia; auto.
  all: try (apply isf_uniq; now auto).
  all: rewrite <- (rr x), <- (rr y) by auto; f_equal; auto.
Qed.
Lemma host_step k x : vat x <> k -> host (k + 1) x = host k x /\ sl (k + 1) x = sl k x /\ out (k + 1) x = out k x.
Proof.
  intros N. unfold host, sl, out. destruct (Z.ltb_spec (vat x) k), (Z.ltb_spec (vat x) (k + 1)); try lia; auto.
Qed.
Lemma host_at k x : vat x = k -> host (k + 1) x = (if isf x then rs x else if isl x then rsi x else x)
  /\ sl (k + 1) x = (if isf x then 0 else if isl x then 2 else 1) /\ out (k + 1) x = isf x || isl x.
Proof. intros <-. unfold host, sl, out. destruct (Z.ltb_spec (vat x) (vat x + 1)); [auto|lia]. Qed.

Record dinv (k : Z) (t : buf) (ut : Z -> Z) : Prop := {
  dv_e : forall x, corner x -> nb t (D (host k x)) (sl k x) = D (host k (copp x));
  dv_0 : forall x, corner x -> out k x = false -> (vat x < k -> isf (rsi x) = false) -> nb t (D x) 0 = D (rsi x);
  dv_2 : forall x, corner x -> out k x = false -> (vat x < k -> isl (rs x) = false) -> nb t (D x) 2 = D (rs x);
  dv_u : forall x, corner x -> ut (D x) = if out k x then 1 else 0 }.

Lemma redirect_spec (t : buf) w i old new : 0 <= w < 3 * MX -> 0 <= i < 3 -> nb t w i = old ->
  (forall j, 0 <= j < 3 -> nb t w j = old -> j = i) ->
  ip_redirect MX t w old new = OK (VB (set_nb (nb t) w i new) (ps t)).
Proof.
  intros Hw Hi E U. unfold ip_redirect. rewrite for_3.
  assert (P : forall j, 0 <= j < 3 -> (nb t w j =? old) = (j =? i)).
  { intros j Hj. destruct (Z.eqb_spec j i) as [->|N]; [now apply Z.eqb_eq|]. apply Z.eqb_neq. auto. }
  rewrite rd_nb_ok by lia. cbn [bind]. rewrite P by lia.
  assert (C : i = 0 \/ i = 1 \/ i = 2) by lia. destruct C as [ -> | [ -> | -> ]]; cbn [Z.eqb bind]; [apply wr_nb_ok; lia| |].
  - rewrite rd_nb_ok by lia. cbn [bind]. rewrite P by lia. cbn [Z.eqb Pos.eqb bind]. apply wr_nb_ok; lia.
  - do 2 (rewrite rd_nb_ok by lia; cbn [bind]; rewrite P by lia; cbn [Z.eqb Pos.eqb bind]). apply wr_nb_ok; lia.
Qed.

(** in the row of a duplicate that stays, a link to an untouched vertex is in one place *)
Lemma slot_only k t ut y z i : dinv k t ut -> corner y -> out k y = false -> corner z -> k <= vat z -> vat z <> vat y ->
  0 <= i < 3 -> nb t (D y) i = D z -> host k (copp z) = y /\ sl k (copp z) = i.
Proof.
  intros I Hy Oy Hz Kz Nv Hi E.
  assert (X : forall x, corner x -> host k x = y -> sl k x = i -> host k (copp z) = y /\ sl k (copp z) = i).
  { intros x Hx E1 E2. pose proof (dv_e _ _ _ I x Hx) as Q. rewrite E1, E2, E in Q.
    assert (Ez : z = host k (copp x)) by (apply dinj; auto; apply host_corner; auto).
    assert (Vz : vat z = vat (copp x)) by (rewrite Ez; apply host_vat; auto).
    destruct (host_hi k (copp x)) as (H1 & _); [lia|]. rewrite H1 in Ez. subst z. rewrite coco by auto. auto. }
  assert (Y : forall x, corner x -> vat x = vat y -> D x = D z -> False).
  { intros x Hx Vx Ex. apply dinj in Ex; auto. congruence. }
  destruct (host_id k y Oy) as (H1 & H2).
  assert (C : i = 0 \/ i = 1 \/ i = 2) by lia. destruct C as [ -> | [ -> | -> ]].
  - destruct (Z.lt_ge_cases (vat y) k) as [L|L].
    + destruct (isf (rsi y)) eqn:A.
      * apply (X (rsi y)); auto; unfold host, sl; rewrite rsiv, A by auto; destruct (Z.ltb_spec (vat y) k); auto; lia.
      * exfalso. rewrite (dv_0 _ _ _ I y) in E by auto. apply (Y (rsi y)); auto.
    + exfalso. rewrite (dv_0 _ _ _ I y) in E by (auto; lia). apply (Y (rsi y)); auto.
  - apply (X y); auto.
  - destruct (Z.lt_ge_cases (vat y) k) as [L|L].
    + destruct (isl (rs y)) eqn:A.
      * assert (B : isf (rs y) = false).
        { apply not_true_is_false. intros B. rewrite (isfl (rs y)) in A; auto. discriminate. }
        apply (X (rs y)); auto; unfold host, sl; rewrite rsv, A, B by auto; destruct (Z.ltb_spec (vat y) k); auto; lia.
      * exfalso. rewrite (dv_2 _ _ _ I y) in E by auto. apply (Y (rs y)); auto.
    + exfalso. rewrite (dv_2 _ _ _ I y) in E by (auto; lia). apply (Y (rs y)); auto.
Qed.

Let Drng x : corner x -> 0 <= D x < st n.
Proof.
  intros Hc. pose proof (cs_rng _ _ _ _ CS x Hc) as R. pose proof (nu_rng _ _ _ _ _ ND x Hc).
  pose proof (st_pos nf nvf fi n (vat x) ltac:(lia)). pose proof (st_u nf nvf fi n (vat x) n ltac:(lia) ltac:(lia)). lia.
Qed.
Let cell (f : Z -> Z -> Z) a i x b j : corner a -> corner b -> (a <> b \/ i <> j) -> set_nb f (D a) i x (D b) j = f (D b) j.
Proof.
  intros Ha Hb N. apply set_nb_neq. intros E. injection E as E1 E2. apply dinj in E1; auto. destruct N; auto.
Qed.

Definition drop_body (v : Z) (s : buf * (Z -> Z)) : res (buf * (Z -> Z)) :=
    let '(t, ut) := s in
    let rn := rd_nb (3 * MX) 3 in
    let* v0 := rdi MX vs v in
    let* v1 := rn t v0 0 in
    let* v00 := rn t v0 2 in
    let* v11 := rn t v1 0 in
    let* x := rn t v0 1 in
    let* t := wr_nb (3 * MX) 3 t v00 0 x in
    let* x := rn t v1 1 in
    let* t := wr_nb (3 * MX) 3 t v11 2 x in
    let* w := rn t v0 1 in
    let* t := ip_redirect MX t w v0 v00 in
    let* w := rn t v1 1 in
    let* t := ip_redirect MX t w v1 v11 in
    let* ut := wr (3 * MX) ut v0 1 in
    let* ut := wr (3 * MX) ut v1 1 in
    OK (t, ut).

Lemma drop_step k t ut : 0 <= k < n -> dinv k t ut ->
  exists t' ut', drop_body k (t, ut) = OK (t', ut') /\ ps t' = ps t /\ dinv (k + 1) t' ut'.
Proof.
  intros Hk I.
  destruct (nu_surj _ _ _ _ _ ND k (st k) Hk) as (f & Hf & Vf & Df).
  { rewrite st_succ by lia. specialize (DG k Hk). lia. }
  assert (If : isf f = true) by (unfold isf; rewrite Vf; apply Z.eqb_eq; auto).
  set (l := rsi f). assert (Hl : corner l) by (apply rsi_c; auto). assert (Vl : vat l = k) by (unfold l; rewrite rsiv; auto).
  assert (Il : isl l = true) by (unfold isl, l; rewrite rr; auto).
  assert (Ilf : isf l = false) by (apply not_true_is_false; intros B; rewrite (isfl l Hl B) in Il; discriminate).
  set (g := rs f). assert (Hg : corner g) by (apply rs_c; auto). assert (Vg : vat g = k) by (unfold g; rewrite rsv; auto).
  set (h := rsi l). assert (Hh : corner h) by (apply rsi_c; auto). assert (Vh : vat h = k) by (unfold h; rewrite rsiv; auto).
  assert (Onk : forall x, vat x = k -> out k x = false) by (intros x Vx; unfold out; destruct (Z.ltb_spec (vat x) k); auto; lia).
  assert (R0 : forall x, corner x -> vat x = k -> nb t (D x) 0 = D (rsi x)) by (intros x Hx Vx; apply (dv_0 _ _ _ I); auto; lia).
  assert (R2 : forall x, corner x -> vat x = k -> nb t (D x) 2 = D (rs x)) by (intros x Hx Vx; apply (dv_2 _ _ _ I); auto; lia).
  assert (R1 : forall x, corner x -> vat x = k -> nb t (D x) 1 = D (host k (copp x))).
  { intros x Hx Vx. pose proof (dv_e _ _ _ I x Hx) as Q. destruct (host_hi k x) as (E1 & E2); [lia|]. rewrite E1, E2 in Q. auto. }
  set (yf := host k (copp f)). set (yl := host k (copp l)).
  assert (Hyf : corner yf) by (apply host_corner; auto). assert (Hyl : corner yl) by (apply host_corner; auto).
  assert (Vyf : vat yf <> k) by (unfold yf; rewrite host_vat by auto; specialize (cone f Hf); congruence).
  assert (Vyl : vat yl <> k) by (unfold yl; rewrite host_vat by auto; specialize (cone l Hl); congruence).
  assert (Nfl : f <> l) by congruence.
  set (sf := sl k (copp f)). set (sll := sl k (copp l)).
  assert (Hsf : 0 <= sf < 3) by apply sl_rng. assert (Hsl : 0 <= sll < 3) by apply sl_rng.
  assert (Ncl : yf <> yl \/ sf <> sll).
  { destruct (Z.eq_dec sf sll) as [E|]; auto. left. intros E2. apply Nfl. rewrite <- (coco f), <- (coco l) by auto. f_equal.
    apply (loc_inj k); auto. }
  pose proof (Drng f Hf). pose proof (Drng l Hl). pose proof (Drng g Hg). pose proof (Drng h Hh). pose proof (Drng yf Hyf). pose proof (Drng yl Hyl).
  set (t1 := VB (set_nb (nb t) (D g) 0 (D yf)) (ps t)).
  set (t2 := VB (set_nb (nb t1) (D h) 2 (D yl)) (ps t)).
  set (t3 := VB (set_nb (nb t2) (D yf) sf (D g)) (ps t)).
  set (t4 := VB (set_nb (nb t3) (D yl) sll (D h)) (ps t)).
  assert (T2 : forall x i, corner x -> vat x <> k -> nb t2 (D x) i = nb t (D x) i).
  { intros x i Hx Vx. cbn [t2 t1 nb]. rewrite !cell; auto; left; congruence. }
  assert (B : drop_body k (t, ut) = OK (t4, upd (upd ut (D f) 1) (D l) 1)).
  { unfold drop_body. rewrite (rdi_ok _ _ _ (D f)) by (rewrite ?Df; auto; lia). cbn [bind].
    rewrite rd_nb_ok by lia. cbn [bind]. rewrite R0 by auto. fold l. rewrite rd_nb_ok by lia. cbn [bind]. rewrite R2 by auto. fold g.
    rewrite rd_nb_ok by lia. cbn [bind]. rewrite R0 by auto. fold h. rewrite rd_nb_ok by lia. cbn [bind]. rewrite R1 by auto. fold yf.
    rewrite wr_nb_ok by lia. cbn [bind]. fold t1. rewrite rd_nb_ok by lia. cbn [bind].
    assert (E1 : nb t1 (D l) 1 = D yl) by (cbn [t1 nb]; rewrite cell by (auto; right; lia); apply R1; auto).
    rewrite E1. rewrite wr_nb_ok by lia. cbn [bind]. change (ps t1) with (ps t). fold t2. rewrite rd_nb_ok by lia. cbn [bind].
    assert (E2 : nb t2 (D f) 1 = D yf) by (cbn [t2 t1 nb]; rewrite !cell by (auto; right; lia); apply R1; auto).
    rewrite E2. rewrite (redirect_spec _ _ sf); auto; try lia.
    3:{ intros j Hj E. rewrite T2 in E by auto. destruct (slot_only k t ut yf f j I) as (_ & Q); auto; try lia; try congruence. apply host_in; auto. }
    2:{ rewrite T2 by auto. pose proof (dv_e _ _ _ I (copp f) ltac:(auto)) as Q. rewrite coco in Q by auto. destruct (host_hi k f) as (E & _); [lia|]. rewrite E in Q. exact Q. }
    cbn [bind]. change (ps t2) with (ps t). fold t3. rewrite rd_nb_ok by lia. cbn [bind].
    assert (E3 : nb t3 (D l) 1 = D yl).
    { cbn [t3 t2 t1 nb]. rewrite (cell _ yf) by (auto; left; congruence). rewrite (cell _ h) by (auto; right; lia). rewrite cell by (auto; right; lia). apply R1; auto. }
    rewrite E3. rewrite (redirect_spec _ _ sll); auto; try lia.
    3:{ intros j Hj E. assert (E' : nb t (D yl) j = D l).
        { revert E. cbn [t3 nb]. unfold set_nb at 1. unfold upd at 1. destruct (Z.eqb_spec (D yl) (D yf)) as [Q|Q]; [|rewrite T2; auto].
          unfold upd at 1. destruct (Z.eqb_spec j sf) as [Q2|Q2].
          - intros E. exfalso. apply dinj in E; auto. apply (RS2 l Hl). unfold l at 1. rewrite rr by auto. auto.
          - rewrite <- Q. rewrite T2; auto. }
        destruct (slot_only k t ut yl l j I) as (_ & Q); auto; try lia; try congruence. apply host_in; auto. }
    2:{ cbn [t3 nb]. rewrite cell by auto. rewrite T2 by auto. pose proof (dv_e _ _ _ I (copp l) ltac:(auto)) as Q. rewrite coco in Q by auto.
        destruct (host_hi k l) as (E & _); [lia|]. rewrite E in Q. exact Q. }
    cbn [bind]. change (ps t3) with (ps t). fold t4. rewrite !wr_ok by lia. cbn [bind]. rewrite wr_ok by lia. reflexivity. }
  exists t4, (upd (upd ut (D f) 1) (D l) 1). split; auto. split; [reflexivity|].
  assert (T4k : forall x i, corner x -> vat x = k -> nb t4 (D x) i = nb t2 (D x) i).
  { intros x i Hx Vx. cbn [t4 t3 nb]. rewrite !cell; auto; left; congruence. }
  assert (Hk1 : forall x, corner x -> vat x <> k -> nb t4 (D x) 0 = nb t (D x) 0 \/ (exists z, corner z /\ vat z = vat x /\ host k z = x /\ sl k z = 0)).
  { intros x Hx Vx. destruct (Z.eq_dec sf 0) as [A|A].
    - destruct (Z.eq_dec (D x) (D yf)) as [B1|B1].
      + apply dinj in B1; auto. right. exists (copp f). subst x. split; auto. split; auto. unfold yf. rewrite host_vat; auto.
      + destruct (Z.eq_dec sll 0) as [A2|A2].
        * destruct (Z.eq_dec (D x) (D yl)) as [B2|B2].
          -- apply dinj in B2; auto. right. exists (copp l). subst x. split; auto. split; auto. unfold yl. rewrite host_vat; auto.
          -- left. cbn [t4 t3 nb]. rewrite !set_nb_neq_v by auto. apply T2; auto.
        * left. cbn [t4 t3 nb]. rewrite cell by auto. rewrite set_nb_neq_v by auto. apply T2; auto.
    - destruct (Z.eq_dec sll 0) as [A2|A2].
      + destruct (Z.eq_dec (D x) (D yl)) as [B2|B2].
          -- apply dinj in B2; auto. right. exists (copp l). subst x. split; auto. split; auto. unfold yl. rewrite host_vat; auto.
          -- left. cbn [t4 t3 nb]. rewrite (set_nb_neq_v _ (D yl)) by auto. rewrite cell by auto. apply T2; auto.
      + left. cbn [t4 t3 nb]. rewrite !cell by auto. apply T2; auto. }
  assert (Hk2 : forall x, corner x -> vat x <> k -> nb t4 (D x) 2 = nb t (D x) 2 \/ (exists z, corner z /\ vat z = vat x /\ host k z = x /\ sl k z = 2)).
  { intros x Hx Vx. destruct (Z.eq_dec sf 2) as [A|A].
    - destruct (Z.eq_dec (D x) (D yf)) as [B1|B1].
      + apply dinj in B1; auto. right. exists (copp f). subst x. split; auto. split; auto. unfold yf. rewrite host_vat; auto.
      + destruct (Z.eq_dec sll 2) as [A2|A2].
        * destruct (Z.eq_dec (D x) (D yl)) as [B2|B2].
          -- apply dinj in B2; auto. right. exists (copp l). subst x. split; auto. split; auto. unfold yl. rewrite host_vat; auto.
          -- left. cbn [t4 t3 nb]. rewrite !set_nb_neq_v by auto. apply T2; auto.
        * left. cbn [t4 t3 nb]. rewrite cell by auto. rewrite set_nb_neq_v by auto. apply T2; auto.
    - destruct (Z.eq_dec sll 2) as [A2|A2].
      + destruct (Z.eq_dec (D x) (D yl)) as [B2|B2].
          -- apply dinj in B2; auto. right. exists (copp l). subst x. split; auto. split; auto. unfold yl. rewrite host_vat; auto.
          -- left. cbn [t4 t3 nb]. rewrite (set_nb_neq_v _ (D yl)) by auto. rewrite cell by auto. apply T2; auto.
      + left. cbn [t4 t3 nb]. rewrite !cell by auto. apply T2; auto. }
  constructor.
  - intros x Hx. destruct (Z.eq_dec (vat x) k) as [Vx|Vx].
    + destruct (host_at k x Vx) as (E1 & E2 & _). rewrite E1, E2.
      destruct (host_step k (copp x)) as (E3 & _); [specialize (cone x Hx); congruence|]. rewrite E3.
      destruct (isf x) eqn:A.
      * assert (x = f) by (apply isf_uniq; auto; congruence). subst x. fold g yf. rewrite T4k by auto. cbn [t2 t1 nb].
        rewrite cell by (auto; right; lia). apply set_nb_eq.
      * destruct (isl x) eqn:A2.
        -- assert (x = l) by (apply isl_uniq; auto; congruence). subst x. fold h yl. rewrite T4k by auto. cbn [t2 nb]. apply set_nb_eq.
        -- rewrite T4k by auto. cbn [t2 t1 nb]. rewrite !cell by (auto; right; lia). apply R1; auto.
    + destruct (host_step k x Vx) as (E1 & E2 & _). rewrite E1, E2.
      assert (Dec : forall a b : Z * Z, {a = b} + {a <> b}) by (decide equality; apply Z.eq_dec).
      destruct (Dec x (copp f)) as [->|N1].
      * rewrite coco by auto. destruct (host_at k f Vf) as (E3 & _). rewrite E3, If. fold g yf sf. cbn [t4 nb]. rewrite cell by (auto; destruct Ncl; auto).
        cbn [t3 nb]. apply set_nb_eq.
      * destruct (Dec x (copp l)) as [->|N2].
        -- rewrite coco by auto. destruct (host_at k l Vl) as (E3 & _). rewrite E3, Il, Ilf. fold h yl sll. cbn [t4 nb]. apply set_nb_eq.
        -- assert (Hhx : corner (host k x)) by (apply host_corner; auto).
           assert (C1 : yl <> host k x \/ sll <> sl k x).
           { destruct (Z.eq_dec sll (sl k x)) as [E|]; auto. left. intros E5. apply N2. apply (loc_inj k); auto. }
           assert (C2 : yf <> host k x \/ sf <> sl k x).
           { destruct (Z.eq_dec sf (sl k x)) as [E|]; auto. left. intros E5. apply N1. apply (loc_inj k); auto. }
           cbn [t4 t3 nb]. rewrite !cell by auto. rewrite T2 by (auto; rewrite host_vat; auto). rewrite (dv_e _ _ _ I x Hx). f_equal.
           destruct (Z.eq_dec (vat (copp x)) k) as [Vc|Vc].
           ++ destruct (host_at k _ Vc) as (E5 & _). rewrite E5. destruct (host_hi k (copp x)) as (E6 & _); [lia|]. rewrite E6.
              destruct (isf (copp x)) eqn:A.
              { exfalso. apply N1. rewrite <- (coco x) by auto. f_equal. apply isf_uniq; auto. congruence. }
              destruct (isl (copp x)) eqn:A2; auto.
              exfalso. apply N2. rewrite <- (coco x) by auto. f_equal. apply isl_uniq; auto. congruence.
           ++ destruct (host_step k _ Vc) as (E5 & _). auto.
  - intros x Hx Ox Cx. destruct (Z.eq_dec (vat x) k) as [Vx|Vx].
    + rewrite T4k by auto. cbn [t2 t1 nb]. rewrite (cell _ h) by (auto; right; lia). rewrite cell; auto.
      left. intros E. subst x. specialize (Cx ltac:(lia)). unfold g in Cx. rewrite ri in Cx by auto. congruence.
    + destruct (host_step k x Vx) as (_ & _ & E). rewrite E in Ox.
      destruct (Hk1 x Hx Vx) as [E1|(z & Hz & Vz & E1 & E2)].
      * rewrite E1. apply (dv_0 _ _ _ I); auto. intros L. apply Cx. lia.
      * exfalso. unfold sl, host in E1, E2. destruct (Z.ltb_spec (vat z) k) as [L|L]; [|lia]. destruct (isf z) eqn:A; [|destruct (isl z); lia].
        subst x. specialize (Cx ltac:(lia)). rewrite ri in Cx by auto. congruence.
  - intros x Hx Ox Cx. destruct (Z.eq_dec (vat x) k) as [Vx|Vx].
    + rewrite T4k by auto. cbn [t2 t1 nb]. rewrite (cell _ h). 
      * rewrite cell; auto. right. lia.
      * auto.
      * auto.
      * left. intros E. subst x. specialize (Cx ltac:(lia)). unfold h in Cx. rewrite rr in Cx by auto. congruence.
    + destruct (host_step k x Vx) as (_ & _ & E). rewrite E in Ox.
      destruct (Hk2 x Hx Vx) as [E1|(z & Hz & Vz & E1 & E2)].
      * rewrite E1. apply (dv_2 _ _ _ I); auto. intros L. apply Cx. lia.
      * exfalso. unfold sl, host in E1, E2. destruct (Z.ltb_spec (vat z) k) as [L|L]; [|lia]. destruct (isf z) eqn:A; [lia|]. destruct (isl z) eqn:A2; [|lia].
        subst x. specialize (Cx ltac:(lia)). rewrite rr in Cx by auto. congruence.
  - intros x Hx. destruct (Z.eq_dec (vat x) k) as [Vx|Vx].
    + destruct (host_at k x Vx) as (_ & _ & E). rewrite E. unfold upd. destruct (Z.eqb_spec (D x) (D l)) as [Q|Q].
      * apply dinj in Q; auto. subst x. rewrite Il, orb_true_r. auto.
      * destruct (Z.eqb_spec (D x) (D f)) as [Q2|Q2].
        -- apply dinj in Q2; auto. subst x. rewrite If. auto.
        -- rewrite (dv_u _ _ _ I x Hx), Onk by auto. destruct (isf x) eqn:A; [exfalso; apply Q2; f_equal; apply isf_uniq; auto; congruence|].
           destruct (isl x) eqn:A2; auto. exfalso. apply Q. f_equal. apply isl_uniq; auto. congruence.
    + destruct (host_step k x Vx) as (_ & _ & E). rewrite E. unfold upd. destruct (Z.eqb_spec (D x) (D l)) as [Q|Q].
      * apply dinj in Q; auto. congruence.
      * destruct (Z.eqb_spec (D x) (D f)) as [Q2|Q2]; [apply dinj in Q2; auto; congruence|]. apply (dv_u _ _ _ I); auto.
Qed.

Lemma drop_spec (t : buf) :
  (forall c, corner c -> nb t (D c) 0 = D (rsi c) /\ nb t (D c) 1 = D (copp c) /\ nb t (D c) 2 = D (rs c)) ->
  exists t' ut, ip_drop MX n vs t = OK (t', ut) /\ ps t' = ps t /\ dinv n t' ut.
Proof.
  intros H. unfold ip_drop. change (fun v s => _) with drop_body at 1.
  destruct (for_inv (fun k (s : buf * (Z -> Z)) => ps (fst s) = ps t /\ dinv k (fst s) (snd s)) 0 n drop_body (t, fun _ => 0)) as ((t' & ut) & E & P & I).
  - lia.
  - split; auto. cbn [fst snd].
    assert (O : forall x, corner x -> out 0 x = false).
    { intros x Hx. unfold out. pose proof (cs_rng _ _ _ _ CS x Hx). destruct (Z.ltb_spec (vat x) 0); auto; lia. }
    constructor; intros x Hx.
    + destruct (host_id 0 x (O x Hx)) as (-> & ->). destruct (host_id 0 (copp x)) as (-> & _); auto. apply H; auto.
    + intros _ _. apply H; auto.
    + intros _ _. apply H; auto.
    + rewrite O; auto.
  - intros k (t1 & u1) Hk (P & I). cbn [fst snd] in *. destruct (drop_step k t1 u1 Hk I) as (t2 & u2 & E & P2 & I2).
    exists (t2, u2). split; auto. cbn. split; auto. congruence.
  - exists t', ut. auto.
Qed.
End Desc.
