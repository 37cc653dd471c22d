(** * InitP5: [r3d_init_poly], the general case: packing, and the call as a whole. *)
From Coq Require Import ZArith List Bool Lia Permutation.
From Verif Require Import Base Lib ModelCommon CommonFacts Model3 ModelB Spec3 SpecB InitP InitP2 InitP3 InitP4.
Import ListNotations.
Open Scope Z_scope.

Section Pack.
Context {V : Type} (MX : Z).
Notation buf := (vbuf V).
Lemma pack_spec (b t : buf) (ut : Z -> Z) N : 0 <= N <= MX ->
  let K := fun j => ut j =? 0 in
  (forall j i, 0 <= j < N -> K j = true -> 0 <= i < 3 -> 0 <= nb t j i < N /\ K (nb t j i) = true) ->
  exists b', ip_pack MX b t ut N = OK (b', cnt K N)
   /\ forall j, 0 <= j < N -> K j = true -> ps b' (cnt K j) = ps t j /\ forall i, 0 <= i < 3 -> nb b' (cnt K j) i = cnt K (nb t j i).
Proof.
  intros HN K HC. unfold ip_pack. match goal with |- context [for_ 0 N ?bd _] => set (body := bd) end.
  destruct (for_inv (fun k (s : buf * (Z -> Z) * Z) => let '(b, u, num) := s in num = cnt K k
     /\ (forall j, 0 <= j < k -> K j = true -> u j = cnt K j /\ ps b (cnt K j) = ps t j /\ forall i, 0 <= i < 3 -> nb b (cnt K j) i = nb t j i)
     /\ (forall j, k <= j -> u j = ut j)) 0 N body (b, ut, 0)) as (((b1, u1), num) & E & I1 & I2 & I3).
  - lia.
  - split; auto. split; [lia|auto].
  - intros k ((b1, u1), num) Hk (I1 & I2 & I3). unfold body. rewrite rd_ok by lia. cbn [bind]. rewrite I3 by lia.
    pose proof (cnt_succ K k ltac:(lia)) as C. pose proof (cnt_nonneg K k). pose proof (cnt_le K k ltac:(lia)).
    unfold K in C at 3. destruct (Z.eqb_spec (ut k) 0) as [U|U].
    + assert (Kk : K k = true) by (unfold K; rewrite U; auto).
      rewrite rd_ps_ok by lia. cbn [bind]. rewrite wr_ps_ok by lia. cbn [bind]. rewrite for_3.
      do 3 (rewrite rd_nb_ok by lia; cbn [bind]; rewrite wr_nb_ok by lia; cbn [bind nb ps]). rewrite wr_ok by lia. cbn [bind].
      eexists. split; [reflexivity|]. subst num. split; [lia|]. split.
      * intros j Hj Kj. destruct (Z.eq_dec j k) as [->|N1].
        -- rewrite !upd_eq. split; auto. cbn [nb ps]. rewrite upd_eq. split; auto. intros i Hi.
           assert (Ci : i = 0 \/ i = 1 \/ i = 2) by lia. destruct Ci as [ -> | [ -> | -> ]].
           ++ rewrite set_nb_neq_p, set_nb_neq_p, set_nb_eq by lia. auto.
           ++ rewrite set_nb_neq_p, set_nb_eq by lia. auto.
           ++ apply set_nb_eq.
        -- rewrite upd_neq by auto. destruct (I2 j ltac:(lia) Kj) as (A1 & A2 & A3). split; auto. cbn [nb ps].
           pose proof (cnt_lt K j k ltac:(lia) Kj). rewrite upd_neq by lia. split; auto. intros i Hi. rewrite !set_nb_neq_v by lia. auto.
      * intros j Hj. rewrite upd_neq by lia. apply I3. lia.
    + eexists. split; [reflexivity|]. subst num. split; [lia|]. split.
      * intros j Hj Kj. destruct (Z.eq_dec j k) as [->|N1].
        -- exfalso. unfold K in Kj. apply Z.eqb_eq in Kj. auto.
        -- apply I2; auto. lia.
      * intros j Hj. apply I3. lia.
  - rewrite E. cbn [bind]. subst num. pose proof (cnt_nonneg K N). pose proof (cnt_le K N ltac:(lia)).
    match goal with |- context [for_ 0 (cnt K N) ?bd _] => set (body2 := bd) end.
    destruct (for_inv (fun k (b2 : buf) => ps b2 = ps b1 /\
       (forall j, 0 <= j < N -> K j = true -> forall i, 0 <= i < 3 -> nb b2 (cnt K j) i = if cnt K j <? k then cnt K (nb t j i) else nb t j i))
       0 (cnt K N) body2 b1) as (b2 & E2 & J1 & J2).
    + lia.
    + split; auto. intros j Hj Kj i Hi. pose proof (cnt_nonneg K j). destruct (Z.ltb_spec (cnt K j) 0); [lia|]. apply I2; auto.
    + intros k b2 Hk (J1 & J2). destruct (cnt_surj K N k ltac:(lia) ltac:(lia)) as (j & Hj & Kj & Ej).
      assert (Q : forall i, 0 <= i < 3 -> u1 (nb t j i) = cnt K (nb t j i) /\ 0 <= nb t j i < N).
      { intros i Hi. destruct (HC j i Hj Kj Hi) as (A & B). split; auto. apply I2; auto. }
      assert (R : forall i, 0 <= i < 3 -> nb b2 k i = nb t j i).
      { intros i Hi. rewrite <- Ej, J2 by auto. destruct (Z.ltb_spec (cnt K j) k); auto; lia. }
      pose proof (Q 0 ltac:(lia)) as (Q0 & P0). pose proof (Q 1 ltac:(lia)) as (Q1 & P1). pose proof (Q 2 ltac:(lia)) as (Q2 & P2).
      unfold body2. rewrite for_3.
      rewrite rd_nb_ok by lia. cbn [bind]. rewrite (R 0) by lia. rewrite rd_ok by lia. cbn [bind]. rewrite wr_nb_ok by lia. cbn [bind nb ps].
      rewrite rd_nb_ok by lia. cbn [bind nb ps]. rewrite set_nb_neq_p by lia. rewrite (R 1) by lia. rewrite rd_ok by lia. cbn [bind]. rewrite wr_nb_ok by lia. cbn [bind nb ps].
      rewrite rd_nb_ok by lia. cbn [bind nb ps]. rewrite !set_nb_neq_p by lia. rewrite (R 2) by lia. rewrite rd_ok by lia. cbn [bind]. rewrite wr_nb_ok by lia. cbn [bind nb ps].
      eexists. split; [reflexivity|]. cbn [nb ps]. split; auto. rewrite Q0, Q1, Q2. intros j' Hj' Kj' i Hi.
      destruct (Z.eq_dec (cnt K j') k) as [Ek|Nk].
      * assert (j' = j) by (apply (cnt_inj K); auto; lia). subst j'. rewrite Ek. destruct (Z.ltb_spec k (k + 1)); [|lia].
        assert (Ci : i = 0 \/ i = 1 \/ i = 2) by lia. destruct Ci as [ -> | [ -> | -> ]].
        -- rewrite set_nb_neq_p, set_nb_neq_p, set_nb_eq by lia. auto.
        -- rewrite set_nb_neq_p, set_nb_eq by lia. auto.
        -- apply set_nb_eq.
      * rewrite !set_nb_neq_v by auto. rewrite J2 by auto. destruct (Z.ltb_spec (cnt K j') k), (Z.ltb_spec (cnt K j') (k + 1)); auto; lia.
    + rewrite E2. cbn [bind]. exists b2. split; auto. intros j Hj Kj. split; [rewrite J1; apply I2; auto|].
      intros i Hi. rewrite J2 by auto. pose proof (cnt_lt K j N ltac:(lia) Kj). destruct (Z.ltb_spec (cnt K j) (cnt K N)); auto; lia.
Qed.
End Pack.

Lemma cnt_two K a b p q : 0 <= a -> a <= p < b -> a <= q < b -> p <> q -> (forall j, a <= j < b -> K j = false <-> (j = p \/ j = q)) ->
  cnt K b = cnt K a + (b - a) - 2.
Proof.
  intros Ha Hp Hq N H.
  assert (G : forall m, 0 <= m -> a + m <= b -> cnt K (a + m) = cnt K a + m - (if p <? a + m then 1 else 0) - (if q <? a + m then 1 else 0)).
  { intros m Hm. pattern m. apply zrange_ind; [| |lia].
    - intros _. rewrite Z.add_0_r. destruct (Z.ltb_spec p a), (Z.ltb_spec q a); lia.
    - intros k Hk IH Hb. rewrite Z.add_assoc, cnt_succ by lia. rewrite IH by lia. specialize (H (a + k) ltac:(lia)).
      destruct (Z.ltb_spec p (a + k)), (Z.ltb_spec q (a + k)), (Z.ltb_spec p (a + k + 1)), (Z.ltb_spec q (a + k + 1)), (K (a + k)); try lia; exfalso.
      all: try (destruct H as (H & _); specialize (H eq_refl); lia).
      all: destruct H as (_ & H); discriminate H; lia. }
  specialize (G (b - a) ltac:(lia) ltac:(lia)). replace (a + (b - a)) with b in G by lia.
  destruct (Z.ltb_spec p b), (Z.ltb_spec q b); lia.
Qed.

Section Desc.
Context (nf : Z) (nvf : Z -> Z) (fi : Z -> Z -> Z).
Notation corner := (corner nf nvf).
Notation vat := (vat fi).
Notation csucc := (csucc nvf).
Notation cpred := (cpred nvf).
Notation vdeg := (vdeg nf nvf fi).
Context (n : Z) (CS : closed_surface nf nvf fi n).
Notation copp := (copp nf nvf fi).
Notation rs := (rs nf nvf fi).
Notation rsi := (rsi nf nvf fi).
Notation st := (st vdeg).
Context {V : Type} (MX : Z) (HN : 0 <= n <= MX) (HF : 0 <= nf).
Notation buf := (vbuf V).
Context (RS1 : forall c, corner c -> rs c <> c) (RS2 : forall c, corner c -> rs (rs c) <> c).
Context (DG : forall v, 0 <= v < n -> 3 <= vdeg v).
(** copies of a vertex in the result *)
Definition cst := InitP2.st (fun v => vdeg v - 2).
Lemma cst_st v : 0 <= v -> cst v = st v - 2 * v.
Proof.
  intros H. unfold cst. pattern v. apply zrange_ind; auto. intros k Hk IH. rewrite !st_succ by lia. lia.
Qed.
(** what the loops leave: [first] picks a corner of each vertex, [G] numbers the corners
    that stay *)
Record split_out (first : Z * Z -> bool) (f : Z -> Z -> Z) (G : Z * Z -> Z) : Prop := {
  so_first : forall v, 0 <= v < n -> exists x, corner x /\ vat x = v /\ first x = true;
  so_uniq : forall x y, corner x -> corner y -> vat x = vat y -> first x = true -> first y = true -> x = y;
  so_block : forall x, corner x -> first x = false -> first (rs x) = false -> cst (vat x) <= G x < cst (vat x + 1);
  so_inj : forall x y, corner x -> first x = false -> first (rs x) = false -> corner y -> first y = false -> first (rs y) = false -> G x = G y -> x = y;
  so_surj : forall w, 0 <= w < cst n -> exists x, corner x /\ first x = false /\ first (rs x) = false /\ G x = w;
  so_ext : let host x := if first x then rs x else if first (rs x) then rsi x else x in
           forall x, corner x -> f (G (host x)) (if first x then 0 else if first (rs x) then 2 else 1) = G (host (copp x));
  so_0 : forall x, corner x -> first x = false -> first (rs x) = false -> first (rsi x) = false -> f (G x) 0 = G (rsi x);
  so_2 : forall x, corner x -> first x = false -> first (rs x) = false -> first (rs (rs x)) = false -> f (G x) 2 = G (rs x) }.

Lemma init_complex (p : poly V) (t : buf) (vertices : Z -> V) : 3 <= MX -> st n <= MX -> ~ (0 < n /\ forall v, 0 <= v < n -> vdeg v = 3) ->
  exists b first G, r3d_init_poly MX nf nvf fi p t vertices n = OK (PY b (cst n), 1)
   /\ split_out first (nb b) G
   /\ forall x, corner x -> first x = false -> first (rs x) = false -> ps b (G x) = vertices (vat x).
Proof.
  intros HM HS N3.
  destruct (ip_complex nf nvf fi MX p t vertices n) as (e & Ev & ->); auto; try lia.
  { intros f Hf. pose proof (cs_size _ _ _ _ CS f Hf). lia. }
  { intros c Hc. pose proof (cs_rng _ _ _ _ CS c Hc). lia. }
  assert (Se : forall v, InitP2.st e v = st v) by (intros; apply st_ext; auto).
  destruct (dup_spec e n) with (MX := MX) (t := t) (vertices := vertices) as [(_ & t1 & vs & E1 & P1 & VS)|(j & Hj & L & _)].
  { intros v Hv. rewrite Ev. apply vdeg_nonneg. } { auto. }
  2:{ exfalso. rewrite !Se in L. pose proof (st_u nf nvf fi n j n ltac:(lia) ltac:(lia)). lia. }
  rewrite E1. cbn [bind]. rewrite Se.
  assert (VS' : forall v, 0 <= v < n -> vs v = Some (st v)) by (intros; rewrite <- Se; auto).
  destruct (fill_spec nf nvf fi n CS MX HN HF vs VS' HS t1) as (t2 & D & E2 & ND & P2 & F2). rewrite E2. cbn [bind].
  destruct (ring_spec nf nvf fi n CS MX HN vs VS' HS D ND e Ev t2 F2) as (t3 & E3 & P3 & F3). rewrite E3. cbn [bind].
  destruct (pairs_spec nf nvf fi n CS MX HN vs VS' HS D ND e Ev t3 F3) as (t4 & E4 & P4 & F4). rewrite E4. cbn [bind].
  destruct (drop_spec nf nvf fi n CS MX HN vs VS' HS D ND RS1 RS2 DG t4 F4) as (t5 & ut & E5 & P5 & I). rewrite E5. cbn [bind].
  pose proof (st_pos nf nvf fi n n ltac:(lia)) as Sn.
  set (K := fun j => ut j =? 0).
  set (first := isf nf nvf fi D).
  assert (Dof := D_of nf nvf fi n MX HN D ND). assert (Drng := D_rng nf nvf fi n CS D ND).
  assert (Out : forall x, corner x -> out nf nvf fi D n x = first x || first (rs x)).
  { intros x Hx. unfold out, isl. pose proof (cs_rng _ _ _ _ CS x Hx). destruct (Z.ltb_spec (vat x) n); [auto|lia]. }
  assert (KD : forall x, corner x -> K (D x) = negb (first x || first (rs x))).
  { intros x Hx. unfold K. rewrite (dv_u _ _ _ _ _ _ _ I x Hx), Out by auto. destruct (_ || _); auto. }
  assert (Rc := rs_corner nf nvf fi n CS). assert (Ric := rsi_corner nf nvf fi n CS). assert (Cc := copp_corner nf nvf fi n CS).
  assert (HKD : forall x, corner x -> K (D x) = true -> host nf nvf fi D n x = x).
  { intros x Hx Kx. apply host_id. rewrite Out by auto. rewrite KD in Kx by auto. destruct (_ || _); auto; discriminate. }
  assert (Kh : forall x, corner x -> K (D (host nf nvf fi D n x)) = true).
  { intros x Hx. pose proof (host_corner nf nvf fi n CS D n x Hx) as Hh. rewrite KD by auto. rewrite <- Out by auto.
    rewrite (host_in nf nvf fi n CS D ND RS1 RS2); auto. }
  assert (Hst : forall x, corner x -> host nf nvf fi D n x = (if first x then rs x else if first (rs x) then rsi x else x)
     /\ sl nf nvf fi D n x = (if first x then 0 else if first (rs x) then 2 else 1)).
  { intros x Hx. unfold host, sl, isl. pose proof (cs_rng _ _ _ _ CS x Hx). destruct (Z.ltb_spec (vat x) n); [auto|lia]. }
  assert (Fu : forall x y, corner x -> corner y -> vat x = vat y -> first x = true -> first y = true -> x = y)
    by (apply (isf_uniq nf nvf fi n D ND)).
  assert (LV : forall x, corner x -> K (D x) = true <-> (first x = false /\ first (rs x) = false)).
  { intros x Hx. rewrite KD by auto. destruct (first x), (first (rs x)); cbn; split; intros; try discriminate; auto; destruct H; discriminate. }
  assert (Ex : forall x, corner x -> exists z, corner z /\ host nf nvf fi D n z = x /\ True \/ True) by (intros; exists x; auto).
  clear Ex.
  assert (L0 : forall x, corner x -> K (D x) = true -> exists z, corner z /\ K (D z) = true /\ nb t5 (D x) 0 = D z).
  { intros x Hx Kx. pose proof (proj1 (LV x Hx) Kx) as (F1 & F0). destruct (first (rsi x)) eqn:A.
    - pose proof (dv_e _ _ _ _ _ _ _ I (rsi x) ltac:(auto)) as Q. destruct (Hst (rsi x)) as (H1 & H2); auto. rewrite H1, H2, A in Q.
      rewrite (rs_rsi nf nvf fi n CS) in Q by auto. exists (host nf nvf fi D n (copp (rsi x))). split; [apply host_corner with (n := n); auto|]. split; auto.
    - exists (rsi x). split; auto. split.
      + apply LV; auto. split; auto. rewrite (rs_rsi nf nvf fi n CS); auto.
      + apply (dv_0 _ _ _ _ _ _ _ I); auto. rewrite Out, F1, F0; auto. }
  assert (L2 : forall x, corner x -> K (D x) = true -> exists z, corner z /\ K (D z) = true /\ nb t5 (D x) 2 = D z).
  { intros x Hx Kx. pose proof (proj1 (LV x Hx) Kx) as (F1 & F0). destruct (first (rs (rs x))) eqn:A.
    - pose proof (dv_e _ _ _ _ _ _ _ I (rs x) ltac:(auto)) as Q. destruct (Hst (rs x)) as (H1 & H2); auto. rewrite H1, H2, F0, A in Q.
      rewrite (rsi_rs nf nvf fi n CS) in Q by auto. exists (host nf nvf fi D n (copp (rs x))). split; [apply host_corner with (n := n); auto|]. split; auto.
    - exists (rs x). split; auto. split.
      + apply LV; auto.
      + apply (dv_2 _ _ _ _ _ _ _ I); auto. rewrite Out, F1, F0; auto. }
  assert (L1 : forall x, corner x -> K (D x) = true -> exists z, corner z /\ K (D z) = true /\ nb t5 (D x) 1 = D z).
  { intros x Hx Kx. pose proof (proj1 (LV x Hx) Kx) as (F1 & F0).
    pose proof (dv_e _ _ _ _ _ _ _ I x Hx) as Q. destruct (Hst x Hx) as (H1 & H2). rewrite H1, H2, F1, F0 in Q.
    exists (host nf nvf fi D n (copp x)). split; [apply host_corner with (n := n); auto|]. split; auto. }
  destruct (pack_spec MX (vb p) t5 ut (st n)) as (b & E6 & B).
  - lia.
  - fold K. intros j i Hj Kj Hi. destruct (Dof j Hj) as (x & Hx & <-).
    assert (Ci : i = 0 \/ i = 1 \/ i = 2) by lia.
    assert (Q : exists z, corner z /\ K (D z) = true /\ nb t5 (D x) i = D z) by (destruct Ci as [ -> | [ -> | -> ]]; auto).
    destruct Q as (z & Hz & Kz & ->). split; auto.
  - fold K in E6, B. rewrite E6. cbn [bind].
    assert (CT : forall v, 0 <= v <= n -> cnt K (st v) = cst v).
    { intros v Hv. rewrite cst_st by lia. destruct Hv as (Hv & Hvn). revert Hvn. pattern v. apply zrange_ind; auto.
      intros k Hk IH Hkn. destruct (nu_surj _ _ _ _ _ ND k (st k) ltac:(lia)) as (x & Hx & Vx & Dx).
      { rewrite st_succ by lia. specialize (DG k ltac:(lia)). lia. }
      assert (Fx : first x = true) by (unfold first, isf; rewrite Vx; apply Z.eqb_eq; auto).
      assert (Vl : vat (rsi x) = k) by (rewrite (rsi_vat nf nvf fi n CS); auto).
      rewrite (cnt_two K (st k) (st (k + 1)) (D x) (D (rsi x))).
      + rewrite IH by lia. rewrite st_succ by lia. lia.
      + apply (st_pos nf nvf fi n). lia.
      + pose proof (nu_rng _ _ _ _ _ ND x Hx) as R. rewrite Vx in R. auto.
      + pose proof (nu_rng _ _ _ _ _ ND (rsi x) ltac:(auto)) as R. rewrite Vl in R. auto.
      + intros E. apply (nu_inj _ _ _ _ _ ND) in E; auto. apply (RS1 (rsi x)); auto. rewrite (rs_rsi nf nvf fi n CS); auto.
      + intros j Hj. destruct (nu_surj _ _ _ _ _ ND k j ltac:(lia) Hj) as (y & Hy & Vy & <-). rewrite KD by auto. split.
        * intros Q. destruct (first y) eqn:A.
          -- left. f_equal. apply Fu; auto. congruence.
          -- right. cbn in Q. apply negb_false_iff in Q. f_equal. rewrite <- (rsi_rs nf nvf fi n CS y) by auto. f_equal. apply Fu; auto.
             rewrite (rs_vat nf nvf fi n CS); auto. congruence.
        * intros [Q|Q]; apply (nu_inj _ _ _ _ _ ND) in Q; auto; subst y.
          -- rewrite Fx. auto.
          -- rewrite (rs_rsi nf nvf fi n CS), Fx, orb_true_r; auto. }
    rewrite CT by lia. exists b, first, (fun x => cnt K (D x)). split; auto. split; [constructor|].
    + intros v Hv. destruct (nu_surj _ _ _ _ _ ND v (st v) Hv) as (x & Hx & Vx & Dx).
      { rewrite st_succ by lia. specialize (DG v ltac:(lia)). lia. }
      exists x. split; auto. split; auto. unfold first, isf. rewrite Vx. apply Z.eqb_eq. auto.
    + exact Fu.
    + intros x Hx F1 F0. pose proof (cs_rng _ _ _ _ CS x Hx). rewrite <- !CT by lia. pose proof (nu_rng _ _ _ _ _ ND x Hx).
      pose proof (st_pos nf nvf fi n (vat x) ltac:(lia)). assert (K (D x) = true) by (apply LV; auto).
      pose proof (cnt_mono K (st (vat x)) (D x) ltac:(lia)). pose proof (cnt_lt K (D x) (st (vat x + 1)) ltac:(lia)). tauto || lia.
    + intros x y Hx F1 F0 Hy F1' F0' E. apply (nu_inj _ _ _ _ _ ND); auto. apply (cnt_inj K); try apply Drng; auto; apply LV; auto.
    + intros w Hw. rewrite <- CT in Hw by lia. destruct (cnt_surj K (st n) w ltac:(lia) Hw) as (j & Hj & Kj & <-).
      destruct (Dof j Hj) as (x & Hx & <-). exists x. apply LV in Kj; auto. tauto.
    + intros hst x Hx. pose proof (dv_e _ _ _ _ _ _ _ I x Hx) as Q. destruct (Hst x Hx) as (H1 & H2). destruct (Hst (copp x)) as (H3 & _); auto.
      pose proof (Kh x Hx) as K1. rewrite H3 in Q. rewrite H1, H2 in *. fold (hst x) in *. fold (hst (copp x)) in *.
      assert (Hh : corner (hst x)). { rewrite <- H1. apply host_corner with (n := n); auto. }
      destruct (B (D (hst x)) (Drng _ Hh) K1) as (_ & B1). rewrite B1, Q; auto. destruct (first x), (first (rs x)); lia.
    + intros x Hx F1 F0 A. assert (Kx : K (D x) = true) by (apply LV; auto). destruct (B (D x) (Drng _ Hx) Kx) as (_ & B1). rewrite B1 by lia.
      rewrite (dv_0 _ _ _ _ _ _ _ I); auto. rewrite Out, F1, F0; auto.
    + intros x Hx F1 F0 A. assert (Kx : K (D x) = true) by (apply LV; auto). destruct (B (D x) (Drng _ Hx) Kx) as (_ & B1). rewrite B1 by lia.
      rewrite (dv_2 _ _ _ _ _ _ _ I); auto. rewrite Out, F1, F0; auto.
    + intros x Hx F1 F0. assert (Kx : K (D x) = true) by (apply LV; auto). destruct (B (D x) (Drng _ Hx) Kx) as (B1 & _). rewrite B1.
      rewrite P5, P4, P3, P2. apply P1; [apply (cs_rng _ _ _ _ CS); auto|]. rewrite !Se. apply (nu_rng _ _ _ _ _ ND); auto.
Qed.
End Desc.
