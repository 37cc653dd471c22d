(** * Good3: what [r3d_is_good] computes. *)
From Coq Require Import ZArith List Bool Lia.
From Verif Require Import Base Lib ModelCommon CommonFacts ModelGood SpecGood Flood Conn.
Import ListNotations.
Open Scope Z_scope.

Section Comp.
Context {V : Type} (MX D : Z) (b : vbuf V) (n : Z).
Hypothesis HD : 1 <= D.
Hypothesis Hn : 0 <= n <= MX.
Notation f := (nb b).
Hypothesis R : forall v i, 0 <= v < n -> 0 <= i < D -> 0 <= f v i < n.
Hypothesis I : forall v, 0 <= v < n -> indeg f D n v = D.
Notation small := (MX < 1 + (D - 1) * n).

Lemma components_spec :
  (exists reg, components MX D b n = OK reg
     /\ forall x y, 0 <= x < n -> 0 <= y < n -> (reg x = reg y <-> conn f D x y))
  \/ (components MX D b n = Err OutOfBounds /\ small).
Proof.
  unfold components.
  match goal with |- context [for_ 0 n ?bd _] => set (body := bd) end.
  destruct (for_inv3 (fun v (s : (Z -> Z) * Z) => 1 <= snd s
      /\ (forall x, fst s x <> 0 -> 0 <= x < n /\ 0 < fst s x < snd s)
      /\ (forall x, 0 <= x < v -> fst s x <> 0)
      /\ (forall x y, fst s x <> 0 -> 0 <= y < n -> (fst s x = fst s y <-> conn f D x y)))
    (fun e => e = OutOfBounds /\ small) 0 n body ((fun _ => 0), 1)) as [((reg, r) & E & J1 & J2 & J3 & J4)|(e & E & -> & Q)].
  - lia.
  - cbn [fst snd]. split; [lia|]. split; [intros x C; lia|]. split; [intros; lia|]. intros x y C; lia.
  - intros v (reg, r) Hv (J1 & J2 & J3 & J4). cbn [fst snd] in *. unfold body. cbn [fst snd].
    rewrite rd_ok by lia. cbn [bind]. destruct (Z.eqb_spec (reg v) 0) as [E0|E0].
    2: { left. eexists. split; [reflexivity|]. cbn [fst snd]. split; auto. split; auto. split; auto.
         intros x Hx. destruct (Z.eq_dec x v) as [->|]; auto. apply J3. lia. }
    destruct (flood_spec MX D b n HD Hn R r ltac:(lia) reg v Hv) as [(mk & E & H)|(E & Q)]; rewrite E; cbn [bind].
    2: { right. eexists. split; [reflexivity|]. auto. }
    left. eexists. split; [reflexivity|]. cbn [fst snd].
    assert (Wc : forall x, conn f D v x -> walk f D (fun x => reg x <> 0) v x).
    { assert (Av : forall x, conn f D v x -> reg x = 0).
      { intros x C. destruct (Z.eq_dec (reg x) 0) as [|Nx]; auto. exfalso.
        pose proof (conn_sym f D n HD R I v x Hv C) as C'. apply (J4 x v) in C'; auto. congruence. }
      intros x C. induction C as [N0|u i C IH Hi N0]; [constructor; lia|]. apply walk_step; auto. rewrite Av; [lia|].
      apply walk_step; auto. }
    assert (Mx : forall x, mk x = r -> conn f D v x /\ 0 <= x < n).
    { intros x Ex. destruct (H x) as (H1 & H2). destruct (Z.eq_dec (reg x) 0) as [Z0|Z0].
      - destruct (H2 Z0) as [(_ & Hx & W)|(M & _)]; [|lia]. split; auto. now apply walk_conn in W.
      - rewrite H1 in Ex by auto. destruct (J2 x Z0). lia. }
    assert (Mx' : forall x, conn f D v x -> mk x = r).
    { intros x C. pose proof (Wc x C) as W. pose proof (walk_end _ _ _ _ _ W) as Z0. cbv beta in Z0.
      destruct (H x) as (_ & H2). destruct (H2 ltac:(lia)) as [(M & _)|(_ & NW)]; auto. now elim NW. }
    assert (Mo : forall x, mk x <> r -> mk x = reg x).
    { intros x Nx. destruct (H x) as (H1 & H2). destruct (Z.eq_dec (reg x) 0) as [Z0|Z0]; auto.
      destruct (H2 Z0) as [(M & _)|(M & _)]; congruence. }
    split; [lia|]. split; [|split].
    + intros x Nx. destruct (Z.eq_dec (mk x) r) as [Er|Er]; [destruct (Mx x Er); lia|].
      pose proof (Mo x Er) as Ex. rewrite Ex in *. destruct (J2 x Nx). lia.
    + intros x Hx. destruct (Z.eq_dec (mk x) r) as [Er|Er]; [lia|]. destruct (Z.eq_dec x v) as [->|].
      * elim Er. apply Mx'. apply conn_refl.
      * rewrite Mo by auto. apply J3. lia.
    + intros x y Nx Hy. destruct (Z.eq_dec (mk x) r) as [Er|Er].
      * destruct (Mx x Er) as (Cx & Hx). rewrite Er. split.
        -- intros Ey. symmetry in Ey. destruct (Mx y Ey) as (Cy & _).
           apply conn_trans with v; auto. apply (conn_sym f D n); auto; lia.
        -- intros C. symmetry. apply Mx'. now apply conn_trans with x.
      * pose proof (Mo x Er) as Ex. rewrite Ex in *. destruct (J2 x Nx) as (Hx & Hr). destruct (Z.eq_dec (mk y) r) as [Ey|Ey].
        -- split; [lia|]. intros C. exfalso. apply Er. rewrite <- Ex. apply Mx'. destruct (Mx y Ey) as (Cy & _).
           apply conn_trans with y; auto. apply (conn_sym f D n); auto; lia.
        -- rewrite (Mo y Ey). apply J4; auto.
  - left. rewrite E. cbn [bind]. exists reg. split; auto.
  - right. rewrite E. cbn [bind]. auto.
Qed.

Lemma counts_ok_spec vct : exists ok, counts_ok MX D n vct = OK ok /\ (ok = true <-> forall v, 0 <= v < n -> vct v = D).
Proof.
  unfold counts_ok. match goal with |- context [for_ 0 n ?bd _] => set (body := bd) end.
  apply (for_inv (fun k (ok : bool) => ok = true <-> forall v, 0 <= v < k -> vct v = D)); try lia.
  - split; auto. intros; lia.
  - intros v [|] Hv J; unfold body.
    + rewrite rd_ok by lia. cbn [bind]. eexists. split; [reflexivity|]. rewrite Z.eqb_eq. split.
      * intros E u Hu. destruct (Z.eq_dec u v) as [->|]; auto. apply J; auto. lia.
      * intros A. apply A. lia.
    + exists false. split; auto. split; [discriminate|]. intros A. apply J. intros; apply A; lia.
Qed.

Lemma all_touched_spec reg vct rcur : exists ok, all_touched MX n reg vct rcur = OK ok
  /\ (ok = true <-> forall v, 0 <= v < n -> reg v = rcur -> vct v <> 0).
Proof.
  unfold all_touched. match goal with |- context [for_ 0 n ?bd _] => set (body := bd) end.
  apply (for_inv (fun k (ok : bool) => ok = true <-> forall v, 0 <= v < k -> reg v = rcur -> vct v <> 0)); try lia.
  - split; auto. intros; lia.
  - intros v [|] Hv J; unfold body.
    + rewrite rd_ok by lia. cbn [bind]. destruct (Z.eqb_spec (reg v) rcur) as [Er|Er].
      * rewrite rd_ok by lia. cbn [bind]. eexists. split; [reflexivity|]. rewrite negb_true_iff, Z.eqb_neq. split.
        -- intros E u Hu. destruct (Z.eq_dec u v) as [->|]; auto. apply J; auto. lia.
        -- intros A. apply A; auto. lia.
      * eexists. split; [reflexivity|]. split; auto. intros _ u Hu Eu. destruct (Z.eq_dec u v) as [->|]; [congruence|].
        apply J; auto. lia.
    + exists false. split; auto. split; [discriminate|]. intros A. apply J. intros; apply A; auto; lia.
Qed.
End Comp.

Lemma indeg_succ f D n x : 0 <= D -> 0 <= n ->
  indeg f D (n + 1) x = indeg f D n x + Z.of_nat (length (filter (fun i => f n i =? x) (zrange D))).
Proof.
  intros HD Hn. unfold indeg. rewrite zrange_succ by auto.
  assert (A : forall (l1 l2 l : list Z), list_prod (l1 ++ l2) l = list_prod l1 l ++ list_prod l2 l).
  { intros l1 l2 l. induction l1; cbn; auto. now rewrite IHl1, app_assoc. }
  rewrite A, filter_app, app_length. cbn [list_prod]. rewrite app_nil_r.
  rewrite Nat2Z.inj_add. f_equal. f_equal. generalize (zrange D). induction l as [|i l IH]; cbn; auto.
  destruct (f n i =? x); cbn; auto.
Qed.

Lemma indeg_0 f D x : indeg f D 0 x = 0. Proof. reflexivity. Qed.

Section G3.
Context {V : Type} (MX : Z) (p : poly V).
Notation n := (nv p).
Notation f := (nb (vb p)).
Hypothesis Hn : 0 <= n <= MX.
Hypothesis NN : forall v i, 0 <= v < n -> 0 <= i < 3 -> 0 <= f v i.

Definition okv (v : Z) : Prop :=
  (forall i, 0 <= i < 3 -> f v i < n) /\ (forall i j, 0 <= i < 3 -> 0 <= j < 3 -> f v i = f v j -> i = j).

Lemma slots i : 0 <= i < 3 -> i = 0 \/ i = 1 \/ i = 2. Proof. lia. Qed.
Lemma links_ok3_spec v : 0 <= v < n -> exists ok, links_ok3 MX p v = OK ok /\ (ok = true <-> okv v).
Proof.
  intros Hv. unfold links_ok3. rewrite for_3. change ((0 + 1) mod 3) with 1. change ((1 + 1) mod 3) with 2. change ((2 + 1) mod 3) with 0.
  rewrite !rd_nb_ok by lia. cbn [bind].
  destruct (Z.eqb_spec (f v 0) (f v 1)) as [E01|N01].
  { cbn [bind]. eexists; split; [reflexivity|]. split; [discriminate|]. intros (_ & A). specialize (A 0 1 ltac:(lia) ltac:(lia) E01). lia. }
  destruct (Z.leb_spec n (f v 0)) as [G0|G0].
  { cbn [bind]. eexists; split; [reflexivity|]. split; [discriminate|]. intros (A & _). specialize (A 0 ltac:(lia)). lia. }
  cbn [bind].
  destruct (Z.eqb_spec (f v 1) (f v 2)) as [E12|N12].
  { cbn [bind]. eexists; split; [reflexivity|]. split; [discriminate|]. intros (_ & A). specialize (A 1 2 ltac:(lia) ltac:(lia) E12). lia. }
  destruct (Z.leb_spec n (f v 1)) as [G1|G1].
  { cbn [bind]. eexists; split; [reflexivity|]. split; [discriminate|]. intros (A & _). specialize (A 1 ltac:(lia)). lia. }
  cbn [bind].
  destruct (Z.eqb_spec (f v 2) (f v 0)) as [E20|N20].
  { cbn [bind]. eexists; split; [reflexivity|]. split; [discriminate|]. intros (_ & A). specialize (A 2 0 ltac:(lia) ltac:(lia) E20). lia. }
  destruct (Z.leb_spec n (f v 2)) as [G2|G2].
  { cbn [bind]. eexists; split; [reflexivity|]. split; [discriminate|]. intros (A & _). specialize (A 2 ltac:(lia)). lia. }
  eexists; split; [reflexivity|]. split; auto. intros _. split.
  - intros i Hi. destruct (slots i Hi) as [->|[->| ->]]; auto.
  - intros i j Hi Hj. destruct (slots i Hi) as [->|[->| ->]]; destruct (slots j Hj) as [->|[->| ->]]; intros; auto; congruence.
Qed.

Lemma count_link_ok v np vct : 0 <= v < n -> 0 <= np < 3 -> f v np < n ->
  count_link MX 3 (vb p) v np vct = OK (upd vct (f v np) (vct (f v np) + 1)).
Proof.
  intros Hv Hi Hl. pose proof (NN v np Hv Hi). unfold count_link. rewrite rd_nb_ok by lia. cbn [bind].
  rewrite rd_ok by lia. cbn [bind]. rewrite wr_ok by lia. reflexivity.
Qed.

Lemma consistent_spec : exists s, for_ 0 n (consistent_body3 MX p) (Some (fun _ => 0)) = OK s /\
  match s with
  | None => exists v, 0 <= v < n /\ ~ okv v
  | Some vct => (forall v, 0 <= v < n -> okv v) /\ forall x, vct x = indeg f 3 n x
  end.
Proof.
  apply (for_inv (fun k s => match s with
    | None => exists v, 0 <= v < n /\ ~ okv v
    | Some vct => (forall v, 0 <= v < k -> okv v) /\ forall x, vct x = indeg f 3 k x end)); try lia.
  - split; [lia|]. intros x. now rewrite indeg_0.
  - intros v [vct|] Hv J; cbn [consistent_body3].
    2: { eexists; split; [reflexivity|]. exact J. }
    destruct J as (J1 & J2). destruct (links_ok3_spec v Hv) as (ok & E & Hok). rewrite E. cbn [bind]. destruct ok.
    2: { eexists; split; [reflexivity|]. exists v. split; auto. intros C. apply Hok in C. discriminate. }
    pose proof (proj1 Hok eq_refl) as (O1 & O2).
    rewrite count_link_ok by (auto; try lia; apply O1; lia). cbn [bind].
    rewrite count_link_ok by (auto; try lia; apply O1; lia). cbn [bind].
    rewrite count_link_ok by (auto; try lia; apply O1; lia). cbn [bind].
    eexists; split; [reflexivity|]. split.
    + intros u Hu. destruct (Z.eq_dec u v) as [->|]; [split; auto|]. apply J1. lia.
    + intros x. rewrite indeg_succ by lia. change (zrange 3) with [0; 1; 2]. cbn [filter].
      assert (N01 : f v 0 <> f v 1) by (intros C; specialize (O2 0 1 ltac:(lia) ltac:(lia) C); lia).
      assert (N02 : f v 0 <> f v 2) by (intros C; specialize (O2 0 2 ltac:(lia) ltac:(lia) C); lia).
      assert (N12 : f v 1 <> f v 2) by (intros C; specialize (O2 1 2 ltac:(lia) ltac:(lia) C); lia).
      rewrite (upd_neq _ (f v 0) (f v 1)) by auto. rewrite (upd_neq _ (f v 1) (f v 2)), (upd_neq _ (f v 0) (f v 2)) by auto.
      unfold upd. rewrite <- (J2 x), (Z.eqb_sym (f v 0) x), (Z.eqb_sym (f v 1) x), (Z.eqb_sym (f v 2) x).
      destruct (Z.eqb_spec x (f v 2)) as [->|]; [|destruct (Z.eqb_spec x (f v 1)) as [->|]; [|destruct (Z.eqb_spec x (f v 0)) as [->|]]];
        repeat (match goal with |- context [Z.eqb ?a ?c] => destruct (Z.eqb_spec a c) end); try congruence; cbn [length]; lia.
Qed.

Lemma pick3_spec reg rcur va vb : exists c, pick3 MX n reg rcur va vb = OK c
  /\ ((0 <= c < n /\ reg c = rcur /\ c <> va /\ c <> vb /\ forall x, 0 <= x < c -> reg x = rcur -> x = va \/ x = vb)
      \/ (c = n /\ forall x, 0 <= x < n -> reg x = rcur -> x = va \/ x = vb)).
Proof.
  unfold pick3. match goal with |- context [for_ 0 n ?bd _] => set (body := bd) end.
  destruct (for_inv (fun k (o : option Z) => match o with
     | Some c => 0 <= c < n /\ reg c = rcur /\ c <> va /\ c <> vb /\ forall x, 0 <= x < c -> reg x = rcur -> x = va \/ x = vb
     | None => forall x, 0 <= x < k -> reg x = rcur -> x = va \/ x = vb end) 0 n body None) as (o & E & J).
  - lia.
  - intros; lia.
  - intros v [c|] Hv J; unfold body.
    + eexists; split; [reflexivity|]. exact J.
    + rewrite rd_ok by lia. cbn [bind]. eexists; split; [reflexivity|].
      destruct (Z.eqb_spec (reg v) rcur); cbn [andb].
      * destruct (Z.eqb_spec v va); cbn [andb negb]; [|destruct (Z.eqb_spec v vb); cbn [andb negb]; [|tauto]].
        -- intros x Hx Ex. destruct (Z.eq_dec x v) as [->|]; auto. apply J; auto. lia.
        -- intros x Hx Ex. destruct (Z.eq_dec x v) as [->|]; auto. apply J; auto. lia.
      * intros x Hx Ex. destruct (Z.eq_dec x v) as [->|]; [congruence|]. apply J; auto. lia.
  - rewrite E. cbn [bind]. eexists; split; [reflexivity|]. destruct o; auto.
Qed.

Hypothesis Reg : regular f 3 n.
Lemma reg_rng v i : 0 <= v < n -> 0 <= i < 3 -> 0 <= f v i < n.
Proof. intros Hv Hi. split; [apply NN; auto|]. destruct (Reg v Hv) as (A & _). auto. Qed.
Lemma reg_in v : 0 <= v < n -> indeg f 3 n v = 3. Proof. intros Hv. apply (Reg v Hv). Qed.
Notation cs := (conn_sym f 3 n ltac:(lia) reg_rng reg_in).

(** the component of [a] has a third vertex *)
Lemma third a b : 0 <= a < n -> exists c, 0 <= c < n /\ conn f 3 a c /\ c <> a /\ c <> b.
Proof.
  intros Ha. destruct (Reg a Ha) as (_ & O2 & _).
  assert (N01 : f a 0 <> f a 1) by (intros C; specialize (O2 0 1 ltac:(lia) ltac:(lia) C); lia).
  assert (N02 : f a 0 <> f a 2) by (intros C; specialize (O2 0 2 ltac:(lia) ltac:(lia) C); lia).
  assert (N12 : f a 1 <> f a 2) by (intros C; specialize (O2 1 2 ltac:(lia) ltac:(lia) C); lia).
  assert (X : exists i, 0 <= i < 3 /\ f a i <> a /\ f a i <> b).
  { destruct (Z.eq_dec (f a 0) a); [|destruct (Z.eq_dec (f a 0) b); [|exists 0; lia]];
    (destruct (Z.eq_dec (f a 1) a); [|destruct (Z.eq_dec (f a 1) b); [|exists 1; lia]]); exists 2; lia. }
  destruct X as (i & Hi & A & B). exists (f a i). split; [now apply reg_rng|]. split; auto. now apply conn_link.
Qed.

(** what the test on one pair decides *)
Definition pair_conn (a b : Z) : Prop := conn f 3 a b ->
  forall u w, 0 <= u < n -> 0 <= w < n -> conn f 3 a u -> conn f 3 a w -> u <> a -> u <> b -> w <> a -> w <> b ->
    (forall x, 0 <= x < u -> conn f 3 a x -> x = a \/ x = b) -> walk f 3 (fun x => x = a \/ x = b) u w.

Lemma pair_ok3_spec reg a b : (forall x y, 0 <= x < n -> 0 <= y < n -> (reg x = reg y <-> conn f 3 x y)) ->
  0 <= a < n -> 0 <= b < n -> a <> b ->
  (exists ok, pair_ok3 MX p reg a b true = OK ok /\ (ok = true <-> pair_conn a b))
  \/ (pair_ok3 MX p reg a b true = Err OutOfBounds /\ MX < 1 + 2 * n).
Proof.
  intros HR Ha Hb Nab. cbn [pair_ok3]. rewrite !rd_ok by lia. cbn [bind].
  destruct (Z.eqb_spec (reg b) (reg a)) as [E|E]; cbn [negb].
  2: { left. eexists; split; [reflexivity|]. split; auto. intros _ C. apply HR in C; auto. congruence. }
  destruct (pick3_spec reg (reg a) a b) as (c & Ec & Hc). rewrite Ec. cbn [bind].
  destruct Hc as [(Hc & Rc & Nca & Ncb & Least)|(_ & None)].
  2: { destruct (third a b Ha) as (c' & Hc' & Cc & N1 & N2). destruct (None c' Hc'); [symmetry; apply HR; auto|congruence..]. }
  rewrite wr_ok by lia. cbn [bind]. rewrite wr_ok by lia. cbn [bind].
  set (mk0 := upd (upd (fun _ : Z => 0) a 1) b 1).
  assert (XE : forall x, mk0 x <> 0 <-> x = a \/ x = b).
  { intros x. unfold mk0, upd. destruct (Z.eqb_spec x b), (Z.eqb_spec x a); split; lia. }
  assert (WE : forall x, walk f 3 (fun x => mk0 x <> 0) c x <-> walk f 3 (fun x => x = a \/ x = b) c x).
  { intros x. split; apply walk_mono; intros y; apply XE. }
  destruct (flood_spec MX 3 (vb p) n ltac:(lia) Hn reg_rng 1 ltac:(lia) mk0 c Hc) as [(mk & Ef & H)|(Ef & Q)]; rewrite Ef; cbn [bind].
  2: { right. split; [auto|lia]. }
  left. destruct (all_touched_spec MX n Hn reg mk (reg a)) as (ok & Ea & Hok).
  exists ok. split; [exact Ea|]. rewrite Hok. clear Ec Ef Ea. split.
  - intros A Cab u w Hu Hw Cu Cw Nua Nub Nwa Nwb Lu.
    assert (u = c).
    { destruct (Z.lt_total u c) as [Lt|[->|Lt]]; auto.
      - destruct (Least u ltac:(lia)); [symmetry; apply HR; auto|congruence..].
      - destruct (Lu c ltac:(lia)); [apply HR; auto|congruence..]. }
    subst u. destruct (H w) as (_ & H2).
    assert (M0 : mk0 w = 0). { destruct (Z.eq_dec (mk0 w) 0) as [|C]; auto. apply XE in C. tauto. }
    destruct (H2 M0) as [(_ & _ & W)|(M & _)]; [now apply WE|]. elim (A w Hw); auto. symmetry. apply HR; auto.
  - intros PC w Hw Rw. destruct (H w) as (H1 & H2). destruct (Z.eq_dec (mk0 w) 0) as [M0|M0]; [|now rewrite H1].
    assert (Nw : ~ (w = a \/ w = b)) by (rewrite <- XE; lia).
    assert (W : walk f 3 (fun x => mk0 x <> 0) c w).
    { apply WE. apply PC; auto; try (apply HR; auto; fail); try tauto.
      intros x Hx Cx. apply Least; auto. symmetry. apply HR; auto. lia. }
    destruct (H2 M0) as [(M & _)|(_ & NW)]; [lia|]. now elim NW.
Qed.

Lemma pair_ok3_false reg a b : pair_ok3 MX p reg a b false = OK false. Proof. reflexivity. Qed.

Lemma pairs_spec reg : (forall x y, 0 <= x < n -> 0 <= y < n -> (reg x = reg y <-> conn f 3 x y)) ->
  let loop := for_ 0 n (fun va ok => for_ (va + 1) n (fun b ok => pair_ok3 MX p reg va b ok) ok) true in
  (exists ok, loop = OK ok /\ (ok = true <-> forall a b, 0 <= a < n -> 0 <= b < n -> a < b -> pair_conn a b))
  \/ (loop = Err OutOfBounds /\ MX < 1 + 2 * n).
Proof.
  intros HR loop.
  destruct (for_inv3 (fun k (ok : bool) => ok = true <-> forall a b, 0 <= a < k -> 0 <= b < n -> a < b -> pair_conn a b)
    (fun e => e = OutOfBounds /\ MX < 1 + 2 * n) 0 n (fun va ok => for_ (va + 1) n (fun b ok => pair_ok3 MX p reg va b ok) ok) true)
    as [(ok & E & J)|(e & E & -> & Q)].
  - lia.
  - split; auto. intros _ a b Ha. lia.
  - intros a ok Ha J.
    destruct (for_inv3 (fun k (ok' : bool) => ok' = true <-> ok = true /\ forall b, a < b < k -> pair_conn a b)
      (fun e => e = OutOfBounds /\ MX < 1 + 2 * n) (a + 1) n (fun b ok => pair_ok3 MX p reg a b ok) ok)
      as [(ok' & E & J')|(e & E & -> & Q)].
    + lia.
    + split; [|tauto]. intros ->. split; auto. lia.
    + intros b ok1 Hb J1. destruct ok1.
      * destruct (pair_ok3_spec reg a b HR Ha ltac:(lia) ltac:(lia)) as [(ok2 & E2 & H2)|(E2 & Q)].
        -- left. exists ok2. split; auto. rewrite H2. destruct J1 as (J1 & _). destruct (J1 eq_refl) as (K1 & K2). split.
           ++ intros P. split; auto. intros y Hy. destruct (Z.eq_dec y b) as [->|]; auto. apply K2. lia.
           ++ intros (_ & P). apply P. lia.
        -- right. exists OutOfBounds. auto.
      * left. exists false. split; auto. split; [discriminate|]. intros (K1 & K2). apply J1. split; auto. intros; apply K2; lia.
    + left. exists ok'. split; auto. rewrite J', J. split.
      * intros (K1 & K2) a' b Ha' Hb Lt. destruct (Z.eq_dec a' a) as [->|]; [apply K2; lia|apply K1; lia].
      * intros K. split; [intros; apply K; lia|]. intros b Hb. apply K; lia.
    + right. exists OutOfBounds. auto.
  - left. exists ok. auto.
  - right. auto.
Qed.

Lemma pairs_conn3 : (forall a b, 0 <= a < n -> 0 <= b < n -> a < b -> pair_conn a b) <-> conn3_least f n.
Proof.
  split.
  - intros P a b u w Ha Hb Hu Hw Nab Ca Cb Cw N1 N2 N3 N4 Lu.
    destruct (Z.lt_total a b) as [Lt|[->|Lt]]; [|congruence|].
    + apply (P a b Ha Hb Lt); auto.
      * apply conn_trans with u; auto. now apply cs.
      * now apply cs.
      * apply conn_trans with u; auto. now apply cs.
      * intros x Hx Cx. apply Lu; auto. now apply conn_trans with a.
    + assert (W : walk f 3 (fun x => x = b \/ x = a) u w).
      { apply (P b a Hb Ha Lt); auto.
        * apply conn_trans with u; auto. now apply cs.
        * now apply cs.
        * apply conn_trans with u; auto. now apply cs.
        * intros x Hx Cx. apply or_comm. apply Lu; auto. now apply conn_trans with b. }
      revert W. apply walk_mono. tauto.
  - intros P a b Ha Hb Lt Cab u w Hu Hw Cu Cw N1 N2 N3 N4 Lu.
    apply P; auto; try lia.
    + now apply cs.
    + apply conn_trans with a; auto. now apply cs.
    + apply conn_trans with a; auto. now apply cs.
    + intros x Hx Cx. apply Lu; auto. now apply conn_trans with u.
Qed.
End G3.

Theorem is_good3_spec {V} MX (p : poly V) : 0 <= nv p <= MX ->
  (forall v i, 0 <= v < nv p -> 0 <= i < 3 -> 0 <= nb (vb p) v i) ->
  (exists r, r3d_is_good MX p = OK r /\ (r = 0 \/ r = 1)
     /\ (r = 1 <-> regular (nb (vb p)) 3 (nv p) /\ conn3_least (nb (vb p)) (nv p)))
  \/ (r3d_is_good MX p = Err OutOfBounds /\ MX < 1 + 2 * nv p).
Proof.
  intros Hn NN. unfold r3d_is_good. destruct (consistent_spec MX p Hn NN) as (s & E & H). rewrite E. cbn [bind]. destruct s as [vct|].
  2: { left. exists 0. split; auto. split; auto. split; [lia|]. intros (Rg & _). exfalso. destruct H as (v & Hv & Nv).
       apply Nv. destruct (Rg v Hv) as (A & B & _). split; auto. }
  destruct H as (H1 & H2). destruct (counts_ok_spec MX 3 (nv p) Hn vct) as (ok & Ec & Hok). rewrite Ec. cbn [bind]. destruct ok.
  2: { left. exists 0. split; auto. split; auto. split; [lia|]. intros (Rg & _). exfalso. assert (false = true); [|discriminate].
       apply Hok. intros v Hv. rewrite H2. apply (Rg v Hv). }
  assert (Rg : regular (nb (vb p)) 3 (nv p)).
  { intros v Hv. destruct (H1 v Hv) as (A & B). split; auto. split; auto. rewrite <- H2. now apply Hok. }
  destruct (components_spec MX 3 (vb p) (nv p) ltac:(lia) Hn (reg_rng p NN Rg) (reg_in p Rg)) as [(reg & Er & HR)|(Er & Q)];
    rewrite Er; cbn [bind].
  2: { right. split; [auto|lia]. }
  destruct (pairs_spec MX p Hn NN Rg reg HR) as [(ok & Ep & Hp)|(Ep & Q)]; rewrite Ep; cbn [bind].
  2: { right. auto. }
  left. eexists; split; [reflexivity|]. split; [destruct ok; auto|].
  rewrite (pairs_conn3 MX p Hn NN Rg) in Hp. destruct ok.
  - split; auto. intros _. split; auto. now apply Hp.
  - split; [discriminate|]. intros (_ & C). apply Hp in C. discriminate.
Qed.

(** with mutual links the least vertex does not matter *)
Lemma conn3_mutual f n : (forall v i, 0 <= v < n -> 0 <= i < 3 -> 0 <= f v i < n) -> mutual f 3 n ->
  (conn3_least f n <-> conn3 f n).
Proof.
  intros R M. split.
  2: { intros C a b u w; intros. apply C; auto. }
  intros C a b u w Ha Hb Hu Hw Nab Ca Cb Cw N1 N2 N3 N4.
  destruct (conn_dec f 3 n R ltac:(lia) u Hu) as (K & HK).
  set (ok := fun x => K x && negb (x =? a) && negb (x =? b)).
  assert (HO : forall x, ok x = true <-> conn f 3 u x /\ x <> a /\ x <> b).
  { intros x. unfold ok. rewrite !andb_true_iff, !negb_true_iff, !Z.eqb_neq, HK. tauto. }
  assert (G : exists c, 0 <= c < n /\ ok c = true /\ forall x, 0 <= x < c -> ok x = false).
  { destruct (first_true (fun k => ok (Z.of_nat k)) (Z.to_nat u)) as (m & Hm & P & Q).
    - rewrite Z2Nat.id by lia. apply HO. repeat split; auto. apply conn_refl.
    - exists (Z.of_nat m). split; [lia|]. split; auto. intros x Hx. specialize (Q (Z.to_nat x) ltac:(lia)).
      now rewrite Z2Nat.id in Q by lia. }
  destruct G as (c & Hc & Oc & Lc). apply HO in Oc as (Cc & N5 & N6).
  assert (S : forall x y, 0 <= x < n -> conn f 3 x y -> conn f 3 y x) by (intros x y Hx; apply (walk_sym f 3 n R M); auto).
  assert (Least : forall x, 0 <= x < c -> conn f 3 c x -> x = a \/ x = b).
  { intros x Hx Cx. specialize (Lc x Hx). destruct (Z.eq_dec x a), (Z.eq_dec x b); auto. exfalso.
    rewrite (proj2 (HO x)) in Lc; [discriminate|]. repeat split; auto. now apply conn_trans with c. }
  assert (W : forall y, 0 <= y < n -> conn f 3 u y -> y <> a -> y <> b -> walk f 3 (fun x => x = a \/ x = b) c y).
  { intros y Hy Cy N7 N8. apply C; auto; apply conn_trans with u; auto. }
  apply walk_trans with c; [|apply W; auto]. apply (walk_sym f 3 n R M); auto. apply W; auto. apply conn_refl.
Qed.
