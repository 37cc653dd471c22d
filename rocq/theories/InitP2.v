(** * InitP2: [r3d_init_poly], duplication and the results of the call. *)
From Coq Require Import ZArith List Bool Lia.
From Verif Require Import Base Lib ModelCommon CommonFacts Model3 ModelB Spec3 SpecB InitP.
Import ListNotations.
Open Scope Z_scope.

Section Dup.
Context (e : Z -> Z).
(** where the duplicates of vertex [v] start *)
Definition st (v : Z) : Z := fold_right Z.add 0 (map e (zrange v)).
Lemma st_succ v : 0 <= v -> st (v + 1) = st v + e v.
Proof.
  intros H. unfold st. rewrite zrange_succ, map_app by lia. cbn [map].
  assert (G : forall l x, fold_right Z.add 0 (l ++ [x]) = fold_right Z.add 0 l + x).
  { intros l x. induction l as [|a l IH]; cbn [app fold_right]; lia. }
  apply G.
Qed.
Lemma st_0 : st 0 = 0. Proof. reflexivity. Qed.
Context (n : Z) (E0 : forall v, 0 <= v < n -> 0 <= e v).
Lemma st_mono u v : 0 <= u <= v -> v <= n -> st u <= st v.
Proof.
  intros Hu Hv. replace v with (u + (v - u)) by lia. assert (G : 0 <= v - u) by lia.
  assert (G2 : u + (v - u) <= n) by lia. revert G G2. generalize (v - u). intros k Hk. apply (zrange_ind (fun k => u + k <= n -> st u <= st (u + k))).
  - rewrite Z.add_0_r. lia.
  - intros m Hm IH Hb. rewrite Z.add_assoc, st_succ by lia. specialize (IH ltac:(lia)). pose proof (E0 (u + m) ltac:(lia)). lia.
  - lia.
Qed.
Lemma st_nonneg v : 0 <= v <= n -> 0 <= st v.
Proof. intros H. rewrite <- st_0. apply st_mono; lia. Qed.

Context {V : Type} (MX : Z) (HM : 0 <= n <= MX).
Notation buf := (vbuf V).
Lemma dup_inner (vertices : Z -> V) v (t : buf) s k : 0 <= s -> 0 <= k -> s + k <= 3 * MX ->
  exists t', for_ 0 k (fun _ (s : buf * Z) =>
        let '(t, n) := s in
        let* t := wr_ps (3 * MX) t n (vertices v) in
        let* t := for_ 0 3 (fun np t => wr_nb (3 * MX) 3 t n np MX) t in
        OK (t, n + 1)) (t, s) = OK (t', s + k)
   /\ (forall j, s <= j < s + k -> ps t' j = vertices v) /\ (forall j, j < s -> ps t' j = ps t j).
Proof.
  intros Hs Hk Hb. match goal with |- context [for_ 0 k ?bd _] => set (body := bd) end.
  destruct (for_inv (fun i (q : buf * Z) => snd q = s + i /\ (forall j, s <= j < s + i -> ps (fst q) j = vertices v)
    /\ (forall j, j < s -> ps (fst q) j = ps t j)) 0 k body (t, s)) as ((t', s') & E & I1 & I2 & I3).
  - lia.
  - cbn. split; [lia|]. split; [lia|auto].
  - intros i (t1, s1) Hi (I1 & I2 & I3). cbn [fst snd] in *. subst s1. unfold body. rewrite wr_ps_ok by lia. cbn [bind]. rewrite for_3.
    do 3 (rewrite wr_nb_ok by lia; cbn [bind nb ps]). eexists. split; [reflexivity|]. cbn [fst snd ps nb].
    split; [lia|]. split; intros j Hj.
    + destruct (Z.eq_dec j (s + i)) as [->|]; [apply upd_eq|rewrite upd_neq by auto; apply I2; lia].
    + rewrite upd_neq by lia. apply I3. auto.
  - cbn [fst snd] in *. subst s'. eauto.
Qed.
Definition dupd (vertices : Z -> V) k (t : buf) := forall v j, 0 <= v < k -> st v <= j < st (v + 1) -> ps t j = vertices v.
Lemma dup_spec (t : buf) (vertices : Z -> V) :
  (st n <= MX /\ exists t' vs, ip_dup MX t vertices n e = OK (Some (t', vs), st n)
    /\ dupd vertices n t' /\ forall v, 0 <= v < n -> vs v = Some (st v))
  \/ (exists j, 0 <= j < n /\ st j <= MX < st (j + 1) /\ ip_dup MX t vertices n e = OK (None, st j)).
Proof.
  unfold ip_dup. match goal with |- context [for_ 0 n ?bd _] => set (body := bd) end.
  destruct (for_inv (fun k (s : option (buf * (Z -> option Z)) * Z) =>
      (st k <= MX /\ exists t' vs, s = (Some (t', vs), st k) /\ dupd vertices k t' /\ forall v, 0 <= v < k -> vs v = Some (st v))
      \/ exists j, 0 <= j < k /\ st j <= MX < st (j + 1) /\ s = (None, st j)) 0 n body (Some (t, (fun _ => None)), 0)) as (s & E & I).
  - lia.
  - left. split; [rewrite st_0; lia|]. exists t, (fun _ => None). split; auto. unfold dupd. split; intros; lia.
  - intros k s Hk [(Hs & t1 & vs & -> & I1 & I2)|(j & Hj & Hb & ->)].
    + cbn [body]. unfold body. rewrite rd_ok by lia. cbn [bind].
      pose proof (st_succ k ltac:(lia)) as Es. pose proof (E0 k ltac:(lia)) as Ek. pose proof (st_nonneg k ltac:(lia)) as Nk.
      destruct (Z.ltb_spec MX (st k + e k)).
      * eexists. split; [reflexivity|]. right. exists k. split; [lia|]. split; [lia|auto].
      * rewrite wr_ok by lia. cbn [bind].
        destruct (dup_inner vertices k t1 (st k) (e k) Nk Ek ltac:(lia)) as (t2 & E2 & P1 & P2). rewrite E2. cbn [bind].
        eexists. split; [reflexivity|]. left. split; [lia|]. exists t2, (upd vs k (Some (st k))). rewrite Es. split; auto. split.
        -- intros v j Hv Hj. destruct (Z.eq_dec v k) as [->|Nv]; [apply P1; lia|].
           rewrite P2; [apply (I1 v); auto; lia|]. pose proof (st_mono (v + 1) k ltac:(lia) ltac:(lia)). lia.
        -- intros v Hv. destruct (Z.eq_dec v k) as [->|Nv]; [apply upd_eq|rewrite upd_neq by auto; apply I2; lia].
    + eexists. split; [reflexivity|]. right. exists j. split; [lia|auto].
  - rewrite E. destruct I as [(Hs & t1 & vs & -> & I1 & I2)|(j & Hj & Hb & ->)]; [left|right].
    + split; auto. exists t1, vs. auto.
    + exists j. auto.
Qed.
End Dup.

Section Calls.
Context (nf : Z) (nvf : Z -> Z) (fi : Z -> Z -> Z) {V : Type} (MX : Z).
Notation corner := (corner nf nvf).
Notation vat := (vat fi).
Notation csucc := (csucc nvf).
Notation buf := (vbuf V).
Notation vdeg := (vdeg nf nvf fi).
Lemma vdeg_nonneg v : 0 <= vdeg v. Proof. unfold vdeg. lia. Qed.
Lemma ip_many (p : poly V) t vertices n : MX < n -> r3d_init_poly MX nf nvf fi p t vertices n = OK (p, 0).
Proof. intros H. unfold r3d_init_poly. destruct (Z.ltb_spec MX n); [auto|lia]. Qed.
Lemma ip_start n : 0 <= nf -> (forall f, 0 <= f < nf -> 0 <= nvf f) -> (forall c, corner c -> 0 <= vat c < MX) -> 3 <= MX -> 0 <= n <= MX ->
  exists e mn mx, ip_count MX nf nvf fi = OK e /\ ip_minmax MX n e = OK (mn, mx)
   /\ (forall v, e v = vdeg v) /\ ((exists v, 0 <= v < n /\ vdeg v < 3) <-> mn < 3)
   /\ (3 <= mn -> (0 < n /\ (forall v, 0 <= v < n -> vdeg v = 3)) <-> mx = 3).
Proof.
  intros H1 H2 H3 H4 Hn. destruct (ip_count_spec nf nvf fi MX H1 H2 H3) as (e & E1 & E2).
  destruct (ip_minmax_spec MX n e Hn) as (mn & mx & E & A & A' & B & C & D). exists e, mn, mx. do 3 (split; auto). split.
  - split.
    + intros (v & Hv & L). rewrite <- E2 in L. specialize (B v Hv). lia.
    + intros L. destruct C as [->|(v & Hv & <-)]; [lia|]. exists v. rewrite <- E2. auto.
  - intros L. split.
    + intros (N0 & H). destruct D as [->|(v & Hv & <-)]; [|rewrite E2; auto].
      specialize (B 0 ltac:(lia)). lia.
    + intros ->. split; [destruct D as [|(v & Hv & _)]; lia|]. intros v Hv. rewrite <- E2. specialize (B v Hv). lia.
Qed.
Lemma ip_low (p : poly V) t vertices n : 0 <= nf -> (forall f, 0 <= f < nf -> 0 <= nvf f) -> (forall c, corner c -> 0 <= vat c < MX) ->
  3 <= MX -> 0 <= n <= MX -> (exists v, 0 <= v < n /\ vdeg v < 3) ->
  r3d_init_poly MX nf nvf fi p t vertices n = OK (PY (vb p) 0, 0).
Proof.
  intros H1 H2 H3 H4 Hn H. unfold r3d_init_poly. destruct (Z.ltb_spec MX n); [lia|].
  destruct (ip_start n H1 H2 H3 H4 Hn) as (e & mn & mx & E1 & E2 & _ & A & _). rewrite E1. cbn [bind]. rewrite E2. cbn [bind].
  destruct (Z.ltb_spec mn 3) as [|L]; auto. exfalso. apply A in H. lia.
Qed.
Lemma ip_complex (p : poly V) (t : buf) (vertices : Z -> V) n : 0 <= nf -> (forall f, 0 <= f < nf -> 0 <= nvf f) ->
  (forall c, corner c -> 0 <= vat c < MX) ->
  3 <= MX -> 0 <= n <= MX -> (forall v, 0 <= v < n -> 3 <= vdeg v) -> ~ (0 < n /\ forall v, 0 <= v < n -> vdeg v = 3) ->
  exists e, (forall v, e v = vdeg v) /\ r3d_init_poly MX nf nvf fi p t vertices n =
    let* (o, n') := ip_dup MX t vertices n e in
    match o with
    | None => OK (PY (vb p) n', 0)
    | Some (t, vs) =>
      let* t := ip_fill MX nf nvf fi vs t in
      let* t := ip_ring MX n vs e t in
      let* t := ip_pairs MX n vs e t in
      let* (t, ut) := ip_drop MX n vs t in
      let* (b, n') := ip_pack MX (vb p) t ut n' in
      OK (PY b n', 1)
    end.
Proof.
  intros H1 H2 H3 H4 Hn L N. unfold r3d_init_poly. destruct (Z.ltb_spec MX n); [lia|].
  destruct (ip_start n H1 H2 H3 H4 Hn) as (e & mn & mx & E1 & E2 & Ev & A & B). exists e. split; auto.
  rewrite E1. cbn [bind]. rewrite E2. cbn [bind].
  destruct (Z.ltb_spec mn 3) as [G|G]; [exfalso; apply A in G; destruct G as (v & Hv & G); specialize (L v Hv); lia|].
  destruct (Z.eqb_spec mx 3) as [Q|Q]; [exfalso; apply (B G) in Q; tauto|]. reflexivity.
Qed.
Lemma st_ext (e e' : Z -> Z) v : (forall u, e u = e' u) -> st e v = st e' v.
Proof. intros H. unfold st. f_equal. apply map_ext. auto. Qed.
Lemma ip_toobig (p : poly V) (t : buf) (vertices : Z -> V) n : 0 <= nf -> (forall f, 0 <= f < nf -> 0 <= nvf f) ->
  (forall c, corner c -> 0 <= vat c < MX) ->
  3 <= MX -> 0 <= n <= MX -> (forall v, 0 <= v < n -> 3 <= vdeg v) -> ~ (0 < n /\ forall v, 0 <= v < n -> vdeg v = 3) ->
  MX < st vdeg n -> exists j, 0 <= j < n /\ st vdeg j <= MX < st vdeg (j + 1)
    /\ r3d_init_poly MX nf nvf fi p t vertices n = OK (PY (vb p) (st vdeg j), 0).
Proof.
  intros H1 H2 H3 H4 Hn L N G. destruct (ip_complex p t vertices n H1 H2 H3 H4 Hn L N) as (e & Ee & E).
  destruct (dup_spec e n ltac:(intros; rewrite Ee; apply vdeg_nonneg) MX Hn t vertices) as [(K & _)|(j & Hj & Hb & Ed)].
  - rewrite (st_ext _ _ _ Ee) in K. lia.
  - exists j. rewrite !(st_ext _ _ _ Ee) in Hb. do 2 (split; auto). rewrite E, Ed. cbn [bind]. now rewrite (st_ext _ _ _ Ee).
Qed.
Lemma ip_three (p : poly V) (t : buf) (vertices : Z -> V) n : 0 <= nf -> closed_surface nf nvf fi n ->
  3 <= MX -> 0 < n <= MX -> (forall v, 0 <= v < n -> vdeg v = 3) ->
  exists b, r3d_init_poly MX nf nvf fi p t vertices n = OK (PY b n, 1)
    /\ (forall v, 0 <= v < n -> ps b v = vertices v)
    /\ forall v, 0 <= v < n -> exists x y z, cyc nf nvf fi v x y z /\ row b v y x z.
Proof.
  intros H1 CS H4 Hn H3. unfold r3d_init_poly. destruct (Z.ltb_spec MX n); [lia|].
  assert (R : forall c, corner c -> 0 <= vat c < MX) by (intros c Hc; pose proof (cs_rng _ _ _ _ CS c Hc); lia).
  assert (H2 : forall f, 0 <= f < nf -> 0 <= nvf f) by (intros f Hf; pose proof (cs_size _ _ _ _ CS f Hf); lia).
  destruct (ip_start n H1 H2 R H4 ltac:(lia)) as (e & mn & mx & E1 & E2 & Ev & A & B).
  rewrite E1. cbn [bind]. rewrite E2. cbn [bind].
  destruct (Z.ltb_spec mn 3) as [G|G]; [exfalso; apply A in G; destruct G as (v & Hv & G); rewrite H3 in G by auto; lia|].
  destruct (Z.eqb_spec mx 3) as [Q|Q]; [|exfalso; apply Q, B; auto; split; auto; lia].
  destruct (simple_spec nf nvf fi MX n CS ltac:(lia) H3 (vb p) vertices H1 ltac:(lia)) as (b & E & P1 & P2).
  rewrite E. exists b. auto.
Qed.
End Calls.
