(** * InitN: [rNd_init_simplex] and [rNd_init_box]. *)
From Coq Require Import ZArith List Bool Lia.
From Verif Require Import Base Lib ModelCommon CommonFacts ModelN SpecN TransN.
Import ListNotations.
Open Scope Z_scope.

Section Gen.
Variable N : num.
Variable MX D : Z.
Notation real := (T N).
Notation buf := (vbuf (Z -> real)).

Lemma first_np_spec lo test (t : Z -> bool) k : 
  (forall np, lo <= np < D -> test np = OK (t np)) -> lo <= k < D -> t k = true ->
  (forall j, lo <= j < k -> t j = false) -> first_np D lo test = OK k.
Proof.
  intros Ht Hk Tk Tj. unfold first_np.
  match goal with |- context [for_ lo D ?bd _] => set (body := bd) end.
  destruct (for_inv (fun np o => o = if np <=? k then None else Some k) lo D body None) as (o & E & Eo).
  - lia.
  - destruct (Z.leb_spec lo k); auto; lia.
  - intros np o Hnp ->. unfold body. destruct (Z.leb_spec np k).
    + rewrite Ht by auto. cbn [bind]. eexists. split; [reflexivity|].
      destruct (Z.leb_spec (np + 1) k); [rewrite Tj by lia; auto|]. replace np with k by lia. now rewrite Tk.
    + eexists. split; [reflexivity|]. destruct (Z.leb_spec (np + 1) k); auto; lia.
  - rewrite E. cbn [bind]. subst o. destruct (Z.leb_spec D k); auto; lia.
Qed.

Lemma rd_fd_ok fd v i j : 0 <= v < MX -> 0 <= i < D -> 0 <= j < D -> rd_fd MX D fd v i j = OK (fd v i j).
Proof. intros. unfold rd_fd. now rewrite !inb_true by auto. Qed.
Lemma wr_fd_ok fd v i j x : 0 <= v < MX -> 0 <= i < D -> 0 <= j < D ->
  wr_fd MX D fd v i j x = OK (upd fd v (upd (fd v) i (upd (fd v i) j x))).
Proof. intros. unfold wr_fd. now rewrite !inb_true by auto. Qed.
Lemma upd_fd (fd : Z -> Z -> Z -> Z) v i j x v' i' j' :
  upd fd v (upd (fd v) i (upd (fd v i) j x)) v' i' j' =
  if (v' =? v) && (i' =? i) && (j' =? j) then x else fd v' i' j'.
Proof.
  unfold upd. destruct (Z.eqb_spec v' v) as [->|]; cbn [andb]; auto.
  destruct (Z.eqb_spec i' i) as [->|]; cbn [andb]; auto.
Qed.

(** ** simplex *)
Section Simplex.
Hypothesis HD : 1 <= D.
Hypothesis HM : D + 1 <= MX.
Notation n := (D + 1).

(** slot of [v] that leads to [w] *)
Definition sl (v w : Z) : Z := (w - v - 1) mod n.
Lemma sl_val v w : 0 <= v < n -> 0 <= w < n -> v <> w -> sl v w = if v <? w then w - v - 1 else w - v + D.
Proof.
  intros Hv Hw Nv. unfold sl. destruct (Z.ltb_spec v w).
  - apply Z.mod_small. lia.
  - replace (w - v - 1) with (w - v + D + (-1) * n) by ring. rewrite Z.mod_add by lia. apply Z.mod_small. lia.
Qed.
Lemma nb_val v i : 0 <= v < n -> 0 <= i < D -> (v + i + 1) mod n = if v + i + 1 <? n then v + i + 1 else v + i - D.
Proof.
  intros Hv Hi. destruct (Z.ltb_spec (v + i + 1) n); [apply Z.mod_small; lia|].
  replace (v + i + 1) with (v + i - D + 1 * n) by ring. rewrite Z.mod_add by lia. apply Z.mod_small. lia.
Qed.
Lemma sl_rng v w : 0 <= v < n -> 0 <= w < n -> v <> w -> 0 <= sl v w < D.
Proof. intros. rewrite sl_val by auto. destruct (Z.ltb_spec v w); lia. Qed.
Lemma nb_sl v w : 0 <= v < n -> 0 <= w < n -> v <> w -> (v + sl v w + 1) mod n = w.
Proof.
  intros. rewrite nb_val by (auto using sl_rng). rewrite sl_val by auto.
  destruct (Z.ltb_spec v w); [destruct (Z.ltb_spec (v + (w - v - 1) + 1) n)|destruct (Z.ltb_spec (v + (w - v + D) + 1) n)]; lia.
Qed.
Lemma sl_nb v i : 0 <= v < n -> 0 <= i < D -> 0 <= (v + i + 1) mod n < n /\ (v + i + 1) mod n <> v /\ sl v ((v + i + 1) mod n) = i.
Proof.
  intros Hv Hi. rewrite nb_val by auto.
  destruct (Z.ltb_spec (v + i + 1) n); (split; [lia|]; split; [lia|]; rewrite sl_val by lia).
  - destruct (Z.ltb_spec v (v + i + 1)); lia.
  - destruct (Z.ltb_spec v (v + i - D)); lia.
Qed.
Lemma sl_inj v w w' : 0 <= v < n -> 0 <= w < n -> 0 <= w' < n -> v <> w -> v <> w' -> sl v w = sl v w' -> w = w'.
Proof. intros Hv Hw Hw' N1 N2 E. rewrite <- (nb_sl v w), <- (nb_sl v w'), E by auto. auto. Qed.

Definition ring_links (b : buf) : Prop := forall v i, 0 <= v < n -> 0 <= i < D -> nb b v i = (v + i + 1) mod n.

Lemma slot_of_spec b v w : ring_links b -> 0 <= v < n -> 0 <= w < n -> v <> w -> slot_of N MX D b v w = OK (sl v w).
Proof.
  intros L Hv Hw Nv. unfold slot_of.
  apply (first_np_spec 0 _ (fun np => nb b v np =? w)).
  - intros np Hnp. rewrite rd_nb_ok by lia. reflexivity.
  - now apply sl_rng.
  - apply Z.eqb_eq. rewrite L by (auto using sl_rng). now apply nb_sl.
  - intros j Hj. pose proof (sl_rng v w Hv Hw Nv). apply Z.eqb_neq. rewrite L by (auto; lia). intros <-.
    destruct (sl_nb v j Hv ltac:(lia)) as (_ & _ & E). rewrite E in Hj. lia.
Qed.

(** the name of the face at [x] towards [y] and [z] *)
Definition Fn (fd : Z -> Z -> Z -> Z) x y z := fd x (sl x y) (sl x z).
Definition tri x y z := 0 <= x < n /\ 0 <= y < n /\ 0 <= z < n /\ x <> y /\ x <> z /\ y <> z.

Lemma set_face_spec b v wa wb f fd : ring_links b -> tri v wa wb ->
  exists fd', set_face N MX D b v wa wb f fd = OK fd'
    /\ (forall x y z, tri x y z -> Fn fd' x y z =
         if (x =? v) && (((y =? wa) && (z =? wb)) || ((y =? wb) && (z =? wa))) then f else Fn fd x y z).
Proof.
  intros L (Hv & Ha & Hb & N1 & N2 & N3). unfold set_face.
  rewrite slot_of_spec by auto. cbn [bind]. rewrite slot_of_spec by auto. cbn [bind].
  pose proof (sl_rng v wa Hv Ha N1). pose proof (sl_rng v wb Hv Hb N2).
  rewrite wr_fd_ok by lia. cbn [bind]. eexists. split; [apply wr_fd_ok; lia|].
  intros x y z (Hx & Hy & Hz & M1 & M2 & M3). unfold Fn. rewrite upd_fd, upd_fd.
  destruct (Z.eqb_spec x v) as [->|]; cbn [andb]; auto.
  assert (Q : forall y w, 0 <= y < n -> 0 <= w < n -> v <> y -> v <> w -> (sl v y =? sl v w) = (y =? w)).
  { intros y' w Hy' Hw' A B. destruct (Z.eqb_spec y' w) as [->|]; [apply Z.eqb_refl|]. apply Z.eqb_neq. intros C. apply sl_inj in C; auto. }
  rewrite !Q by auto.
  destruct (Z.eqb_spec y wa), (Z.eqb_spec z wb), (Z.eqb_spec y wb), (Z.eqb_spec z wa); cbn [andb orb]; auto.
Qed.

Lemma three_same (x y z a b c u v w : Z) : x < y -> y < z -> u < v -> v < w -> a <> b -> a <> c -> b <> c ->
  x = a \/ y = a \/ z = a \/ False -> x = b \/ y = b \/ z = b \/ False -> x = c \/ y = c \/ z = c \/ False ->
  (a = u \/ a = v) \/ a = w -> (b = u \/ b = v) \/ b = w -> (c = u \/ c = v) \/ c = w -> x = u /\ y = v /\ z = w.
Proof.
  intros Hx Hy Hu Hv N1 N2 N3 A B C A' B' C'.
  destruct A as [<-|[<-|[<-|[]]]], B as [<-|[<-|[<-|[]]]], C as [<-|[<-|[<-|[]]]]; try congruence; clear N1 N2 N3;
  destruct A' as [[->| ->]| ->], B' as [[->| ->]| ->], C' as [[->| ->]| ->]; try (exfalso; lia); auto.
Qed.

(** all six views of the triple agree *)
Definition sym (F : Z -> Z -> Z -> Z) x y z : Prop :=
  F x z y = F x y z /\ F y x z = F x y z /\ F y z x = F x y z /\ F z x y = F x y z /\ F z y x = F x y z.
Definition faces_inv (done : Z -> Z -> Z -> Prop) (s : (Z -> Z -> Z -> Z) * Z) : Prop :=
  let F := Fn (fst s) in
  0 <= snd s
  /\ (forall x y z, 0 <= x -> x < y -> y < z -> z < n -> done x y z -> sym F x y z /\ 0 <= F x y z < snd s)
  /\ (forall x y z x' y' z', 0 <= x -> x < y -> y < z -> z < n -> done x y z ->
        0 <= x' -> x' < y' -> y' < z' -> z' < n -> done x' y' z' -> F x y z = F x' y' z' -> x = x' /\ y = y' /\ z = z')
  (* every number is used *)
  /\ (forall f, 0 <= f < snd s -> exists x y z, 0 <= x /\ x < y /\ y < z /\ z < n /\ done x y z /\ F x y z = f).

Lemma faces_ext done done' s : (forall x y z, 0 <= x -> x < y -> y < z -> z < n -> (done x y z <-> done' x y z)) ->
  faces_inv done s -> faces_inv done' s.
Proof.
  intros E (H0 & H1 & H2 & H3). split; auto. split; [|split].
  - intros. apply H1; auto. apply E; auto.
  - intros. apply H2; auto; apply E; auto.
  - intros f Hf. destruct (H3 f Hf) as (x & y & z & ? & ? & ? & ? & ? & ?). exists x, y, z. repeat (split; auto). apply E; auto.
Qed.

Lemma face_step b done fd f v0 v1 v2 : ring_links b -> 0 <= v0 -> v0 < v1 -> v1 < v2 -> v2 < n -> ~ done v0 v1 v2 ->
  faces_inv done (fd, f) ->
  exists fd', (let* fd := set_face N MX D b v0 v1 v2 f fd in
     let* fd := set_face N MX D b v1 v0 v2 f fd in
     let* fd := set_face N MX D b v2 v0 v1 f fd in OK (fd, f + 1)) = OK (fd', f + 1)
  /\ faces_inv (fun x y z => done x y z \/ (x = v0 /\ y = v1 /\ z = v2)) (fd', f + 1).
Proof.
  intros L H0 H1 H2 H3 ND (I0 & I1 & I2 & I3). cbn [fst snd] in *.
  destruct (set_face_spec b v0 v1 v2 f fd L) as (fd1 & E1 & F1); [unfold tri; lia|].
  destruct (set_face_spec b v1 v0 v2 f fd1 L) as (fd2 & E2 & F2); [unfold tri; lia|].
  destruct (set_face_spec b v2 v0 v1 f fd2 L) as (fd3 & E3 & F3); [unfold tri; lia|].
  exists fd3. rewrite E1. cbn [bind]. rewrite E2. cbn [bind]. rewrite E3. cbn [bind]. split; [reflexivity|].
  assert (New : forall x y z, tri x y z ->
     Fn fd3 x y z = if ((x =? v0) || (x =? v1) || (x =? v2)) && ((y =? v0) || (y =? v1) || (y =? v2))
        && ((z =? v0) || (z =? v1) || (z =? v2)) then f else Fn fd x y z).
  { intros x y z T. rewrite F3, F2, F1 by auto. clear - T H1 H2. destruct T as (_ & _ & _ & T1 & T2 & T3).
    assert (D1 : v0 <> v1) by lia. assert (D2 : v0 <> v2) by lia. assert (D3 : v1 <> v2) by lia. clear H1 H2.
    destruct (Z.eqb_spec x v0), (Z.eqb_spec x v1), (Z.eqb_spec x v2); try congruence;
    destruct (Z.eqb_spec y v0), (Z.eqb_spec y v1), (Z.eqb_spec y v2); try congruence;
    destruct (Z.eqb_spec z v0), (Z.eqb_spec z v1), (Z.eqb_spec z v2); try congruence; reflexivity. }
  assert (Same : forall x y z, 0 <= x -> x < y -> y < z -> z < n -> (x = v0 /\ y = v1 /\ z = v2 -> False) ->
     forall a b c, tri a b c -> In a [x;y;z] -> In b [x;y;z] -> In c [x;y;z] -> Fn fd3 a b c = Fn fd a b c).
  { intros x y z Hx Hy Hz Hn Df a b' c T Ha Hb Hc. rewrite New by auto. destruct T as (_ & _ & _ & T1 & T2 & T3).
    destruct (_ && _ && _) eqn:Q; auto. exfalso.
    apply andb_true_iff in Q. destruct Q as (Q & Qc). apply andb_true_iff in Q. destruct Q as (Qa & Qb).
    rewrite !orb_true_iff, !Z.eqb_eq in Qa, Qb, Qc. cbn [In] in Ha, Hb, Hc.
    apply (Df (three_same x y z a b' c v0 v1 v2 Hy Hz ltac:(auto) ltac:(auto) T1 T2 T3 Ha Hb Hc Qa Qb Qc)). }
  assert (Fresh : forall a b c, tri a b c -> In a [v0;v1;v2] -> In b [v0;v1;v2] -> In c [v0;v1;v2] -> Fn fd3 a b c = f).
  { intros a b' c T Ha Hb Hc. rewrite New by auto. cbn [In] in Ha, Hb, Hc.
    assert (Q : forall t, In t [v0;v1;v2] -> (t =? v0) || (t =? v1) || (t =? v2) = true).
    { intros t Ht. cbn [In] in Ht. destruct (Z.eqb_spec t v0), (Z.eqb_spec t v1), (Z.eqb_spec t v2); auto. lia. }
    rewrite !Q by (cbn; auto). reflexivity. }
  assert (Old : forall x y z, 0 <= x -> x < y -> y < z -> z < n -> done x y z -> x = v0 /\ y = v1 /\ z = v2 -> False).
  { intros x y z _ _ _ _ Dn (-> & -> & ->). auto. }
  split; [cbn [snd]; lia|]. cbn [fst snd]. split; [|split].
  - intros x y z Hx Hy Hz Hn [Dn|(-> & -> & ->)].
    + destruct (I1 x y z Hx Hy Hz Hn Dn) as ((S1 & S2 & S3 & S4 & S5) & R).
      pose proof (Same x y z Hx Hy Hz Hn (Old x y z Hx Hy Hz Hn Dn)) as Sm.
      unfold sym. rewrite !Sm by (unfold tri; cbn; lia || auto). repeat split; auto; lia.
    + unfold sym. rewrite !Fresh by (unfold tri; cbn; lia || auto). repeat split; lia.
  - assert (Bound : forall x y z, 0 <= x -> x < y -> y < z -> z < n -> done x y z -> Fn fd3 x y z < f).
    { intros x y z Hx Hy Hz Hn Dn. rewrite (Same x y z) by (unfold tri; cbn; eauto; lia). destruct (I1 x y z Hx Hy Hz Hn Dn). lia. }
    intros x y z x' y' z' Hx Hy Hz Hn [Dn|(-> & -> & ->)] Hx' Hy' Hz' Hn' [Dn'|(-> & -> & ->)] E; auto.
    + rewrite (Same x y z), (Same x' y' z') in E by (unfold tri; cbn; eauto; lia). apply I2; auto.
    + rewrite (Fresh v0 v1 v2) in E by (unfold tri; cbn; lia || auto). pose proof (Bound x y z Hx Hy Hz Hn Dn). lia.
    + rewrite (Fresh v0 v1 v2) in E by (unfold tri; cbn; lia || auto). pose proof (Bound x' y' z' Hx' Hy' Hz' Hn' Dn'). lia.
  - intros f' Hf'. destruct (Z.eq_dec f' f) as [->|].
    + exists v0, v1, v2. repeat (split; auto). apply Fresh; unfold tri; cbn; auto; lia.
    + destruct (I3 f' ltac:(lia)) as (x & y & z & Hx & Hy & Hz & Hn & Dn & E). exists x, y, z. repeat (split; auto).
      rewrite (Same x y z); unfold tri; cbn; eauto; lia.
Qed.

Lemma simplex_spec p verts : exists p', rNd_init_simplex N MX D p verts = OK p'
  /\ nvN N p' = n /\ ring_links (vbN N p')
  /\ (forall v i, 0 <= v < n -> 0 <= i < D -> ps (vbN N p') v i = verts v i)
  /\ faces_inv (fun _ _ _ => True) (fdN N p', nfN N p').
Proof.
  unfold rNd_init_simplex.
  match goal with |- context [for_ 0 n ?bd (vbN N p)] => set (body := bd) end.
  destruct (for_inv (fun v b => forall u i, 0 <= u < v -> 0 <= i < D -> nb b u i = (u + i + 1) mod n /\ ps b u i = verts u i)
     0 n body (vbN N p)) as (b & E & J); [lia|intros; lia| |].
  { intros v b Hv J. unfold body.
    match goal with |- context [for_ 0 D ?bd b] => set (inner := bd) end.
    destruct (for_inv (fun k b => (forall u i, 0 <= u < v -> 0 <= i < D -> nb b u i = (u + i + 1) mod n /\ ps b u i = verts u i)
       /\ forall i, 0 <= i < k -> nb b v i = (v + i + 1) mod n /\ ps b v i = verts v i) 0 D inner b) as (b' & E & J1 & J2).
    - lia.
    - split; auto. intros; lia.
    - intros k b1 Hk (J1 & J2). unfold inner. rewrite wr_xyz_ok by lia. cbn [bind].
      eexists. split; [apply wr_nb_ok; lia|]. cbn [nb ps]; unfold set_nb. split.
      + intros u i Hu Hi. specialize (J1 u i Hu Hi). destruct J1. split; rewrite upd_neq by lia; auto.
      + intros i Hi. rewrite !upd_eq. unfold upd. destruct (Z.eqb_spec i k) as [->|]; auto. apply J2. lia.
    - exists b'. split; [exact E|]. intros u i Hu Hi. destruct (Z.eq_dec u v) as [->|]; [apply J2; auto|apply J1; lia]. }
  rewrite E. cbn [bind].
  assert (L : ring_links b) by (intros v i Hv Hi; apply J; auto).
  match goal with |- context [for_ 0 n ?bd _] => set (l0 := bd) end.
  destruct (for_inv (fun a s => faces_inv (fun x y z => x < a) s) 0 n l0 (fdN N p, 0)) as ((fd, f) & Es & I).
  - lia.
  - split; [cbn; lia|]. cbn [snd]. split; [intros; lia|]. split; [intros; lia|]. intros; lia.
  - intros a s Ha I. unfold l0.
    match goal with |- context [for_ (a + 1) n ?bd _] => set (l1 := bd) end.
    destruct (for_inv (fun b' s => faces_inv (fun x y z => x < a \/ (x = a /\ y < b')) s) (a + 1) n l1 s) as (s' & Es & I').
    + lia.
    + eapply faces_ext; [|exact I]. cbv beta. intros. lia.
    + intros b' s1 Hb I1. unfold l1.
      match goal with |- context [for_ (b' + 1) n ?bd _] => set (l2 := bd) end.
      destruct (for_inv (fun c s => faces_inv (fun x y z => x < a \/ (x = a /\ (y < b' \/ (y = b' /\ z < c)))) s) (b' + 1) n l2 s1) as (s2 & Es & I2).
      * lia.
      * eapply faces_ext; [|exact I1]. cbv beta. intros. lia.
      * intros c (fd, f) Hc I2. unfold l2.
        destruct (face_step b (fun x y z => x < a \/ (x = a /\ (y < b' \/ (y = b' /\ z < c)))) fd f a b' c L ltac:(lia) ltac:(lia) ltac:(lia) ltac:(lia) ltac:(cbv beta; lia) I2) as (fd' & E' & I').
        rewrite E'. eexists. split; [reflexivity|]. eapply faces_ext; [|exact I']. cbv beta. intros. lia.
      * exists s2. split; [exact Es|]. eapply faces_ext; [|exact I2]. cbv beta. intros. lia.
    + exists s'. split; [exact Es|]. eapply faces_ext; [|exact I']. cbv beta. intros. lia.
  - rewrite Es. cbn [bind]. eexists. split; [reflexivity|]. cbn [nvN vbN fdN nfN]. split; auto. split; auto. split.
    + intros v i Hv Hi. now apply J.
    + eapply faces_ext; [|exact I]. cbv beta. intros. lia.
Qed.

Lemma ring_good b : ring_links b -> good_links (nb b) D n.
Proof.
  intros L v i Hv Hi. rewrite !L by auto. destruct (sl_nb v i Hv Hi) as (R & Nv & E). split; auto. split; auto. split.
  - intros j Hj. rewrite L by auto. intros C. rewrite <- E, C. destruct (sl_nb v j Hv Hj) as (_ & _ & E'). auto.
  - exists (sl ((v + i + 1) mod n) v). split; [apply sl_rng; auto|]. rewrite L by (auto; apply sl_rng; auto). apply nb_sl; auto.
Qed.

(** the vertices of the 2-face at [v] spanned by slots [i], [j] *)
Definition corner (f : Z -> Z -> Z) v i j x : Prop := x = v \/ x = f v i \/ x = f v j.

Lemma sym_any F x y z : (forall x y z, 0 <= x -> x < y -> y < z -> z < n -> sym F x y z) -> tri x y z -> sym F x y z.
Proof.
  intros H (Hx & Hy & Hz & N1 & N2 & N3).
  destruct (Z_lt_dec x y), (Z_lt_dec y z), (Z_lt_dec x z); try lia.
  - apply H; lia.
  - destruct (H x z y) as (A & B & C & D' & E); try lia. unfold sym. rewrite A, B, C, D', E. auto.
  - destruct (H z x y) as (A & B & C & D' & E); try lia. unfold sym. rewrite A, B, C, D', E. auto.
  - destruct (H y x z) as (A & B & C & D' & E); try lia. unfold sym. rewrite A, B, C, D', E. auto.
  - destruct (H y z x) as (A & B & C & D' & E); try lia. unfold sym. rewrite A, B, C, D', E. auto.
  - destruct (H z y x) as (A & B & C & D' & E); try lia. unfold sym. rewrite A, B, C, D', E. auto.
Qed.

Lemma sort3 F x y z : tri x y z -> (forall x y z, 0 <= x -> x < y -> y < z -> z < n -> sym F x y z) ->
  exists a b c, 0 <= a /\ a < b /\ b < c /\ c < n /\ F x y z = F a b c
    /\ forall t, (t = x \/ t = y \/ t = z) <-> (t = a \/ t = b \/ t = c).
Proof.
  intros T H. destruct T as (Hx & Hy & Hz & N1 & N2 & N3).
  destruct (Z_lt_dec x y), (Z_lt_dec y z), (Z_lt_dec x z); try lia.
  - exists x, y, z. do 4 (split; [lia|]). split; [auto|tauto].
  - exists x, z, y. do 4 (split; [lia|]). destruct (H x z y) as (A & B & C & D' & E); try lia. split; [congruence|tauto].
  - exists z, x, y. do 4 (split; [lia|]). destruct (H z x y) as (A & B & C & D' & E); try lia. split; [congruence|tauto].
  - exists y, x, z. do 4 (split; [lia|]). destruct (H y x z) as (A & B & C & D' & E); try lia. split; [congruence|tauto].
  - exists y, z, x. do 4 (split; [lia|]). destruct (H y z x) as (A & B & C & D' & E); try lia. split; [congruence|tauto].
  - exists z, y, x. do 4 (split; [lia|]). destruct (H z y x) as (A & B & C & D' & E); try lia. split; [congruence|tauto].
Qed.

Lemma ring_tri b v i j : ring_links b -> 0 <= v < n -> 0 <= i < D -> 0 <= j < D -> i <> j -> tri v (nb b v i) (nb b v j)
  /\ sl v (nb b v i) = i /\ sl v (nb b v j) = j.
Proof.
  intros L Hv Hi Hj Nj. rewrite !L by auto.
  destruct (sl_nb v i Hv Hi) as (R & Nv & E). destruct (sl_nb v j Hv Hj) as (R' & Nv' & E').
  split; auto. split; auto. split; auto. split; auto. split; auto. split; auto. intros C. apply Nj. rewrite <- E, <- E', C. auto.
Qed.

Lemma faces_names b fd nf : ring_links b -> faces_inv (fun _ _ _ => True) (fd, nf) ->
  (forall v i j, 0 <= v < n -> 0 <= i < D -> 0 <= j < D -> i <> j -> 0 <= fd v i j < nf /\ fd v j i = fd v i j)
  /\ forall v i j v' i' j', 0 <= v < n -> 0 <= i < D -> 0 <= j < D -> i <> j ->
       0 <= v' < n -> 0 <= i' < D -> 0 <= j' < D -> i' <> j' ->
       (fd v i j = fd v' i' j' <-> forall x, corner (nb b) v i j x <-> corner (nb b) v' i' j' x).
Proof.
  intros L (_ & I1 & I2 & _). cbn [fst snd] in *.
  assert (Sy : forall x y z, 0 <= x -> x < y -> y < z -> z < n -> sym (Fn fd) x y z) by (intros; apply I1; auto).
  assert (View : forall v i j, 0 <= v < n -> 0 <= i < D -> 0 <= j < D -> i <> j -> fd v i j = Fn fd v (nb b v i) (nb b v j)).
  { intros v i j Hv Hi Hj Nj. destruct (ring_tri b v i j L Hv Hi Hj Nj) as (_ & E1 & E2). unfold Fn. now rewrite E1, E2. }
  split.
  - intros v i j Hv Hi Hj Nj. destruct (ring_tri b v i j L Hv Hi Hj Nj) as (T & _ & _). split.
    + rewrite View by auto. destruct (sort3 (Fn fd) _ _ _ T Sy) as (x & y & z & ? & ? & ? & ? & -> & _). apply I1; auto.
    + rewrite (View v j i), (View v i j) by auto. apply sym_any; auto.
  - intros v i j v' i' j' Hv Hi Hj Nj Hv' Hi' Hj' Nj'.
    destruct (ring_tri b v i j L Hv Hi Hj Nj) as (T & _ & _). destruct (ring_tri b v' i' j' L Hv' Hi' Hj' Nj') as (T' & _ & _).
    rewrite (View v i j), (View v' i' j') by auto.
    destruct (sort3 (Fn fd) _ _ _ T Sy) as (x & y & z & ? & ? & ? & ? & -> & M).
    destruct (sort3 (Fn fd) _ _ _ T' Sy) as (x' & y' & z' & ? & ? & ? & ? & -> & M'). unfold corner. split.
    + intros E. apply I2 in E; auto. destruct E as (-> & -> & ->). intros t. rewrite M, M'. tauto.
    + intros E. assert (Q : forall t, (t = x \/ t = y \/ t = z) <-> (t = x' \/ t = y' \/ t = z')).
      { intros t. rewrite <- M, <- M'. apply E. }
      assert (x = x' /\ y = y' /\ z = z') as (-> & -> & ->); auto.
      pose proof (proj1 (Q x) ltac:(auto)). pose proof (proj1 (Q y) ltac:(auto)). pose proof (proj1 (Q z) ltac:(auto)).
      clear - H H0 H1 H3 H4 H5 H7 H8 H9. lia.
Qed.
End Simplex.

(** ** box *)
Section Box.
Hypothesis HD : 0 <= D.
Hypothesis HM : 2 ^ D <= MX.
Notation n := (2 ^ D).

Definition cube_links (b : buf) : Prop := forall v i, 0 <= v < n -> 0 <= i < D -> nb b v i = Z.lxor v (2 ^ i).

Lemma lxor_rng v i : 0 <= v < n -> 0 <= i < D -> 0 <= Z.lxor v (2 ^ i) < n.
Proof.
  intros Hv Hi. assert (0 < 2 ^ i) by (apply Z.pow_pos_nonneg; lia).
  assert (H0 : 0 <= Z.lxor v (2 ^ i)) by (apply Z.lxor_nonneg; lia). split; auto.
  destruct (Z.eq_dec (Z.lxor v (2 ^ i)) 0) as [->|]; [apply Z.pow_pos_nonneg; lia|].
  assert (Lv : v = 0 \/ Z.log2 v < D) by (destruct (Z.eq_dec v 0); auto; right; apply Z.log2_lt_pow2; lia).
  apply Z.log2_lt_pow2; [lia|].
  pose proof (Z.log2_lxor v (2 ^ i) ltac:(lia) ltac:(lia)). rewrite (Z.log2_pow2 i) in H1 by lia.
  destruct Lv as [Z0|]; [rewrite Z0 in H1; change (Z.log2 0) with 0 in H1; rewrite Z.max_r in H1 by lia; rewrite Z0|]; lia.
Qed.
Lemma lxor_inj v i j : 0 <= i -> 0 <= j -> Z.lxor v (2 ^ i) = Z.lxor v (2 ^ j) -> i = j.
Proof.
  intros Hi Hj E. apply (f_equal (Z.lxor v)) in E. rewrite <- !Z.lxor_assoc, Z.lxor_nilpotent, !Z.lxor_0_l in E.
  apply Z.pow_inj_r in E; auto; lia.
Qed.
Lemma cube_good b : cube_links b -> good_links (nb b) D n.
Proof.
  intros L v i Hv Hi. pose proof (lxor_rng v i Hv Hi). rewrite !L by auto. split; auto. split; [|split].
  - intros E. rewrite <- (Z.lxor_0_r v) in E at 2. apply (f_equal (Z.lxor v)) in E.
    rewrite <- !Z.lxor_assoc, Z.lxor_nilpotent, !Z.lxor_0_l in E. assert (0 < 2 ^ i) by (apply Z.pow_pos_nonneg; lia). lia.
  - intros j Hj. rewrite L by auto. apply lxor_inj; lia.
  - exists i. split; auto. rewrite L by auto. now rewrite Z.lxor_assoc, Z.lxor_nilpotent, Z.lxor_0_r.
Qed.

(** what the face loops establish after the pairs [done] *)
Definition cube_inv (done : Z -> Z -> Prop) (s : (Z -> Z -> Z -> Z) * Z) : Prop :=
  0 <= snd s /\ exists id : Z -> Z -> Z,
   (forall i j, 0 <= i -> i < j -> j < D -> done i j -> 0 <= id i j < snd s
      /\ forall v, 0 <= v < n -> fst s v i j = id i j /\ fst s v j i = id i j)
   /\ (forall i j i' j', 0 <= i -> i < j -> j < D -> done i j -> 0 <= i' -> i' < j' -> j' < D -> done i' j' ->
         id i j = id i' j' -> i = i' /\ j = j').
Lemma cube_ext done done' s : (forall i j, 0 <= i -> i < j -> j < D -> (done i j <-> done' i j)) ->
  cube_inv done s -> cube_inv done' s.
Proof.
  intros E (H0 & id & H1 & H2). split; auto. exists id. split.
  - intros. apply H1; auto. apply E; auto.
  - intros. apply H2; auto; apply E; auto.
Qed.

Lemma box_spec p lo hi : exists p', rNd_init_box N MX D p lo hi = OK p'
  /\ nvN N p' = n /\ cube_links (vbN N p')
  /\ (forall v i, 0 <= v < n -> 0 <= i < D -> ps (vbN N p') v i = if Z.testbit v i then hi i else lo i)
  /\ cube_inv (fun _ _ => True) (fdN N p', nfN N p').
Proof.
  assert (Hn : 0 < n) by (apply Z.pow_pos_nonneg; lia).
  unfold rNd_init_box.
  match goal with |- context [for_ 0 n ?bd (vbN N p)] => set (body := bd) end.
  destruct (for_inv (fun v b => forall u i, 0 <= u < v -> 0 <= i < D -> nb b u i = Z.lxor u (2 ^ i) /\ ps b u i = if Z.testbit u i then hi i else lo i)
     0 n body (vbN N p)) as (b & E & J); [lia|intros; lia| |].
  { intros v b Hv J. unfold body.
    match goal with |- context [for_ 0 D ?bd b] => set (inner := bd) end.
    destruct (for_inv (fun k b => (forall u i, 0 <= u < v -> 0 <= i < D -> nb b u i = Z.lxor u (2 ^ i) /\ ps b u i = if Z.testbit u i then hi i else lo i)
       /\ forall i, 0 <= i < k -> nb b v i = Z.lxor v (2 ^ i) /\ ps b v i = if Z.testbit v i then hi i else lo i) 0 D inner b) as (b' & E & J1 & J2).
    - lia.
    - split; auto. intros; lia.
    - intros k b1 Hk (J1 & J2). unfold inner. rewrite wr_xyz_ok by lia. cbn [bind].
      eexists. split; [apply wr_nb_ok; lia|]. cbn [nb ps]; unfold set_nb. split.
      + intros u i Hu Hi. specialize (J1 u i Hu Hi). destruct J1. split; rewrite upd_neq by lia; auto.
      + intros i Hi. rewrite !upd_eq. unfold upd. destruct (Z.eqb_spec i k) as [->|]; [|apply J2; lia]. split; auto.
        assert (Et : Z.land v (2 ^ k) = if Z.testbit v k then 2 ^ k else 0).
        { apply Z.bits_inj'. intros q Hq. rewrite Z.land_spec, Z.pow2_bits_eqb by lia.
          destruct (Z.eqb_spec k q) as [->|].
          - destruct (Z.testbit v q); [now rewrite Z.pow2_bits_true|now rewrite Z.bits_0].
          - rewrite andb_false_r. destruct (Z.testbit v k); [now rewrite Z.pow2_bits_false|now rewrite Z.bits_0]. }
        rewrite Et. assert (0 < 2 ^ k) by (apply Z.pow_pos_nonneg; lia).
        destruct (Z.testbit v k); [destruct (Z.ltb_spec 0 (2 ^ k)); auto; lia|reflexivity].
    - exists b'. split; [exact E|]. intros u i Hu Hi. destruct (Z.eq_dec u v) as [->|]; [apply J2; auto|apply J1; lia]. }
  rewrite E. cbn [bind].
  match goal with |- context [for_ 0 D ?bd _] => set (l0 := bd) end.
  destruct (for_inv (fun a s => cube_inv (fun i j => i < a) s) 0 D l0 (fdN N p, 0)) as ((fd, f) & Es & I).
  - lia.
  - split; [cbn; lia|]. exists (fun _ _ => 0). split; intros; lia.
  - intros a s Ha I. unfold l0.
    match goal with |- context [for_ (a + 1) D ?bd _] => set (l1 := bd) end.
    destruct (for_inv (fun c s => cube_inv (fun i j => i < a \/ (i = a /\ j < c)) s) (a + 1) D l1 s) as (s' & Es & I').
    + lia.
    + eapply cube_ext; [|exact I]. cbv beta. intros. lia.
    + intros c (fd, f) Hc (I0 & id & I1 & I2). cbn [fst snd] in *. unfold l1.
      match goal with |- context [for_ 0 n ?bd fd] => set (l2 := bd) end.
      destruct (for_inv (fun v fd' => forall u i j, fd' u i j =
          if (0 <=? u) && (u <? v) && (((i =? a) && (j =? c)) || ((i =? c) && (j =? a))) then f else fd u i j) 0 n l2 fd) as (fd' & Ef & Jf).
      * lia.
      * intros u i j. destruct (Z.leb_spec 0 u), (Z.ltb_spec u 0); auto; lia.
      * intros v fd1 Hv J1. unfold l2. rewrite wr_fd_ok by lia. cbn [bind]. eexists. split; [apply wr_fd_ok; lia|].
        intros u i j. rewrite upd_fd, upd_fd, J1.
        destruct (Z.eqb_spec u v) as [->|].
        -- destruct (Z.leb_spec 0 v), (Z.ltb_spec v v), (Z.ltb_spec v (v + 1)); try lia.
           destruct (Z.eqb_spec i c), (Z.eqb_spec j a), (Z.eqb_spec i a), (Z.eqb_spec j c); reflexivity.
        -- cbn [andb]. destruct (Z.leb_spec 0 u), (Z.ltb_spec u v), (Z.ltb_spec u (v + 1)); try lia; reflexivity.
      * rewrite Ef. cbn [bind]. eexists. split; [reflexivity|]. split; [cbn [snd]; lia|].
        exists (fun i j => if (i =? a) && (j =? c) then f else id i j). cbn [fst snd].
        assert (Old : forall i j, 0 <= i -> i < j -> (i < a \/ i = a /\ j < c) -> (i =? a) && (j =? c) = false).
        { intros i j Hi Hj Dn. destruct (Z.eqb_spec i a), (Z.eqb_spec j c); auto; lia. }
        split.
        -- intros i j Hi Hj HjD Dn. destruct (Z.eqb_spec i a) as [->|Na]; cbn [andb]; [destruct (Z.eqb_spec j c) as [->|Nc]|].
           ++ split; [lia|]. intros v Hv. rewrite !Jf. destruct (Z.leb_spec 0 v), (Z.ltb_spec v n); try lia.
              rewrite !Z.eqb_refl. cbn [andb orb]. destruct ((c =? a) && (a =? c)); auto.
           ++ destruct (I1 a j Hi Hj HjD ltac:(lia)) as (R & S). split; [lia|]. intros v Hv. rewrite !Jf.
              destruct (Z.eqb_spec a a), (Z.eqb_spec j c), (Z.eqb_spec a c), (Z.eqb_spec j a); try lia.
              cbn [andb orb]. rewrite !andb_false_r. now apply S.
           ++ destruct (I1 i j Hi Hj HjD ltac:(lia)) as (R & S). split; [lia|]. intros v Hv. rewrite !Jf.
              destruct (Z.eqb_spec i a), (Z.eqb_spec i c), (Z.eqb_spec j a), (Z.eqb_spec j c); try lia;
              cbn [andb orb]; rewrite !andb_false_r; now apply S.
        -- intros i j i' j' Hi Hj HjD Dn Hi' Hj' HjD' Dn'.
           destruct (Z.eqb_spec i a), (Z.eqb_spec j c), (Z.eqb_spec i' a), (Z.eqb_spec j' c); cbn [andb]; subst; auto; intros Eq.
           all: try (apply I2; auto; lia).
           all: exfalso;
             first [destruct (I1 i j ltac:(lia) ltac:(lia) ltac:(lia) ltac:(lia)); lia
                   |destruct (I1 i' j' ltac:(lia) ltac:(lia) ltac:(lia) ltac:(lia)); lia
                   |destruct (I1 a j ltac:(lia) ltac:(lia) ltac:(lia) ltac:(lia)); lia
                   |destruct (I1 a j' ltac:(lia) ltac:(lia) ltac:(lia) ltac:(lia)); lia
                   |destruct (I1 i c ltac:(lia) ltac:(lia) ltac:(lia) ltac:(lia)); lia
                   |destruct (I1 i' c ltac:(lia) ltac:(lia) ltac:(lia) ltac:(lia)); lia].
    + exists s'. split; [exact Es|]. eapply cube_ext; [|exact I']. cbv beta. intros. lia.
  - rewrite Es. cbn [bind]. eexists. split; [reflexivity|]. cbn [nvN vbN fdN nfN]. split; auto. split; [|split].
    + intros v i Hv Hi. now apply J.
    + intros v i Hv Hi. now apply J.
    + eapply cube_ext; [|exact I]. cbv beta. intros. lia.
Qed.

Lemma cube_names fd nf : cube_inv (fun _ _ => True) (fd, nf) ->
  (forall v i j, 0 <= v < n -> 0 <= i < D -> 0 <= j < D -> i <> j -> 0 <= fd v i j < nf /\ fd v j i = fd v i j)
  /\ forall v i j v' i' j', 0 <= v < n -> 0 <= i < D -> 0 <= j < D -> i <> j ->
       0 <= v' < n -> 0 <= i' < D -> 0 <= j' < D -> i' <> j' ->
       (fd v i j = fd v' i' j' <-> (i' = i /\ j' = j) \/ (i' = j /\ j' = i)).
Proof.
  intros (_ & id & I1 & I2). cbn [fst snd] in *.
  assert (Srt : forall v i j, 0 <= v < n -> 0 <= i < D -> 0 <= j < D -> i <> j ->
     fd v i j = id (Z.min i j) (Z.max i j) /\ 0 <= id (Z.min i j) (Z.max i j) < nf).
  { intros v i j Hv Hi Hj Nj. destruct (Z_lt_dec i j).
    - rewrite Z.min_l, Z.max_r by lia. destruct (I1 i j) as (R & S); auto; try lia. split; [|lia]. now apply S.
    - rewrite Z.min_r, Z.max_l by lia. destruct (I1 j i) as (R & S); auto; try lia. split; [|lia]. now apply S. }
  split.
  - intros v i j Hv Hi Hj Nj. destruct (Srt v i j) as (E & R); auto. destruct (Srt v j i) as (E' & _); auto.
    rewrite E, E', (Z.min_comm j i), (Z.max_comm j i). auto.
  - intros v i j v' i' j' Hv Hi Hj Nj Hv' Hi' Hj' Nj'.
    destruct (Srt v i j) as (E & R); auto. destruct (Srt v' i' j') as (E' & R'); auto. rewrite E, E'. split.
    + intros Q. apply I2 in Q; auto; lia.
    + intros [(-> & ->)|(-> & ->)]; auto. now rewrite (Z.min_comm j i), (Z.max_comm j i).
Qed.
End Box.
End Gen.
