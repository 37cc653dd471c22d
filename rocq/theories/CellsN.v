(** * CellsN: simplices, boxes and a duoprism as cell structures; the duoprism overflows
    the vertex buffer in [rNd_clip]. *)
From Coq Require Import Reals ZArith List Bool Lia Lra.
From Verif Require Import Base Lib SumR ModelCommon CommonFacts ModelN ModelNC SpecN SpecNC TransN InitN GlueN RealNum Clip2 Cons2 InsN CutN ClipN.
Import ListNotations.
Open Scope Z_scope.

Lemma good_simple D n f : good_links f D n -> simple_edges D (upto n) f.
Proof. intros G v i j Hv Hi Hj E. apply (G v i Hv Hi); auto. Qed.

(** ** boxes *)
Definition boxh (v i : Z) : Z := 2 * i + Z.b2z (Z.testbit v i).
Lemma testbit_flip v i j : 0 <= i -> 0 <= j -> Z.testbit (Z.lxor v (2 ^ i)) j = if i =? j then negb (Z.testbit v j) else Z.testbit v j.
Proof.
  intros Hi Hj. rewrite Z.lxor_spec. destruct (Z.eqb_spec i j) as [->|Nij].
  - rewrite Z.pow2_bits_true by auto. now rewrite xorb_true_r.
  - rewrite Z.pow2_bits_false by auto. now rewrite xorb_false_r.
Qed.
Lemma box_cells N MX D (p : polyN N) lo hi : 0 <= D -> 2 ^ D <= MX -> exists p', rNd_init_box N MX D p lo hi = OK p'
  /\ nvN N p' = 2 ^ D /\ 0 <= nfN N p'
  /\ (forall v i, 0 <= v < 2 ^ D -> 0 <= i < D -> ps (vbN N p') v i = if Z.testbit v i then hi i else lo i)
  /\ (forall v i, 0 <= v < 2 ^ D -> 0 <= i < D -> nb (vbN N p') v i = Z.lxor v (2 ^ i))
  /\ cells D (upto (2 ^ D)) (nfN N p') (2 * D) (nb (vbN N p')) (fun _ i => i) boxh (fdN N p')
  /\ simple_edges D (upto (2 ^ D)) (nb (vbN N p')).
Proof.
  intros HD HM. destruct (box_spec N MX D HD HM p lo hi) as (p' & E & En & L & P & F). exists p'. split; auto. split; auto. split; [apply F|]. split; auto. split; auto.
  pose proof (cube_good N D HD (vbN N p') L) as G. split; [|now apply good_simple].
  destruct (cube_names D HD (fdN N p') (nfN N p') F) as (F1 & F2).
  constructor.
  - intros v i Hv Hi. destruct (G v i Hv Hi) as (G1 & G2 & _). auto.
  - intros v i Hv Hi. destruct (G v i Hv Hi) as (G1 & _). split; auto. split; auto. rewrite !L in * by auto. rewrite Z.lxor_assoc, Z.lxor_nilpotent. apply Z.lxor_0_r.
  - intros v i Hv Hi. unfold boxh. destruct (Z.testbit v i); cbn [Z.b2z]; lia.
  - intros v i j Hv Hi Hj. unfold boxh. destruct (Z.testbit v i), (Z.testbit v j); cbn [Z.b2z]; lia.
  - intros v i j Hv Hi Hj Nij. apply F1; auto.
  - intros v i j i' j' Hv Hi Hj Nij Hi' Hj' Nij' Q. apply F2 in Q; auto.
  - intros v i j Hv Hi Hj Nij. destruct (G v i Hv Hi) as (G1 & _). exists j. split; auto. split; auto. split.
    + unfold boxh. rewrite L by auto. rewrite testbit_flip by lia. destruct (Z.eqb_spec i j); [congruence|auto].
    + apply F2; auto.
Qed.

(** ** simplices *)
Lemma simplex_cells N MX D (p : polyN N) verts : 1 <= D -> D + 1 <= MX -> exists p', rNd_init_simplex N MX D p verts = OK p'
  /\ nvN N p' = D + 1 /\ 0 <= nfN N p'
  /\ (forall v i, 0 <= v < D + 1 -> 0 <= i < D -> ps (vbN N p') v i = verts v i)
  /\ (forall v i, 0 <= v < D + 1 -> 0 <= i < D -> nb (vbN N p') v i = (v + i + 1) mod (D + 1))
  /\ cells D (upto (D + 1)) (nfN N p') (D + 1) (nb (vbN N p')) (fun v i => sl D (nb (vbN N p') v i) v) (nb (vbN N p')) (fdN N p')
  /\ simple_edges D (upto (D + 1)) (nb (vbN N p')).
Proof.
  intros HD HM. destruct (simplex_spec N MX D HD HM p verts) as (p' & E & En & L & P & F). exists p'. split; auto. split; auto. split; [apply F|]. split; auto. split; auto.
  pose proof (ring_good N D HD (vbN N p') L) as G. split; [|now apply good_simple].
  destruct (faces_names N D HD (vbN N p') (fdN N p') (nfN N p') L F) as (F1 & F2). set (f := nb (vbN N p')) in *.
  assert (SL : forall v w, 0 <= v < D + 1 -> 0 <= w < D + 1 -> v <> w -> 0 <= sl D v w < D /\ f v (sl D v w) = w).
  { intros v w Hv Hw Nw. pose proof (sl_rng D HD v w Hv Hw Nw). split; auto. unfold f. rewrite L by auto. apply nb_sl; auto. }
  assert (SN : forall v i, 0 <= v < D + 1 -> 0 <= i < D -> sl D v (f v i) = i).
  { intros v i Hv Hi. unfold f. rewrite L by auto. apply sl_nb; auto. }
  constructor.
  - intros v i Hv Hi. destruct (G v i Hv Hi) as (G1 & G2 & _). auto.
  - intros v i Hv Hi. destruct (G v i Hv Hi) as (G1 & G2 & _). destruct (SL (f v i) v) as (A1 & A2); auto. split; auto. split; auto. rewrite A2. apply SN; auto.
  - intros v i Hv Hi. apply (G v i); auto.
  - intros v i j Hv Hi Hj. apply (G v i Hv Hi); auto.
  - intros v i j Hv Hi Hj Nij. apply F1; auto.
  - intros v i j i' j' Hv Hi Hj Nij Hi' Hj' Nij' Q. pose proof (proj1 (F2 v i j v i' j' Hv Hi Hj Nij Hv Hi' Hj' Nij') Q) as Q'. clear Q. rename Q' into Q. unfold corner in Q.
    destruct (G v i Hv Hi) as (_ & I1 & I2 & _). destruct (G v j Hv Hj) as (_ & J1 & J2 & _).
    destruct (G v i' Hv Hi') as (_ & I1' & I2' & _). destruct (G v j' Hv Hj') as (_ & J1' & J2' & _).
    destruct (proj1 (Q (f v i)) ltac:(auto)) as [X|[X|X]]; [congruence| |]; apply I2 in X; auto; subst;
    destruct (proj1 (Q (f v j)) ltac:(auto)) as [Y|[Y|Y]]; try congruence; apply J2 in Y; auto; subst; auto; congruence.
  - intros v i j Hv Hi Hj Nij. destruct (G v i Hv Hi) as (G1 & G2 & G3 & _). destruct (G v j Hv Hj) as (H1 & H2 & _).
    assert (Nw : f v i <> f v j) by (intros X; apply G3 in X; auto).
    destruct (SL (f v i) (f v j)) as (A1 & A2); auto. destruct (SL (f v i) v) as (B1 & B2); auto.
    exists (sl D (f v i) (f v j)). split; auto. split; [congruence|]. split; auto.
    apply F2; auto; [congruence|]. intros x. fold f. unfold corner. rewrite A2, B2. tauto.
Qed.

(** ** the duoprism of a 341-gon and a triangle *)
Definition dufd (v i j : Z) : Z :=
  let a := v mod 341 in let c := v / 341 in
  let ea k := if k =? 0 then nba 0 a else a in
  let ec k := if k =? 1 then nbc 1 c else c in
  if ((i =? 0) || (i =? 3)) && ((j =? 0) || (j =? 3)) then c
  else if ((i =? 1) || (i =? 2)) && ((j =? 1) || (j =? 2)) then 3 + a
  else if (i =? 0) || (i =? 3) then 344 + 341 * ec j + ea i else 344 + 341 * ec i + ea j.
Definition duh (v i : Z) : Z :=
  let a := v mod 341 in let c := v / 341 in
  if i =? 0 then a else if i =? 3 then nba 0 a else if i =? 1 then 341 + c else 341 + nbc 1 c.
Definition duoc : polyN RN := PN RN (VB du dpos) dufd 1023 1367.
Definition swp (i j : Z) : Z := if (i =? 1) || (i =? 2) then (if (j =? 1) || (j =? 2) then i else j) else (if (j =? 0) || (j =? 3) then i else j).

Ltac four i H := assert (i = 0 \/ i = 1 \/ i = 2 \/ i = 3) as [->|[->|[->| ->]]] by (clear - H; lia).
Ltac red4 := change (3 - 0) with 3; change (3 - 1) with 2; change (3 - 2) with 1; change (3 - 3) with 0; cbn [Z.eqb Pos.eqb orb andb].
Lemma duo_cells : cells 4 (upto 1023) 1367 344 du (fun _ i => 3 - i) duh dufd.
Proof.
  assert (G := du_good).
  constructor.
  - intros v i Hv Hi. destruct (G v i Hv Hi) as (G1 & G2 & _). auto.
  - intros v i Hv Hi. split; [lia|]. split; [|lia].
    destruct (du_split v Hv) as (Ha & Hc & E). set (a := v mod 341) in *. set (c := v / 341) in *. clearbody a c. subst v.
    destruct (du_ac a c i Ha Hc Hi) as (-> & Ra & Rc). destruct (du_ac (nba i a) (nbc i c) (3 - i) Ra Rc ltac:(lia)) as (-> & _).
    four i Hi; unfold nba, nbc; red4; repeat match goal with |- context [?x =? ?y] => lazymatch x with context [if _ then _ else _] => fail | _ => destruct (Z.eqb_spec x y) end end; lia.
  - intros v i Hv Hi. destruct (du_split v Hv) as (Ha & Hc & E). unfold duh. set (a := v mod 341) in *. set (c := v / 341) in *. clearbody a c. subst v.
    four i Hi; unfold nba, nbc; red4; repeat match goal with |- context [?x =? ?y] => lazymatch x with context [if _ then _ else _] => fail | _ => destruct (Z.eqb_spec x y) end end; lia.
  - intros v i j Hv Hi Hj. destruct (du_split v Hv) as (Ha & Hc & E). unfold duh. set (a := v mod 341) in *. set (c := v / 341) in *. clearbody a c. subst v.
    four i Hi; four j Hj; auto; unfold nba, nbc; red4; repeat match goal with |- context [?x =? ?y] => lazymatch x with context [if _ then _ else _] => fail | _ => destruct (Z.eqb_spec x y) end end; lia.
  - intros v i j Hv Hi Hj Nij. destruct (du_split v Hv) as (Ha & Hc & E). unfold dufd. set (a := v mod 341) in *. set (c := v / 341) in *. clearbody a c. subst v.
    four i Hi; four j Hj; try congruence; unfold nba, nbc; red4; repeat match goal with |- context [?x =? ?y] => lazymatch x with context [if _ then _ else _] => fail | _ => destruct (Z.eqb_spec x y) end end; lia.
  - intros v i j i' j' Hv Hi Hj Nij Hi' Hj' Nij'. destruct (du_split v Hv) as (Ha & Hc & E). unfold dufd. set (a := v mod 341) in *. set (c := v / 341) in *. clearbody a c. subst v.
    four i Hi; four j Hj; try congruence; four i' Hi'; four j' Hj'; try congruence; auto; unfold nba, nbc; red4;
      repeat match goal with |- context [?x =? ?y] => lazymatch x with context [if _ then _ else _] => fail | _ => destruct (Z.eqb_spec x y) end end; lia.
  - intros v i j Hv Hi Hj Nij.
    destruct (du_split v Hv) as (Ha & Hc & E). exists (if j =? 3 - i then i else j).
    split; [destruct (Z.eqb_spec j (3 - i)); lia|]. split; [destruct (Z.eqb_spec j (3 - i)); lia|].
    set (a := v mod 341) in *. set (c := v / 341) in *.
    assert (W : du v i = 341 * nbc i c + nba i a /\ 0 <= nba i a < 341 /\ 0 <= nbc i c < 3) by (rewrite E at 1; apply du_ac; auto).
    destruct W as (-> & Ra & Rc). unfold duh, dufd. fold a c.
    destruct (du_join (nba i a) (nbc i c) Ra ltac:(lia)) as (-> & ->). clearbody a c.
    four i Hi; four j Hj; try congruence; unfold nba, nbc; red4;
      repeat match goal with |- context [?x =? ?y] => lazymatch x with context [if _ then _ else _] => fail | _ => destruct (Z.eqb_spec x y) end end; try lia.
Qed.

Definition duoplane : planeN RN := PLN RN (fun i => if i =? 0 then 1%R else 0%R) (-1 / 2)%R.
Lemma duo_sd v : sdfN RN 4 duoplane (vbN RN duoc) v = (IZR (v mod 341) - 1 / 2)%R.
Proof. unfold sdfN, duoplane, dpos. change (zrange 4) with [0; 1; 2; 3]; cbn [fold_left nN dN]. cbn [vbN duoc ps]. unfold dpos. cbn [Z.eqb Pos.eqb]. cbn [nadd nmul RN]. change (T RN) with R. change (n0 RN) with 0%R. set (x := IZR (v mod 341)). lra. Qed.
Lemma duo_keep v : keepvN RN 4 duoplane (vbN RN duoc) v = negb (Rltb (IZR (v mod 341) - 1 / 2) 0).
Proof. unfold keepvN. rewrite duo_sd. reflexivity. Qed.
Lemma duo_overflow fuel : (Z.to_nat (1024 * 4 * 4 * 4) <= fuel)%nat -> rNd_clip RN 1024 4 fuel duoc [duoplane] = Err OutOfBounds.
Proof.
  intros Hf. unfold rNd_clip. change (nvN RN duoc <=? 0) with false. cbv iota.
  assert (K0 : keepvN RN 4 duoplane (vbN RN duoc) 0 = false).
  { rewrite duo_keep. change (0 mod 341) with 0. destruct (Rltb (0 - 1 / 2) 0) eqn:E; auto. exfalso. apply Bool.not_true_iff_false in E. apply E. apply Rltb_true. lra. }
  assert (K1 : forall v, 1 <= v mod 341 -> keepvN RN 4 duoplane (vbN RN duoc) v = true).
  { intros v Hv. rewrite duo_keep. apply IZR_le in Hv. destruct (Rltb (IZR (v mod 341) - 1 / 2) 0) eqn:E; auto. exfalso. apply Rltb_true in E. lra. }
  pose proof (clipN_one RN 1024 4 fuel duoc duoplane 344 (fun _ i => 3 - i) duh ltac:(lia) ltac:(cbn; lia) ltac:(cbn; lia) Hf duo_cells (good_simple _ _ _ du_good) []) as H.
  cbv zeta in H.
  destruct (nle RN (n0 RN) (minf RN (sdfN RN 4 duoplane (vbN RN duoc)) (nvN RN duoc) (nbig RN))) eqn:E1.
  { exfalso. apply minf_R in E1 as (_ & E1). specialize (E1 0 ltac:(cbn; lia)). rewrite duo_sd in E1. change (0 mod 341) with 0 in E1. lra. }
  destruct (nle RN (maxf RN (sdfN RN 4 duoplane (vbN RN duoc)) (nvN RN duoc) (nopp RN (nbig RN))) (n0 RN)) eqn:E2.
  { exfalso. apply maxf_R in E2 as (_ & E2). specialize (E2 1 ltac:(cbn; lia)). rewrite duo_sd in E2. change (1 mod 341) with 1 in E2. lra. }
  destruct H as [(H & _)|(_ & H)]; [|exact H]. exfalso.
  assert (X : (length [(1, 0)%Z; (340, 3)%Z] <= length (filter (fun x : Z * Z => keepvN RN 4 duoplane (vbN RN duoc) (fst x) && negb (keepvN RN 4 duoplane (vbN RN duoc) (du (fst x) (snd x))))
    (flat_map (fun v => map (pair v) (zrange 4)) (zrange 1023))))%nat).
  { apply NoDup_incl_length.
    - repeat constructor; cbn; intuition congruence.
    - intros x [<-|[<-|[]]]; apply filter_In; (split; [apply in_flat_map; eexists; split; [apply in_zrange|apply in_map, in_zrange]; lia|]); cbn [fst snd].
      + change (du 1 0) with 0. rewrite K0, K1; auto. change (1 mod 341) with 1. lia.
      + change (du 340 3) with 0. rewrite K0, K1; auto. change (340 mod 341) with 340. lia. }
  unfold cut_edges in H. change (nvN RN duoc) with 1023 in H. change (nb (vbN RN duoc)) with du in H. cbn [length] in X. lia.
Qed.
Lemma clip_overflow : exists (p : polyN RN) pl nh bk h, nvN RN p <= 1024
  /\ cells 4 (upto (nvN RN p)) (nfN RN p) nh (nb (vbN RN p)) bk h (fdN RN p) /\ simple_edges 4 (upto (nvN RN p)) (nb (vbN RN p))
  /\ forall fuel, (Z.to_nat (1024 * 4 * 4 * 4) <= fuel)%nat -> rNd_clip RN 1024 4 fuel p [pl] = Err OutOfBounds.
Proof.
  exists duoc, duoplane, 344, (fun _ i => 3 - i), duh. split; [cbn; lia|]. split; [exact duo_cells|]. split; [exact (good_simple _ _ _ du_good)|]. exact duo_overflow.
Qed.
