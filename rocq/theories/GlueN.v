(** * GlueN: witnesses and consequences for the [rNd] properties. *)
From Coq Require Import Reals ZArith List Bool Lia Lra Psatz.
From Verif Require VoxFacts IBox.
From Verif Require Import Base Lib SumR ModelCommon CommonFacts ModelGood ModelN SpecN SpecGood ModelV ModelNC Flood Conn Good3 CubeN GoodN TransN InitN RealNum.
Import ListNotations.
Open Scope Z_scope.

(** ** [rNd_is_good] on polytopes whose links are mutual and distinct *)
Lemma is_goodN_room N MX D fuel (p : polyN N) : 2 <= D -> 0 <= nvN N p -> (D - 1) * nvN N p + 1 <= MX ->
  (forall v i, 0 <= v < nvN N p -> 0 <= i < D -> 0 <= nb (vbN N p) v i) ->
  (nvN N p + 1) ^ (D - 1) <= Z.of_nat fuel -> exists r, rNd_is_good N MX D fuel p = OK r.
Proof.
  intros HD Hn HM NN Hf. destruct (is_goodN_spec N MX D fuel p HD ltac:(nia) NN Hf) as [(r & E & _)|(_ & C)]; [eauto|lia].
Qed.
Lemma is_goodN_any N MX D fuel (p : polyN N) r : 2 <= D -> 0 <= nvN N p <= MX ->
  (forall v i, 0 <= v < nvN N p -> 0 <= i < D -> 0 <= nb (vbN N p) v i) ->
  (nvN N p + 1) ^ (D - 1) <= Z.of_nat fuel -> rNd_is_good N MX D fuel p = OK r ->
  (r = 0 \/ r = 1) /\ (r = 1 <-> (regular (nb (vbN N p)) D (nvN N p) /\ (forall v i, 0 <= v < nvN N p -> 0 <= i < D -> nb (vbN N p) v i <> v))
                               /\ connk_least (D - 1) (nb (vbN N p)) D (nvN N p)).
Proof.
  intros HD Hn NN Hf E. destruct (is_goodN_spec N MX D fuel p HD Hn NN Hf) as [(r' & E' & A & B)|(E' & _)]; rewrite E' in E; inversion E; subst; auto.
Qed.
Lemma is_goodN_mutual N MX D fuel (p : polyN N) r : 2 <= D -> 0 <= nvN N p <= MX ->
  (forall v i, 0 <= v < nvN N p -> 0 <= i < D -> 0 <= nb (vbN N p) v i < nvN N p) -> mutual (nb (vbN N p)) D (nvN N p) ->
  (nvN N p + 1) ^ (D - 1) <= Z.of_nat fuel -> rNd_is_good N MX D fuel p = OK r ->
  (r = 0 \/ r = 1) /\ (r = 1 <-> (regular (nb (vbN N p)) D (nvN N p) /\ (forall v i, 0 <= v < nvN N p -> 0 <= i < D -> nb (vbN N p) v i <> v))
                               /\ connk (D - 1) (nb (vbN N p)) D (nvN N p)).
Proof.
  intros HD Hn R M Hf E. rewrite <- (connk_mutual (D - 1) _ D (nvN N p) ltac:(lia) R M).
  apply (is_goodN_any N MX D fuel p r HD Hn); auto. intros. now apply R.
Qed.
Lemma good_is_good N MX D fuel (p : polyN N) : 2 <= D -> 0 <= nvN N p -> good_links (nb (vbN N p)) D (nvN N p) ->
  connk (D - 1) (nb (vbN N p)) D (nvN N p) -> (D - 1) * nvN N p + 1 <= MX -> (nvN N p + 1) ^ (D - 1) <= Z.of_nat fuel ->
  rNd_is_good N MX D fuel p = OK 1.
Proof.
  intros HD Hn G C HM Hf.
  assert (R : forall v i, 0 <= v < nvN N p -> 0 <= i < D -> 0 <= nb (vbN N p) v i < nvN N p) by (intros v i Hv Hi; apply (G v i Hv Hi)).
  destruct (is_goodN_room N MX D fuel p HD Hn HM) as (r & E); auto; [intros; now apply R|].
  rewrite E. f_equal. apply (is_goodN_mutual N MX D fuel p r HD ltac:(nia) R (good_mutual _ _ _ G) Hf E).
  split; auto. split; [apply good_regular; auto; lia|]. intros v i Hv Hi. apply (G v i Hv Hi).
Qed.

(** ** the initialisers *)
Section Init.
Variable N : num.
Variable MX D : Z.
Notation polN := (polyN N).

Lemma simplex_full (p : polN) verts : 1 <= D -> D + 1 <= MX -> exists p', rNd_init_simplex N MX D p verts = OK p'
  /\ nvN N p' = D + 1
  /\ (forall v i, 0 <= v <= D -> 0 <= i < D -> ps (vbN N p') v i = verts v i)
  /\ good_links (nb (vbN N p')) D (D + 1)
  /\ (forall v w, 0 <= v <= D -> 0 <= w <= D -> v <> w -> exists i, 0 <= i < D /\ nb (vbN N p') v i = w)
  /\ (forall v i j, 0 <= v <= D -> 0 <= i < D -> 0 <= j < D -> i <> j ->
        0 <= fdN N p' v i j < nfN N p' /\ fdN N p' v j i = fdN N p' v i j)
  /\ (forall v i j v' i' j', 0 <= v <= D -> 0 <= i < D -> 0 <= j < D -> i <> j ->
        0 <= v' <= D -> 0 <= i' < D -> 0 <= j' < D -> i' <> j' ->
        (fdN N p' v i j = fdN N p' v' i' j' <->
          forall x, (x = v \/ x = nb (vbN N p') v i \/ x = nb (vbN N p') v j)
                <-> (x = v' \/ x = nb (vbN N p') v' i' \/ x = nb (vbN N p') v' j'))).
Proof.
  intros HD HM. destruct (simplex_spec N MX D HD HM p verts) as (p' & E & En & L & P & F).
  exists p'. split; auto. split; auto. split; [intros; apply P; lia|]. split; [now apply (ring_good N D HD)|]. split.
  - intros v w Hv Hw Nvw. exists (sl D v w). split; [apply sl_rng; auto; lia|].
    rewrite L by (try apply sl_rng; lia). apply nb_sl; auto; lia.
  - destruct (faces_names N D HD (vbN N p') (fdN N p') (nfN N p') L F) as (A & B). split.
    + intros v i j Hv. apply A. lia.
    + intros v i j v' i' j' Hv Hi Hj Nij Hv'. intros. apply B; auto; lia.
Qed.

Lemma box_full (p : polN) lo hi : 0 <= D -> 2 ^ D <= MX -> exists p', rNd_init_box N MX D p lo hi = OK p'
  /\ nvN N p' = 2 ^ D
  /\ (forall v i, 0 <= v < 2 ^ D -> 0 <= i < D -> ps (vbN N p') v i = if Z.testbit v i then hi i else lo i)
  /\ good_links (nb (vbN N p')) D (2 ^ D)
  /\ (forall v i, 0 <= v < 2 ^ D -> 0 <= i < D -> nb (vbN N p') v i = Z.lxor v (2 ^ i))
  /\ (forall v i j, 0 <= v < 2 ^ D -> 0 <= i < D -> 0 <= j < D -> i <> j ->
        0 <= fdN N p' v i j < nfN N p' /\ fdN N p' v j i = fdN N p' v i j)
  /\ (forall v i j v' i' j', 0 <= v < 2 ^ D -> 0 <= i < D -> 0 <= j < D -> i <> j ->
        0 <= v' < 2 ^ D -> 0 <= i' < D -> 0 <= j' < D -> i' <> j' ->
        (fdN N p' v i j = fdN N p' v' i' j' <-> (i' = i /\ j' = j) \/ (i' = j /\ j' = i))).
Proof.
  intros HD HM. destruct (box_spec N MX D HD HM p lo hi) as (p' & E & En & L & P & F).
  exists p'. split; auto. split; auto. split; auto. split; [now apply (cube_good N D HD)|]. split; [exact L|].
  apply (cube_names D HD (fdN N p') (nfN N p') F).
Qed.

Lemma simplex_is_good (p p' : polN) verts fuel : 2 <= D -> (D - 1) * (D + 1) + 1 <= MX -> rNd_init_simplex N MX D p verts = OK p' ->
  (D + 2) ^ (D - 1) <= Z.of_nat fuel -> rNd_is_good N MX D fuel p' = OK 1.
Proof.
  intros HD HM E Hf. destruct (simplex_full p verts ltac:(lia) ltac:(nia)) as (q & E' & En & _ & G & C & _). rewrite E in E'. inversion E'; subst q.
  assert (Ef : (nvN N p' + 1) ^ (D - 1) = (D + 2) ^ (D - 1)) by (rewrite En; f_equal; lia).
  apply good_is_good; rewrite ?En; auto; try lia. 2: { rewrite En in Ef. lia. }
  apply complete_connk. intros u w Hu Hw. apply C; lia.
Qed.
Lemma box_is_good (p p' : polN) lo hi fuel : 2 <= D -> (D - 1) * 2 ^ D + 1 <= MX -> rNd_init_box N MX D p lo hi = OK p' ->
  (2 ^ D + 1) ^ (D - 1) <= Z.of_nat fuel -> rNd_is_good N MX D fuel p' = OK 1.
Proof.
  intros HD HM E Hf. assert (0 < 2 ^ D) by (apply Z.pow_pos_nonneg; lia).
  destruct (box_full p lo hi ltac:(lia) ltac:(nia)) as (q & E' & En & _ & G & L & _). rewrite E in E'. inversion E'; subst q.
  apply good_is_good; rewrite ?En; auto; try lia. apply cube_connk; auto. lia.
Qed.
End Init.

(** two parallel squares of a box have the same number *)
Lemma box_faces_shared (p : polyN RN) lo hi : exists p', rNd_init_box RN 1024 4 p lo hi = OK p'
  /\ exists v i j v', (0 <= v < 16 /\ 0 <= v' < 16 /\ 0 <= i < 4 /\ 0 <= j < 4 /\ i <> j)
  /\ fdN RN p' v i j = fdN RN p' v' i j
  /\ forall x, In x [v; nb (vbN RN p') v i; nb (vbN RN p') v j; nb (vbN RN p') (nb (vbN RN p') v i) j] ->
             ~ In x [v'; nb (vbN RN p') v' i; nb (vbN RN p') v' j; nb (vbN RN p') (nb (vbN RN p') v' i) j].
Proof.
  destruct (box_full RN 1024 4 p lo hi ltac:(lia) ltac:(cbn; lia)) as (p' & E & En & _ & _ & L & _ & F).
  exists p'. split; auto. exists 0, 0, 1, 4. split; [lia|]. split.
  - apply F; cbn; try lia.
  - assert (L' : forall v i, 0 <= v < 16 -> 0 <= i < 4 -> nb (vbN RN p') v i = Z.lxor v (2 ^ i)) by (intros; apply L; cbn; lia).
    rewrite !(L' 0), !(L' 4) by lia. cbn [Z.lxor Z.pow Z.pow_pos Pos.iter Z.mul Pos.mul Z.of_N Pos.lxor N.double N.succ_double Pos.Ndouble Pos.Nsucc_double].
    rewrite !L' by (cbn; lia). cbn. intros x Hx Hy.
    destruct Hx as [<-|[<-|[<-|[<-|[]]]]]; destruct Hy as [Hy|[Hy|[Hy|[Hy|[]]]]]; discriminate.
Qed.

(** ** the transformations over the reals *)
Lemma affine_exact MX D (p : polyN RN) (m : Z -> Z -> R) : 1 <= D -> 0 <= nvN RN p <= MX ->
  exists p', rNd_affine RN MX D p m = OK p' /\ nvN RN p' = nvN RN p /\ nb (vbN RN p') = nb (vbN RN p)
   /\ forall v i, 0 <= v < nvN RN p -> 0 <= i < D ->
     ps (vbN RN p') v i = ((ps (vbN RN p) v (D - 1)%Z * m i (D - 1)%Z + m i D) / lsum (zrange D) (fun j => ps (vbN RN p) v j * m D j))%R.
Proof.
  intros HD Hn. destruct (rNd_affine_spec RN MX D p m HD Hn) as (p' & E & A1 & _ & _ & A4 & A5).
  exists p'. split; auto. split; auto. split; auto. intros v i Hv Hi. refine (eq_trans (A5 v i Hv Hi) _).
  change (T RN) with R in *. unfold wsum. pose proof (fold_left_lsum (zrange D) (fun j => ps (vbN RN p) v j * m D j)%R 0%R) as L.
  refine (eq_trans (f_equal (fun x => ndiv RN _ x) L) _). cbn [ndiv RN]. rewrite Rplus_0_l. reflexivity.
Qed.
Lemma affine_false : exists (p p' : polyN RN) (m : Z -> Z -> R) v i,
  rNd_affine RN 1024 4 p m = OK p' /\ 0 <= v < nvN RN p /\ nvN RN p <= 1024 /\ 0 <= i < 4
  /\ lsum (zrange 4) (fun j => m 4%Z j * ps (vbN RN p) v j)%R <> 0%R
  /\ (lsum (zrange 4) (fun j => m 4%Z j * ps (vbN RN p) v j) + m 4%Z 4%Z)%R <> 0%R
  /\ ps (vbN RN p') v i <> proj_map 4 m (ps (vbN RN p) v) i.
Proof.
  set (m := fun r c : Z => if r =? 4 then (if c =? 0 then 1%R else 0%R) else if r =? c then 1%R else 0%R).
  set (p := PN RN (VB (fun _ _ => 0) (fun _ i => IZR (i + 1))) (fun _ _ _ => 0) 1 0).
  destruct (affine_exact 1024 4 p m ltac:(lia) ltac:(cbn; lia)) as (p' & E & En & _ & A).
  exists p, p', m, 0, 0. split; auto. split; [cbn; lia|]. split; [cbn; lia|]. split; [lia|].
  rewrite (A 0 0 ltac:(cbn; lia) ltac:(lia)). unfold proj_map.
  assert (Z4 : zrange 4 = [0; 1; 2; 3]) by reflexivity. rewrite !Z4.
  cbn. split; [lra|]. split; [lra|]. lra.
Qed.

Lemma lsum_one (l : list Z) a (c : R) : NoDup l -> In a l -> lsum l (fun i => if i =? a then c else 0%R) = c.
Proof.
  induction l as [|x l IH]; intros Nl Ia; [destruct Ia|]. cbn [lsum]. inversion Nl; subst. destruct Ia as [->|Ia].
  - rewrite Z.eqb_refl, lsum_0; [lra|]. intros i Hi. destruct (Z.eqb_spec i a); [now subst|auto].
  - rewrite IH by auto. destruct (Z.eqb_spec x a); [now subst|lra].
Qed.
Lemma rotate_dist D (a1 a2 : Z) (th : R) (q r q' r' : Z -> R) : 0 <= a1 < D -> 0 <= a2 < D -> a1 <> a2 ->
  let h := fun (q : Z -> R) i => if i =? a2 then (sin th * q a1 + cos th * q a2)%R
                                 else if i =? a1 then (cos th * q a1 - sin th * q a2)%R else q i in
  (forall i, 0 <= i < D -> q' i = h q i) -> (forall i, 0 <= i < D -> r' i = h r i) ->
  dist2 D q' r' = dist2 D q r.
Proof.
  intros H1 H2 Na h Hq Hr. unfold dist2.
  set (e1 := ((h q a1 - h r a1) * (h q a1 - h r a1) - (q a1 - r a1) * (q a1 - r a1))%R).
  set (e2 := ((h q a2 - h r a2) * (h q a2 - h r a2) - (q a2 - r a2) * (q a2 - r a2))%R).
  rewrite (lsum_ext _ _ (fun i => ((q i - r i) * (q i - r i) + ((if i =? a1 then e1 else 0) + (if i =? a2 then e2 else 0)))%R)).
  - rewrite !lsum_add, !lsum_one by (try apply NoDup_zrange; now apply in_zrange).
    enough (e1 + e2 = 0)%R by lra. unfold e1, e2, h. rewrite !Z.eqb_refl. replace (a1 =? a2) with false by (symmetry; now apply Z.eqb_neq).
    pose proof (sin2_cos2 th) as S. unfold Rsqr in S.
    transitivity ((sin th * sin th + cos th * cos th - 1) * ((q a1 - r a1) * (q a1 - r a1) + (q a2 - r a2) * (q a2 - r a2)))%R; [ring|].
    rewrite S. ring.
  - intros i Hi. apply in_zrange in Hi. rewrite Hq, Hr by auto. unfold e1, e2.
    destruct (Z.eqb_spec i a1) as [->|N1].
    { replace (a1 =? a2) with false by (symmetry; now apply Z.eqb_neq). lra. }
    destruct (Z.eqb_spec i a2) as [->|N2]; [lra|].
    unfold h. destruct (Z.eqb_spec i a2), (Z.eqb_spec i a1); try congruence. lra.
Qed.

(** ** a duoprism on which the flood fill overflows its stack *)
Lemma while_S {S} fuel c (body : S -> res S) s : while_ (Datatypes.S fuel) c body s = if c s then bind (body s) (while_ fuel c body) else OK s.
Proof. reflexivity. Qed.
Section Duo.
Definition du (v i : Z) : Z :=
  let a := v mod 341 in let c := v / 341 in
  if i =? 0 then 341 * c + (if a =? 0 then 340 else a - 1)
  else if i =? 1 then 341 * (if c =? 0 then 2 else c - 1) + a
  else if i =? 2 then 341 * (if c =? 2 then 0 else c + 1) + a
  else 341 * c + (if a =? 340 then 0 else a + 1).
Definition dpos (v i : Z) : R :=
  let a := IZR (v mod 341) in let c := IZR (v / 341) in
  if i =? 0 then a else if i =? 1 then (a * a)%R else if i =? 2 then c else (c * c)%R.
Definition duo : polyN RN := PN RN (VB du dpos) (fun _ _ _ => 0) 1023 0.

Lemma du_split v : 0 <= v < 1023 -> 0 <= v mod 341 < 341 /\ 0 <= v / 341 < 3 /\ v = 341 * (v / 341) + v mod 341.
Proof.
  intros Hv. split; [apply Z.mod_pos_bound; lia|]. split; [|apply Z.div_mod; lia].
  split; [apply Z.div_pos; lia|apply Z.div_lt_upper_bound; lia].
Qed.
Lemma du_join a c : 0 <= a < 341 -> 0 <= c -> (341 * c + a) mod 341 = a /\ (341 * c + a) / 341 = c.
Proof.
  intros Ha Hc. rewrite Z.add_comm, Z.mul_comm. split.
  - rewrite Z.mod_add by lia. apply Z.mod_small. lia.
  - rewrite Z.div_add by lia. rewrite Z.div_small by lia. lia.
Qed.
(** links in terms of the two coordinates *)
Definition nba (i a : Z) : Z := if i =? 0 then (if a =? 0 then 340 else a - 1) else if i =? 3 then (if a =? 340 then 0 else a + 1) else a.
Definition nbc (i c : Z) : Z := if i =? 1 then (if c =? 0 then 2 else c - 1) else if i =? 2 then (if c =? 2 then 0 else c + 1) else c.
Lemma du_ac a c i : 0 <= a < 341 -> 0 <= c < 3 -> 0 <= i < 4 -> du (341 * c + a) i = 341 * nbc i c + nba i a
  /\ 0 <= nba i a < 341 /\ 0 <= nbc i c < 3.
Proof.
  intros Ha Hc Hi. unfold du. destruct (du_join a c) as (-> & ->); try lia.
  assert (i = 0 \/ i = 1 \/ i = 2 \/ i = 3) as [->|[->|[->| ->]]] by lia; cbn [Z.eqb nba nbc Pos.eqb]; unfold nba, nbc; cbn [Z.eqb Pos.eqb];
    (split; [auto|]);
    destruct (Z.eqb_spec a 0), (Z.eqb_spec a 340), (Z.eqb_spec c 0), (Z.eqb_spec c 2); lia.
Qed.
Lemma du_good : good_links du 4 1023.
Proof.
  intros v i Hv Hi. destruct (du_split v Hv) as (Ha & Hc & E). set (a := v mod 341) in *. set (c := v / 341) in *. clearbody a c. subst v.
  destruct (du_ac a c i Ha Hc Hi) as (E1 & Ra & Rc). rewrite E1. split; [lia|]. split; [|split].
  - intros C. assert (i = 0 \/ i = 1 \/ i = 2 \/ i = 3) as [->|[->|[->| ->]]] by lia; unfold nba, nbc in *; cbn [Z.eqb Pos.eqb] in *;
      destruct (Z.eqb_spec a 0), (Z.eqb_spec a 340), (Z.eqb_spec c 0), (Z.eqb_spec c 2); lia.
  - intros j Hj. destruct (du_ac a c j Ha Hc Hj) as (-> & _ & _). intros C.
    assert (i = 0 \/ i = 1 \/ i = 2 \/ i = 3) as [->|[->|[->| ->]]] by lia;
    assert (j = 0 \/ j = 1 \/ j = 2 \/ j = 3) as [->|[->|[->| ->]]] by lia; auto; exfalso; unfold nba, nbc in *; cbn [Z.eqb Pos.eqb] in *;
      destruct (Z.eqb_spec a 0), (Z.eqb_spec a 340), (Z.eqb_spec c 0), (Z.eqb_spec c 2); lia.
  - exists (3 - i). split; [lia|]. destruct (du_ac (nba i a) (nbc i c) (3 - i) Ra Rc ltac:(lia)) as (-> & _).
    assert (i = 0 \/ i = 1 \/ i = 2 \/ i = 3) as [->|[->|[->| ->]]] by lia; unfold nba, nbc.
    + cbn [Z.eqb Pos.eqb]. change (3 - 0 =? 0) with false. change (3 - 0 =? 1) with false. change (3 - 0 =? 2) with false. change (3 - 0 =? 3) with true.
      destruct (Z.eqb_spec a 0); [subst; reflexivity|]. destruct (Z.eqb_spec (a - 1) 340); lia.
    + cbn [Z.eqb Pos.eqb]. change (3 - 1 =? 0) with false. change (3 - 1 =? 1) with false. change (3 - 1 =? 2) with true. change (3 - 1 =? 3) with false.
      destruct (Z.eqb_spec c 0); [subst; reflexivity|]. destruct (Z.eqb_spec (c - 1) 2); lia.
    + cbn [Z.eqb Pos.eqb]. change (3 - 2 =? 0) with false. change (3 - 2 =? 1) with true. change (3 - 2 =? 2) with false. change (3 - 2 =? 3) with false.
      destruct (Z.eqb_spec c 2); [subst; reflexivity|]. destruct (Z.eqb_spec (c + 1) 0); lia.
    + cbn [Z.eqb Pos.eqb]. change (3 - 3 =? 0) with true. change (3 - 3 =? 1) with false. change (3 - 3 =? 2) with false. change (3 - 3 =? 3) with false.
      destruct (Z.eqb_spec a 340); [subst; reflexivity|]. destruct (Z.eqb_spec (a + 1) 0); lia.
Qed.

Notation st := ((Z -> Z) * (Z -> option Z) * Z)%type.
Notation b := (VB du dpos).
Definition DI (k : Z) (s : st) : Prop :=
  let '(mk, stk, sz) := s in
  sz = 3 * k + 1 /\ stk (3 * k) = Some k /\ (forall x, k <= x -> mk x = 0) /\ (forall x, 0 <= x < k -> mk x = 1).
Lemma du_rng v i : 0 <= v < 1023 -> 0 <= i < 4 -> 0 <= nb b v i < 1023.
Proof. intros Hv Hi. apply (du_good v i Hv Hi). Qed.
Lemma du_chain k : 0 <= k < 340 -> du k 3 = k + 1.
Proof. intros Hk. destruct (du_ac k 0 3 ltac:(lia) ltac:(lia) ltac:(lia)) as (E & _). replace (341 * 0 + k) with k in E by lia. rewrite E.
  unfold nba, nbc. cbn [Z.eqb Pos.eqb]. destruct (Z.eqb_spec k 340); lia. Qed.
Lemma duo_step k s : 0 <= k < 340 -> DI k s -> exists s', flood_step 1024 4 b 1 s = OK s' /\ DI (k + 1) s'.
Proof.
  intros Hk. destruct s as ((mk, stk), sz). intros (-> & T & M & M1). cbn [flood_step].
  replace (3 * k + 1 - 1) with (3 * k) by lia. unfold rdi. rewrite inb_true by lia. rewrite T. cbn [bind]. rewrite rd_ok by lia. cbn [bind].
  rewrite M by lia. cbn [Z.eqb]. rewrite wr_ok by lia. cbn [bind].
  destruct (push_nbrs_spec 1024 4 b 1023 ltac:(lia) ltac:(lia) k stk (3 * k) ltac:(lia) ltac:(lia)) as [(stk' & E & B & P1 & P2)|(E & B)]; [|lia].
  rewrite E. cbn [bind]. eexists. split; [reflexivity|]. split; [lia|]. split.
  - replace (3 * (k + 1)) with (3 * k + 3) by lia. rewrite P2 by lia. f_equal. cbn [nb]. now apply du_chain.
  - split.
    + intros x Hx. rewrite upd_neq by lia. apply M. lia.
    + intros x Hx. unfold upd. destruct (Z.eqb_spec x k); auto. apply M1. lia.
Qed.
(** the last vertex of the chain, a visited vertex, then a new one that does not fit *)
Lemma duo_340 s : DI 340 s -> exists mk stk, flood_step 1024 4 b 1 s = OK (mk, stk, 1024)
  /\ stk 1023 = Some 0 /\ stk 1022 = Some 681 /\ mk 0 = 1 /\ mk 681 = 0.
Proof.
  destruct s as ((mk, stk), sz). intros (-> & T & M & M1). cbn [flood_step]. change (3 * 340) with 1020 in *.
  replace (1020 + 1 - 1) with 1020 by lia. unfold rdi. rewrite inb_true by lia. rewrite T. cbn [bind]. rewrite rd_ok by lia. cbn [bind].
  rewrite M by lia. cbn [Z.eqb]. rewrite wr_ok by lia. cbn [bind].
  destruct (push_nbrs_spec 1024 4 b 1023 ltac:(lia) ltac:(lia) 340 stk 1020 ltac:(lia) ltac:(lia)) as [(stk' & E & B & P1 & P2)|(E & B)]; [|lia].
  rewrite E. cbn [bind]. exists (upd mk 340 1), stk'. split; [reflexivity|]. 
  split; [|split; [|split]].
  - replace 1023 with (1020 + 3) by lia. rewrite P2 by lia. reflexivity.
  - replace 1022 with (1020 + 2) by lia. rewrite P2 by lia. reflexivity.
  - rewrite upd_neq by lia. apply M1. lia.
  - rewrite upd_neq by lia. apply M. lia.
Qed.
Lemma duo_end mk stk fuel : stk 1023 = Some 0 -> stk 1022 = Some 681 -> mk 0 = 1 -> mk 681 = 0 ->
  while_ (S (S fuel)) (fun s : st => 0 <? snd s) (flood_step 1024 4 b 1) (mk, stk, 1024) = Err OutOfBounds.
Proof.
  intros S1 S2 M1 M2. rewrite while_S. cbn [snd]. replace (0 <? 1024) with true by (symmetry; apply Z.ltb_lt; lia).
  cbn [flood_step]. replace (1024 - 1) with 1023 by lia. unfold rdi at 1. rewrite inb_true by lia. rewrite S1. cbn [bind]. rewrite rd_ok by lia. cbn [bind].
  rewrite M1. cbn [Z.eqb]. cbn [bind]. rewrite while_S. cbn [snd]. replace (0 <? 1023) with true by (symmetry; apply Z.ltb_lt; lia).
  cbn [flood_step]. replace (1023 - 1) with 1022 by lia. unfold rdi at 1. rewrite inb_true by lia. rewrite S2. cbn [bind]. rewrite rd_ok by lia. cbn [bind].
  rewrite M2. cbn [Z.eqb]. rewrite wr_ok by lia. cbn [bind].
  destruct (push_nbrs_spec 1024 4 b 1023 ltac:(lia) ltac:(lia) 681 stk 1022 ltac:(lia) ltac:(lia)) as [(stk' & E & B & P1 & P2)|(E & B)]; [lia|].
  now rewrite E.
Qed.
Lemma duo_loop fuel : forall k s, 0 <= k <= 340 -> DI k s -> 343 - k <= Z.of_nat fuel ->
  while_ fuel (fun s => 0 <? snd s) (flood_step 1024 4 b 1) s = Err OutOfBounds.
Proof.
  induction fuel; intros k s Hk I F; [lia|].
  assert (C : (0 <? snd s) = true). { destruct s as ((mk, stk), sz). destruct I as (-> & _). cbn [snd]. apply Z.ltb_lt. lia. }
  rewrite while_S, C. destruct (Z.eq_dec k 340) as [->|].
  - destruct (duo_340 s I) as (mk & stk & -> & S1 & S2 & M1 & M2). cbn [bind].
    destruct fuel as [|[|fuel]]; [lia|lia|]. now apply duo_end.
  - destruct (duo_step k s ltac:(lia) I) as (s' & -> & I'). cbn [bind]. apply (IHfuel (k + 1)); auto; lia.
Qed.

Lemma duo_is_good fuel : rNd_is_good RN 1024 4 fuel duo = Err OutOfBounds.
Proof.
  assert (Hn : 0 <= nvN RN duo <= 1024) by (change (nvN RN duo) with 1023; lia).
  assert (NN : forall v i, 0 <= v < nvN RN duo -> 0 <= i < 4 -> 0 <= nb (vbN RN duo) v i) by (intros v i Hv Hi; apply (du_rng v i Hv Hi)).
  pose proof (good_regular du 4 1023 ltac:(lia) ltac:(lia) du_good) as Rg.
  unfold rNd_is_good. destruct (linksN_all RN 1024 4 ltac:(lia) duo Hn NN) as (s & E & H). rewrite E. cbn [bind].
  destruct s as [vct|].
  2: { exfalso. destruct H as (v & Hv & Nv). apply Nv. intros i Hi. destruct (Rg v Hv) as (A & B & _). split; [apply (du_good v i Hv Hi)|]. split; auto.
       intros j Hj Ej. apply B in Ej; lia. }
  destruct H as (_ & H2). destruct (counts_ok_spec 1024 4 (nvN RN duo) Hn vct) as (ok & Ec & Hok). rewrite Ec. cbn [bind].
  replace ok with true. 2: { symmetry. apply Hok. intros v Hv. rewrite H2. apply (Rg v Hv). }
  unfold components. rewrite for_first by (change (nvN RN duo) with 1023; lia). cbn [fst snd]. rewrite rd_ok by lia. cbn [bind Z.eqb].
  unfold flood. rewrite wr_ok by lia. cbn [bind]. change (vbN RN duo) with b.
  rewrite (duo_loop _ 0); [reflexivity|lia| |lia].
  split; auto. split; auto. split; auto. intros; lia.
Qed.
End Duo.

(** ** [rNd_clamp_ibox] needs eight planes in four dimensions *)
Section Clamp.
Context (fuel : nat) (p : polyN RN) (B cb : box) (d : Z -> R).
Hypothesis Hin : forall i, 0 <= i < 4 -> fst B i < fst cb i /\ fst cb i < snd cb i /\ snd cb i < snd B i /\ int_min < fst cb i <= int_max.
Let mk := (fun i n e => PLN RN (upd (fun _ => n0 RN) i n) e).
Lemma clamp_two i lo hi (l : list (planeN RN)) : 0 <= i < 4 -> lo i = fst B i -> hi i = snd B i ->
  (Z.of_nat (length l) <= 4 -> exists lo' hi' l', clamp_body RN (planeN RN) mk 6 cb d i (Some ((lo, hi), l)) = OK (Some ((lo', hi'), l'))
     /\ Z.of_nat (length l') = Z.of_nat (length l) + 2 /\ (forall j, j <> i -> lo' j = lo j /\ hi' j = hi j))
  /\ (Z.of_nat (length l) = 6 -> clamp_body RN (planeN RN) mk 6 cb d i (Some ((lo, hi), l)) = Err OutOfBounds).
Proof.
  intros Hi Hl Hh. destruct (Hin i Hi) as (A1 & A2 & A3 & A4). unfold clamp_body. rewrite Hl, Hh.
  replace (snd B i <=? fst cb i) with false by (symmetry; apply Z.leb_gt; lia). replace (snd cb i <=? fst B i) with false by (symmetry; apply Z.leb_gt; lia).
  cbn [orb]. replace (fst B i <? fst cb i) with true by (symmetry; apply Z.ltb_lt; lia). replace (snd cb i <? snd B i) with true by (symmetry; apply Z.ltb_lt; lia).
  rewrite VoxFacts.int32_ok by (unfold int_min, int_max in *; lia). cbn [bind]. unfold push. split; intros L.
  - replace (Z.of_nat (length l) <? 6) with true by (symmetry; apply Z.ltb_lt; lia). cbn [bind]. rewrite app_length. cbn [length].
    replace (Z.of_nat (length l + 1) <? 6) with true by (symmetry; apply Z.ltb_lt; lia). cbn [bind].
    eexists _, _, _. split; [reflexivity|]. split.
    + rewrite !app_length. cbn [length]. lia.
    + intros j Hj. now rewrite !upd_neq by auto.
  - rewrite L. reflexivity.
Qed.
Lemma clamp_over : rNd_clamp_ibox RN 1024 4 fuel p B cb d = Err OutOfBounds.
Proof.
  unfold rNd_clamp_ibox, clamp_ibox. rewrite (surjective_pairing B). fold mk.
  destruct (clamp_two 0 (fst B) (snd B) [] ltac:(lia)) as (A & _); [reflexivity|reflexivity|].
  destruct (A ltac:(cbn; lia)) as (lo1 & hi1 & l1 & E1 & L1 & J1). clear A.
  destruct (clamp_two 1 lo1 hi1 l1 ltac:(lia)) as (A & _); [apply J1; lia|apply J1; lia|].
  destruct (A ltac:(cbn in *; lia)) as (lo2 & hi2 & l2 & E2 & L2 & J2). clear A.
  destruct (clamp_two 2 lo2 hi2 l2 ltac:(lia)) as (A & _); [rewrite (proj1 (J2 2 ltac:(lia))); apply J1; lia|rewrite (proj2 (J2 2 ltac:(lia))); apply J1; lia|].
  destruct (A ltac:(cbn in *; lia)) as (lo3 & hi3 & l3 & E3 & L3 & J3). clear A.
  destruct (clamp_two 3 lo3 hi3 l3 ltac:(lia)) as (_ & A);
    [rewrite (proj1 (J3 3 ltac:(lia))), (proj1 (J2 3 ltac:(lia))); apply J1; lia|rewrite (proj2 (J3 3 ltac:(lia))), (proj2 (J2 3 ltac:(lia))); apply J1; lia|].
  specialize (A ltac:(cbn in *; lia)).
  rewrite for_first by lia. rewrite E1. cbn [bind]. change (0 + 1) with 1. rewrite for_first by lia. rewrite E2. cbn [bind]. change (1 + 1) with 2. rewrite for_first by lia.
  rewrite E3. cbn [bind]. change (2 + 1) with 3. rewrite for_first by lia. rewrite A. reflexivity.
Qed.
End Clamp.

Lemma getN_ibox (MX D : Z) (p : polyN RN) (d : Z -> R) (b0 : box) : 0 <= D -> 0 < nvN RN p <= MX -> (forall i, 0 <= i < D -> (0 < d i)%R) ->
  (forall v i, 0 <= v < nvN RN p -> 0 <= i < D -> (- 10 ^ 30 <= ps (vbN RN p) v i <= 10 ^ 30)%R) ->
  (forall v i, 0 <= v < nvN RN p -> 0 <= i < D -> (d i * IZR int_min <= ps (vbN RN p) v i <= d i * IZR int_max)%R) ->
  exists b, rNd_get_ibox RN MX D p d b0 = OK b
  /\ forall i, 0 <= i < D ->
     (forall v, 0 <= v < nvN RN p -> (d i * IZR (fst b i) <= ps (vbN RN p) v i <= d i * IZR (snd b i))%R)
     /\ (forall m, (forall v, 0 <= v < nvN RN p -> (d i * IZR m <= ps (vbN RN p) v i)%R) -> m <= fst b i)
     /\ (forall m, (forall v, 0 <= v < nvN RN p -> (ps (vbN RN p) v i <= d i * IZR m)%R) -> snd b i <= m).
Proof.
  intros HD Hn Hd H1 H2.
  destruct (IBox.get_ibox_spec D HD (nvN RN) (fun q i => rd D q i) (fun p => rd_ps MX (vbN RN p)) p (fun v i => ps (vbN RN p) v i)
     ltac:(intros v i Hv Hi; eexists; split; [now rewrite rd_ps_ok by lia|now rewrite rd_ok by lia]) d b0 ltac:(lia) Hd H1 H2) as (b & E & A).
  exists b. split; [exact E|]. intros i Hi. destruct (A i Hi) as (_ & _ & A3 & A4 & A5). auto.
Qed.

(** ** links that are not returned *)
Definition ow4 : polyN RN := PN RN (VB (fun v i => (v + i + 1) mod 9) (fun _ _ => 0%R)) (fun _ _ _ => 0) 9 0.
Lemma ow4_at : rNd_is_good RN 1024 4 (Z.to_nat 1000) ow4 = OK 1.
Proof. vm_compute. reflexivity. Qed.
Lemma ow4_rng v i : 0 <= v < 9 -> 0 <= i < 4 -> 0 <= (v + i + 1) mod 9 < 9.
Proof. intros. apply Z.mod_pos_bound. lia. Qed.
Lemma oneway4 fuel : 1000 <= Z.of_nat fuel -> rNd_is_good RN 1024 4 fuel ow4 = OK 1.
Proof.
  intros Hf. assert (NN : forall v i, 0 <= v < nvN RN ow4 -> 0 <= i < 4 -> 0 <= nb (vbN RN ow4) v i) by (intros v i Hv Hi; apply ow4_rng; auto).
  assert (P1000 : (nvN RN ow4 + 1) ^ (4 - 1) = 1000) by reflexivity.
  destruct (is_goodN_any RN 1024 4 (Z.to_nat 1000) ow4 1 ltac:(lia) ltac:(cbn; lia) NN ltac:(rewrite P1000, Z2Nat.id; lia) ow4_at) as (_ & A).
  destruct (is_goodN_room RN 1024 4 fuel ow4 ltac:(lia) ltac:(cbn; lia) ltac:(cbn; lia) NN ltac:(rewrite P1000; lia)) as (r & E).
  destruct (is_goodN_any RN 1024 4 fuel ow4 r ltac:(lia) ltac:(cbn; lia) NN ltac:(rewrite P1000; lia) E) as (_ & B).
  rewrite E. f_equal. now apply B, A.
Qed.
Lemma oneway4_false : exists p : polyN RN, 0 < nvN RN p <= 1024
  /\ (forall v i, 0 <= v < nvN RN p -> 0 <= i < 4 -> 0 <= nb (vbN RN p) v i < nvN RN p)
  /\ (forall v i j, 0 <= v < nvN RN p -> 0 <= i < 4 -> 0 <= j < 4 -> nb (vbN RN p) (nb (vbN RN p) v i) j <> v)
  /\ forall fuel, (nvN RN p + 1) ^ 3 <= Z.of_nat fuel -> rNd_is_good RN 1024 4 fuel p = OK 1.
Proof.
  exists ow4. split; [cbn; lia|]. split; [intros; now apply ow4_rng|]. split.
  - cbn. intros v i j Hv Hi Hj. rewrite <- Z.add_assoc, Z.add_mod_idemp_l by lia.
    intros E. replace (v + i + 1 + (j + 1)) with (v + (i + j + 2)) in E by lia.
    assert (C : (v + (i + j + 2)) mod 9 = v + (i + j + 2) - 9 * ((v + (i + j + 2)) / 9)) by (apply Z.mod_eq; lia). lia.
  - intros fuel Hf. apply oneway4. cbn in Hf. lia.
Qed.

Lemma duo_false : exists p : polyN RN, good_links (nb (vbN RN p)) 4 (nvN RN p) /\ nvN RN p = 1023
  /\ forall fuel, rNd_is_good RN 1024 4 fuel p = Err OutOfBounds.
Proof. exists duo. split; [exact du_good|]. split; [reflexivity|]. exact duo_is_good. Qed.

(** ** transforms over the reals *)
Lemma rotate_isometry MX D (p : polyN RN) th a1 a2 : 0 <= a1 < D -> 0 <= a2 < D -> a1 <> a2 -> 0 <= nvN RN p <= MX ->
  exists p', rNd_rotate RN MX D p th a1 a2 = OK p'
  /\ nvN RN p' = nvN RN p /\ nfN RN p' = nfN RN p /\ fdN RN p' = fdN RN p /\ nb (vbN RN p') = nb (vbN RN p)
  /\ (forall v i, 0 <= v < nvN RN p -> 0 <= i < D -> ps (vbN RN p') v i =
        if i =? a1 then (cos th * ps (vbN RN p) v a1 - sin th * ps (vbN RN p) v a2)%R
        else if i =? a2 then (sin th * ps (vbN RN p) v a1 + cos th * ps (vbN RN p) v a2)%R
        else ps (vbN RN p) v i)
  /\ forall u v, 0 <= u < nvN RN p -> 0 <= v < nvN RN p ->
       dist2 D (ps (vbN RN p') u) (ps (vbN RN p') v) = dist2 D (ps (vbN RN p) u) (ps (vbN RN p) v).
Proof.
  intros H1 H2 Na Hn. destruct (rNd_rotate_spec RN MX D p th a1 a2 H1 H2 Hn) as (p' & E & A1 & A2 & A3 & A4 & A5).
  exists p'. split; auto. do 4 (split; auto). split.
  - intros v i Hv Hi. refine (eq_trans (A5 v i Hv Hi) _). cbn [nadd nsub nmul nsin ncos RN].
    destruct (Z.eqb_spec i a1) as [->|]; auto. destruct (Z.eqb_spec a1 a2); [congruence|auto].
  - intros u v Hu Hv. apply (rotate_dist D a1 a2 th); auto.
Qed.

Lemma orient_4 (v : Z -> Z -> R) :
  exists F, forall fuel, (F <= fuel)%nat ->
    rNd_orient RN 4 fuel v = OK (det4 (fun i j => v (i + 1)%Z j - v 0%Z j) / 24)%R.
Proof.
  destruct (rNd_orient_spec 4 v ltac:(lia)) as (F & H). exists F. intros fuel Hf. rewrite (H fuel Hf). now rewrite det_4, fact_4.
Qed.
