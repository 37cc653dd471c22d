(** * Prism3: right prisms over an n-gon, a convex polyhedron with 2n vertices on which
    one coordinate split needs 2n more. *)
From Coq Require Import Reals ZArith List Bool Lia Lra Psatz.
From Verif Require Import Base Lib ModelCommon CommonFacts Model3 ModelV ModelV3 Spec2 Spec3 Orb3 Cut3 Struct3 Clip3 FaceSpec3 Face3 RealNum Spec3R
  Mom3 Geo3 Cons3 Grow3 VoxFacts Vox3.
Import ListNotations.
Open Scope Z_scope.

Section Prism.
Context (n : Z) (Hn3 : 3 <= n).
Definition nx (i : Z) : Z := if i + 1 =? n then 0 else i + 1.
Definition pv (i : Z) : Z := if i =? 0 then n - 1 else i - 1.
(** bottom vertices 0..n-1, top vertices n..2n-1; the same order of neighbours as in [r3d_init_box] *)
Definition prism_nb (v s : Z) : Z :=
  if v <? n then (if s =? 0 then nx v else if s =? 1 then n + v else pv v)
  else (if s =? 0 then n + pv (v - n) else if s =? 1 then v - n else n + nx (v - n)).
(** which face a directed edge belongs to *)
Definition flabel (d : Z * Z) : Z :=
  let '(v, s) := d in
  if v <? n then (if s =? 0 then -1 else if s =? 1 then v else pv v)
  else (if s =? 0 then -2 else if s =? 1 then pv (v - n) else v - n).

Ltac zs := repeat match goal with
  | |- context [?a =? ?b] => destruct (Z.eqb_spec a b)
  | |- context [?a <? ?b] => destruct (Z.ltb_spec a b)
  | H : context [?a =? ?b] |- _ => destruct (Z.eqb_spec a b)
  | H : context [?a <? ?b] |- _ => destruct (Z.ltb_spec a b)
  end.
Ltac s3 i := match goal with H : 0 <= i < 3 |- _ => destruct (slot3 i H) as [->|[->| ->]] end.
Ltac go := unfold prism_nb, nx, pv, below in *; cbn [Z.eqb Pos.eqb] in *; zs; try lia.

Lemma nx_rng i : 0 <= i < n -> 0 <= nx i < n /\ nx i <> i /\ pv (nx i) = i. Proof. intros. go. Qed.
Lemma pv_rng i : 0 <= i < n -> 0 <= pv i < n /\ pv i <> i /\ nx (pv i) = i /\ pv i <> nx i. Proof. intros. go. Qed.

(** the six kinds of directed edges *)
Lemma nb_bot i : 0 <= i < n -> prism_nb i 0 = nx i /\ prism_nb i 1 = n + i /\ prism_nb i 2 = pv i.
Proof. intros. unfold prism_nb. destruct (Z.ltb_spec i n); [|lia]. auto. Qed.
Lemma nb_top i : 0 <= i < n -> prism_nb (n + i) 0 = n + pv i /\ prism_nb (n + i) 1 = i /\ prism_nb (n + i) 2 = n + nx i.
Proof. intros. unfold prism_nb. destruct (Z.ltb_spec (n + i) n); [lia|]. replace (n + i - n) with i by lia. auto. Qed.
Lemma vert_cases v : below (2 * n) v -> exists i, 0 <= i < n /\ (v = i \/ v = n + i).
Proof. unfold below. intros. destruct (Z.lt_ge_cases v n); [exists v|exists (v - n)]; lia. Qed.

Lemma prism_links : links prism_nb (below (2 * n)).
Proof.
  constructor.
  - intros v s Hv Hs. destruct (vert_cases v Hv) as (i & Hi & [-> | ->]); pose proof (nx_rng i Hi); pose proof (pv_rng i Hi);
      [destruct (nb_bot i Hi) as (A & B & C)|destruct (nb_top i Hi) as (A & B & C)]; s3 s; unfold below; lia.
  - intros v s Hv Hs. destruct (vert_cases v Hv) as (i & Hi & [-> | ->]); pose proof (nx_rng i Hi); pose proof (pv_rng i Hi);
      [destruct (nb_bot i Hi) as (A & B & C)|destruct (nb_top i Hi) as (A & B & C)]; s3 s; lia.
  - intros v s t Hv Hs Ht. destruct (vert_cases v Hv) as (i & Hi & [-> | ->]); pose proof (nx_rng i Hi); pose proof (pv_rng i Hi);
      [destruct (nb_bot i Hi) as (A & B & C)|destruct (nb_top i Hi) as (A & B & C)]; s3 s; s3 t; intros; try reflexivity; lia.
  - intros v s Hv Hs. destruct (vert_cases v Hv) as (i & Hi & [-> | ->]); pose proof (nx_rng i Hi) as N1; pose proof (pv_rng i Hi) as P1;
      [destruct (nb_bot i Hi) as (A & B & C)|destruct (nb_top i Hi) as (A & B & C)]; s3 s; rewrite ?A, ?B, ?C.
    + exists 2. split; [lia|]. destruct (nb_bot (nx i) ltac:(lia)) as (_ & _ & ->). lia.
    + exists 1. split; [lia|]. apply (nb_top i Hi).
    + exists 0. split; [lia|]. destruct (nb_bot (pv i) ltac:(lia)) as (-> & _). lia.
    + exists 2. split; [lia|]. destruct (nb_top (pv i) ltac:(lia)) as (_ & _ & ->). lia.
    + exists 1. split; [lia|]. apply (nb_bot i Hi).
    + exists 0. split; [lia|]. destruct (nb_top (nx i) ltac:(lia)) as (-> & _). lia.
Qed.

Lemma opp_bot i : 0 <= i < n -> dopp prism_nb (i, 0) = (nx i, 2) /\ dopp prism_nb (i, 1) = (n + i, 1) /\ dopp prism_nb (i, 2) = (pv i, 0).
Proof.
  intros Hi. pose proof (nx_rng i Hi) as N1. pose proof (pv_rng i Hi) as P1. destruct (nb_bot i Hi) as (A & B & C).
  destruct (nb_bot (nx i) ltac:(lia)) as (A1 & B1 & C1). destruct (nb_bot (pv i) ltac:(lia)) as (A2 & B2 & C2).
  destruct (nb_top i Hi) as (A3 & B3 & C3).
  pose proof (nx_rng (nx i) ltac:(lia)). pose proof (pv_rng (pv i) ltac:(lia)). pose proof (pv_rng (nx i) ltac:(lia)).
  unfold dopp, dtgt, dsrc, slot. cbn [fst snd]. rewrite A, B, C, A1, B1, A2, A3, B3.
  split; [|split].
  - destruct (Z.eqb_spec (nx (nx i)) i); [lia|]. destruct (Z.eqb_spec (n + nx i) i); [lia|]. reflexivity.
  - destruct (Z.eqb_spec (n + pv i) i); [lia|]. destruct (Z.eqb_spec i i); [|lia]. reflexivity.
  - destruct (Z.eqb_spec (nx (pv i)) i); [|lia]. reflexivity.
Qed.
Lemma opp_top i : 0 <= i < n -> dopp prism_nb (n + i, 0) = (n + pv i, 2) /\ dopp prism_nb (n + i, 1) = (i, 1) /\ dopp prism_nb (n + i, 2) = (n + nx i, 0).
Proof.
  intros Hi. pose proof (nx_rng i Hi) as N1. pose proof (pv_rng i Hi) as P1. destruct (nb_top i Hi) as (A & B & C).
  destruct (nb_top (nx i) ltac:(lia)) as (A1 & B1 & C1). destruct (nb_top (pv i) ltac:(lia)) as (A2 & B2 & C2).
  destruct (nb_bot i Hi) as (A3 & B3 & C3).
  pose proof (nx_rng (nx i) ltac:(lia)). pose proof (pv_rng (pv i) ltac:(lia)). pose proof (pv_rng (nx i) ltac:(lia)).
  unfold dopp, dtgt, dsrc, slot. cbn [fst snd]. rewrite A, B, C, A1, A2, B2, A3, B3.
  split; [|split].
  - destruct (Z.eqb_spec (n + pv (pv i)) (n + i)); [lia|]. destruct (Z.eqb_spec (pv i) (n + i)); [lia|]. reflexivity.
  - destruct (Z.eqb_spec (nx i) (n + i)); [lia|]. destruct (Z.eqb_spec (n + i) (n + i)); [|lia]. reflexivity.
  - destruct (Z.eqb_spec (n + pv (nx i)) (n + i)); [|lia]. reflexivity.
Qed.
Lemma fl_bot i : 0 <= i < n -> flabel (i, 0) = -1 /\ flabel (i, 1) = i /\ flabel (i, 2) = pv i.
Proof. intros. unfold flabel. destruct (Z.ltb_spec i n); [|lia]. auto. Qed.
Lemma fl_top i : 0 <= i < n -> flabel (n + i, 0) = -2 /\ flabel (n + i, 1) = pv i /\ flabel (n + i, 2) = i.
Proof. intros. unfold flabel. destruct (Z.ltb_spec (n + i) n); [lia|]. replace (n + i - n) with i by lia. auto. Qed.

Lemma flabel_next d : isd (below (2 * n)) d -> flabel (fnext prism_nb d) = flabel d.
Proof.
  destruct d as [v s]. intros (Hv & Hs). cbn [fst snd] in *.
  destruct (vert_cases v Hv) as (i & Hi & [-> | ->]); pose proof (nx_rng i Hi) as N1; pose proof (pv_rng i Hi) as P1;
    [destruct (opp_bot i Hi) as (A & B & C); destruct (fl_bot i Hi) as (D & E & F)|destruct (opp_top i Hi) as (A & B & C); destruct (fl_top i Hi) as (D & E & F)];
    s3 s; unfold fnext; rewrite ?A, ?B, ?C; unfold drot; cbn [fst snd]; (rewrite D || rewrite E || rewrite F); cbn [Z.add Z.modulo Z.div_eucl Z.leb Z.ltb Z.compare Pos.compare Pos.compare_cont Pos.add Pos.succ Z.pos_div_eucl Z.sub Z.mul Pos.mul Z.opp Z.pos_sub Pos.pred_double];
    change ((2 + 1) mod 3) with 0; change ((1 + 1) mod 3) with 2; change ((0 + 1) mod 3) with 1.
  - apply (fl_bot (nx i)). lia.
  - apply (fl_top i Hi).
  - destruct (fl_bot (pv i) ltac:(lia)) as (_ & G & _). exact G.
  - apply (fl_top (pv i)). lia.
  - apply (fl_bot i Hi).
  - destruct (fl_top (nx i) ltac:(lia)) as (_ & G & _). rewrite G. lia.
Qed.

(** a directed edge is determined by the two faces on its sides *)
Lemma flabel_pair d e : isd (below (2 * n)) d -> isd (below (2 * n)) e ->
  flabel d = flabel e -> flabel (dopp prism_nb d) = flabel (dopp prism_nb e) -> d = e.
Proof.
  assert (K : forall d, isd (below (2 * n)) d -> exists i, 0 <= i < n /\
     (d = (i, 0) /\ flabel d = -1 /\ flabel (dopp prism_nb d) = i
     \/ d = (i, 1) /\ flabel d = i /\ flabel (dopp prism_nb d) = pv i
     \/ d = (i, 2) /\ flabel d = pv i /\ flabel (dopp prism_nb d) = -1
     \/ d = (n + i, 0) /\ flabel d = -2 /\ flabel (dopp prism_nb d) = pv i
     \/ d = (n + i, 1) /\ flabel d = pv i /\ flabel (dopp prism_nb d) = i
     \/ d = (n + i, 2) /\ flabel d = i /\ flabel (dopp prism_nb d) = -2)).
  { intros [v s] (Hv & Hs). cbn [fst snd] in *. destruct (vert_cases v Hv) as (i & Hi & [-> | ->]); exists i; (split; [auto|]);
      pose proof (nx_rng i Hi) as N1; pose proof (pv_rng i Hi) as P1.
    - destruct (opp_bot i Hi) as (A & B & C); destruct (fl_bot i Hi) as (D & E & F); s3 s.
      + left. rewrite A. destruct (fl_bot (nx i) ltac:(lia)) as (_ & _ & ->). repeat split; auto; lia.
      + right; left. rewrite B. destruct (fl_top i Hi) as (_ & -> & _). auto.
      + right; right; left. rewrite C. destruct (fl_bot (pv i) ltac:(lia)) as (-> & _). auto.
    - destruct (opp_top i Hi) as (A & B & C); destruct (fl_top i Hi) as (D & E & F); s3 s.
      + do 3 right; left. rewrite A. destruct (fl_top (pv i) ltac:(lia)) as (_ & _ & ->). auto.
      + do 4 right; left. rewrite B. destruct (fl_bot i Hi) as (_ & -> & _). auto.
      + do 5 right. rewrite C. destruct (fl_top (nx i) ltac:(lia)) as (-> & _). auto. }
  intros Hd He L1 L2.
  destruct (K d Hd) as (i & Hi & Di). destruct (K e He) as (j & Hj & Dj).
  pose proof (nx_rng i Hi). pose proof (pv_rng i Hi). pose proof (nx_rng j Hj). pose proof (pv_rng j Hj).
  assert (PI : pv i = pv j -> i = j). { intros Q. assert (nx (pv i) = nx (pv j)) by congruence. lia. }
  destruct Di as [(-> & X & Y)|[(-> & X & Y)|[(-> & X & Y)|[(-> & X & Y)|[(-> & X & Y)|(-> & X & Y)]]]]];
  destruct Dj as [(-> & X' & Y')|[(-> & X' & Y')|[(-> & X' & Y')|[(-> & X' & Y')|[(-> & X' & Y')|(-> & X' & Y')]]]]];
  rewrite X, X' in L1; rewrite Y, Y' in L2; try (exfalso; lia); try (f_equal; lia); try (f_equal; f_equal; apply PI; lia);
  try (f_equal; apply PI; lia).
  - exfalso. subst i. unfold pv in *. zs; lia.
  - exfalso. subst j. unfold pv in *. zs; lia.
Qed.

Definition prism {V} (pos : Z -> V) : poly V := PY (VB prism_nb pos) (2 * n).

Lemma iter_isd d : isd (below (2 * n)) d -> forall k, isd (below (2 * n)) (iter k (fnext prism_nb) d) /\ flabel (iter k (fnext prism_nb) d) = flabel d.
Proof.
  intros Hd k. induction k as [|k IH]; cbn [iter]; auto. destruct IH as (I & L). split; [|rewrite flabel_next; auto].
  split; [apply (l_rng _ _ prism_links); apply I|]. unfold fnext, drot. cbn [snd]. apply Z.mod_pos_bound. lia.
Qed.
Lemma prism_wf {V} (pos : Z -> V) : wf3 (prism pos).
Proof.
  split; [cbn -[Z.mul]; lia|]. split; [exact prism_links|]. cbn [prism nb vb nv].
  intros d e Hd He (k & ->) (k' & E). apply flabel_pair; auto.
  - symmetry. apply iter_isd; auto.
  - rewrite E. symmetry. apply iter_isd. now apply (isd_opp _ _ prism_links).
Qed.

(** n edges join the two halves *)
Lemma prism_exits keep : (forall i, 0 <= i < n -> keep i = true /\ keep (n + i) = false) -> n <= exits 3 keep prism_nb (2 * n).
Proof.
  intros Hk. rewrite <- (ncross_exits3 prism_nb (2 * n) keep keep ltac:(lia) prism_links) by auto.
  assert (E : n = Z.of_nat (length (map (fun i : Z => (i, 1)) (zrange n)))) by (unfold zrange; rewrite !map_length, seq_length; lia).
  rewrite E at 1. apply inj_le. apply NoDup_incl_length.
  - apply NoDup_map_inj; [|apply NoDup_zrange]. intros x y _ _ Q. congruence.
  - intros d Hd. apply in_map_iff in Hd as (i & <- & Hi). apply in_zrange in Hi. apply in_crosses.
    destruct (Hk i Hi) as (K1 & K2). destruct (nb_bot i Hi) as (_ & B & _).
    split; [split; unfold below; cbn [fst snd]; lia|]. split; cbn [fst]; auto. unfold dtgt. cbn [fst snd]. rewrite B. exact K2.
Qed.
End Prism.

(** the base is a polygon inscribed in a parabola *)
Definition prism_pos (n v : Z) : rvec3 R :=
  if v <? n then V3 (IZR v) (IZR (v * v)) 0%R else V3 (IZR (v - n)) (IZR ((v - n) * (v - n))) 1%R.
Definition par_prism (n : Z) : pol3 := prism n (prism_pos n).

Definition prism_plane (n l : Z) : plane3 R :=
  if l =? -1 then PL3 (V3 0 0 1)%R 0%R else if l =? -2 then PL3 (V3 0 0 (-1))%R 1%R
  else if l =? n - 1 then PL3 (V3 (IZR (n - 1)) (-1) 0)%R 0%R
  else PL3 (V3 (- IZR (2 * l + 1)) 1 0)%R (IZR (l * (l + 1))).

Lemma prism_pos_bt n i : 0 <= i < n -> prism_pos n i = V3 (IZR i) (IZR (i * i)) 0%R /\ prism_pos n (n + i) = V3 (IZR i) (IZR (i * i)) 1%R.
Proof.
  intros Hi. unfold prism_pos. destruct (Z.ltb_spec i n); [|lia]. destruct (Z.ltb_spec (n + i) n); [lia|].
  replace (n + i - n) with i by lia. auto.
Qed.
(** signed distances to the face planes, as integers *)
Lemma prism_side n l i z : 0 <= l < n -> 0 <= i < n ->
  sdist3 (prism_plane n l) (V3 (IZR i) (IZR (i * i)) z) = IZR (if l =? n - 1 then i * (n - 1 - i) else (i - l) * (i - l - 1)).
Proof.
  intros Hl Hi. unfold prism_plane. destruct (Z.eqb_spec l (-1)); [lia|]. destruct (Z.eqb_spec l (-2)); [lia|].
  destruct (Z.eqb_spec l (n - 1)); unfold sdist3; cbn [n3 d3 x3 y3 z3].
  - replace (i * (n - 1 - i)) with ((n - 1) * i - i * i) by ring. rewrite ?minus_IZR, ?mult_IZR, ?minus_IZR. ring.
  - replace ((i - l) * (i - l - 1)) with (l * (l + 1) - (2 * l + 1) * i + i * i) by ring. repeat rewrite ?minus_IZR, ?plus_IZR, ?mult_IZR. ring.
Qed.

(** the faces are planar and the prism is convex *)
Lemma prism_convex n : 3 <= n -> forall d, isd (below (2 * n)) d -> exists g, Spec3R.proper g
  /\ (forall e, same_face (prism_nb n) d e -> sdist3 g (prism_pos n (fst e)) = 0%R)
  /\ (forall v, 0 <= v < 2 * n -> (0 <= sdist3 g (prism_pos n v))%R).
Proof.
  intros Hn d Hd. exists (prism_plane n (flabel n d)).
  assert (L : forall e, isd (below (2 * n)) e -> flabel n e = -1 \/ flabel n e = -2 \/ 0 <= flabel n e < n).
  { intros [v s] (Hv & Hs). cbn [fst snd] in *. destruct (vert_cases n v Hv) as (i & Hi & [-> | ->]); pose proof (pv_rng n Hn i Hi);
    [destruct (fl_bot n i Hi) as (A & B & C)|destruct (fl_top n i Hi) as (A & B & C)]; destruct (slot3 s Hs) as [->|[->| ->]]; lia. }
  split; [|split].
  - unfold Spec3R.proper, prism_plane. destruct (_ =? _); [right; right; cbn; lra|]. destruct (_ =? _); [right; right; cbn; lra|].
    destruct (_ =? _); right; left; cbn; lra.
  - assert (ON : forall e, isd (below (2 * n)) e -> sdist3 (prism_plane n (flabel n e)) (prism_pos n (fst e)) = 0%R).
    { intros [v s] (Hv & Hs). cbn [fst snd] in *. destruct (vert_cases n v Hv) as (i & Hi & [-> | ->]); pose proof (pv_rng n Hn i Hi) as P;
      [destruct (fl_bot n i Hi) as (A & B & C); rewrite (proj1 (prism_pos_bt n i Hi))|destruct (fl_top n i Hi) as (A & B & C); rewrite (proj2 (prism_pos_bt n i Hi))];
      destruct (slot3 s Hs) as [->|[->| ->]]; rewrite ?A, ?B, ?C;
      try (rewrite prism_side by lia; apply f_equal; unfold pv in *; destruct (Z.eqb_spec i 0); repeat match goal with |- context [?a =? ?b] => destruct (Z.eqb_spec a b) end; subst; try lia; nia);
      unfold prism_plane, sdist3; cbn; lra. }
    intros e (k & ->). destruct (iter_isd n Hn d Hd k) as (I & E). rewrite <- E. apply ON. exact I.
  - intros v Hv. destruct (vert_cases n v Hv) as (i & Hi & [-> | ->]); [rewrite (proj1 (prism_pos_bt n i Hi))|rewrite (proj2 (prism_pos_bt n i Hi))];
    destruct (L d Hd) as [->|[->|Hl]]; try (unfold prism_plane, sdist3; cbn; lra);
    rewrite prism_side by auto; apply IZR_le; (destruct (_ =? _); [nia|]); destruct (Z.lt_ge_cases i (flabel n d + 1)); nia.
Qed.

Lemma prism_planar n : 3 <= n -> planar_faces (par_prism n).
Proof. intros Hn d Hd. destruct (prism_convex n Hn d Hd) as (g & A & B & _). exists g. auto. Qed.

(** splitting halfway up needs 2n new vertices *)
Lemma prism_right n : 3 <= n -> forall i, 0 <= i < n ->
  cright3 RN (/ 2)%R 2 (vb (par_prism n)) i = false /\ cright3 RN (/ 2)%R 2 (vb (par_prism n)) (n + i) = true.
Proof.
  intros Hn i Hi. unfold cright3, csd3. cbn [par_prism prism vb ps]. destruct (prism_pos_bt n i Hi) as (-> & ->). cbn. split; [apply Rltb_false|apply Rltb_true]; lra.
Qed.
Lemma prism_split n MX o : 3 <= n -> 2 * n <= MX -> MX < 4 * n ->
  r3d_split_coord RN MX (par_prism n) o (/ 2)%R 2 = Err OutOfBounds.
Proof.
  intros Hn H1 H2. pose proof (prism_wf n Hn (prism_pos n)) as Hw. pose proof (prism_right n Hn) as Rt.
  assert (N : nv (par_prism n) = 2 * n) by reflexivity.
  assert (X : n <= exits 3 (fun v => negb (cright3 RN (/ 2)%R 2 (vb (par_prism n)) v)) (nb (vb (par_prism n))) (nv (par_prism n))).
  { apply (prism_exits n Hn). intros i Hi. destruct (Rt i Hi) as (-> & ->). auto. }
  destruct (split3_coord_spec RN MX (par_prism n) o (/ 2)%R 2 Hw ltac:(rn; lia) ltac:(lia))
    as [(E & _)|[(_ & A & _)|[(_ & A & _)|(u & v & _ & _ & _ & _ & [(q0 & q1 & _ & S)|(E & _)])]]]; auto; exfalso.
  - rn; lia.
  - destruct (Rt 0 ltac:(lia)) as (_ & R1). rn. rewrite A in R1; [discriminate|lia].
  - destruct (Rt 0 ltac:(lia)) as (R1 & _). rn. rewrite A in R1; [discriminate|lia].
  - destruct S as (S & _). rn. lia.
Qed.

(** the grid of two cells, one above the other *)
Definition two_cells : box := ((fun _ => 0), (fun i => if i =? 2 then 2 else 1)).
Lemma prism_voxelize n MX sh po stk0 mom0 gr x y : 3 <= n -> 2 * n <= MX -> MX < 4 * n -> 0 <= po -> 2 * num_moments3 po <= int_max ->
  r3d_voxelize RN MX sh po stk0 mom0 (par_prism n) two_cells gr (V3 x y (/ 2)%R) = Err OutOfBounds.
Proof.
  intros Hn H1 H2 Hpo HI. pose proof (prism_wf n Hn (prism_pos n)) as Hw.
  assert (CO : cells3_ok (num_moments3 po) two_cells).
  { split; [|cbn -[Z.mul]; lia]. intros i Hi. destruct (slot3 i Hi) as [->|[->| ->]]; cbn; unfold int_min, int_max; lia. }
  destruct (voxelize_R MX sh po stk0 mom0 (par_prism n) two_cells gr (V3 x y (/ 2)%R) Hpo Hw) as [(gr' & l & _ & (Rt & _))|(E & _)]; auto.
  { cbn -[Z.mul]. lia. }
  exfalso. inversion Rt as [q b L|q b L F|q b o a m q0 q1 l0 l1 L Ha Hm Hs]; subst.
  - cbn -[Z.mul] in L. lia.
  - specialize (F 2 ltac:(lia)). cbn in F. lia.
  - assert (a = 2 /\ m = 1) as (-> & ->). { destruct (slot3 a Ha) as [->|[->| ->]]; cbn in Hm; lia. }
    cbn [dget3 Z.eqb Pos.eqb z3 nmul nofZ RN] in Hs. replace (/ 2 * 1)%R with (/ 2)%R in Hs by lra.
    rn. rewrite prism_split in Hs; [discriminate|auto..].
Qed.
