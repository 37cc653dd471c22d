(** * IBox: get_ibox and clamp_ibox for any number of axes. *)
From Coq Require Import Reals ZArith List Bool Lia Lra.
From Verif Require Import Base Lib ModelCommon Model2 ModelV RealNum VoxFacts.
Import ListNotations.
Open Scope Z_scope.

(** ** get_ibox over the reals *)
Section Get.
Context (D : Z) (HD : 0 <= D) {P V : Type} (nvp : P -> Z) (getc : V -> Z -> res R) (pos : P -> Z -> res V).
Context (p : P) (c : Z -> Z -> R).
Hypothesis Hc : forall v i, 0 <= v < nvp p -> 0 <= i < D -> exists q, pos p v = OK q /\ getc q i = OK (c v i).

Local Open Scope R_scope.
Lemma get_rbox_spec : (forall v i, (0 <= v < nvp p)%Z -> (0 <= i < D)%Z -> - 10 ^ 30 <= c v i <= 10 ^ 30) -> (0 < nvp p)%Z ->
  exists lo hi : Z -> R, get_rbox RN D P nvp V getc pos p = OK (lo, hi)
  /\ forall i, (0 <= i < D)%Z -> (forall v, (0 <= v < nvp p)%Z -> lo i <= c v i <= hi i)
     /\ (exists v, (0 <= v < nvp p)%Z /\ lo i = c v i) /\ (exists v, (0 <= v < nvp p)%Z /\ hi i = c v i).
Proof.
  intros Hb Hn.
  set (Q := fun (k : Z) (lo hi : Z -> R) (i : Z) =>
     (forall v, (0 <= v < k)%Z -> lo i <= c v i <= hi i)
     /\ (lo i = 10 ^ 30 \/ exists v, (0 <= v < k)%Z /\ lo i = c v i)
     /\ (hi i = - 10 ^ 30 \/ exists v, (0 <= v < k)%Z /\ hi i = c v i)).
  destruct (for_inv (fun k (s : (Z -> R) * (Z -> R)) => forall i, (0 <= i < D)%Z -> Q k (fst s) (snd s) i) 0 (nvp p)
    (fun v => for_ 0 D (fun i s =>
      let '(lo, hi) := s in
      let* q := pos p v in
      let* x := getc q i in
      let lo := if nlt RN x (lo i) then upd lo i x else lo in
      let hi := if nlt RN (hi i) x then upd hi i x else hi in
      OK (lo, hi))) ((fun _ => nbig RN), (fun _ => nopp RN (nbig RN)))) as ([lo hi] & E & I); try lia.
  - intros i Hi. unfold Q. cbn [fst snd]. split; [intros; lia|]. split; left; reflexivity.
  - intros v s Hv I.
    destruct (for_inv (fun k (s : (Z -> R) * (Z -> R)) => (forall i, (0 <= i < k)%Z -> Q (v + 1)%Z (fst s) (snd s) i)
        /\ (forall i, (k <= i < D)%Z -> Q v (fst s) (snd s) i)) 0 D
      (fun i s => let '(lo, hi) := s in
      let* q := pos p v in
      let* x := getc q i in
      let lo := if nlt RN x (lo i) then upd lo i x else lo in
      let hi := if nlt RN (hi i) x then upd hi i x else hi in
      OK (lo, hi)) s) as (s' & E & J1 & J2); try lia.
    + split; [intros; lia|]. intros i Hi. apply I. lia.
    + intros i [lo hi] Hi (J1 & J2). destruct (Hc v i Hv Hi) as (q & Eq & Ex). rewrite Eq. cbn [bind].
      change (T RN) with R. rewrite Ex. cbn [bind].
      eexists. split; [reflexivity|]. cbn [fst snd] in *.
      set (lo' := if nlt RN (c v i) (lo i) then upd lo i (c v i) else lo).
      set (hi' := if nlt RN (hi i) (c v i) then upd hi i (c v i) else hi).
      assert (L : lo' i = Rmin (lo i) (c v i)).
      { unfold lo'. cbn. unfold Rltb, Rmin. destruct (Rlt_dec (c v i) (lo i)), (Rle_dec (lo i) (c v i)); rewrite ?upd_eq; auto; lra. }
      assert (H : hi' i = Rmax (hi i) (c v i)).
      { unfold hi'. cbn. unfold Rltb, Rmax. destruct (Rlt_dec (hi i) (c v i)), (Rle_dec (hi i) (c v i)); rewrite ?upd_eq; auto; lra. }
      assert (L' : forall j, j <> i -> lo' j = lo j).
      { intros j Hj. unfold lo'. destruct (nlt RN (c v i) (lo i)); auto. now apply upd_neq. }
      assert (H' : forall j, j <> i -> hi' j = hi j).
      { intros j Hj. unfold hi'. destruct (nlt RN (hi i) (c v i)); auto. now apply upd_neq. }
      split.
      * intros j Hj. destruct (Z.eq_dec j i) as [->|Ne].
        -- destruct (J2 i ltac:(lia)) as (A & B & C). unfold Q. rewrite L, H.
           pose proof (Hb v i Hv Hi).
           split; [|split].
           ++ intros w Hw. destruct (Z.eq_dec w v) as [->|Ne].
              ** split; [apply Rmin_r|apply Rmax_r].
              ** pose proof (A w ltac:(lia)). pose proof (Rmin_l (lo i) (c v i)). pose proof (Rmax_l (hi i) (c v i)). lra.
           ++ unfold Rmin. destruct (Rle_dec (lo i) (c v i)).
              ** destruct B as [B|(w & Hw & B)]; [auto|]. right. exists w. split; [lia|auto].
              ** right. exists v. split; [lia|auto].
           ++ unfold Rmax. destruct (Rle_dec (hi i) (c v i)).
              ** right. exists v. split; [lia|auto].
              ** destruct C as [C|(w & Hw & C)]; [auto|]. right. exists w. split; [lia|auto].
        -- unfold Q. rewrite L', H' by auto. apply J1. lia.
      * intros j Hj. unfold Q. rewrite L', H' by lia. apply J2. lia.
    + exists s'. split; auto.
  - exists lo, hi. split; [exact E|]. intros i Hi. destruct (I i Hi) as (A & B & C). cbn [fst snd] in *.
    split; [exact A|]. split.
    + destruct B as [B|B]; auto. exists 0%Z. split; [lia|]. pose proof (A 0%Z ltac:(lia)). pose proof (Hb 0%Z i ltac:(lia) Hi). lra.
    + destruct C as [C|C]; auto. exists 0%Z. split; [lia|]. pose proof (A 0%Z ltac:(lia)). pose proof (Hb 0%Z i ltac:(lia) Hi). lra.
Qed.

Lemma floor_range x : IZR int_min <= x <= IZR int_max -> toint (Some (Rfloor x)) = OK (Rfloor x).
Proof.
  intros H. pose proof (Rfloor_spec x) as S. unfold toint.
  assert (int_min <= Rfloor x)%Z. { apply Z.lt_succ_r. apply lt_IZR. rewrite succ_IZR. lra. }
  assert (Rfloor x <= int_max)%Z. { apply le_IZR. lra. }
  destruct (Z.leb_spec int_min (Rfloor x)), (Z.leb_spec (Rfloor x) int_max); cbn; auto; lia.
Qed.
Lemma ceil_range x : IZR int_min <= x <= IZR int_max -> toint (Some (Rceil x)) = OK (Rceil x).
Proof.
  intros H. pose proof (Rceil_spec x) as S. unfold toint.
  assert (int_min <= Rceil x)%Z. { apply le_IZR. lra. }
  assert (Rceil x <= int_max)%Z. { apply Z.lt_succ_r. apply lt_IZR. rewrite succ_IZR. lra. }
  destruct (Z.leb_spec int_min (Rceil x)), (Z.leb_spec (Rceil x) int_max); cbn; auto; lia.
Qed.
Lemma floor_div_iff x d m : 0 < d -> (m <= Rfloor (x / d))%Z <-> d * IZR m <= x.
Proof.
  intros Hd. pose proof (Rfloor_spec (x / d)) as S. assert (E : x = d * (x / d)) by (field; lra).
  split; intros H.
  - apply IZR_le in H. nra.
  - apply Z.lt_succ_r. apply lt_IZR. rewrite succ_IZR. apply (Rmult_lt_reg_l d); [auto|]. nra.
Qed.
Lemma ceil_div_iff x d m : 0 < d -> (Rceil (x / d) <= m)%Z <-> x <= d * IZR m.
Proof.
  intros Hd. pose proof (Rceil_spec (x / d)) as S. assert (E : x = d * (x / d)) by (field; lra).
  split; intros H.
  - apply IZR_le in H. nra.
  - apply Z.lt_succ_r. apply lt_IZR. rewrite succ_IZR. apply (Rmult_lt_reg_l d); [auto|]. nra.
Qed.

Lemma get_ibox_spec (d : Z -> R) (b0 : box) : (0 < nvp p)%Z -> (forall i, (0 <= i < D)%Z -> 0 < d i) ->
  (forall v i, (0 <= v < nvp p)%Z -> (0 <= i < D)%Z -> - 10 ^ 30 <= c v i <= 10 ^ 30) ->
  (forall v i, (0 <= v < nvp p)%Z -> (0 <= i < D)%Z -> d i * IZR int_min <= c v i <= d i * IZR int_max) ->
  exists b, get_ibox RN D P nvp V getc pos p d b0 = OK b
  /\ forall i, (0 <= i < D)%Z ->
     (int_min <= fst b i)%Z /\ (snd b i <= int_max)%Z
     /\ (forall v, (0 <= v < nvp p)%Z -> d i * IZR (fst b i) <= c v i <= d i * IZR (snd b i))
     /\ (forall m, (forall v, (0 <= v < nvp p)%Z -> d i * IZR m <= c v i) -> (m <= fst b i)%Z)
     /\ (forall m, (forall v, (0 <= v < nvp p)%Z -> c v i <= d i * IZR m) -> (snd b i <= m)%Z).
Proof.
  intros Hn Hd Hb Hi. destruct (get_rbox_spec Hb Hn) as (lo & hi & E & I). unfold get_ibox.
  change (T RN) with R in *. rewrite E. cbn [bind].
  assert (RG : forall i x v, (0 <= i < D)%Z -> (0 <= v < nvp p)%Z -> x = c v i -> IZR int_min <= x / d i <= IZR int_max).
  { intros i x v Hi' Hv ->. pose proof (Hi v i Hv Hi'). pose proof (Hd i Hi').
    assert (X : c v i = d i * (c v i / d i)) by (field; lra). rewrite X in H. split; apply (Rmult_le_reg_l (d i)); lra. }
  destruct (for_inv (fun k (b : box) => forall i, (0 <= i < k)%Z -> fst b i = Rfloor (lo i / d i) /\ snd b i = Rceil (hi i / d i)) 0 D
    (fun i b => let* a := toint (nfloor RN (ndiv RN (lo i) (d i))) in
    let* c := toint (nceil RN (ndiv RN (hi i) (d i))) in
    OK (upd (fst b) i a, upd (snd b) i c)) b0) as (b & Eb & Ib); try lia.
  - intros i b Hi' J. destruct (I i Hi') as (_ & (v & Hv & Ev) & (w & Hw & Ew)).
    cbn [nfloor nceil ndiv RN]. rewrite floor_range by (apply (RG i (lo i) v); auto). cbn [bind].
    rewrite ceil_range by (apply (RG i (hi i) w); auto). cbn [bind]. eexists. split; [reflexivity|].
    intros j Hj. cbn [fst snd]. destruct (Z.eq_dec j i) as [->|Ne]; [rewrite !upd_eq; auto|rewrite !upd_neq by auto; apply J; lia].
  - exists b. split; [exact Eb|]. intros i Hi'. destruct (Ib i Hi') as (-> & ->).
    destruct (I i Hi') as (A & (v & Hv & Ev) & (w & Hw & Ew)). pose proof (Hd i Hi') as Hd'.
    split; [|split; [|split; [|split]]].
    + apply floor_div_iff; auto. pose proof (Hi v i Hv Hi'). lra.
    + apply ceil_div_iff; auto. pose proof (Hi w i Hw Hi'). lra.
    + intros u Hu. pose proof (A u Hu).
      pose proof (proj1 (floor_div_iff (lo i) (d i) _ Hd') (Z.le_refl _)).
      pose proof (proj1 (ceil_div_iff (hi i) (d i) _ Hd') (Z.le_refl _)). lra.
    + intros m Hm. apply floor_div_iff; auto. rewrite Ev. auto.
    + intros m Hm. apply ceil_div_iff; auto. rewrite Ew. auto.
Qed.

(** an empty polytope: the bounds 1.0e30 / d do not fit an int *)
Lemma get_ibox_empty (d : Z -> R) (b0 : box) : (0 < D)%Z -> (nvp p <= 0)%Z -> 0 < d 0%Z <= 10 ^ 20 ->
  get_ibox RN D P nvp V getc pos p d b0 = Err BadConversion.
Proof.
  intros HD' Hn Hd. unfold get_ibox, get_rbox. rewrite for_empty by auto. cbn [bind]. rewrite for_first by lia. cbn [nfloor ndiv nbig RN].
  assert (X : (int_max < Rfloor (10 ^ 30 / d 0))%Z).
  { assert (int_max + 1 <= Rfloor (10 ^ 30 / d 0))%Z; [|lia]. apply floor_div_iff; [lra|].
    assert (IZR (int_max + 1) <= 10 ^ 10) by (unfold int_max; cbn; lra).
    replace (10 ^ 30) with (10 ^ 20 * 10 ^ 10) by (rewrite <- pow_add; reflexivity).
    assert (0 <= IZR (int_max + 1)) by (unfold int_max; cbn; lra).
    apply Rmult_le_compat; lra. }
  unfold toint. destruct (Z.leb_spec (Rfloor (10 ^ 30 / d 0%Z)) int_max); [lia|].
  rewrite andb_false_r. reflexivity.
Qed.
End Get.

(** ** clamp_ibox, any arithmetic *)
Section Clamp.
Context (N : num) (D : Z) (HD : 0 <= D) {P plane : Type} (mkpl : Z -> T N -> T N -> plane)
  (clip : P -> list plane -> res P) (empty : P -> P) (FS : Z) (HFS : 2 * D <= FS) (d : Z -> T N) (cb : box).
Hypothesis Hcb : forall i, 0 <= i < D -> - int_max <= fst cb i <= int_max.

(** the faces pushed for axis [i] *)
Definition faces_at (b : box) (i : Z) : list plane :=
  (if fst b i <? fst cb i then [mkpl i (n1 N) (nmul N (nofZ N (- fst cb i)) (d i))] else [])
  ++ (if snd cb i <? snd b i then [mkpl i (nopp N (n1 N)) (nmul N (nofZ N (snd cb i)) (d i))] else []).
Definition faces_of (b : box) : list plane := flat_map (faces_at b) (zrange D).
Definition overlap (b : box) (i : Z) : bool := (fst cb i <? snd b i) && (fst b i <? snd cb i).

Lemma faces_at_length b i : (length (faces_at b i) <= 2)%nat.
Proof. unfold faces_at. destruct (_ <? _), (_ <? _); cbn; lia. Qed.

Lemma clamp_loop (b : box) :
  (forallb (overlap b) (zrange D) = true ->
     exists b', for_ 0 D (clamp_body N plane mkpl FS cb d) (Some (b, [])) = OK (Some (b', faces_of b))
     /\ forall i, 0 <= i < D -> fst b' i = Z.max (fst b i) (fst cb i) /\ snd b' i = Z.min (snd b i) (snd cb i))
  /\ (forallb (overlap b) (zrange D) = false ->
     for_ 0 D (clamp_body N plane mkpl FS cb d) (Some (b, [])) = OK None).
Proof.
  destruct (for_inv (fun k s =>
     (forallb (overlap b) (zrange k) = true -> exists b', s = Some (b', flat_map (faces_at b) (zrange k))
        /\ (forall i, 0 <= i < k -> fst b' i = Z.max (fst b i) (fst cb i) /\ snd b' i = Z.min (snd b i) (snd cb i))
        /\ (forall i, k <= i -> fst b' i = fst b i /\ snd b' i = snd b i))
     /\ (forallb (overlap b) (zrange k) = false -> s = None)) 0 D
     (clamp_body N plane mkpl FS cb d) (Some (b, []))) as (s & E & I1 & I2); try lia.
  - split; [|discriminate]. intros _. exists b. split; [reflexivity|]. split; [intros; lia|auto].
  - intros k s Hk (I1 & I2).
    rewrite zrange_succ by lia. rewrite forallb_app. cbn [forallb]. rewrite andb_true_r.
    destruct (forallb (overlap b) (zrange k)) eqn:F.
    2: { rewrite I2 by auto. cbn [clamp_body]. eexists. split; [reflexivity|]. cbn [andb]. split; [discriminate|auto]. }
    destruct I1 as (b' & -> & J1 & J2); auto. destruct b' as [lo hi]. cbn [fst snd] in *.
    destruct (J2 k ltac:(lia)) as (K1 & K2). cbn [clamp_body]. rewrite K1, K2. cbn [andb].
    assert (OV : (snd b k <=? fst cb k) || (snd cb k <=? fst b k) = negb (overlap b k)).
    { unfold overlap. destruct (Z.leb_spec (snd b k) (fst cb k)), (Z.ltb_spec (fst cb k) (snd b k)); try lia;
      destruct (Z.leb_spec (snd cb k) (fst b k)), (Z.ltb_spec (fst b k) (snd cb k)); try lia; reflexivity. }
    rewrite OV. destruct (overlap b k) eqn:O; cbn [negb].
    2: { eexists. split; [reflexivity|]. split; [discriminate|auto]. }
    unfold overlap in O. apply andb_true_iff in O as (O1 & O2). apply Z.ltb_lt in O1, O2.
    assert (Len : (Z.of_nat (length (flat_map (faces_at b) (zrange k))) <= 2 * k)).
    { assert (G : forall l, (length (flat_map (faces_at b) l) <= 2 * length l)%nat).
      { induction l as [|x l IH]; cbn [flat_map]; [cbn; lia|]. rewrite app_length. pose proof (faces_at_length b x). cbn [length]. lia. }
      pose proof (G (zrange k)). pose proof (length_zrange k ltac:(lia)). lia. }
    set (fs := flat_map (faces_at b) (zrange k)) in *.
    assert (FL : flat_map (faces_at b) (zrange k ++ [k]) = fs ++ faces_at b k).
    { rewrite flat_map_app. cbn. now rewrite app_nil_r. }
    rewrite FL. unfold faces_at.
    assert (K3 : forall x, 2 * k + 2 <= FS -> Z.of_nat (length fs) <= 2 * k -> push plane FS fs x = OK (fs ++ [x])).
    { intros x A B. unfold push. destruct (Z.ltb_spec (Z.of_nat (length fs)) FS); [auto|lia]. }
    assert (K4 : forall x y, 2 * k + 2 <= FS -> Z.of_nat (length fs) <= 2 * k -> push plane FS (fs ++ [y]) x = OK ((fs ++ [y]) ++ [x])).
    { intros x y A B. unfold push. rewrite app_length. cbn [length]. destruct (Z.ltb_spec (Z.of_nat (length fs + 1)) FS); [auto|lia]. }
    destruct (Z.ltb_spec (fst b k) (fst cb k)) as [L1|L1].
    + rewrite int32_ok by (pose proof (Hcb k Hk); unfold int_min, int_max in *; lia). cbn [bind]. rewrite K3 by lia. cbn [bind].
      destruct (Z.ltb_spec (snd cb k) (snd b k)) as [L2|L2].
      * rewrite K4 by lia. cbn [bind].
        eexists. split; [reflexivity|]. split; [|discriminate]. intros _. eexists. split; [rewrite <- app_assoc; reflexivity|].
        cbn [fst snd]. split; intros i Hi.
        -- destruct (Z.eq_dec i k) as [->|Ne]; [rewrite !upd_eq; lia|rewrite !upd_neq by auto; apply J1; lia].
        -- rewrite !upd_neq by lia. apply J2; lia.
      * cbn [bind].
        eexists. split; [reflexivity|]. split; [|discriminate]. intros _. eexists. split; [rewrite app_nil_r; reflexivity|].
        cbn [fst snd]. split; intros i Hi.
        -- destruct (Z.eq_dec i k) as [->|Ne]; [rewrite !upd_eq; lia|rewrite !upd_neq by auto; apply J1; lia].
        -- rewrite !upd_neq by lia. apply J2; lia.
    + cbn [bind]. destruct (Z.ltb_spec (snd cb k) (snd b k)) as [L2|L2].
      * rewrite K3 by lia. cbn [bind].
        eexists. split; [reflexivity|]. split; [|discriminate]. intros _. eexists. split; [reflexivity|].
        cbn [fst snd]. split; intros i Hi.
        -- destruct (Z.eq_dec i k) as [->|Ne]; [rewrite !upd_eq; lia|rewrite !upd_neq by auto; apply J1; lia].
        -- rewrite !upd_neq by lia. apply J2; lia.
      * cbn [bind]. eexists. split; [reflexivity|]. split; [|discriminate]. intros _. eexists. split; [cbn [app]; rewrite app_nil_r; reflexivity|].
        cbn [fst snd]. split; intros i Hi.
        -- destruct (Z.eq_dec i k) as [->|Ne]; [lia|apply J1; lia].
        -- apply J2; lia.
  - split.
    + intros F. destruct (I1 F) as (b' & -> & J & _). exists b'. auto.
    + intros F. rewrite <- (I2 F). auto.
Qed.

(** [clip] by no plane is the identity *)
Hypothesis clip_nil : forall p, clip p [] = OK p.

Lemma clamp_ibox_spec p b :
  (forallb (overlap b) (zrange D) = true ->
     exists b', (forall i, 0 <= i < D -> fst b' i = Z.max (fst b i) (fst cb i) /\ snd b' i = Z.min (snd b i) (snd cb i))
     /\ clamp_ibox N D P plane mkpl clip empty FS p b cb d = (let* q := clip p (faces_of b) in OK (q, b')))
  /\ (forallb (overlap b) (zrange D) = false ->
     clamp_ibox N D P plane mkpl clip empty FS p b cb d = OK (empty p, ((fun _ => 0), (fun _ => 0)))).
Proof.
  destruct (clamp_loop b) as (A & B). unfold clamp_ibox. split; intros F.
  - destruct (A F) as (b' & E & H). exists b'. split; auto. rewrite E. cbn [bind].
    destruct (faces_of b); auto. now rewrite clip_nil.
  - rewrite (B F). reflexivity.
Qed.
End Clamp.
