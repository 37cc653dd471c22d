(** * ClipN: one plane of [rNd_clip], for every arithmetic (rNd.c:26-171) *)
From Coq Require Import ZArith List Bool Lia.
From Verif Require Import Base Lib ModelCommon CommonFacts ModelN ModelNC TransN Clip2 InsN CutN SpecNC.
Import ListNotations.
Open Scope Z_scope.

Section C.
Context (NN : num) (MX D : Z).
Notation buf := (vbuf (Z -> T NN)).
Notation minf := (minf NN). Notation maxf := (maxf NN).

(** signed distance as computed by the code *)
Definition sdfN (pl : planeN NN) (b : buf) (v : Z) : T NN :=
  fold_left (fun s i => nadd NN s (nmul NN (ps b v i) (nN NN pl i))) (zrange D) (dN NN pl).

Lemma clipN_sd_spec b n pl : 0 <= D -> 0 <= n <= MX ->
  exists s, clipN_sd NN MX D b n pl = OK s
  /\ (forall v, 0 <= v < n -> sdistsN NN s v = Some (sdfN pl b v))
  /\ (forall v, 0 <= v < n -> clippedN NN s v = if nlt NN (sdfN pl b v) (n0 NN) then 1 else 0)
  /\ (forall v, n <= v -> clippedN NN s v = 0)
  /\ sminN NN s = minf (sdfN pl b) n (nbig NN)
  /\ smaxN NN s = maxf (sdfN pl b) n (nopp NN (nbig NN)).
Proof.
  intros HD Hn. unfold clipN_sd.
  destruct (for_inv (fun i s =>
     (forall v, 0 <= v < i -> sdistsN NN s v = Some (sdfN pl b v))
  /\ (forall v, 0 <= v < i -> clippedN NN s v = if nlt NN (sdfN pl b v) (n0 NN) then 1 else 0)
  /\ (forall v, i <= v -> clippedN NN s v = 0)
  /\ sminN NN s = minf (sdfN pl b) i (nbig NN)
  /\ smaxN NN s = maxf (sdfN pl b) i (nopp NN (nbig NN)))
   0 n (clipN_sd_body NN MX D b pl)
   (SDN NN (fun _ => None) (nbig NN) (nopp NN (nbig NN)) (fun _ => 0))) as (s & E & I);
   try lia; [cbn; repeat split; intros; try reflexivity; lia| |eauto].
  intros i s Hi (H1 & H2 & H3 & H4 & H5). unfold clipN_sd_body.
  match goal with |- context [for_ 0 D ?bd (dN NN pl)] => set (body := bd) end.
  destruct (for_inv (fun k w => w = fold_left (fun s j => nadd NN s (nmul NN (ps b i j) (nN NN pl j))) (zrange k) (dN NN pl)) 0 D body (dN NN pl)) as (w & Ew & Hw); try lia; auto.
  { intros j w Hj ->. unfold body. rewrite rd_xyz_ok by lia. cbn [bind]. eexists. split; [reflexivity|]. rewrite zrange_succ, fold_left_app by lia. reflexivity. }
  rewrite Ew. cbn [bind]. subst w. fold (sdfN pl b i). rewrite wr_ok by lia. cbn [bind].
  assert (M : minf (sdfN pl b) (i + 1) (nbig NN)
     = if nlt NN (sdfN pl b i) (sminN NN s) then sdfN pl b i else sminN NN s).
  { unfold Clip2.minf. rewrite zrange_succ, fold_left_app by lia. cbn [fold_left].
    fold (minf (sdfN pl b) i (nbig NN)). now rewrite <- H4. }
  assert (M' : maxf (sdfN pl b) (i + 1) (nopp NN (nbig NN))
     = if nlt NN (smaxN NN s) (sdfN pl b i) then sdfN pl b i else smaxN NN s).
  { unfold Clip2.maxf. rewrite zrange_succ, fold_left_app by lia. cbn [fold_left].
    fold (maxf (sdfN pl b) i (nopp NN (nbig NN))). now rewrite <- H5. }
  destruct (nlt NN (sdfN pl b i) (n0 NN)) eqn:Eb; cbn [bind]; rewrite ?wr_ok by lia; cbn [bind];
    (eexists; split; [reflexivity|]); cbn [sdistsN clippedN sminN smaxN]; rewrite M, M';
    (split; [|split; [|split; [|split; reflexivity]]]).
  - intros v Hv. destruct (Z.eq_dec v i); [subst; now rewrite upd_eq|]. rewrite upd_neq by lia. apply H1. lia.
  - intros v Hv. destruct (Z.eq_dec v i); [subst; now rewrite upd_eq, Eb|]. rewrite upd_neq by lia. apply H2. lia.
  - intros v Hv. rewrite upd_neq by lia. apply H3. lia.
  - intros v Hv. destruct (Z.eq_dec v i); [subst; now rewrite upd_eq|]. rewrite upd_neq by lia. apply H1. lia.
  - intros v Hv. destruct (Z.eq_dec v i); [subst; rewrite Eb; apply H3; lia|]. apply H2. lia.
  - intros v Hv. apply H3. lia.
Qed.

(** the vertices kept by one plane *)
Definition keepvN (pl : planeN NN) (b : buf) (v : Z) : bool := negb (nlt NN (sdfN pl b v) (n0 NN)).

Definition placed (p p' : polyN NN) (pl : planeN NN) (nh : Z) (h h' : Z -> Z -> Z) (ov : Z -> Z) (nw : Z -> Z -> Z) : Prop :=
  (forall v, 0 <= v < nvN NN p -> keepvN pl (vbN NN p) v = true -> ps (vbN NN p') (ov v) = ps (vbN NN p) v /\ forall i, 0 <= i < D -> h' (ov v) i = h v i)
  /\ forall v i, 0 <= v < nvN NN p -> 0 <= i < D -> keepvN pl (vbN NN p) v = true -> keepvN pl (vbN NN p) (nb (vbN NN p) v i) = false ->
      (forall k, 0 <= k < D -> ps (vbN NN p') (nw v i) k = newposN NN (sdfN pl (vbN NN p)) (ps (vbN NN p)) v (nb (vbN NN p) v i) k)
      /\ h' (nw v i) 0 = nh /\ forall a, 0 < a < D -> h' (nw v i) a = h v (other i a).

Definition emptyN (p : polyN NN) : polyN NN := PN NN (vbN NN p) (fdN NN p) 0 (nfN NN p).
Lemma clipN_one fuel (p : polyN NN) pl nh bk h : 3 <= D -> 0 <= nvN NN p <= MX -> 0 <= nfN NN p -> (Z.to_nat (MX * D * D * D) <= fuel)%nat ->
  let n := nvN NN p in let f := nb (vbN NN p) in let sd := sdfN pl (vbN NN p) in
  cells D (upto n) (nfN NN p) nh f bk h (fdN NN p) -> simple_edges D (upto n) f ->
  forall rest, 
  if nle NN (n0 NN) (minf sd n (nbig NN)) then clipN_planes NN MX D fuel (pl :: rest) p = clipN_planes NN MX D fuel rest p
  else if nle NN (maxf sd n (nopp NN (nbig NN))) (n0 NN) then clipN_planes NN MX D fuel (pl :: rest) p = OK (emptyN p)
  else (n + cut_edges D n (keepvN pl (vbN NN p)) f <= MX /\ exists p', clipN_planes NN MX D fuel (pl :: rest) p = clipN_planes NN MX D fuel rest p'
        /\ nvN NN p' = cnt (keepvN pl (vbN NN p)) n + cut_edges D n (keepvN pl (vbN NN p)) f /\ nfN NN p <= nfN NN p'
        /\ exists bk' h' ov nw, cells D (upto (nvN NN p')) (nfN NN p') (nh + 1) (nb (vbN NN p')) bk' h' (fdN NN p')
        /\ truncated D n (nfN NN p) (keepvN pl (vbN NN p)) f (fdN NN p) (nvN NN p') (nb (vbN NN p')) (fdN NN p') ov nw
        /\ placed p p' pl nh h h' ov nw)
     \/ (MX < n + cut_edges D n (keepvN pl (vbN NN p)) f /\ clipN_planes NN MX D fuel (pl :: rest) p = Err OutOfBounds).
Proof.
  intros HD Hn Hnf Hfuel n f sd C SE rest. cbn [clipN_planes].
  destruct (clipN_sd_spec (vbN NN p) (nvN NN p) pl) as (s & Es & S1 & S2 & S3 & S4 & S5); [lia|auto|]. rewrite Es. cbn [bind]. rewrite S4, S5.
  fold n sd. destruct (nle NN (n0 NN) (minf sd n (nbig NN))); auto. destruct (nle NN (maxf sd n (nopp NN (nbig NN))) (n0 NN)); auto.
  assert (KE : forall v, 0 <= v < n -> keepN (clippedN NN s) v = keepvN pl (vbN NN p) v).
  { intros v Hv. unfold keepN, keepvN. rewrite S2 by auto. destruct (nlt NN (sdfN pl (vbN NN p) v) (n0 NN)); auto. }
  assert (R : forall v i, 0 <= v < n -> 0 <= i < D -> 0 <= f v i < n) by (intros; apply (ce_f _ _ _ _ _ _ _ _ C); auto).
  assert (NE : ncrN NN D (vbN NN p) n (clippedN NN s) = cut_edges D n (keepvN pl (vbN NN p)) f).
  { unfold ncrN, xsN, cut_edges, darts. f_equal. f_equal. apply filter_ext_in. intros (v & i) Hd. apply in_darts in Hd as (Hv & Hi). unfold crossN. cbn [fst snd].
    rewrite !KE by auto. auto. }
  destruct (clipN_cut_spec NN MX D (vbN NN p) (fdN NN p) n (nfN NN p) nh bk h (sdistsN NN s) sd (clippedN NN s) HD Hn Hnf C SE S1 S3 fuel p) as [(HM & p' & E & En & Enf & bk' & h' & ov & nw & CC & TT & P1 & P2)|(HM & E)]; auto.
  - left. rewrite NE in *. split; auto. rewrite E. cbn [bind]. exists p'. split; auto. split.
    { rewrite En. f_equal. apply cnt_ext. auto. }
    split; auto.
    exists bk', h', ov, nw. split; auto. split.
    + destruct TT as [T1 T2 T3 T4 T5 T6 T7 T8 T9 T10 T11].
      assert (KT : forall v, 0 <= v < n -> keepvN pl (vbN NN p) v = true -> keepN (clippedN NN s) v = true) by (intros v Hv; rewrite KE by auto; auto).
      assert (KF : forall v i, 0 <= v < n -> 0 <= i < D -> keepvN pl (vbN NN p) (f v i) = false -> keepN (clippedN NN s) (f v i) = false) by (intros v i Hv Hi; rewrite KE by auto; auto).
      constructor.
      * intros v Hv Kv. apply T1; auto.
      * intros v i Hv Hi Kv Kf. apply T2; auto.
      * intros u Hu. destruct (T3 u Hu) as [(v & A1 & A2 & A3)|(v & i & A1 & A2 & A3 & A4 & A5)]; [left; exists v|right; exists v, i].
        { rewrite <- KE; auto. }
        { rewrite <- !KE; auto 10. }
      * intros v w Hv Hw Kv Kw. apply T4; auto.
      * intros v i w j A1 A2 A3 A4 B1 B2 B3 B4. apply T5; auto.
      * intros v w j A1 A2 B1 B2 B3 B4. apply T6; auto.
      * intros v i A1 A2 A3. rewrite T7 by auto. fold f. rewrite KE by auto. auto.
      * intros v i A1 A2 A3 A4. apply T8; auto.
      * intros v i j A1 A2 A3 A4 A5. apply T9; auto.
      * intros v i a A1 A2 A3 A4 A5. apply T10; auto.
      * intros v i a c A1 A2 A3 A4 A5 A6 A7. apply T11; auto.
    + split.
      * intros v Hv Kv. apply P1; auto. rewrite KE; auto.
      * intros v i Hv Hi Kv Kf. apply P2. split; auto. split; auto. split; [rewrite KE; auto|]. change (keepN (clippedN NN s) (f v i) = false). rewrite KE by auto. exact Kf.
  - right. rewrite NE in *. rewrite E. auto.
Qed.
End C.

Section O.
Context (NN : num) (MX D : Z).
Lemma clipN_onep fuel (p : polyN NN) pl nh bk h : 3 <= D -> 0 <= nvN NN p <= MX -> 0 <= nfN NN p -> (Z.to_nat (MX * D * D * D) <= fuel)%nat ->
  let n := nvN NN p in let f := nb (vbN NN p) in let sd := sdfN NN D pl (vbN NN p) in let keep := keepvN NN D pl (vbN NN p) in
  cells D (upto n) (nfN NN p) nh f bk h (fdN NN p) -> simple_edges D (upto n) f ->
  (rNd_clip NN MX D fuel p [pl] = OK p /\ (n = 0 \/ nle NN (n0 NN) (minf NN sd n (nbig NN)) = true))
  \/ (rNd_clip NN MX D fuel p [pl] = OK (emptyN NN p) /\ nle NN (maxf NN sd n (nopp NN (nbig NN))) (n0 NN) = true)
  \/ (n + cut_edges D n keep f <= MX /\ exists p', rNd_clip NN MX D fuel p [pl] = OK p'
        /\ nvN NN p' = cnt keep n + cut_edges D n keep f /\ nfN NN p <= nfN NN p'
        /\ exists bk' h' ov nw, cells D (upto (nvN NN p')) (nfN NN p') (nh + 1) (nb (vbN NN p')) bk' h' (fdN NN p')
        /\ truncated D n (nfN NN p) keep f (fdN NN p) (nvN NN p') (nb (vbN NN p')) (fdN NN p') ov nw
        /\ placed NN D p p' pl nh h h' ov nw)
  \/ (MX < n + cut_edges D n keep f /\ rNd_clip NN MX D fuel p [pl] = Err OutOfBounds).
Proof.
  intros HD Hn Hnf Hf n f sd keep C SE. unfold rNd_clip. fold n. destruct (Z.leb_spec n 0); [left; split; auto; left; lia|].
  pose proof (clipN_one NN MX D fuel p pl nh bk h HD Hn Hnf Hf C SE []) as H0. cbv zeta in H0. fold n f sd keep in H0.
  destruct (nle NN (n0 NN) (minf NN sd n (nbig NN))); [left; rewrite H0; auto|].
  destruct (nle NN (maxf NN sd n (nopp NN (nbig NN))) (n0 NN)); [right; left; rewrite H0; auto|].
  destruct H0 as [(H0 & p' & E & R)|H0]; [|auto]. right; right; left. split; auto. exists p'. rewrite E. split; auto.
Qed.
End O.

Lemma clipN_safe NN MX D fuel (p : polyN NN) pl nh bk h : 3 <= D -> 0 <= nvN NN p <= MX -> 0 <= nfN NN p -> (Z.to_nat (MX * D * D * D) <= fuel)%nat ->
  cells D (upto (nvN NN p)) (nfN NN p) nh (nb (vbN NN p)) bk h (fdN NN p) -> simple_edges D (upto (nvN NN p)) (nb (vbN NN p)) ->
  nvN NN p + cut_edges D (nvN NN p) (keepvN NN D pl (vbN NN p)) (nb (vbN NN p)) <= MX ->
  exists p', rNd_clip NN MX D fuel p [pl] = OK p' /\ 0 <= nvN NN p' <= MX.
Proof.
  intros HD Hn Hnf Hf C SE HM. pose proof (clipN_onep NN MX D fuel p pl nh bk h HD Hn Hnf Hf C SE) as H. cbv zeta in H.
  destruct H as [(E & _)|[(E & _)|[(_ & p' & E & En & _)|(X & _)]]]; [eauto| |exists p'; split; auto|lia].
  - exists (emptyN NN p). split; auto. cbn [nvN emptyN]. lia.
  - rewrite En. pose proof (cnt_nonneg (keepvN NN D pl (vbN NN p)) (nvN NN p)). pose proof (cnt_le (keepvN NN D pl (vbN NN p)) (nvN NN p) ltac:(lia)).
    unfold cut_edges in *. lia.
Qed.
