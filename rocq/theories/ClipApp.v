(** * ClipApp: clipping with several planes, one call or several calls. *)
From Coq Require Import Reals ZArith List Bool Lia Lra.
From Verif Require Import Base Lib ModelCommon CommonFacts ModelN ModelNC Model2 Model3 RealNum.
Import ListNotations.
Open Scope Z_scope.

Lemma compress_num {V} MX n s (s' : vbuf V * (Z -> Z) * Z) : 0 <= snd s -> for_ 0 n (compress_body MX) s = OK s' -> 0 <= snd s'.
Proof.
  intros H0 E. destruct (Z_le_gt_dec 0 n) as [Hn|Hn]; [|rewrite for_empty in E by lia; injection E as <-; auto].
  apply (for_inv_ok (fun _ s => 0 <= snd s) 0 n (compress_body MX) s s'); auto.
  clear. intros i ((b, cl), m) s' Hi Hm E. cbn [snd] in Hm. unfold compress_body in E.
  destruct (rd MX cl i) as [c|]; cbn [bind] in E; [|discriminate]. destruct (c =? 0); [|injection E as <-; auto].
  destruct (cp_vert _ _ _ _ _) as [b1|]; cbn [bind] in E; [|discriminate]. destruct (wr _ _ _ _) as [c1|]; cbn [bind] in E; [|discriminate]. injection E as <-. cbn. lia.
Qed.

(** ** Two dimensions *)
Section C2.
Context (N : num) (MX : Z).
Notation pol := (poly (rvec2 (T N))).
Lemma cut2_num b n sds cl (p' : pol) : clip_cut N MX b n sds cl = OK p' -> 0 <= nv p'.
Proof.
  unfold clip_cut. intros E. destruct (for_ 0 n _ _) as [(b1, m)|]; cbn [bind] in E; [|discriminate].
  destruct (relink _ _ _ _ _) as [b2|]; cbn [bind] in E; [|discriminate].
  destruct (for_ 0 m (compress_body MX) (b2, cl, 0)) as [((b3, c3), k)|] eqn:EC; cbn [bind] in E; [|discriminate].
  destruct (for_ 0 k _ _) as [b4|]; cbn [bind] in E; [|discriminate]. injection E as <-. cbn [nv].
  apply compress_num in EC; cbn in *; lia.
Qed.
Lemma planes2_empty planes (p : pol) : nv p = 0 -> clip_planes N MX planes p = OK p.
Proof.
  destruct p as (b, n). cbn [nv]. intros ->. induction planes as [|pl r IH]; cbn [clip_planes nv vb]; auto.
  unfold clip_sd. rewrite for_empty by lia. cbn [bind smin smax sdists clipped].
  destruct (nle N (n0 N) (nbig N)); auto. destruct (nle N (nopp N (nbig N)) (n0 N)); auto.
Qed.
Lemma planes2_app A B : forall p : pol, 0 <= nv p ->
  clip_planes N MX (A ++ B) p = let* p1 := clip_planes N MX A p in clip_planes N MX B p1.
Proof.
  induction A as [|pl A IH]; intros p Hp; cbn [app clip_planes]; [reflexivity|].
  destruct (clip_sd N MX (vb p) (nv p) pl) as [s|]; cbn [bind]; auto.
  destruct (nle N (n0 N) (smin N s)); [now apply IH|]. destruct (nle N (smax N s) (n0 N)); cbn [bind].
  - symmetry. now apply planes2_empty.
  - destruct (clip_cut _ _ _ _ _ _) as [p1|] eqn:E; cbn [bind]; auto. apply IH. now apply cut2_num in E.
Qed.
Lemma planes2_num A : forall p p1 : pol, 0 <= nv p -> clip_planes N MX A p = OK p1 -> 0 <= nv p1.
Proof.
  induction A as [|pl A IH]; intros p p1 Hp; cbn [clip_planes]; [intros E; injection E as <-; auto|].
  destruct (clip_sd N MX (vb p) (nv p) pl) as [s|]; cbn [bind]; [|discriminate].
  destruct (nle N (n0 N) (smin N s)); [now apply IH|]. destruct (nle N (smax N s) (n0 N)); [intros E; injection E as <-; cbn; lia|].
  destruct (clip_cut _ _ _ _ _ _) as [p2|] eqn:E; cbn [bind]; [|discriminate]. apply IH. now apply cut2_num in E.
Qed.
Theorem r2d_clip_app A B (p : pol) : 0 <= nv p ->
  r2d_clip N MX p (A ++ B) = let* p1 := r2d_clip N MX p A in r2d_clip N MX p1 B.
Proof.
  intros Hp. unfold r2d_clip at 1 2. destruct (Z.leb_spec (nv p) 0) as [H|H].
  - cbn [bind]. unfold r2d_clip. destruct (Z.leb_spec (nv p) 0); [auto|lia].
  - rewrite planes2_app by lia. destruct (clip_planes N MX A p) as [p1|] eqn:E; cbn [bind]; auto.
    unfold r2d_clip. destruct (Z.leb_spec (nv p1) 0) as [H1|H1]; auto. apply planes2_empty. apply planes2_num in E; lia.
Qed.
End C2.

(** ** Three dimensions *)
Section C3.
Context (N : num) (MX : Z).
Notation pol := (poly (rvec3 (T N))).
Lemma cut3_num b n sds cl (p' : pol) : clip3_cut N MX b n sds cl = OK (p', true) -> 0 <= nv p'.
Proof.
  unfold clip3_cut. intros E. destruct (for_ 0 n _ _) as [((b1, m), ok)|]; cbn [bind] in E; [|discriminate].
  destruct ok; cbn [negb] in E; [|discriminate].
  destruct (relink3 _ _ _ _ _) as [b2|]; cbn [bind] in E; [|discriminate].
  destruct (for_ 0 m (compress_body MX) (b2, cl, 0)) as [((b3, c3), k)|] eqn:EC; cbn [bind] in E; [|discriminate].
  destruct (for_ 0 k _ _) as [b4|]; cbn [bind] in E; [|discriminate]. injection E as <-. cbn [nv].
  apply compress_num in EC; cbn in *; lia.
Qed.
Lemma planes3_empty planes (p : pol) : nv p = 0 -> clip3_planes N MX planes p = OK (p, 1).
Proof.
  destruct p as (b, n). cbn [nv]. intros ->. induction planes as [|pl r IH]; cbn [clip3_planes nv vb]; auto.
  unfold clip3_sd. rewrite for_empty by lia. cbn [bind smin3 smax3 sdists3 clipped3].
  destruct (nle N (n0 N) (nbig N)); auto. destruct (nle N (nopp N (nbig N)) (n0 N)); auto.
Qed.
Lemma planes3_app A B : forall p : pol, 0 <= nv p ->
  clip3_planes N MX (A ++ B) p = let* (p1, r) := clip3_planes N MX A p in if r =? 0 then OK (p1, 0) else clip3_planes N MX B p1.
Proof.
  induction A as [|pl A IH]; intros p Hp; cbn [app clip3_planes]; [reflexivity|].
  destruct (clip3_sd N MX (vb p) (nv p) pl) as [s|]; cbn [bind]; auto.
  destruct (nle N (n0 N) (smin3 N s)); [now apply IH|]. destruct (nle N (smax3 N s) (n0 N)); cbn [bind].
  - symmetry. now apply planes3_empty.
  - destruct (clip3_cut _ _ _ _ _ _) as [(p1, ok)|] eqn:E; cbn [bind]; auto. destruct ok; auto. apply IH. now apply cut3_num in E.
Qed.
Lemma planes3_num A : forall p p1 : pol, 0 <= nv p -> clip3_planes N MX A p = OK (p1, 1) -> 0 <= nv p1.
Proof.
  induction A as [|pl A IH]; intros p p1 Hp; cbn [clip3_planes]; [intros E; injection E as <-; auto|].
  destruct (clip3_sd N MX (vb p) (nv p) pl) as [s|]; cbn [bind]; [|discriminate].
  destruct (nle N (n0 N) (smin3 N s)); [now apply IH|]. destruct (nle N (smax3 N s) (n0 N)); [intros E; injection E as <-; cbn; lia|].
  destruct (clip3_cut _ _ _ _ _ _) as [(p2, ok)|] eqn:E; cbn [bind]; [|discriminate]. destruct ok; [|discriminate]. apply IH. now apply cut3_num in E.
Qed.
Lemma planes3_status A : forall p p1 : pol, forall r, clip3_planes N MX A p = OK (p1, r) -> r = 0 \/ r = 1.
Proof.
  induction A as [|pl A IH]; intros p p1 r; cbn [clip3_planes]; [intros E; injection E as <- <-; auto|].
  destruct (clip3_sd N MX (vb p) (nv p) pl) as [s|]; cbn [bind]; [|discriminate].
  destruct (nle N (n0 N) (smin3 N s)); [now apply IH|]. destruct (nle N (smax3 N s) (n0 N)); [intros E; injection E as <- <-; auto|].
  destruct (clip3_cut _ _ _ _ _ _) as [(p2, ok)|] eqn:E; cbn [bind]; [|discriminate]. destruct ok; [|intros X; injection X as <- <-; auto]. apply IH.
Qed.
Theorem r3d_clip_app A B (p : pol) : 0 < nv p ->
  (forall e, r3d_clip N MX p A = Err e -> r3d_clip N MX p (A ++ B) = Err e)
  /\ forall p1 r, r3d_clip N MX p A = OK (p1, r) ->
     (r = 0 /\ r3d_clip N MX p (A ++ B) = OK (p1, 0))
     \/ (r = 1 /\ 0 < nv p1 /\ r3d_clip N MX p (A ++ B) = r3d_clip N MX p1 B)
     \/ (r = 1 /\ nv p1 = 0 /\ r3d_clip N MX p (A ++ B) = OK (p1, 1) /\ r3d_clip N MX p1 B = OK (p1, 0)).
Proof.
  intros Hp. unfold r3d_clip. destruct (Z.leb_spec (nv p) 0) as [H|H]; [lia|]. rewrite planes3_app by lia. split.
  - intros e ->. reflexivity.
  - intros p1 r E. rewrite E. cbn [bind]. destruct (planes3_status _ _ _ _ E) as [->| ->]; cbn [Z.eqb]; [now left|right].
    pose proof (planes3_num A p p1 ltac:(lia) E). destruct (Z.leb_spec (nv p1) 0) as [H1|H1]; [right|left; auto].
    assert (nv p1 = 0) by lia. rewrite planes3_empty by auto. auto.
Qed.
End C3.

(** ** N dimensions *)
Section CN.
Context (N : num) (MX D : Z) (fuel : nat).
Lemma compressN_num n s s' : 0 <= snd s -> for_ 0 n (compressN_body N MX) s = OK s' -> 0 <= snd s'.
Proof.
  intros H0 E. destruct (Z_le_gt_dec 0 n) as [Hn|Hn]; [|rewrite for_empty in E by lia; injection E as <-; auto].
  apply (for_inv_ok (fun _ s => 0 <= snd s) 0 n (compressN_body N MX) s s'); auto.
  clear. intros i (((b, fd), cl), m) s' Hi Hm E. cbn [snd] in Hm. unfold compressN_body in E.
  destruct (rd MX cl i) as [c|]; cbn [bind] in E; [|discriminate]. destruct (c =? 0); [|injection E as <-; auto].
  destruct (cp_vert _ _ _ _ _) as [b1|]; cbn [bind] in E; [|discriminate]. destruct (wr _ _ _ _) as [c1|]; cbn [bind] in E; [|discriminate]. injection E as <-. cbn [snd]. lia.
Qed.
Lemma cutN_num (p p' : polyN N) sds cl : clipN_cut N MX D fuel p sds cl = OK p' -> 0 <= nvN N p'.
Proof.
  unfold clipN_cut. intros E. destruct (for_ 0 (nvN N p) _ _) as [((b1, fd1), m)|]; cbn [bind] in E; [|discriminate].
  destruct (closeN _ _ _ _ _ _ _) as [((b2, fd2), nf2)|]; cbn [bind] in E; [|discriminate].
  destruct (for_ 0 m (compressN_body N MX) (b2, fd2, cl, 0)) as [(((b3, fd3), c3), k)|] eqn:EC; cbn [bind] in E; [|discriminate].
  destruct (for_ 0 k _ _) as [b4|]; cbn [bind] in E; [|discriminate]. injection E as <-. cbn [nvN].
  apply compressN_num in EC; cbn in *; lia.
Qed.
Lemma planesN_empty planes (p : polyN N) : nvN N p = 0 -> clipN_planes N MX D fuel planes p = OK p.
Proof.
  destruct p as (b, fd, n, nf). cbn [nvN]. intros ->. induction planes as [|pl r IH]; cbn [clipN_planes nvN vbN fdN nfN]; auto.
  unfold clipN_sd. rewrite for_empty by lia. cbn [bind sminN smaxN sdistsN clippedN].
  destruct (nle N (n0 N) (nbig N)); auto. destruct (nle N (nopp N (nbig N)) (n0 N)); auto.
Qed.
Lemma planesN_app A B : forall p : polyN N, 0 <= nvN N p ->
  clipN_planes N MX D fuel (A ++ B) p = let* p1 := clipN_planes N MX D fuel A p in clipN_planes N MX D fuel B p1.
Proof.
  induction A as [|pl A IH]; intros p Hp; cbn [app clipN_planes]; [reflexivity|].
  destruct (clipN_sd N MX D (vbN N p) (nvN N p) pl) as [s|]; cbn [bind]; auto.
  destruct (nle N (n0 N) (sminN N s)); [now apply IH|]. destruct (nle N (smaxN N s) (n0 N)); cbn [bind].
  - symmetry. now apply planesN_empty.
  - destruct (clipN_cut _ _ _ _ _ _ _) as [p1|] eqn:E; cbn [bind]; auto. apply IH. now apply cutN_num in E.
Qed.
Lemma planesN_num A : forall p p1 : polyN N, 0 <= nvN N p -> clipN_planes N MX D fuel A p = OK p1 -> 0 <= nvN N p1.
Proof.
  induction A as [|pl A IH]; intros p p1 Hp; cbn [clipN_planes]; [intros E; injection E as <-; auto|].
  destruct (clipN_sd N MX D (vbN N p) (nvN N p) pl) as [s|]; cbn [bind]; [|discriminate].
  destruct (nle N (n0 N) (sminN N s)); [now apply IH|]. destruct (nle N (smaxN N s) (n0 N)); [intros E; injection E as <-; cbn; lia|].
  destruct (clipN_cut _ _ _ _ _ _ _) as [p2|] eqn:E; cbn [bind]; [|discriminate]. apply IH. now apply cutN_num in E.
Qed.
Theorem rNd_clip_app A B (p : polyN N) : 0 <= nvN N p ->
  rNd_clip N MX D fuel p (A ++ B) = let* p1 := rNd_clip N MX D fuel p A in rNd_clip N MX D fuel p1 B.
Proof.
  intros Hp. unfold rNd_clip at 1 2. destruct (Z.leb_spec (nvN N p) 0) as [H|H].
  - cbn [bind]. unfold rNd_clip. destruct (Z.leb_spec (nvN N p) 0); [auto|lia].
  - rewrite planesN_app by lia. destruct (clipN_planes N MX D fuel A p) as [p1|] eqn:E; cbn [bind]; auto.
    unfold rNd_clip. destruct (Z.leb_spec (nvN N p1) 0) as [H1|H1]; auto. apply planesN_empty. apply planesN_num in E; lia.
Qed.
End CN.
