(** * BrepEx: boundary descriptions used as examples. *)
From Coq Require Import ZArith List Bool Lia.
From Verif Require Import Base Lib SpecB InitP InitP2.
Import ListNotations.
Open Scope Z_scope.

(** a decision procedure for [closed_surface], for concrete descriptions *)
Section Chk.
Context (nf : Z) (nvf : Z -> Z) (fi : Z -> Z -> Z) (n : Z).
Notation corners := (corners nf nvf).
Notation vat := (vat fi).
Notation csucc := (csucc nvf).
Definition cs_chk : bool :=
  let L := map (fun c => (c, (vat c, vat (csucc c), vat (csucc (csucc c))))) corners in
  forallb (fun f => 3 <=? nvf f) (zrange nf)
  && forallb (fun q => let '((f, k), (x, y, z)) := q in
       (0 <=? x) && (x <? n) && negb (x =? y) && negb (x =? z)
       && forallb (fun r => let '((g, l), (u, v, _)) := r in
            if x =? u then (if y =? v then (f =? g) && (k =? l) else true) else true) L
       && existsb (fun r => let '(_, (u, v, _)) := r in if u =? y then v =? x else false) L) L.
Lemma cs_chk_ok : cs_chk = true -> closed_surface nf nvf fi n.
Proof.
  unfold cs_chk. intros H. apply andb_true_iff in H as (H1 & H2). rewrite forallb_forall in H1. rewrite forallb_forall in H2.
  assert (G : forall c, corner nf nvf c -> In (c, (vat c, vat (csucc c), vat (csucc (csucc c))))
    (map (fun c => (c, (vat c, vat (csucc c), vat (csucc (csucc c))))) corners)).
  { intros c Hc. apply in_map_iff. exists c. split; auto. apply in_corners; auto. }
  assert (K : forall c, corner nf nvf c -> (0 <= vat c < n /\ vat c <> vat (csucc c) /\ vat c <> vat (csucc (csucc c)))
    /\ (forall d, corner nf nvf d -> vat c = vat d -> vat (csucc c) = vat (csucc d) -> c = d)
    /\ exists d, corner nf nvf d /\ vat d = vat (csucc c) /\ vat (csucc d) = vat c).
  { intros c Hc. pose proof (H2 _ (G c Hc)) as H. destruct c as (f, k). rewrite !andb_true_iff in H.
    destruct H as (((((A1 & A2) & A3) & A4) & A5) & A6).
    apply Z.leb_le in A1. apply Z.ltb_lt in A2. apply negb_true_iff, Z.eqb_neq in A3, A4. split; [auto|]. split.
    - intros (g, l) Hd E1 E2. rewrite forallb_forall in A5. specialize (A5 _ (G _ Hd)). cbn beta iota in A5.
      rewrite <- E1, <- E2, !Z.eqb_refl in A5. apply andb_true_iff in A5 as (Q1 & Q2). apply Z.eqb_eq in Q1, Q2. congruence.
    - apply existsb_exists in A6 as (r & Hr & A6). apply in_map_iff in Hr as (d & <- & Hd). apply in_corners in Hd. exists d. split; auto.
      destruct (Z.eqb_spec (vat d) (vat (csucc (f, k)))); [|discriminate]. apply Z.eqb_eq in A6. auto. }
  split.
  - intros f Hf. apply Z.leb_le, H1, in_zrange. auto.
  - intros c Hc. apply K; auto.
  - intros c d Hc Hd. apply K; auto.
  - intros c Hc. destruct (K c Hc) as (_ & _ & d & Hd). exists d. auto.
  - intros c Hc. apply K; auto.
  - intros c Hc. apply K; auto.
Qed.
Definition so_chk : bool :=
  let L := map (fun c => (c, (vat c, vat (csucc c)))) corners in
  forallb (fun q => let '((f, k), (x, y)) := q in forallb (fun q' => let '((f', k'), (x', y')) := q' in
    if f =? f' then if k =? k' then true else
      forallb (fun r => let '((g, _), (u, v)) := r in
        if u =? y then if v =? x then
          forallb (fun r' => let '((g', _), (u', v')) := r' in
            negb ((g =? g') && (u' =? y') && (v' =? x'))) L
        else true else true) L
    else true) L) L.
Lemma so_chk_ok : so_chk = true -> share_one nf nvf fi.
Proof.
  unfold so_chk. intros H c c' d d' Hc Hc' Hd Hd' E1 E2 A1 A2 A3 A4. rewrite forallb_forall in H.
  assert (G : forall c, corner nf nvf c -> In (c, (vat c, vat (csucc c))) (map (fun c => (c, (vat c, vat (csucc c)))) corners)).
  { intros x Hx. apply in_map_iff. exists x. split; auto. apply in_corners; auto. }
  specialize (H _ (G _ Hc)). destruct c as (f, k). rewrite forallb_forall in H. specialize (H _ (G _ Hc')). destruct c' as (f', k').
  cbn [fst] in E1. subst f'. rewrite Z.eqb_refl in H. destruct (Z.eqb_spec k k') as [->|]; auto. exfalso.
  rewrite forallb_forall in H. specialize (H _ (G _ Hd)). destruct d as (g, l). rewrite A1, A2, !Z.eqb_refl in H.
  rewrite forallb_forall in H. specialize (H _ (G _ Hd')). destruct d' as (g', l'). cbn [fst] in E2. subst g'.
  rewrite A3, A4, !Z.eqb_refl in H. discriminate.
Qed.
Definition deg_chk (P : Z -> bool) : bool := forallb (fun v => P (vdeg nf nvf fi v)) (zrange n).
Lemma deg_chk_ok P : deg_chk P = true -> forall v, 0 <= v < n -> P (vdeg nf nvf fi v) = true.
Proof. unfold deg_chk. rewrite forallb_forall. intros H v Hv. apply H, in_zrange. auto. Qed.
End Chk.

(** the faces of a list of lists *)
Definition lnf (L : list (list Z)) : Z := Z.of_nat (length L).
Definition lnvf (L : list (list Z)) (f : Z) : Z := Z.of_nat (length (nth (Z.to_nat f) L [])).
Definition lfi (L : list (list Z)) (f k : Z) : Z := nth (Z.to_nat k) (nth (Z.to_nat f) L []) 0.
Definition tetF := [[0; 1; 2]; [0; 3; 1]; [1; 3; 2]; [2; 3; 0]].
Definition cubeF := [[0; 3; 2; 1]; [4; 5; 6; 7]; [0; 1; 5; 4]; [1; 2; 6; 5]; [2; 3; 7; 6]; [3; 0; 4; 7]].
Definition octF := [[0; 2; 4]; [2; 1; 4]; [1; 3; 4]; [3; 0; 4]; [2; 0; 5]; [1; 2; 5]; [3; 1; 5]; [0; 3; 5]].

(** two pyramids on an [m]-gon *)
Definition bipnvf (f : Z) : Z := 3.
Definition bipfi (m f k : Z) : Z :=
  if f <? m then (if k =? 0 then f else if k =? 1 then (f + 1) mod m else m)
  else (if k =? 0 then (f - m + 1) mod m else if k =? 1 then f - m else m + 1).
Lemma bip_ok : cs_chk 172 bipnvf (bipfi 86) 88 = true /\ deg_chk 172 bipnvf (bipfi 86) 88 (Z.leb 3) = true
  /\ vdeg 172 bipnvf (bipfi 86) 0 = 4 /\ st (vdeg 172 bipnvf (bipfi 86)) 88 = 516.
Proof. vm_compute. auto. Qed.
