(** * BrepQ3: a decision procedure for [simple_convex], for concrete descriptions. *)
From Coq Require Import Reals ZArith List Bool Lia Lra.
From Verif Require Import Base Lib ModelCommon Model3 SpecB SpecL3 SpecQ3 InitP InitP2 InitP7 BrepEx PolyG3.
Import ListNotations.
Open Scope Z_scope.

Definition zvec : Type := Z * Z * Z.
Definition zpt (q : zvec) : rvec3 R := V3 (IZR (fst (fst q))) (IZR (snd (fst q))) (IZR (snd q)).
Definition zsvol (a b c d : zvec) : Z :=
  let sx (p : zvec) := fst (fst p) - fst (fst a) in let sy (p : zvec) := snd (fst p) - snd (fst a) in let sz (p : zvec) := snd p - snd a in
  sx b * (sy c * sz d - sy d * sz c) - sx c * (sy b * sz d - sy d * sz b) + sx d * (sy b * sz c - sy c * sz b).
Lemma zsvol_ok a b c d : svol6 (zpt a) (zpt b) (zpt c) (zpt d) = IZR (zsvol a b c d).
Proof. unfold svol6, zsvol, zpt. cbn. rewrite plus_IZR, minus_IZR. rewrite !mult_IZR, !minus_IZR, !mult_IZR, !minus_IZR. ring. Qed.

Section C.
Context (F : list (list Z)) (zl : list zvec).
Notation nf := (lnf F).
Notation nvf := (lnvf F).
Notation fi := (lfi F).
Notation n := (Z.of_nat (length zl)).
Definition zat (v : Z) : zvec := nth (Z.to_nat v) zl (0, 0, 0).
Definition zside (c : Z * Z) (w : Z) : Z := zsvol (zat (vat fi (csucc nvf c))) (zat (vat fi c)) (zat (vat fi (cpred nvf c))) (zat w).
Definition zon (f w : Z) : bool := existsb (fun c => (fst c =? f) && (vat fi c =? w)) (corners nf nvf).
Definition cv_chk : bool := forallb (fun c => forallb (fun w => if zon (fst c) w then zside c w =? 0 else 0 <? zside c w) (zrange n)) (corners nf nvf).
Lemma lv_z v : lv (map zpt zl) v = zpt (zat v).
Proof. unfold lv, zat. rewrite <- (map_nth zpt). reflexivity. Qed.
Lemma zon_ok f w : zon f w = true <-> on_face nf nvf fi f w.
Proof.
  unfold zon, on_face. rewrite existsb_exists. split.
  - intros (c & Hc & E). apply in_corners in Hc. apply andb_true_iff in E as (A & B). apply Z.eqb_eq in A, B. eauto.
  - intros (c & Hc & A & B). exists c. split; [now apply in_corners|]. now rewrite A, B, !Z.eqb_refl.
Qed.
Lemma cv_chk_ok : cv_chk = true -> convex_desc nf nvf fi n (lv (map zpt zl)).
Proof.
  unfold cv_chk. intros H c w Hc Hw. rewrite forallb_forall in H. specialize (H c (proj2 (in_corners _ _ _) Hc)). rewrite forallb_forall in H.
  specialize (H w (proj2 (in_zrange _ _) Hw)). unfold side_c. rewrite !lv_z, zsvol_ok. fold (zside c w). rewrite <- zon_ok.
  destruct (zon (fst c) w).
  - apply Z.eqb_eq in H. rewrite H. split; auto. congruence.
  - apply Z.ltb_lt in H. split; [discriminate|]. intros _. now apply IZR_lt.
Qed.
Definition sc_chk : bool := cs_chk nf nvf fi n && so_chk nf nvf fi && fm_chk nf nvf fi && deg_chk nf nvf fi n (fun d => d =? 3) && cv_chk.
Lemma sc_chk_ok : sc_chk = true -> simple_convex nf nvf fi (Z.of_nat (length (map zpt zl))) (lv (map zpt zl)).
Proof.
  unfold sc_chk. rewrite !andb_true_iff, map_length. intros ((((A & B) & C) & D) & E). split; [now apply cs_chk_ok|]. split; [now apply so_chk_ok|]. split; [now apply fm_chk_ok|].
  split; [|now apply cv_chk_ok]. intros v Hv. apply Z.eqb_eq. exact (deg_chk_ok _ _ _ n (fun d => d =? 3) D v Hv).
Qed.
End C.
Definition cubeV : list zvec := [(0,0,0); (1,0,0); (1,1,0); (0,1,0); (0,0,1); (1,0,1); (1,1,1); (0,1,1)].
Definition tetV : list zvec := [(0,0,0); (0,1,0); (1,0,0); (0,0,1)].
(** a frustum with a pentagonal base *)
Definition frusF : list (list Z) := [[4; 3; 2; 1; 0]; [5; 6; 7; 8; 9]; [0; 1; 6; 5]; [1; 2; 7; 6]; [2; 3; 8; 7]; [3; 4; 9; 8]; [4; 0; 5; 9]].
Definition frusV : list zvec := [(-4,-4,0); (4,-4,0); (6,0,0); (0,6,0); (-6,0,0); (-2,-2,1); (2,-2,1); (3,0,1); (0,3,1); (-3,0,1)].
Lemma cube_simple : simple_convex (lnf cubeF) (lnvf cubeF) (lfi cubeF) (Z.of_nat (length (map zpt cubeV))) (lv (map zpt cubeV)).
Proof. apply sc_chk_ok. vm_compute. reflexivity. Qed.
Lemma tet_simple : simple_convex (lnf tetF) (lnvf tetF) (lfi tetF) (Z.of_nat (length (map zpt tetV))) (lv (map zpt tetV)).
Proof. apply sc_chk_ok. vm_compute. reflexivity. Qed.
Lemma frus_simple : simple_convex (lnf frusF) (lnvf frusF) (lfi frusF) (Z.of_nat (length (map zpt frusV))) (lv (map zpt frusV)).
Proof. apply sc_chk_ok. vm_compute. reflexivity. Qed.
