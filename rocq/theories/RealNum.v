(** * RealNum: the exact instance of [num] over Coq's real numbers.

    Theorems stated for [RN] speak about the algorithms in exact arithmetic.
    The literals [ONE_THIRD], [ONE_SIXTH] (54 decimal digits, r3d.c:27-28) are read as the
    exact rationals they abbreviate. *)
From Coq Require Import Reals ZArith List Bool Lia Lra.
From Verif Require Import Base.
Open Scope R_scope.

Definition Rltb (a b : R) : bool := if Rlt_dec a b then true else false.
Definition Rleb (a b : R) : bool := if Rle_dec a b then true else false.

Definition Rfloor (x : R) : Z := (up x - 1)%Z.
Definition Rceil (x : R) : Z := (- Rfloor (- x))%Z.

Definition RN : num := {|
  T := R; n0 := 0; n1 := 1;
  nadd := Rplus; nsub := Rminus; nmul := Rmult; ndiv := Rdiv; nopp := Ropp;
  nlt := Rltb; nle := Rleb; nofZ := IZR;
  nsqrt := sqrt; nsin := sin; ncos := cos;
  npow := fun x n => x ^ Z.to_nat n;
  nfloor := fun x => Some (Rfloor x);
  nceil := fun x => Some (Rceil x);
  nbig := 10 ^ 30; ntiny := / 10 ^ 299;
  nhalf := / 2; nthird := / 3; nsixth := / 6 |}.

Lemma Rltb_true a b : Rltb a b = true <-> a < b.
Proof. unfold Rltb. destruct (Rlt_dec a b); split; auto; discriminate. Qed.
Lemma Rltb_false a b : Rltb a b = false <-> b <= a.
Proof. unfold Rltb. destruct (Rlt_dec a b); split; intros; try discriminate; try lra; auto. Qed.
Lemma Rleb_true a b : Rleb a b = true <-> a <= b.
Proof. unfold Rleb. destruct (Rle_dec a b); split; auto; discriminate. Qed.
Lemma Rleb_false a b : Rleb a b = false <-> b < a.
Proof. unfold Rleb. destruct (Rle_dec a b); split; intros; try discriminate; try lra; auto. Qed.

Lemma Rfloor_spec x : IZR (Rfloor x) <= x < IZR (Rfloor x) + 1.
Proof.
  unfold Rfloor. rewrite minus_IZR. destruct (archimed x). lra.
Qed.
Lemma Rceil_spec x : IZR (Rceil x) - 1 < x <= IZR (Rceil x).
Proof. unfold Rceil. rewrite opp_IZR. pose proof (Rfloor_spec (- x)). lra. Qed.

Lemma big_pos : 0 < 10 ^ 30. Proof. apply pow_lt. lra. Qed.
