(** * SpecNaN: real numbers with a value for "not a number".

    [None] stands for NaN: an operation with an operand [None] gives [None], and so do
    division by zero and the square root of a negative number; comparisons with [None] are
    false.  All other operations are exact.  (IEEE 754 gives an infinity for a nonzero
    number divided by zero; in the theorems with this instance the quotient is 0/0.) *)
From Coq Require Import Reals ZArith List Bool.
From Verif Require Import Base RealNum.
Open Scope R_scope.

Definition lift1 (f : R -> R) (a : option R) : option R := match a with Some x => Some (f x) | None => None end.
Definition lift2 (f : R -> R -> R) (a b : option R) : option R := match a, b with Some x, Some y => Some (f x y) | _, _ => None end.
Definition lift2b (f : R -> R -> bool) (a b : option R) : bool := match a, b with Some x, Some y => f x y | _, _ => false end.

Definition XN : num := {|
  T := option R; n0 := Some 0; n1 := Some 1;
  nadd := lift2 Rplus; nsub := lift2 Rminus; nmul := lift2 Rmult;
  ndiv := fun a b => match a, b with Some x, Some y => if Req_EM_T y 0 then None else Some (x / y) | _, _ => None end;
  nopp := lift1 Ropp;
  nlt := lift2b Rltb; nle := lift2b Rleb; nofZ := fun z => Some (IZR z);
  nsqrt := fun a => match a with Some x => if Rlt_dec x 0 then None else Some (sqrt x) | None => None end;
  nsin := lift1 sin; ncos := lift1 cos;
  npow := fun a n => lift1 (fun x => x ^ Z.to_nat n) a;
  nfloor := fun a => match a with Some x => Some (Rfloor x) | None => None end;
  nceil := fun a => match a with Some x => Some (Rceil x) | None => None end;
  nbig := Some (10 ^ 30); ntiny := Some (/ 10 ^ 299);
  nhalf := Some (/ 2); nthird := Some (/ 3); nsixth := Some (/ 6) |}.
