(** * Base: outcomes, arrays, loops and abstract arithmetic

    Nothing in this file corresponds to a particular function of the C code;
    it fixes how C constructs are represented in the model.

    - [res A]: outcome of a computation.  [Err] covers undefined behaviour
      (out-of-bounds access, read of an uninitialised local, signed overflow,
      unrepresentable float-to-int conversion, freeing what is not allocated) and [OutOfFuel], the marker for a
      loop that did not finish within the stated number of steps.
    - arrays are total functions on [Z]; every access goes through a bounds check.
    - [num]: the operations of the C type [r2d_real]/[r3d_real] with *no laws*,
      so that what is proved for every [num] holds for IEEE doubles and floats
      including NaN, infinities and rounding. *)

From Coq Require Import ZArith List Bool.
Import ListNotations.
Open Scope Z_scope.

Inductive err := OutOfBounds | Uninit | IntOverflow | OutOfFuel | BadConversion | InvalidFree.

Inductive res (A : Type) := OK (a : A) | Err (e : err).
Arguments OK {A} a.
Arguments Err {A} e.

Definition bind {A B} (m : res A) (k : A -> res B) : res B :=
  match m with OK a => k a | Err e => Err e end.

Notation "'let*' x ':=' m 'in' k" := (bind m (fun x => k))
  (at level 200, x pattern, m at level 100, k at level 200, right associativity).

(** Array update. *)
Definition upd {A} (a : Z -> A) (i : Z) (x : A) : Z -> A :=
  fun j => if Z.eqb j i then x else a j.

Definition inb (sz i : Z) : bool := (0 <=? i) && (i <? sz).

(** Checked read and write of an array of [sz] elements. *)
Definition rd {A} (sz : Z) (a : Z -> A) (i : Z) : res A :=
  if inb sz i then OK (a i) else Err OutOfBounds.
Definition wr {A} (sz : Z) (a : Z -> A) (i : Z) (x : A) : res (Z -> A) :=
  if inb sz i then OK (upd a i x) else Err OutOfBounds.

(** Checked read of a local array that starts out uninitialised. *)
Definition rdi {A} (sz : Z) (a : Z -> option A) (i : Z) : res A :=
  if inb sz i then match a i with Some x => OK x | None => Err Uninit end
  else Err OutOfBounds.

(** [for(i = lo; i < hi; ++i) body] with state [s]; [forn n i] runs [n] rounds. *)
Fixpoint forn {S} (n : nat) (i : Z) (body : Z -> S -> res S) (s : S) : res S :=
  match n with
  | O => OK s
  | Datatypes.S n' => let* s' := body i s in forn n' (i + 1) body s'
  end.
Definition for_ {S} (lo hi : Z) (body : Z -> S -> res S) (s : S) : res S :=
  forn (Z.to_nat (hi - lo)) lo body s.

(** [do body while(cond)]: [body] returns the new state and the condition. *)
Fixpoint dowhile {S} (fuel : nat) (body : S -> res (S * bool)) (s : S) : res S :=
  match fuel with
  | O => Err OutOfFuel
  | Datatypes.S f => let* (s', c) := body s in if c then dowhile f body s' else OK s'
  end.

(** [while(cond) body]: [body] returns [None] when the condition is false. *)
Fixpoint while_ {S} (fuel : nat) (cond : S -> bool) (body : S -> res S) (s : S) : res S :=
  if cond s then
    match fuel with
    | O => Err OutOfFuel
    | Datatypes.S f => let* s' := body s in while_ f cond body s'
    end
  else OK s.

(** Result of a C [int] computation: 32-bit two's complement, overflow is UB. *)
Definition int_min := - 2147483648.
Definition int_max := 2147483647.
Definition int32 (z : Z) : res Z :=
  if (int_min <=? z) && (z <=? int_max) then OK z else Err IntOverflow.

(** Arithmetic of [r2d_real]/[r3d_real], without any laws. *)
Record num := mkNum {
  T : Type;
  n0 : T; n1 : T;
  nadd : T -> T -> T;
  nsub : T -> T -> T;
  nmul : T -> T -> T;
  ndiv : T -> T -> T;
  nopp : T -> T;
  nlt : T -> T -> bool;          (* a < b *)
  nle : T -> T -> bool;          (* a <= b *)
  nofZ : Z -> T;                 (* int -> real conversion *)
  nsqrt : T -> T; nsin : T -> T; ncos : T -> T;
  npow : T -> Z -> T;            (* pow(x, (double)n) for an int n *)
  nfloor : T -> option Z;        (* floor(x) as an integer, None if not finite *)
  nceil : T -> option Z;
  nbig : T;                      (* 1.0e30 *)
  ntiny : T;                     (* 1.0e-299 *)
  nhalf : T; nthird : T; nsixth : T  (* 0.5, ONE_THIRD, ONE_SIXTH *)
}.

Declare Scope num_scope.
Delimit Scope num_scope with num.

(** float -> int conversion: UB when the value does not fit (C11 6.3.1.4). *)
Definition toint (o : option Z) : res Z :=
  match o with
  | Some z => if (int_min <=? z) && (z <=? int_max) then OK z else Err BadConversion
  | None => Err BadConversion
  end.
