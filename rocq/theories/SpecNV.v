(** * SpecNV: grids of cells in any dimension, independent of the code. *)
From Coq Require Import Reals ZArith List Bool.
From Verif Require Import Base Lib SumR SpecN SpecNC SpecNP ModelCommon ModelV.
Import ListNotations.
Open Scope Z_scope.

(** [ibox]: two corners; cell [c] of the box has [fst B i <= c i < snd B i] *)
Definition in_cells (D : Z) (B : box) (c : Z -> Z) : Prop := forall i, 0 <= i < D -> fst B i <= c i < snd B i.
Definition ncells (D : Z) (B : box) : Z := fold_left (fun s i => s * (snd B i - fst B i)) (zrange D) 1.
(** row-major position of a cell *)
Definition cellN (D : Z) (B : box) (c : Z -> Z) : Z :=
  fold_left (fun s i => s * (snd B i - fst B i) + (c i - fst B i)) (zrange D) 0.
(** corners, sizes and number of cells fit in [int], no size is zero *)
Definition box_okN (D : Z) (B : box) : Prop :=
  (forall i, 0 <= i < D -> int_min <= fst B i /\ fst B i < snd B i /\ snd B i <= int_max /\ snd B i - fst B i <= int_max)
  /\ ncells D B <= int_max.
(** levels of bisection *)
Definition levels (D : Z) (B : box) : Z := fold_right (fun i s => Z.log2_up (snd B i - fst B i) + s) 0 (zrange D).

Open Scope R_scope.
(** the region of a box of cells, with cell size [d] *)
Definition region (D : Z) (d : Z -> R) (b : box) (x : Z -> R) : Prop :=
  forall i, (0 <= i < D)%Z -> d i * IZR (fst b i) <= x i <= d i * IZR (snd b i).
(** the cell [c], and its interior *)
Definition in_cell (D : Z) (d : Z -> R) (c : Z -> Z) (x : Z -> R) : Prop :=
  forall i, (0 <= i < D)%Z -> d i * IZR (c i) <= x i <= d i * IZR (c i + 1).
Definition inside_cell (D : Z) (d : Z -> R) (c : Z -> Z) (x : Z -> R) : Prop :=
  forall i, (0 <= i < D)%Z -> d i * IZR (c i) < x i < d i * IZR (c i + 1).

(** extreme points of a set *)
Definition extreme (D : Z) (K : (Z -> R) -> Prop) (x : Z -> R) : Prop :=
  K x /\ forall y z, K y -> K z -> (forall k, (0 <= k < D)%Z -> x k = (y k + z k) / 2) -> forall k, (0 <= k < D)%Z -> y k = z k.
(** No extreme point of the part of [K] in a block of cells lies on a grid plane that
    cuts this block. *)
Definition off_grid (D : Z) (d : Z -> R) (B : box) (K : (Z -> R) -> Prop) : Prop :=
  forall b a m x, (forall i, (0 <= i < D)%Z -> (fst B i <= fst b i /\ snd b i <= snd B i)%Z) -> (0 <= a < D)%Z -> (fst b a < m < snd b a)%Z ->
    extreme D (fun y => K y /\ region D d b y) x -> x a <> d a * IZR m.
