(** * SpecNP: the polytopes of [src/rNd.c] as point sets, over the reals.

    Only the fields of the buffer are read here, none of the routines of the model. *)
From Coq Require Import Reals ZArith List Bool.
From Verif Require Import Base Lib SumR ModelCommon ModelN ModelNC SpecN SpecNC RealNum.
Import ListNotations.
Open Scope R_scope.

(** a polytope in the buffer: cell structure and convex position *)
Definition convexN (D : Z) (p : polyN RN) : Prop :=
  (0 <= nfN RN p)%Z /\ exists nh bk h, cells D (upto (nvN RN p)) (nfN RN p) nh (nb (vbN RN p)) bk h (fdN RN p)
    /\ polytope D (nvN RN p) nh h (ps (vbN RN p)).
(** the same with edges of positive length and the exact facets *)
Definition solidN (D : Z) (p : polyN RN) : Prop :=
  (0 <= nfN RN p)%Z /\ exists nh bk h l0 l, cells D (upto (nvN RN p)) (nfN RN p) nh (nb (vbN RN p)) bk h (fdN RN p)
    /\ realized D (nvN RN p) nh h (ps (vbN RN p)) l0 l.
(** the convex hull of its vertices *)
Definition hullP (D : Z) (p : polyN RN) (x : Z -> R) : Prop := hullN D (nvN RN p) (ps (vbN RN p)) x.

(** the signed distance to a plane, times the length of its normal *)
Definition Spl (D : Z) (pl : planeN RN) (x : Z -> R) : R := linN D (dN RN pl) (nN RN pl) x.
(** on the inner side of every plane, or on some; strictly inside every plane *)
Definition holds (D : Z) (planes : list (planeN RN)) (x : Z -> R) : Prop := forall pl, In pl planes -> 0 <= Spl D pl x.
Definition strictly (D : Z) (planes : list (planeN RN)) (x : Z -> R) : Prop := forall pl, In pl planes -> 0 < Spl D pl x.

(** affine functions that are barycentric coordinates for the points [q 0 ... q D] *)
Definition barycentric (D : Z) (q : Z -> Z -> R) (l0 : Z -> R) (l : Z -> Z -> R) : Prop :=
  (forall g w, (0 <= g <= D)%Z -> (0 <= w <= D)%Z -> linN D (l0 g) (l g) (q w) = if (g =? w)%Z then 1 else 0)
  /\ (forall x, lsum (zrange (D + 1)) (fun g => linN D (l0 g) (l g) x) = 1)
  /\ forall x k, (0 <= k < D)%Z -> lsum (zrange (D + 1)) (fun g => linN D (l0 g) (l g) x * q g k) = x k.

(** the box [lo, hi] *)
Definition in_box (D : Z) (lo hi x : Z -> R) : Prop := forall i, (0 <= i < D)%Z -> lo i <= x i <= hi i.
