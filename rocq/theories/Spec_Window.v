(** The maxima of windows, by index. *)
From Verif Require Import Base.

(** x is the first of the greatest elements among those of vs from index lo up to, not
    including, hi. *)
Definition first_max {T} (less : T -> T -> bool) (vs : list T) (lo hi : Z) (x : T) : Prop :=
  exists j, lo <= j < hi /\ zget vs j = Some x /\
  forall k y, lo <= k < hi -> zget vs k = Some y -> less x y = false /\ (k < j -> less y x = true).
(** One maximum for each window of w elements, from left to right. *)
Definition window_maxima {T} (less : T -> T -> bool) (w : Z) (vs r : list T) : Prop :=
  zlen r = Z.max 0 (zlen vs - w + 1) /\ forall i x, zget r i = Some x -> first_max less vs i (i + w) x.
