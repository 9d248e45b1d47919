(** Orders on floats that put NaN somewhere.  Definitions only. *)
From Verif Require Import Base Spec.

Section NaN.
Context {T : Type}.
Variables (ltb : T -> T -> bool) (isnan : T -> bool).
(** func(a, b) bool { return a < b || (b != b && a == a) } *)
Definition nan_last (a b : T) : bool := ltb a b || (isnan b && negb (isnan a)).
(** func(a, b) bool { return a < b || (a != a && b == b) } *)
Definition nan_first (a b : T) : bool := ltb a b || (isnan a && negb (isnan b)).
Definition nan_free (l : list T) : Prop := forall x, In x l -> isnan x = false.
(** Every stretch of l without NaN is in order. *)
Definition stretches_sorted (less : T -> T -> bool) (l : list T) : Prop :=
  forall pre mid post, l = pre ++ mid ++ post -> nan_free mid -> sorted_by less mid.
End NaN.
