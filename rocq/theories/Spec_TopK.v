(** The k greatest elements of a sequence. *)
From Verif Require Import Base Spec.

(** [r] is a choice of the k greatest elements of [vs] (all of them if there are no
    more than k, none if k is negative): what was left out is not greater than
    anything chosen. *)
Definition greatest {T} (less : T -> T -> bool) (k : Z) (vs r : list T) : Prop :=
  zlen r = Z.max 0 (Z.min k (zlen vs)) /\
  exists rest, Permutation (r ++ rest) vs /\ forall x y, In x r -> In y rest -> less x y = false.
