(** Sequences that agree up to ==. *)
From Verif Require Import Base Spec.

(** The same length, and == elements at each position (+0 and -0 are ==). *)
Definition alike {T} (eqb : T -> T -> bool) (l l' : list T) : Prop := Forall2 (fun x y => eqb x y = true) l l'.
(** l has an element == x. *)
Definition contains {T} (eqb : T -> T -> bool) (l : list T) (x : T) : bool := existsb (eqb x) l.
