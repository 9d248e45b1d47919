(** The next greater element of every element of a list.  Definitions only. *)
From Verif Require Import Base.

Section NextGreater.
Context {T : Type}.
Variable less : T -> T -> bool.
Fixpoint next_spec (l : list T) : list (option T) :=
  match l with [] => [] | a :: r => find (fun x => less a x) r :: next_spec r end.
End NextGreater.
