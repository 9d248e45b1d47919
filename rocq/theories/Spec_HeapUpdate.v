(** Heaps one element of which has changed. *)
From Verif Require Import Base BaseLemmas.

(** The elements l' under less' are the elements l under less, except the one at
    index i: any two others compare as they did.  That is so when l'[i] is stored
    anew (less' is less), and when l' is l and the element at i, which l holds a
    pointer to, is modified. *)
Definition but_one {T T'} (i : Z) (less : T -> T -> bool) (l : list T) (less' : T' -> T' -> bool) (l' : list T') : Prop :=
  zlen l' = zlen l /\
  forall p q a b a' b', p <> i -> q <> i ->
    zget l p = Some a -> zget l q = Some b -> zget l' p = Some a' -> zget l' q = Some b' -> less' a' b' = less a b.
(** x is a least element of l. *)
Definition least {T} (less : T -> T -> bool) (l : list T) (x : T) : Prop := In x l /\ forall y, In y l -> less y x = false.
