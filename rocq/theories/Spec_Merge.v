(** Merging lists: one element after the other is taken from the front of one of the
    lists. *)
From Verif Require Import Base Spec.

Section Merge.
Context {T : Type}.
(** [before (i, x) (j, y)]: x at the front of list number i goes before y at the front
    of list number j. *)
Variable before : Z * T -> Z * T -> bool.
(** [picked ls o]: o is made by taking, as long as there is any, an element from the front
    of a list that no other front goes before; with the number of the list it comes from. *)
Inductive picked : list (list T) -> list (Z * T) -> Prop :=
| picked_end ls : (forall l, In l ls -> l = []) -> picked ls []
| picked_next l x t r o :
    (forall l' y u r', l ++ (x :: t) :: r = l' ++ (y :: u) :: r' -> before (zlen l', y) (zlen l, x) = false) ->
    picked (l ++ t :: r) o -> picked (l ++ (x :: t) :: r) ((zlen l, x) :: o).
End Merge.

(** By the elements alone. *)
Definition by_element {T} (less : T -> T -> bool) (p q : Z * T) : bool := less (snd p) (snd q).
(** By the elements, and by the number of the list if these are equivalent. *)
Definition by_element_and_list {T} (less : T -> T -> bool) (p q : Z * T) : bool :=
  less (snd p) (snd q) || (negb (less (snd q) (snd p)) && (fst p <? fst q)).
(** What comes from list number i. *)
Definition from_list {T} (i : Z) (o : list (Z * T)) : list T := map snd (filter (fun p => fst p =? i) o).
