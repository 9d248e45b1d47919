(** What the garbage collector has to keep for a container: the nodes that can be
    reached from its variables, and the slots of the array its slice lies in. *)
From Verif Require Import Base Nodes.
From Verif Require Model_SList Model_DList Model_SkipList.

(** [links n] are the pointers inside node n. *)
Inductive reach {N} (links : N -> list ptr) (h : list N) (roots : list ptr) : nat -> Prop :=
| reach_root a : In (Some a) roots -> reach links h roots a
| reach_link a n b : reach links h roots a -> nth_error h a = Some n -> In (Some b) (links n) -> reach links h roots b.

(** The nodes kept for a container are exactly those of [nodes], which hold the
    values xs, one each, and possibly the head node. *)
Definition keeps_only {N T} (links : N -> list ptr) (value : N -> T) (h : list N) (roots head : list ptr) (xs : list T) : Prop :=
  exists nodes : list nat, NoDup nodes /\ (forall a, In a nodes -> ~ In (Some a) head) /\
    map (fun a => option_map value (nth_error h a)) nodes = map Some xs /\
    forall a, reach links h roots a <-> In a nodes \/ In (Some a) head.

(** The slots of a slice's storage behind its last element are all z. *)
Definition clean_behind {T} (z : T) (m : mem T) (s : slice) : Prop :=
  cap_contents m s = contents m s ++ repeat z (Z.to_nat (s_cap s - s_len s)).

(** The pointers inside the nodes of the three structures, and what a SkipList
    node holds (slist.go:10-13, dlist.go:11-14, skiplist.go:206-210). *)
Definition slinks {T} (n : Model_SList.snode T) : list ptr := [Model_SList.s_next n].
Definition dlinks {T} (n : Model_DList.dnode T) : list ptr := [Model_DList.d_prev n; Model_DList.d_next n].
Definition pair_of {K V} (n : Model_SkipList.slnode K V) : K * V := (Model_SkipList.n_key n, Model_SkipList.n_value n).
