(** Sort packages: what can be said whatever Less answers.  Definitions only. *)
From Verif Require Import Base Model_Sort.

(** On every path the algorithm calls Less at most k times. *)
Inductive asks_most : Z -> sort_prog -> Prop :=
  | asks_ret k : 0 <= k -> asks_most k PRet
  | asks_less k i j q : 0 <= k -> (forall b, asks_most k (q b)) -> asks_most (k + 1) (PLess i j q)
  | asks_swap k i j q : asks_most k q -> asks_most k (PSwap i j q).
(** On every path its indices are in range. *)
Inductive in_range (n : Z) : sort_prog -> Prop :=
  | in_ret : in_range n PRet
  | in_less i j q : 0 <= i < n -> 0 <= j < n -> (forall b, in_range n (q b)) -> in_range n (PLess i j q)
  | in_swap i j q : 0 <= i < n -> 0 <= j < n -> in_range n q -> in_range n (PSwap i j q).
