(** Walks in a graph whose edges have lengths.  Definitions only. *)
From Verif Require Import Base.

Section Graph.
Context {V : Type}.
(** The edges from v: where to, and how long. *)
Variable adj : V -> list (V * Z).
(** One can get from u to v by edges of total length n. *)
Inductive wwalk : Z -> V -> V -> Prop :=
| wwalk_here v : wwalk 0 v v
| wwalk_step n u v w c : wwalk n u v -> In (w, c) (adj v) -> wwalk (n + c) u w.
Definition distance (u v : V) (n : Z) : Prop := wwalk n u v /\ forall k, wwalk k u v -> n <= k.
(** The number of edges from vertices of a list. *)
Definition edges_from (U : list V) : nat := list_sum (map (fun u => length (adj u)) U).
End Graph.
