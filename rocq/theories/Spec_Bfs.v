(** Walks in a graph and their lengths.  Definitions only. *)
From Verif Require Import Base.

Section Graph.
Context {V : Type}.
Variable adj : V -> list V.
(** One can get from u to v by n edges. *)
Inductive walk : nat -> V -> V -> Prop :=
| walk_here v : walk 0 v v
| walk_step n u v w : walk n u v -> In w (adj v) -> walk (S n) u w.
Definition shortest (u v : V) (n : nat) : Prop := walk n u v /\ forall k, walk k u v -> (n <= k)%nat.
End Graph.
