(** The depth first order of a graph.  Definitions only. *)
From Verif Require Import Base.

Section Dfs.
Context {V : Type}.
Variable adj : V -> list V.
(** Visiting the vertices ws, one after the other, and with each all that can be reached
    from it, when those of s have been visited before, leaves t: a vertex is visited
    before its neighbours, these in their order, and all of them before what comes next. *)
Inductive visits : list V -> list V -> list V -> Prop :=
| visits_nil s : visits [] s s
| visits_seen v r s t : In v s -> visits r s t -> visits (v :: r) s t
| visits_new v r s t u : ~ In v s -> visits (adj v) (s ++ [v]) t -> visits r t u -> visits (v :: r) s u.
(** The number of edges from the vertices of l. *)
Definition n_edges (l : list V) : nat := fold_right (fun v n => (length (adj v) + n)%nat) O l.
End Dfs.
