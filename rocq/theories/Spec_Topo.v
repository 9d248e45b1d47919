(** Orders of the vertices of a graph.  Definitions only. *)
From Verif Require Import Base Spec_Bfs.

Section Graph.
Context {V : Type}.
Variable adj : V -> list V.
(** Each vertex of l comes after all the vertices of U with an edge to it. *)
Definition after_sources (U l : list V) : Prop :=
  forall l1 w l2, l = l1 ++ w :: l2 -> forall v, In v U -> In w (adj v) -> In v l1.
(** From no vertex of U one can get back to it. *)
Definition acyclic (U : list V) : Prop := forall v n, In v U -> ~ walk adj (S n) v v.
End Graph.
