(** C142: depth first search with a Stack. *)
From Verif Require Import Base BaseLemmas Spec Trace Proof_Mem Model_Stack Proof_StackPQ Spec_Bfs Spec_Dfs Model_Dfs Proof_Dfs.

(** If the vertices that can be reached from v0 are among those of a list U, then one
    round more than U has edges is enough.  The result is the order in which a recursive
    search visits vertices, and holds each that can be reached once. *)
Theorem C142_depth_first : forall V (zero : V) grow eqb adj, (forall a b, eqb a b = true <-> a = b) -> forall v0 U fuel m,
  (forall v n, walk adj n v0 v -> In v U) -> (S (n_edges adj U) <= fuel)%nat -> (0 < length m)%nat ->
  exists out, fst (depth_first zero grow eqb adj fuel v0 m) = Ok out /\
    visits adj [v0] [] out /\ NoDup out /\ forall v, In v out <-> exists n, walk adj n v0 v.
Proof. intros V zero grow eqb adj Heq v0 U fuel m HU L Hm. exact (depth_first_ok zero grow eqb adj Heq v0 U HU fuel m Hm L). Qed.
Print Assumptions C142_depth_first.

(** C142: there is only one such order. *)
Theorem C142_unique : forall V (adj : V -> list V) ws s t t', visits adj ws s t -> visits adj ws s t' -> t = t'.
Proof. intros V adj ws s t t' H H'. exact (visits_det adj ws s t H t' H'). Qed.
Print Assumptions C142_unique.

(** A graph with a cycle, a double edge and a vertex 9 that cannot be reached.  Breadth
    first order would be 0, 1, 2, 3, 4, 5. *)
Definition C142_graph (v : Z) : list Z :=
  if v =? 0 then [1; 2] else if v =? 1 then [3; 0] else if v =? 2 then [4] else if v =? 3 then [4; 4] else if v =? 4 then [5; 1] else if v =? 9 then [0] else [].
Example C142_hyp : (forall a b, Z.eqb a b = true <-> a = b) /\ (forall v n, walk C142_graph n 0 v -> In v [0; 1; 2; 3; 4; 5]) /\ n_edges C142_graph [0; 1; 2; 3; 4; 5] = 9%nat.
Proof.
  split; [exact Z.eqb_eq|]. split; [|reflexivity].
  intros v n H. remember 0 as u eqn:E in H. induction H as [v|n u v w H IH I]; subst; [now left|]. specialize (IH eq_refl). cbn in IH.
  destruct IH as [<- |[<- |[<- |[<- |[<- |[<- |[]]]]]]]; cbn in I; cbn; tauto.
Qed.
Example C142_runs : fst (depth_first 0 (fun o n => n) Z.eqb C142_graph 10 0 [[]]) = Ok [0; 1; 3; 4; 5; 2] /\
  fst (depth_first 0 (fun o n => n) Z.eqb C142_graph 9 0 [[]]) = NoFuel.
Proof. split; vm_compute; reflexivity. Qed.
