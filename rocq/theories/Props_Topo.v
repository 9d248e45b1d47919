(** C140: an order in which all edges lead forward, with a DListQueue. *)
From Verif Require Import Base BaseLemmas Spec Trace Nodes Model_DList Model_DListQueue Spec_Bfs Spec_Topo Model_Topo Proof_Topo.

(** From a new queue, in a heap that holds anything else: the result has no vertex twice,
    each comes after all those with an edge to it, and no vertex is missing exactly if
    there is no cycle. *)
Theorem C140_order : forall V (zero : V) eqb adj, (forall a b, eqb a b = true <-> a = b) -> forall h us,
  NoDup us -> (forall v w, In v us -> In w (adj v) -> In w us) ->
  exists out st, topo zero eqb adj us (h, NewDListQueue) = (Ok out, st) /\
    NoDup out /\ incl out us /\ after_sources adj us out /\ (incl us out <-> acyclic adj us).
Proof. intros V zero eqb adj Heq h us ND Cl. exact (topo_ok zero eqb adj Heq h us ND Cl). Qed.
Print Assumptions C140_order.

(** A graph without cycles and with two edges from 1 to 2; then one with a cycle of 2 and
    3, from which 4 can be reached. *)
Definition C140_dag (v : Z) : list Z := if v =? 1 then [2; 2] else if v =? 3 then [1; 2] else if v =? 2 then [4] else [].
Definition C140_cyclic (v : Z) : list Z := if v =? 1 then [2] else if v =? 2 then [3] else if v =? 3 then [2; 4] else [].
Example C140_hyp : (forall a b, Z.eqb a b = true <-> a = b) /\ NoDup [1; 2; 3; 4] /\ (forall v w, In v [1; 2; 3; 4] -> In w (C140_dag v) -> In w [1; 2; 3; 4]) /\ (forall v w, In v [1; 2; 3; 4] -> In w (C140_cyclic v) -> In w [1; 2; 3; 4]).
Proof.
  split; [exact Z.eqb_eq|]. split; [repeat constructor; cbn; lia|].
  split; intros v w [<- |[<- |[<- |[<- |[]]]]]; cbn; tauto.
Qed.
Example C140_runs :
  fst (topo 0 Z.eqb C140_dag [1; 2; 3; 4] ([], NewDListQueue)) = Ok [3; 1; 2; 4] /\
  fst (topo 0 Z.eqb C140_cyclic [1; 2; 3; 4] ([], NewDListQueue)) = Ok [1].
Proof. split; vm_compute; reflexivity. Qed.
