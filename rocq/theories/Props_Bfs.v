(** C137: distances in a graph with a DListQueue. *)
From Verif Require Import Base BaseLemmas Spec Trace Nodes Model_DList Model_DListQueue Spec_Bfs Model_Bfs Proof_Bfs.

(** From a new queue, in a heap that holds anything else, if the vertices that can be
    reached from s are among those of a list U, then |U| rounds are enough. *)
Theorem C137_distances : forall V (zero : V) eqb adj, (forall a b, eqb a b = true <-> a = b) -> forall h s U fuel,
  (forall v n, walk adj n s v -> In v U) -> (length U <= fuel)%nat ->
  exists d st, distances zero eqb adj fuel s (h, NewDListQueue) = (Ok d, st) /\
    (forall v n, d v = Some n -> exists k, n = Z.of_nat k /\ shortest adj s v k) /\
    (forall v k, walk adj k s v -> d v <> None).
Proof. intros V zero eqb adj Heq h s U fuel. exact (distances_ok zero eqb adj Heq h s U fuel). Qed.
Print Assumptions C137_distances.

(** A graph with a cycle, two ways to 4 of different lengths, and a vertex 9 that cannot
    be reached. *)
Definition C137_graph (v : Z) : list Z :=
  if v =? 0 then [1; 2] else if v =? 1 then [3; 0] else if v =? 2 then [4] else if v =? 3 then [4; 4] else if v =? 4 then [5; 1] else if v =? 9 then [0] else [].
Example C137_hyp : (forall a b, Z.eqb a b = true <-> a = b) /\ (forall v n, walk C137_graph n 0 v -> In v [0; 1; 2; 3; 4; 5]) /\ walk C137_graph 4 0 5.
Proof.
  split; [exact Z.eqb_eq|]. split.
  - intros v n H. remember 0 as u eqn:E in H. induction H as [v|n u v w H IH I]; subst; [now left|]. specialize (IH eq_refl). cbn in IH.
    destruct IH as [<- |[<- |[<- |[<- |[<- |[<- |[]]]]]]]; cbn in I; cbn; tauto.
  - apply (walk_step _ 3 0 4 5); [|cbn; tauto]. apply (walk_step _ 2 0 3 4); [|cbn; tauto]. apply (walk_step _ 1 0 1 3); [|cbn; tauto]. apply (walk_step _ 0 0 0 1); [constructor|cbn; tauto].
Qed.
Example C137_runs :
  match fst (distances 0 Z.eqb C137_graph 6 0 ([], NewDListQueue)) with Ok d => map d [0; 1; 2; 3; 4; 5; 9] | _ => [] end =
  [Some 0; Some 1; Some 1; Some 2; Some 2; Some 3; None] /\
  fst (distances 0 Z.eqb C137_graph 5 0 ([], NewDListQueue)) = NoFuel.
Proof. split; vm_compute; reflexivity. Qed.
