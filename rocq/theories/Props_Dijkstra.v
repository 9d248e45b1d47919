(** C139: distances in a graph whose edges have lengths, with a PriorityQueue. *)
From Verif Require Import Base BaseLemmas Spec Trace Model_PriorityQueue Spec_Alloc Proof_TopK Model_Bfs Spec_Dijkstra Model_Dijkstra Proof_Dijkstra.

(** From a new queue: if no edge has a negative length, and the vertices that can be
    reached from s are among those of a list U, then one round more than there are edges
    from U is enough. *)
Theorem C139_distances : forall V (zero : Z * V) grow eqb adj, (forall a b, eqb a b = true <-> a = b) -> (forall v w c, In (w, c) (adj v) -> 0 <= c) ->
  forall m s U fuel, (0 < length m)%nat -> (forall v n, wwalk adj n s v -> In v U) -> (1 + edges_from adj U <= fuel)%nat -> 1 + Z.of_nat (edges_from adj U) <= max_int ->
  exists d q', dijkstra zero grow eqb adj fuel s (NewPriorityQueueFunc entry_less m) = (Ok d, q') /\
    (forall v n, d v = Some n -> distance adj s v n) /\
    (forall v n, wwalk adj n s v -> d v <> None).
Proof.
  intros V zero grow eqb adj Heq Hpos m s U fuel Hm HU L M. apply (dijkstra_ok zero grow eqb adj Heq Hpos s U fuel); auto. exists m; auto.
Qed.
Print Assumptions C139_distances.

(** Expected of every graph: but an edge of negative length can lead to a vertex that has
    got its distance already. *)
Definition zdist (adj : Z -> list (Z * Z)) (fuel : nat) : outcome dist_map := fst (dijkstra (0, 0) (fun _ n => 2 * n) Z.eqb adj fuel 0 (NewPriorityQueueFunc entry_less [[]])).
Definition C139_expected_negative : Prop := forall adj fuel d, zdist adj fuel = Ok d -> forall v n, d v = Some n -> distance adj 0 v n.
Theorem C139_refuted : ~ C139_expected_negative.
Proof.
  intros H. set (g := fun v : Z => if v =? 0 then [(1, 1); (2, 2)] else if v =? 2 then [(1, -2)] else []).
  assert (D : match zdist g 9 with Ok d => d 1 = Some 1 | _ => False end) by (vm_compute; reflexivity).
  destruct (zdist g 9) as [d| |] eqn:E; try contradiction. destruct (H g 9%nat d E 1 1 D) as [_ Mn].
  assert (W : wwalk g (0 + 2 + -2) 0 1) by (apply (wwalk_step g (0 + 2) 0 2 1 (-2)); [apply (wwalk_step g 0 0 0 2 2); [constructor|]|]; cbn; tauto).
  apply Mn in W. lia.
Qed.
Print Assumptions C139_refuted.

(** A graph with a cycle, an edge of length 0, and a short way with more edges. *)
Definition C139_graph (v : Z) : list (Z * Z) :=
  if v =? 0 then [(1, 7); (2, 1)] else if v =? 1 then [(0, 2); (3, 1)] else if v =? 2 then [(1, 3); (4, 0)] else if v =? 4 then [(1, 2); (2, 5)] else if v =? 9 then [(0, 1)] else [].
Example C139_hyp : (forall a b, Z.eqb a b = true <-> a = b) /\ (forall v w c, In (w, c) (C139_graph v) -> 0 <= c) /\
  (forall v n, wwalk C139_graph n 0 v -> In v [0; 1; 2; 3; 4]) /\ edges_from C139_graph [0; 1; 2; 3; 4] = 8%nat.
Proof.
  split; [exact Z.eqb_eq|]. split.
  { intros v w c. unfold C139_graph. repeat match goal with |- context [if ?b then _ else _] => destruct b end; cbn; intros I; repeat match goal with H : _ \/ _ |- _ => destruct H as [H|H] end; try contradiction; injection I as <- <-; lia. }
  split; [|reflexivity]. intros v n H. remember 0 as u eqn:E in H. induction H as [v|n u v w c H IH I]; subst; [now left|]. specialize (IH eq_refl). cbn in IH.
  destruct IH as [<- |[<- |[<- |[<- |[<- |[]]]]]]; cbn in I; repeat match goal with H : _ \/ _ |- _ => destruct H as [H|H] end; try contradiction; injection I as <- <-; cbn; tauto.
Qed.
Example C139_runs : match zdist C139_graph 9 with Ok d => map d [0; 1; 2; 3; 4; 9] | _ => [] end = [Some 0; Some 3; Some 1; Some 4; Some 1; None].
Proof. vm_compute. reflexivity. Qed.
