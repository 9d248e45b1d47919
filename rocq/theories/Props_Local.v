(** Theorem C126 about /repo/slist.go, dlist.go and dlist_queue.go. *)
From Verif Require Import BaseLemmas Nodes Trace Spec_List Spec_Local Proof_Local.
From Verif Require Model_SList Model_DList Model_DListQueue Proof_SList Proof_DList.

(** ** C126 Calls at the ends of a list use a fixed number of nodes
    In every state, and however long the list is: the answer of such a call, what it does to
    the header and to the nodes it uses, depend on no other node, and no other node is
    changed.  An iterator moved i times uses i + 1 (DList: i + 2) nodes. *)
Section S.
Import Model_SList.
Theorem C126_SList : forall T St (zero : T) (o : sop T St) n s, slist_uses o = Some n ->
  within n (match o with LPushFront _ | LPushBack _ => 1 | _ => 0 end) (slist_step zero o) s.
Proof. intros. now apply slist_within. Qed.
(** Reading all values uses at least one node for each. *)
Theorem C126_SList_all : forall T St (zero : T) h0 (ops : list (sop T St)) adrs, (forall v : T, exists w, w <> v) ->
  let s := snd (run (slist_step zero) ops (h0, empty_slist)) in let xs := snd (run slist_spec ops []) in
  uses (@slist_step T zero St LValues) s adrs \/ uses (@slist_step T zero St LIter) s adrs -> (length xs <= length adrs)%nat.
Proof.
  intros T St zero h0 ops adrs two s xs U. apply (@slist_lower T St zero two (nth_error h0) xs s adrs); [|exact U].
  apply (Proof_SList.run_ok zero (nth_error h0) ops [] (h0, empty_slist)), Proof_SList.Rel_init.
Qed.
End S.
Section D.
Import Model_DList.
Theorem C126_DList : forall T St (zero : T) (o : dop T St) n s, dlist_uses o = Some n ->
  within n (match o with DPushFront _ | DPushBack _ => 2 | _ => 0 end) (dlist_step zero o) s.
Proof. intros. now apply dlist_within. Qed.
Theorem C126_DList_all : forall T St (zero : T) h0 (ops : list (dop T St)) adrs, (forall v : T, exists w, w <> v) ->
  let s := snd (run (dlist_step zero) ops (h0, empty_dlist)) in let xs := snd (run (dlist_spec zero) ops []) in
  uses (@dlist_step T zero St DIter) s adrs -> (length xs <= length adrs)%nat.
Proof.
  intros T St zero h0 ops adrs two s xs U. apply (@dlist_lower T St zero two (nth_error h0) xs s adrs); [|exact U].
  apply (Proof_DList.run_ok zero (nth_error h0) ops [] (h0, empty_dlist)), Proof_DList.Rel_init.
Qed.
End D.
Section Q.
Import Model_DListQueue.
Theorem C126_DListQueue : forall T (zero : T) (o : qop T) s,
  within (queue_uses o) (match o with QPushFront _ | QPushBack _ => 2 | _ => 0 end) (queue_step zero o) s.
Proof. intros. now apply queue_within. Qed.
End Q.
Print Assumptions C126_SList.
Print Assumptions C126_SList_all.
Print Assumptions C126_DList.
Print Assumptions C126_DList_all.
Print Assumptions C126_DListQueue.

(** A list of 40 values: PopFront uses one node, Values at least 40; and PopFront takes the
    same value whatever the other nodes are. *)
Section Examples.
Import Model_SList.
Definition forty : list (sop Z unit) := map (fun i => LPushBack (Z.of_nat i)) (seq 0 40).
Definition forty_state := snd (run (slist_step 0) forty ([], empty_slist)).
Example C126_hyp : within 1 0 (slist_step 0 (@LPopFront Z unit)) forty_state /\
  forall adrs, uses (@slist_step Z 0 unit LValues) forty_state adrs -> (40 <= length adrs)%nat.
Proof.
  split; [now apply (C126_SList Z unit 0 LPopFront 1)|]. intros adrs U. apply (C126_SList_all Z unit 0 [] forty adrs); [|left; exact U].
  intros v. exists (v + 1). lia.
Qed.
Example C126_runs : let other := map (fun n => mkSNode None (s_value n + 100)) (skipn 1 (fst forty_state)) in
  fst (slist_step 0 (@LPopFront Z unit) (firstn 1 (fst forty_state) ++ other, snd forty_state)) = Ok (RObs (OVal 0)) /\
  fst (slist_step 0 (@LPopFront Z unit) forty_state) = Ok (RObs (OVal 0)).
Proof. vm_compute. auto. Qed.
End Examples.
