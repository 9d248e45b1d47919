(** Properties C25 (stack.go) and C40 (priority_queue.go).  Only statements;
    proofs are in Proof_StackPQ.v.  [run step ops s] runs a sequence of calls
    and lists what the caller observes; [stack_spec] and [pq_spec] are in
    Spec_Containers.v. *)
From Verif Require Import BaseLemmas Spec Trace Model_Stack Model_PriorityQueue Spec_Containers Proof_StackPQ.

(** C25: any sequence of calls on a new stack observes exactly what a LIFO
    sequence gives, whatever append's growth policy. *)
Theorem C25_NewStack : forall T (zero : T) grow ops m, (0 < length m)%nat ->
  exists s m1, NewStack m = (Ok s, m1) /\
  fst (run (stack_step zero grow) ops (m1, s)) = fst (run (stack_spec zero) ops []).
Proof. exact @NewStack_run. Qed.
Print Assumptions C25_NewStack.

Theorem C25_NewStackCap : forall T (zero : T) grow cap ops m, 0 <= cap ->
  exists s m1, NewStackCap zero cap m = (Ok s, m1) /\ s_cap s = cap /\
  fst (run (stack_step zero grow) ops (m1, s)) = fst (run (stack_spec zero) ops []).
Proof. exact @NewStackCap_run. Qed.
Print Assumptions C25_NewStackCap.

Theorem C25_NewStackCap_negative : forall T (zero : T) cap m,
  cap < 0 -> NewStackCap zero cap m = (Panic, m).
Proof. exact @NewStackCap_panic. Qed.
Print Assumptions C25_NewStackCap_negative.

(** C25: from any stack holding the elements [rev st] (so also a stack on a
    slice with spare capacity), same statement plus the final contents. *)
Theorem C25_Stack_any_state : forall T (zero : T) grow ops st c,
  wf_slice (fst c) (snd c) /\ c_contents c = rev st ->
  fst (run (stack_step zero grow) ops c) = fst (run (stack_spec zero) ops st) /\
  (wf_slice (fst (snd (run (stack_step zero grow) ops c))) (snd (snd (run (stack_step zero grow) ops c))) /\
   c_contents (snd (run (stack_step zero grow) ops c)) = rev (snd (run (stack_spec zero) ops st))).
Proof. exact @stack_run. Qed.
Print Assumptions C25_Stack_any_state.

(** C25: Push moves to new storage only when the capacity is used up. *)
Theorem C25_Push_frame : forall T (zero : T) grow t m s, wf_slice m s ->
  exists m' s', Stack_Push zero grow t (m, s) = (Ok tt, (m', s')) /\ append_frame m m' s s' (s_len s + 1).
Proof. exact @Stack_Push_frame. Qed.
Print Assumptions C25_Push_frame.

(** C40: a new queue (either constructor) behaves as a priority queue for
    every sequence of calls; the number of elements is assumed to stay a Go
    int. *)
Theorem C40_NewPriorityQueue : forall T (less : T -> T -> bool), strict_weak less ->
  forall zero grow ops m, (0 < length m)%nat -> pushes ops <= max_int ->
  (exists bag', accepts (pq_spec less) [] ops (fst (run (pq_step zero grow) ops (NewPriorityQueue less m))) bag') /\
  (exists bag', accepts (pq_spec less) [] ops (fst (run (pq_step zero grow) ops (NewPriorityQueueFunc less m))) bag').
Proof. exact @NewPQ_run. Qed.
Print Assumptions C40_NewPriorityQueue.

(** C40: NewPriorityQueueOn / Of start with the bag of the given elements; the
    given slice becomes a heap in place and nothing else is written. *)
Theorem C40_NewPriorityQueueOn : forall T (less : T -> T -> bool), strict_weak less ->
  forall zero grow ops m s, wf_slice m s -> s_len s + pushes ops <= max_int ->
  exists q bag', NewPriorityQueueOn less s m = Ok q /\ NewPriorityQueueOf less s m = Ok q /\
    accepts (pq_spec less) (contents m s) ops (fst (run (pq_step zero grow) ops q)) bag' /\
    snd (pq_heap q) = s /\ min_heap less (contents (fst (pq_heap q)) s) /\
    same_except m (fst (pq_heap q)) (s_arr s) (s_off s) (s_off s + s_len s).
Proof. exact @NewPQOn_run. Qed.
Print Assumptions C40_NewPriorityQueueOn.

(** C40: in every reachable state Pop returns what Top returns. *)
Theorem C40_top_is_next_pop : forall T (less : T -> T -> bool), strict_weak less ->
  forall zero grow ops m, (0 < length m)%nat -> pushes ops <= max_int ->
  let q := snd (run (pq_step zero grow) ops (NewPriorityQueue less m)) in
  let qf := snd (run (pq_step zero grow) ops (NewPriorityQueueFunc less m)) in
  fst (pq_step zero grow PTop q) = fst (pq_step zero grow PPop q) /\
  fst (pq_step zero grow PTop qf) = fst (pq_step zero grow PPop qf).
Proof. exact @pq_top_pop_reach. Qed.
Print Assumptions C40_top_is_next_pop.

(** Concrete runs. *)
Example stack_runs :
  fst (run (stack_step 0 (fun _ n => 2 * n)) [SPush 1; SPush 2; STop; SPush 3; SPop; SPop; STryPop; STryPop; SPop; SLen] ([[]], nil_slice))
  = [Ok ONone; Ok ONone; Ok (OVal 2); Ok ONone; Ok (OVal 3); Ok (OVal 2); Ok (OTry 1 true); Ok (OTry 0 false); Panic; Ok (OInt 0)].
Proof. vm_compute. reflexivity. Qed.
Example pq_runs :
  fst (run (pq_step 0 (fun _ n => 2 * n)) [PPush 5; PPush 1; PPush 3; PTop; PPop; PPush 0; PPop; PPop; PPop; PPop; PLen]
         (NewPriorityQueue Z.ltb [[]]))
  = [Ok ONone; Ok ONone; Ok ONone; Ok (OVal 1); Ok (OVal 1); Ok ONone; Ok (OVal 0); Ok (OVal 3); Ok (OVal 5); Panic; Ok (OInt 0)].
Proof. vm_compute. reflexivity. Qed.
