(** Property C121: a queue made of two stacks (stack.go).  Proofs in Proof_TwoStacks.v,
    the specification in Spec_TwoStacks.v. *)
From Verif Require Import BaseLemmas Spec Trace Proof_Mem Model_Stack Model_TwoStacks Spec_TwoStacks Proof_StackPQ Proof_TwoStacks.

(** C121: two new stacks in one memory: every sequence of calls shows what a first in,
    first out sequence shows, and in all no more elements are moved between the stacks
    than were put in. *)
Theorem C121_fifo : forall T (zero : T) grow m ops, (0 < length m)%nat ->
  exists i o, fst (NewStack m) = Ok i /\ fst (NewStack m) = Ok o /\
  let rs := fst (run (two_step zero grow) ops (mkTwo m i o)) in
  map (omap fst) rs = fst (run fifo_spec ops []) /\ moves rs <= enqueued ops.
Proof.
  intros T zero grow m ops Hm. exists nil_slice, nil_slice. split; [reflexivity|]. split; [reflexivity|].
  assert (R : @stack_rel T [] (m, nil_slice)) by (split; [now apply wf_nil|reflexivity]).
  exact (two_run zero grow ops [] [] (mkTwo m nil_slice nil_slice) (conj R (conj R (or_introl eq_refl)))).
Qed.
Print Assumptions C121_fifo.

(** C121: the same from any two stacks that share no storage: the queue begins with what
    the second one holds, top first, then what the first one holds, bottom first. *)
Theorem C121_any_stacks : forall T (zero : T) grow m i o ops, wf_slice m i -> wf_slice m o ->
  s_cap i = 0 \/ s_cap o = 0 \/ s_arr i <> s_arr o ->
  let rs := fst (run (two_step zero grow) ops (mkTwo m i o)) in
  map (omap fst) rs = fst (run fifo_spec ops (rev (contents m o) ++ contents m i)) /\ moves rs <= s_len i + enqueued ops.
Proof.
  intros T zero grow m i o ops Wi Wo Ap.
  assert (R : forall s, wf_slice m s -> @stack_rel T (rev (contents m s)) (m, s)) by (intros s W; split; auto; unfold c_contents; cbn [fst snd]; now rewrite rev_involutive).
  pose proof (two_run zero grow ops _ _ (mkTwo m i o) (conj (R i Wi) (conj (R o Wo) Ap))) as H. rewrite rev_involutive in H.
  replace (zlen (rev (contents m i))) with (s_len i) in H by (rewrite <- (zlen_contents m i Wi); unfold zlen; now rewrite rev_length). exact H.
Qed.
Print Assumptions C121_any_stacks.

(** C121: sharing storage breaks it.  Expected: copies of one empty stack with capacity
    will do for the two stacks, since both are empty. *)
Definition C121_expected_shared : Prop := forall (zero : Z) grow m s ops, wf_slice m s -> s_len s = 0 ->
  map (omap fst) (fst (run (two_step zero grow) ops (mkTwo m s s))) = fst (run fifo_spec ops []).
Theorem C121_refuted_shared : ~ C121_expected_shared.
Proof.
  intros H. specialize (H 0 (fun _ n => n) [[0; 0]] (mkSlice 0 0 0 2) [TEnqueue 1; TEnqueue 2; TDequeue; TDequeue]).
  assert (W : wf_slice [[0; 0]] (mkSlice 0 0 0 2)) by (unfold wf_slice, arr_of; cbn; lia). specialize (H W eq_refl). vm_compute in H. discriminate H.
Qed.
Print Assumptions C121_refuted_shared.

(** Concrete cases: a run with the numbers of moves; the hypotheses of C121_any_stacks. *)
Example C121_runs :
  fst (run (two_step 0 (fun _ n => 2 * n)) [TEnqueue 1; TEnqueue 2; TDequeue; TEnqueue 3; TLen; TDequeue; TDequeue; TDequeue; TLen] (mkTwo [[]] nil_slice nil_slice)) =
  [Ok (ONone, 0); Ok (ONone, 0); Ok (OVal 1, 2); Ok (ONone, 0); Ok (OInt 2, 0); Ok (OVal 2, 0); Ok (OVal 3, 1); Panic; Ok (OInt 0, 0)].
Proof. vm_compute. reflexivity. Qed.
Example C121_hyp : wf_slice [[1; 2]; [3; 4; 5]] (mkSlice 0 0 2 2) /\ wf_slice [[1; 2]; [3; 4; 5]] (mkSlice 1 0 2 3) /\
  fst (run (two_step 0 (fun _ n => 2 * n)) [TDequeue; TDequeue; TDequeue; TDequeue] (mkTwo [[1; 2]; [3; 4; 5]] (mkSlice 0 0 2 2) (mkSlice 1 0 2 3))) =
  [Ok (OVal 4, 0); Ok (OVal 3, 0); Ok (OVal 1, 2); Ok (OVal 2, 0)].
Proof. split; [unfold wf_slice, arr_of; cbn; lia|]. split; [unfold wf_slice, arr_of; cbn; lia|]. vm_compute. reflexivity. Qed.
