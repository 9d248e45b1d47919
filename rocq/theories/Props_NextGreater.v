(** C143: next greater elements with a Stack. *)
From Verif Require Import Base BaseLemmas Spec Trace Proof_Mem Model_Stack Proof_StackPQ Spec_NextGreater Model_NextGreater Proof_NextGreater.

(** The result is that of a search through the rest of the list for every element, but
    the inner loop runs at most as often as the list is long, for all elements together. *)
Theorem C143_next_greater : forall T (zero : T) grow less, (forall a b c, less a b = false -> less b c = false -> less a c = false) ->
  forall l rounds m, (length l <= rounds)%nat -> (0 < length m)%nat ->
  fst (next_greater zero grow less rounds l m) = Ok (next_spec less l).
Proof. intros T zero grow less NT l n m L Hm. exact (next_ok zero grow less NT l n m Hm L). Qed.
Print Assumptions C143_next_greater.

Example C143_hyp : forall a b c, Z.ltb a b = false -> Z.ltb b c = false -> Z.ltb a c = false.
Proof. intros a b c. lia. Qed.
Example C143_runs : fst (next_greater 0 (fun o n => n) Z.ltb 7 [3; 1; 1; 2; 5; 4; 4] [[]]) = Ok [Some 5; Some 2; Some 2; Some 5; None; None; None] /\
  fst (next_greater 0 (fun o n => n) Z.ltb 3 [3; 1; 1; 2; 5; 4; 4] [[]]) = NoFuel.
Proof. split; vm_compute; reflexivity. Qed.
