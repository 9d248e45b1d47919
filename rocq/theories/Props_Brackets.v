(** C136: checking brackets with a Stack. *)
From Verif Require Import Base BaseLemmas Spec Trace Proof_Mem Model_Stack Proof_StackPQ Spec_Brackets Model_Brackets Proof_Brackets.

Section C136.
Context {B : Type}.
Variables (zero : B) (grow : Z -> Z -> Z) (eqb : B -> B -> bool).
Hypothesis Heq : forall a b, eqb a b = true <-> a = b.
(** The second result tells whether the word is balanced.  The first is the length of
    the longest part from the start that can be continued to a balanced word. *)
Theorem C136_check (word : list (symbol B)) m : (0 < length m)%nat -> exists n b,
  fst (check zero grow eqb word m) = Ok (Z.of_nat n, b) /\
  (b = true <-> balanced word) /\
  (n <= length word)%nat /\ viable (firstn n word) /\ forall k, (n < k <= length word)%nat -> ~ viable (firstn k word).
Proof.
  intros Hm. assert (R : stack_rel [] (m, nil_slice)) by (split; [now apply wf_nil|reflexivity]).
  destruct (loop_ok zero grow eqb word 0 [] (m, nil_slice) R) as (n & b & E & L & H1 & H2 & H3). exists n, b.
  split; [unfold check, NewStack, ret; revert E; unfold cell, mem; destruct (check_loop zero grow eqb word 0 _); exact (fun E => E)|].
  split; [rewrite H1; symmetry; now apply balanced_iff|]. split; [exact L|]. split; [now apply (viable_iff eqb Heq)|].
  intros k Lk V. apply (viable_iff eqb Heq) in V as (st & V).
  assert (Sp : firstn k word = firstn (S n) word ++ skipn (S n) (firstn k word)).
  { rewrite <- (firstn_skipn (S n) (firstn k word)) at 1. f_equal. rewrite firstn_firstn. f_equal. lia. }
  rewrite Sp, go_app, H3 in V by lia. discriminate V.
Qed.
End C136.
Print Assumptions C136_check.

(** A balanced word, one whose pairs cross, one that closes too much, one that is not
    finished. *)
Notation zcheck w := (fst (check 0 (fun o n => n) Z.eqb w [[]])).
Example C136_hyp : (forall a b, Z.eqb a b = true <-> a = b) /\
  zcheck [Open 1; Other; Open 2; Close 2; Close 1; Open 2; Close 2] = Ok (7, true) /\ balanced [Open 1; Other; Open 2; Close 2; Close 1; Open 2; Close 2] /\
  zcheck [Open 1; Open 2; Close 1; Close 2] = Ok (2, false) /\ zcheck [Open 1; Close 1; Close 1; Open 1] = Ok (2, false) /\ zcheck [Open 1; Open 2; Close 2] = Ok (3, false) /\
  ~ balanced [Open 1; Open 2; Close 2].
Proof.
  split; [exact Z.eqb_eq|]. split; [vm_compute; reflexivity|]. split.
  { apply (balanced_pair 1 [Other; Open 2; Close 2] [Open 2; Close 2]); [constructor|]; apply (balanced_pair 2 [] []); constructor. }
  repeat split; try (vm_compute; reflexivity). intros H. apply (balanced_iff Z.eqb Z.eqb_eq) in H. discriminate H.
Qed.
