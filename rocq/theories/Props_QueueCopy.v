(** C134: DListQueue values that are copied by assignment. *)
From Verif Require Import Base BaseLemmas Spec Trace Spec_List Nodes Model_DList Model_DListQueue Spec_DListCopy Spec_QueueCopy Model_QueueCopy Proof_QueueCopy.

Section C134.
Context {T : Type}.
Variable zero : T.
(** Every program with any number of queues, copies and assignments shows what the
    variables of Spec_QueueCopy.v show. *)
Theorem C134_shared (ops : list (uop T)) :
  fst (run (qvars_step zero) ops ([], [])) = fst (run (q_share_spec zero) ops no_vars).
Proof. apply queues_shared. Qed.
(** As long as no other variable is used on its ring, a variable in order (a new
    one, or a copy of one in order) behaves as a queue of its own. *)
Theorem C134_one_user (before ops : list (uop T)) i xs :
  let w := snd (run (q_share_spec zero) before no_vars) in
  in_order w i xs -> q_only_user zero i ops w ->
  let rs := fst (run (qvars_step zero) ops (snd (run (qvars_step zero) before ([], [])))) in
  q_shown_through i ops rs = fst (run (queue_spec zero) (q_calls_through i ops) xs) /\
  in_order (snd (run (q_share_spec zero) ops w)) i (snd (run (queue_spec zero) (q_calls_through i ops) xs)).
Proof. apply queues_one. Qed.
End C134.
Print Assumptions C134_shared.
Print Assumptions C134_one_user.

(** A copy is a queue of its own. *)
Definition C134_expected_own : Prop := forall (calls calls' : list (qop Z)) o,
  last (fst (run (qvars_step 0) (UNew :: map (UCall 0) calls ++ UCopy 0 :: map (UCall 1) calls' ++ [UCall 0 o]) ([], []))) Panic =
  fst (queue_spec 0 o (snd (run (queue_spec 0) calls []))).
(** A copy is another name of the queue. *)
Definition C134_expected_alias : Prop := forall (calls calls' : list (qop Z)) o,
  last (fst (run (qvars_step 0) (UNew :: map (UCall 0) calls ++ UCopy 0 :: map (UCall 1) calls' ++ [UCall 0 o]) ([], []))) Panic =
  fst (queue_spec 0 o (snd (run (queue_spec 0) (calls ++ calls') []))).
(** What is taken out of a queue was put into some queue before. *)
Definition C134_expected_put : Prop := forall (ops : list (uop Z)) i x,
  last (fst (run (qvars_step 0) (ops ++ [UCall i QTryPopFront]) ([], []))) Panic = Ok (OTry x true) ->
  exists j, In (UCall j (QPushFront x)) ops \/ In (UCall j (QPushBack x)) ops.
(** Pushing into a queue works. *)
Definition C134_expected_push : Prop := forall (ops : list (uop Z)) i x,
  (i < length (vars (snd (run (q_share_spec 0%Z) ops no_vars))))%nat ->
  last (fst (run (qvars_step 0) (ops ++ [UCall i (QPushBack x)]) ([], []))) Panic = Ok ONone.
Theorem C134_refuted : ~ C134_expected_own /\ ~ C134_expected_alias /\ ~ C134_expected_put /\ ~ C134_expected_push.
Proof.
  repeat split; intros H.
  - specialize (H [QPushBack 1] [QPushFront 2] QFront). vm_compute in H. discriminate.
  - specialize (H [QPushBack 1] [QPushBack 2] QLen). vm_compute in H. discriminate.
  - destruct (H [UNew; UCall 0 (QPushBack 1); UCopy 0; UCall 0 QPopFront] 1%nat 0 ltac:(vm_compute; reflexivity)) as (j & K).
    cbn in K. intuition discriminate.
  - specialize (H [UNew; UCall 0 (QPushBack 1); UCopy 0; UCall 0 QPopFront; UCall 1 QTryPopFront] 0%nat 5 ltac:(vm_compute; lia)). vm_compute in H. discriminate.
Qed.
Print Assumptions C134_refuted.

(** Two variables on one ring, and a queue that is handed over while others are used. *)
Example C134_hyp :
  fst (run (qvars_step 0) [UNew; UCall 0 (QPushBack 1); UCall 0 (QPushBack 2); UCopy 0; UCall 1 (QPushBack 3); UCall 0 QLen; UCall 1 QLen; UCall 0 QBack; UCall 0 QPopBack;
    UCall 0 QTryPopFront; UCall 0 QTryPopFront; UCall 1 QFront; UCall 1 QPopFront; UCall 1 QLen; UCall 1 QPopBack; UCall 0 (QPushBack 4); UCall 1 QLen; UCall 1 QFront; UCall 0 QClear; UCall 1 QFront] ([], [])) =
  [Ok ONone; Ok ONone; Ok ONone; Ok ONone; Ok ONone; Ok (OInt 2); Ok (OInt 3); Ok (OVal 3); Ok (OVal 3);
   Ok (OTry 1 true); Ok (OTry 0 false); Ok (OVal 2); Ok (OVal 2); Ok (OInt 2); Ok (OVal 0); Panic; Ok (OInt 1); Panic; Ok ONone; Ok (OVal 0)] /\
  (let before := [UNew; UCall 0 (QPushBack 1); UCopy 0; UCopy 0; UCall 1 (QPushBack 3); UNew] : list (uop Z) in
   let ops := [UCall 3 (QPushBack 3); UNew; UCopy 1; UCall 1 (QPushFront 5); UAssign 4 1; UCall 3 (QPushBack 8); UAssign 0 3; UCall 1 QPopFront] : list (uop Z) in
   in_order (snd (run (q_share_spec 0) before no_vars)) 1 [1; 3] /\ q_only_user 0 1 ops (snd (run (q_share_spec 0) before no_vars)) /\ q_calls_through 1 ops = [QPushFront 5; QPopFront]).
Proof.
  split; [vm_compute; reflexivity|]. cbv zeta. split; [vm_compute; auto|]. split; [|reflexivity].
  cbn. repeat split; auto; try (intros E; discriminate E).
  - right. intros (k & n & m & E1 & E2). cbn in E1, E2. congruence.
  - right. intros (k & n & m & E1 & E2). cbn in E1, E2. congruence.
Qed.
