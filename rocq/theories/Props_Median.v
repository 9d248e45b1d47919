(** Property C133: the medians of a stream with two PriorityQueues
    (priority_queue.go).  Proofs in Proof_Median.v, the specification in
    Spec_Median.v. *)
From Verif Require Import BaseLemmas Spec Trace Proof_StackPQ Model_PriorityQueue Model_Median Spec_Median Proof_Median.

(** C133: after each element the program knows a lower and an upper median of the
    elements so far; it never panics. *)
Theorem C133_medians : forall T (less : T -> T -> bool), strict_weak less -> forall zero grow m m' vs, (0 < length m)%nat -> (0 < length m')%nat -> zlen vs <= max_int ->
  exists ms, medians zero grow less m m' vs = Ok ms /\ zlen ms = zlen vs /\
    forall i x y, zget ms i = Some (x, y) -> lower_median less (firstn (Z.to_nat i + 1) vs) x /\ upper_median less (firstn (Z.to_nat i + 1) vs) y.
Proof.
  intros T less SW zero grow m m' vs Hm Hm' L. unfold medians.
  destruct (loop_ok less SW zero grow vs [] (NewPriorityQueueFunc (fun a b => less b a) m, NewPriorityQueueFunc less m') [] [] []) as (ms & s' & E & Lm & D); [|exact L|].
  - split; [now apply (new_rel_any zero grow)|]. split; [now apply (new_rel_any zero grow)|]. split; [constructor|]. split; [intros x y []|]. change (zlen (@nil T)) with 0. lia.
  - exists ms. rewrite E. auto.
Qed.
Print Assumptions C133_medians.

(** C133: lower and upper medians are, up to equivalence, the elements in the middle of
    the sorted sequence, however it is sorted: number (n-1)/2 and number n/2. *)
Theorem C133_middle : forall T (less : T -> T -> bool), strict_weak less -> forall vs s x z, sorted_by less s -> Permutation s vs ->
  (lower_median less vs x -> zget s ((zlen s - 1) / 2) = Some z -> less x z = false /\ less z x = false) /\
  (upper_median less vs x -> zget s (zlen s / 2) = Some z -> less x z = false /\ less z x = false).
Proof.
  intros T less SW vs s x z S P. pose proof (perm_zlen _ _ P) as L.
  assert (B : below less x vs = below less x s) by (unfold below; now apply count_perm, Permutation_sym).
  assert (A : above less x vs = above less x s) by (unfold above; now apply count_perm, Permutation_sym).
  assert (K : forall k, zget s k = Some z -> (2 * below less x vs <= 2 * k + 1) -> 2 * above less x vs < 2 * (zlen s - k) -> less x z = false /\ less z x = false).
  { intros k Ez Hb Ha. split.
    - destruct (less x z) eqn:E; auto. pose proof (sorted_above less SW s k z x S Ez E). lia.
    - destruct (less z x) eqn:E; auto. pose proof (sorted_below less SW s k z x S Ez E). lia. }
  split; intros (_ & Hb & Ha) Ez; (eapply K; [exact Ez| |]).
  - pose proof (Z.div_mod (zlen s - 1) 2 ltac:(lia)). pose proof (Z.mod_pos_bound (zlen s - 1) 2 ltac:(lia)). lia.
  - pose proof (Z.div_mod (zlen s - 1) 2 ltac:(lia)). pose proof (Z.mod_pos_bound (zlen s - 1) 2 ltac:(lia)). lia.
  - pose proof (Z.div_mod (zlen s) 2 ltac:(lia)). pose proof (Z.mod_pos_bound (zlen s) 2 ltac:(lia)). lia.
  - pose proof (Z.div_mod (zlen s) 2 ltac:(lia)). pose proof (Z.mod_pos_bound (zlen s) 2 ltac:(lia)). lia.
Qed.
Print Assumptions C133_middle.

(** Concrete cases. *)
Example C133_hyp : strict_weak Z.ltb /\ (0 < length [@nil Z])%nat /\ zlen [5; 1; 4; 1; 5; 9] <= max_int /\
  sorted_by Z.ltb [1; 1; 4; 5; 5; 9] /\ lower_median Z.ltb [5; 1; 4; 1; 5; 9] 4 /\ upper_median Z.ltb [5; 1; 4; 1; 5; 9] 5.
Proof.
  split; [apply Z_ltb_strict_weak|]. split; [cbn; lia|]. split; [vm_compute; discriminate|]. split; [|split].
  - intros i j a b H Hi Hj. pose proof (zget_Some_range _ _ _ Hj) as J. change (zlen [1; 1; 4; 5; 5; 9]) with 6 in J.
    assert (Ci : i = 0 \/ i = 1 \/ i = 2 \/ i = 3 \/ i = 4 \/ i = 5) by lia. assert (Cj : j = 0 \/ j = 1 \/ j = 2 \/ j = 3 \/ j = 4 \/ j = 5) by lia.
    destruct Ci as [->|[->|[->|[->|[->| ->]]]]]; destruct Cj as [->|[->|[->|[->|[->| ->]]]]]; try lia; injection Hi as <-; injection Hj as <-; reflexivity.
  - split; [cbn; auto|split; vm_compute; [reflexivity|discriminate]].
  - split; [cbn; auto 10|split; vm_compute; [discriminate|reflexivity]].
Qed.
Example C133_runs : medians 0 (fun c _ => 2 * c) Z.ltb [[]] [[]] [5; 1; 4; 1; 5; 9] = Ok [(5, 5); (1, 5); (4, 4); (1, 4); (4, 4); (4, 5)].
Proof. reflexivity. Qed.
