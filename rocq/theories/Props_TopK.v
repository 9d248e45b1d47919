(** Property C119: keeping the k greatest elements of a stream in a PriorityQueue
    (priority_queue.go): push each element and pop one when there are more than k.
    Proofs in Proof_TopK.v, the specification [greatest] in Spec_TopK.v. *)
From Verif Require Import BaseLemmas Spec Trace Model_PriorityQueue Model_TopK Spec_TopK Spec_Alloc Proof_TopK.

(** C119: on a new queue of either kind the loop never panics, whatever the length of
    the stream; popping what is left gives the k greatest elements in ascending order and
    leaves the queue empty. *)
Theorem C119_top_k : forall T (less : T -> T -> bool), strict_weak less -> forall zero grow k vs m q, k < max_int -> (0 < length m)%nat ->
  q = NewPriorityQueue less m \/ q = NewPriorityQueueFunc less m ->
  exists q' r q'', top_k zero grow k vs q = (Ok tt, q') /\ PQ_Len q' = (Ok (zlen r), q') /\
    drain (length r) [] q' = (Ok r, q'') /\ PQ_Len q'' = (Ok 0, q'') /\ greatest less k vs r /\ sorted_by less r.
Proof.
  intros T less SW zero grow k vs m q K Hm Hq. destruct (top_k_run less SW zero grow k vs q K) as (q' & r & q'' & A & B & C & D & E & F & _); [exists m; auto|].
  exists q', r, q''. auto 10.
Qed.
Print Assumptions C119_top_k.

(** C119: and these are, element by element, equivalent to the end of the sorted stream,
    however it is sorted: the order of arrival does not matter. *)
Theorem C119_end_of_sorted : forall T (less : T -> T -> bool), strict_weak less -> forall zero grow k vs m q q' r q'' s, k < max_int -> (0 < length m)%nat ->
  q = NewPriorityQueue less m \/ q = NewPriorityQueueFunc less m ->
  top_k zero grow k vs q = (Ok tt, q') -> drain (length r) [] q' = (Ok r, q'') -> zlen r = Z.max 0 (Z.min k (zlen vs)) ->
  sorted_by less s -> Permutation s vs ->
  Forall2 (fun x y => less x y = false /\ less y x = false) r (skipn (length s - length r) s).
Proof.
  intros T less SW zero grow k vs m q q' r q'' s K Hm Hq E1 E2 L S P. destruct (top_k_run less SW zero grow k vs q K) as (p' & t & p'' & A & _ & C & D & E & _); [exists m; auto|].
  rewrite E1 in A. injection A as <-. pose proof D as (Lt & _). assert (N : length t = length r) by (unfold zlen in *; lia). rewrite N, E2 in C. injection C as <- <-.
  eapply greatest_end; eauto.
Qed.
Print Assumptions C119_end_of_sorted.

(** C119: the storage the loop allocates does not depend on the length of the stream
    (under the conditions of C118 on append's growth policy). *)
Theorem C119_storage : forall T (less : T -> T -> bool), strict_weak less -> forall zero grow k vs m q q' g b, k < max_int -> (0 < length m)%nat ->
  q = NewPriorityQueue less m \/ q = NewPriorityQueueFunc less m -> 0 <= g -> 1 <= b -> grows g grow -> not_more b grow ->
  top_k zero grow k vs q = (Ok tt, q') ->
  s_cap (snd (pq_heap q')) <= b * (Z.max 0 k + 1) /\ slots (fst (pq_heap q')) <= slots m + (g + 1) * b * (Z.max 0 k + 1).
Proof.
  intros T less SW zero grow k vs m q q' g b K Hm Hq Hg Hb G N E1. destruct (top_k_run less SW zero grow k vs q K) as (p' & t & p'' & A & _ & _ & _ & _ & _ & Le); [exists m; auto|].
  rewrite E1 in A. injection A as <-. specialize (Le g b Hg Hb G N).
  assert (Q : fst (pq_heap q) = m /\ s_cap (snd (pq_heap q)) = 0) by (destruct Hq as [-> | ->]; auto). destruct Q as [Q1 Q2]. rewrite Q1, Q2 in Le. nia.
Qed.
Print Assumptions C119_storage.

(** C119: which of several equivalent elements is kept is not settled by their order of
    arrival.  Expected by symmetry with a stable sort: the later ones (or the earlier
    ones).  Elements are pairs compared by their first component. *)
Definition by_key (a b : Z * Z) : bool := fst a <? fst b.
Definition kept_of (k : Z) (vs : list (Z * Z)) : list (Z * Z) :=
  match top_k (0, 0) (fun _ n => 2 * n) k vs (NewPriorityQueueFunc by_key [[]]) with
  | (Ok _, q) => match drain (length vs) [] q with (Ok r, _) => r | _ => [] end
  | _ => []
  end.
Definition C119_expected_latest : Prop := forall k vs i j a x y, 0 <= i < j -> zget vs i = Some (a, x) -> zget vs j = Some (a, y) ->
  In (a, x) (kept_of k vs) -> In (a, y) (kept_of k vs).
Definition C119_expected_earliest : Prop := forall k vs i j a x y, 0 <= i < j -> zget vs i = Some (a, x) -> zget vs j = Some (a, y) ->
  In (a, y) (kept_of k vs) -> In (a, x) (kept_of k vs).
Theorem C119_refuted : ~ C119_expected_latest /\ ~ C119_expected_earliest.
Proof.
  assert (E : kept_of 2 [(0, 1); (0, 2); (0, 3); (0, 4)] = [(0, 4); (0, 2)] \/ kept_of 2 [(0, 1); (0, 2); (0, 3); (0, 4)] = [(0, 2); (0, 4)]) by (vm_compute; auto).
  split; intros H.
  - specialize (H 2 [(0, 1); (0, 2); (0, 3); (0, 4)] 1 2 0 2 3 ltac:(lia) eq_refl eq_refl). destruct E as [E|E]; rewrite E in H; cbn in H; intuition congruence.
  - specialize (H 2 [(0, 1); (0, 2); (0, 3); (0, 4)] 0 1 0 1 2 ltac:(lia) eq_refl eq_refl). destruct E as [E|E]; rewrite E in H; cbn in H; intuition congruence.
Qed.
Print Assumptions C119_refuted.

(** Concrete cases: 3 of 7 elements, more room than elements, no room, negative k. *)
Example C119_hyp : strict_weak Z.ltb /\ 3 < max_int /\ (0 < length [@nil Z])%nat /\ grows 1 (fun c n => 2 * c) /\ not_more 2 (fun c n => 2 * c).
Proof. split; [apply Z_ltb_strict_weak|]. split; [reflexivity|]. split; [cbn; lia|]. split; intros c n H; lia. Qed.
Example C119_runs :
  map (fun k => match top_k 0 (fun c _ => 2 * c) k [5; 1; 4; 1; 5; 9; 2] (NewPriorityQueue Z.ltb [[]]) with
                | (Ok _, q) => fst (drain 7 [] q) | _ => Panic end) [3; 10; 0; -2] =
  [Ok [5; 5; 9]; Ok [1; 1; 2; 4; 5; 5; 9]; Ok []; Ok []].
Proof. reflexivity. Qed.
