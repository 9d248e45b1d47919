(** Property C125: merging lists with a PriorityQueue (priority_queue.go) of the fronts
    of the lists.  Proofs in Proof_Merge.v, the specification in Spec_Merge.v. *)
From Verif Require Import BaseLemmas Spec Trace Model_PriorityQueue Spec_Alloc Spec_Sort Spec_Merge Model_Merge Proof_TopK Proof_Merge.

(** C125: for any lists, sorted or not, and any strict weak order of fronts and list
    numbers, the program takes as many steps as there are elements, never panics, takes a
    least front each time, and leaves the queue empty. *)
Theorem C125_merge : forall T (before : Z * T -> Z * T -> bool), strict_weak before -> forall zero grow ls m, (0 < length m)%nat -> zlen ls <= max_int ->
  exists o q', merge zero grow (length (concat ls)) ls (NewPriorityQueueFunc (stream_less before) m) = (Ok (map snd o), q') /\ PQ_Len q' = (Ok 0, q') /\
    picked before ls o /\ forall i, from_list i o = match zget ls i with Some l => l | None => [] end.
Proof.
  intros T before SW zero grow ls m Hm L. destruct (merge_ok before SW zero grow ls (NewPriorityQueueFunc (stream_less before) m)) as (o & q' & E & K & R & _); auto; [exists m; auto|].
  exists o, q'. split; [exact E|]. split; [apply (len_ok _ _ _ R)|]. split; [exact K|now apply (picked_from before)].
Qed.
Print Assumptions C125_merge.

(** C125: if the lists are sorted, comparing fronts by the elements gives a sorted
    permutation of all elements. *)
Theorem C125_sorted : forall T (less : T -> T -> bool), strict_weak less -> forall zero grow ls m, (0 < length m)%nat -> zlen ls <= max_int -> (forall l, In l ls -> sorted_by less l) ->
  exists out q', merge zero grow (length (concat ls)) ls (NewPriorityQueueFunc (stream_less (by_element less)) m) = (Ok out, q') /\ sorted_by less out /\ Permutation out (concat ls).
Proof.
  intros T less SW zero grow ls m Hm L S. destruct (C125_merge T (by_element less) (element_sw less SW) zero grow ls m Hm L) as (o & q' & E & _ & K & _).
  exists (map snd o), q'. split; [exact E|]. split; [apply (picked_sorted less SW (by_element less) ls o); auto|now apply (picked_perm (by_element less))].
Qed.
Print Assumptions C125_sorted.

(** C125: comparing the list numbers too, where the elements are equivalent, gives a stable
    merge: what a stable sort makes of the lists in a row. *)
Theorem C125_stable : forall T (less : T -> T -> bool), strict_weak less -> forall zero grow ls m, (0 < length m)%nat -> zlen ls <= max_int -> (forall l, In l ls -> sorted_by less l) ->
  exists out q', merge zero grow (length (concat ls)) ls (NewPriorityQueueFunc (stream_less (by_element_and_list less)) m) = (Ok out, q') /\ sorted_by less out /\ Permutation out (concat ls) /\
    keeps_order less (concat ls) out.
Proof.
  intros T less SW zero grow ls m Hm L S. destruct (C125_merge T (by_element_and_list less) (both_sw less SW) zero grow ls m Hm L) as (o & q' & E & _ & K & _).
  exists (map snd o), q'. split; [exact E|]. split; [|split; [now apply (picked_perm (by_element_and_list less))|now apply picked_stable]].
  apply (picked_sorted less SW (by_element_and_list less) ls o); auto. intros p q B. unfold by_element_and_list in B. apply orb_false_iff in B. apply B.
Qed.
Print Assumptions C125_stable.

(** C125: the storage used does not depend on the lengths of the lists, only on how many
    there are (under the conditions of C118 on append's growth policy). *)
Theorem C125_storage : forall T (before : Z * T -> Z * T -> bool), strict_weak before -> forall zero grow ls m r q' g b, (0 < length m)%nat -> zlen ls <= max_int ->
  0 <= g -> 1 <= b -> grows g grow -> not_more b grow ->
  merge zero grow (length (concat ls)) ls (NewPriorityQueueFunc (stream_less before) m) = (r, q') ->
  s_cap (snd (pq_heap q')) <= b * zlen ls /\ slots (fst (pq_heap q')) <= slots m + (g + 1) * b * zlen ls.
Proof.
  intros T before SW zero grow ls m r q' g b Hm L Hg Hb G N E1. destruct (merge_ok before SW zero grow ls (NewPriorityQueueFunc (stream_less before) m)) as (o & p' & E & _ & _ & Le); auto; [exists m; auto|].
  rewrite E1 in E. injection E as -> <-. specialize (Le g b Hg Hb G N). cbn [NewPriorityQueueFunc pq_heap fst snd nil_slice s_cap] in Le. pose proof (zlen_nonneg ls). nia.
Qed.
Print Assumptions C125_storage.

(** C125: expected of a merge: equivalent elements come in the order of their lists, as
    after a stable sort.  Not if the fronts are compared by the elements alone.  Elements
    are pairs compared by their first component. *)
Definition pair_less (a b : Z * Z) : bool := fst a <? fst b.
Lemma pair_sw : strict_weak pair_less.
Proof. unfold pair_less. constructor; intros *; rewrite ?Z.ltb_lt, ?Z.ltb_ge; lia. Qed.
Definition merged (before : Z * (Z * Z) -> Z * (Z * Z) -> bool) (ls : list (list (Z * Z))) : outcome (list (Z * Z)) :=
  fst (merge (Stream (0, 0) 0 []) (fun _ n => 2 * n) (length (concat ls)) ls (NewPriorityQueueFunc (stream_less before) [[]])).
Definition C125_expected_stable : Prop := forall ls out, (forall l, In l ls -> sorted_by pair_less l) -> merged (by_element pair_less) ls = Ok out -> keeps_order pair_less (concat ls) out.
Theorem C125_refuted : ~ C125_expected_stable.
Proof.
  intros H. specialize (H [[(0, 1)]; [(0, 2)]; [(0, 3)]] [(0, 1); (0, 3); (0, 2)]).
  assert (S : forall l, In l [[(0, 1)]; [(0, 2)]; [(0, 3)]] -> sorted_by pair_less l).
  { intros l I i j a b Hij Ha Hb. apply zget_Some_range in Hb. assert (zlen l = 1) by (destruct I as [<-|[<-|[<-|[]]]]; reflexivity). lia. }
  specialize (H S ltac:(reflexivity) (0, 0)). vm_compute in H. discriminate.
Qed.
Print Assumptions C125_refuted.

(** Concrete cases: empty lists among others, equal elements, unsorted lists. *)
Example C125_hyp : strict_weak pair_less /\ (0 < length [@nil (stream Z)])%nat /\ zlen [[1; 4; 4]; []; [2; 4]] <= max_int /\ sorted_by Z.ltb [1; 4; 4] /\ grows 1 (fun c n => 2 * c) /\ not_more 2 (fun c n => 2 * c).
Proof.
  split; [apply pair_sw|]. split; [cbn; lia|]. split; [unfold zlen; vm_compute; discriminate|]. split; [|split; intros c n H; lia].
  intros i j a b Hij Ha Hb. pose proof (zget_Some_range _ _ _ Hb) as R. unfold zlen in R. cbn in R. assert (C : (i = 0 /\ j = 1) \/ (i = 0 /\ j = 2) \/ (i = 1 /\ j = 2)) by lia. destruct C as [[-> ->]|[[-> ->]|[-> ->]]]; injection Ha as <-; injection Hb as <-; reflexivity.
Qed.
Example C125_runs : merged (by_element_and_list pair_less) [[(1, 0); (4, 1)]; []; [(0, 2); (4, 3); (4, 4)]; [(4, 5); (7, 6)]] = Ok [(0, 2); (1, 0); (4, 1); (4, 3); (4, 4); (4, 5); (7, 6)] /\
  merged (by_element pair_less) [[(3, 0); (1, 0)]; [(2, 0); (9, 0)]] = Ok [(2, 0); (3, 0); (1, 0); (9, 0)].
Proof. split; reflexivity. Qed.
