(** Theorems C18, C19 and the SList half of C22 about /repo/slist.go. *)
From Verif Require Import BaseLemmas Spec Trace Spec_List Nodes Proof_Nodes Model_SList Proof_SList.

(** ** C18 SList is a sequence
    Any sequence of calls on a new list, in a heap that already holds other
    nodes, shows what a plain sequence shows (results, panics, values seen by
    callbacks and iterators); loops terminate; the other nodes are untouched. *)
Theorem C18_SList_is_sequence : forall T St (zero : T) h0 (ops : list (sop T St)),
  let r := run (slist_step zero) ops (h0, empty_slist) in
  fst r = fst (run slist_spec ops []) /\ (forall a n, nth_error h0 a = Some n -> nth_error (fst (snd r)) a = Some n).
Proof.
  intros T St zero h0 ops. cbn zeta. destruct (run_ok zero _ ops [] _ (Rel_init h0)) as [E R]. split; auto.
  exact (Rel_keeps _ _ _ R).
Qed.
Print Assumptions C18_SList_is_sequence.

Theorem C18_SListOf : forall T St (zero : T) h0 l vs (ops : list (sop T St)),
  exists s, SListOf vs (h0, l) = (Ok tt, s) /\ fst (run (slist_step zero) ops s) = fst (run slist_spec ops vs).
Proof.
  intros T St zero h0 l vs ops. destruct (SListOf_ok h0 vs l) as (s & E & R). exists s. split; auto. now apply (run_ok zero (nth_error h0)).
Qed.
Print Assumptions C18_SListOf.

Lemma spec_panics : forall T St (xs : list T) (o : sop T St),
  fst (slist_spec o xs) = Panic <->
  (xs = [] /\ In o [LFront; LBack; LPopFront]) \/ (exists i, (length xs <= i)%nat /\ (o = LIterGet i \/ exists v, o = LIterSet i v)).
Proof.
  intros T St xs o. split.
  - intros H. destruct o; cbn in H; try discriminate.
    + left. destruct xs; [split; auto; cbn; auto|discriminate].
    + left. destruct xs; [split; auto; cbn; auto|discriminate].
    + left. unfold seq_back in H. destruct (rev xs) eqn:E; [|discriminate].
      split; [|cbn; auto]. rewrite <- (rev_involutive xs), E. reflexivity.
    + destruct (map_st cb st xs); discriminate.
    + destruct (map_while cb st xs); discriminate.
    + right. exists i. destruct (nth_error xs i) eqn:E; [discriminate|]. split; auto. now apply nth_error_None.
    + right. exists i. destruct (nth_error xs i) eqn:E; [discriminate|]. split; [now apply nth_error_None|eauto].
  - intros [[-> I]|(i & L & H)].
    + cbn in I. destruct I as [<-|[<-|[<-|[]]]]; reflexivity.
    + apply nth_error_None in L. destruct H as [->|[v ->]]; cbn; now rewrite L.
Qed.
Lemma spec_panic_unchanged : forall T St (xs : list T) (o : sop T St), fst (slist_spec o xs) = Panic -> snd (slist_spec o xs) = xs.
Proof.
  intros T St xs o H. destruct o; cbn in *; try discriminate; auto.
  - destruct xs; [auto|discriminate].
  - destruct (map_st cb st xs); discriminate.
  - destruct (map_while cb st xs); discriminate.
  - destruct (nth_error xs i) eqn:E; [discriminate|]. apply nth_error_None in E. now apply upd_ge.
Qed.
(** After the calls ops, with xs in the list: on the empty list exactly Front, Back,
    PopFront (and iterator accesses) panic. *)
Theorem C18_panics : forall T St (zero : T) h0 (ops : list (sop T St)) (o : sop T St),
  let s := snd (run (slist_step zero) ops (h0, empty_slist)) in
  let xs := snd (run slist_spec ops []) in
  fst (slist_step zero o s) = Panic <->
  (xs = [] /\ In o [LFront; LBack; LPopFront]) \/ (exists i, (length xs <= i)%nat /\ (o = LIterGet i \/ exists v, o = LIterSet i v)).
Proof.
  intros T St zero h0 ops o s xs. destruct (run_ok zero (nth_error h0) ops [] _ (Rel_init h0)) as [_ R]. fold s in R. fold xs in R. destruct (run_ok zero (nth_error h0) [o] _ _ R) as [E _]. cbn [run] in E.
  pose proof (spec_panics T St xs o) as SP. destruct (slist_step zero o s) as [r s1], (slist_spec o xs) as [r' xs1]. cbn [fst snd] in *. injection E as ->. exact SP.
Qed.
Print Assumptions C18_panics.
(** Whatever panics changes nothing that later calls show. *)
Theorem C18_panic_unchanged : forall T St (zero : T) h0 (ops : list (sop T St)) (o : sop T St),
  let s := snd (run (slist_step zero) ops (h0, empty_slist)) in
  fst (slist_step zero o s) = Panic -> forall more : list (sop T St), fst (run (slist_step zero) more (snd (slist_step zero o s))) = fst (run (slist_step zero) more s).
Proof.
  intros T St zero h0 ops o s H more. destruct (run_ok zero (nth_error h0) ops [] _ (Rel_init h0)) as [_ R]. fold s in R. set (xs := snd (run slist_spec ops [])) in *. destruct (run_ok zero (nth_error h0) [o] _ _ R) as [E R1]. cbn [run] in E, R1.
  pose proof (spec_panic_unchanged T St xs o) as SU. destruct (slist_step zero o s) as [r s1], (slist_spec o xs) as [r' xs1]. cbn [fst snd] in *. injection E as ->. rewrite (SU H) in R1.
  rewrite (proj1 (run_ok zero (nth_error h0) more _ _ R1)). symmetry. apply (run_ok zero (nth_error h0) more _ _ R).
Qed.
Print Assumptions C18_panic_unchanged.

Example SList_runs :
  fst (run (slist_step (St := Z) 0) [LPushBack 2; LPushFront 1; LPushBack 3; LBack; LReverse; LPushBack 0; LValues; LPopFront; LIter; LClear; LFront; LPushFront 7; LBack]
    ([mkSNode None 99], empty_slist)) =
  [Ok (RObs ONone); Ok (RObs ONone); Ok (RObs ONone); Ok (RObs (OVal 3)); Ok (RObs ONone); Ok (RObs ONone); Ok (RObs (OSeq [3;2;1;0]));
   Ok (RObs (OVal 3)); Ok (RObs (OSeq [2;1;0])); Ok (RObs ONone); Panic; Ok (RObs ONone); Ok (RObs (OVal 7))].
Proof. reflexivity. Qed.

(** ** C19 Reverse
    In every reachable state s, standing for the sequence xs: *)
Theorem C19_Reverse : forall T St (zero : T) h0 (ops ops2 : list (sop T St)),
  let s := snd (run (slist_step zero) ops (h0, empty_slist)) in
  let xs := snd (run slist_spec ops []) in
  fst (run (slist_step zero) (LReverse :: ops2) s) = Ok (RObs ONone) :: fst (run slist_spec ops2 (rev xs)).
Proof.
  intros T St zero h0 ops ops2. cbn zeta. destruct (run_ok zero _ ops [] _ (Rel_init h0)) as [_ R].
  destruct (run_ok zero _ (LReverse :: ops2) _ _ R) as [E _]. rewrite E. cbn [run slist_spec].
  destruct (run slist_spec ops2 (rev (snd (run slist_spec ops [])))). reflexivity.
Qed.
Print Assumptions C19_Reverse.
(** Both ends after reversing are the old ends exchanged. *)
Theorem C19_Reverse_ends : forall T St (zero : T) h0 (ops : list (sop T St)) x y xs,
  snd (run slist_spec ops []) = x :: xs ++ [y] ->
  fst (run (slist_step (St := St) zero) [LReverse; LFront; LBack; LValues] (snd (run (slist_step zero) ops (h0, empty_slist)))) =
  [Ok (RObs ONone); Ok (RObs (OVal y)); Ok (RObs (OVal x)); Ok (RObs (OSeq (y :: rev xs ++ [x])))].
Proof.
  intros T St zero h0 ops x y xs H. pose proof (C19_Reverse T St zero h0 ops [LFront; LBack; LValues]) as E. cbn zeta in E. rewrite E, H.
  assert (K : rev (x :: xs ++ [y]) = y :: rev xs ++ [x]) by (cbn [rev]; rewrite rev_app_distr; reflexivity).
  cbn [run slist_spec fst]. unfold seq_back. rewrite rev_involutive, K. reflexivity.
Qed.
Print Assumptions C19_Reverse_ends.
(** Reversing twice cannot be observed by any later calls. *)
Theorem C19_Reverse_twice : forall T St (zero : T) h0 (ops ops2 : list (sop T St)),
  let s := snd (run (slist_step zero) ops (h0, empty_slist)) in
  fst (run (slist_step zero) (LReverse :: LReverse :: ops2) s) = Ok (RObs ONone) :: Ok (RObs ONone) :: fst (run (slist_step zero) ops2 s).
Proof.
  intros T St zero h0 ops ops2. cbn zeta. destruct (run_ok zero _ ops [] _ (Rel_init h0)) as [_ R].
  destruct (run_ok zero _ (LReverse :: LReverse :: ops2) _ _ R) as [E _]. destruct (run_ok zero _ ops2 _ _ R) as [E2 _].
  rewrite E, E2. cbn [run slist_spec]. rewrite rev_involutive. destruct (run slist_spec ops2 _). reflexivity.
Qed.
Print Assumptions C19_Reverse_twice.
Example Reverse_hyp : snd (run (slist_spec (St := Z)) [LPushBack 1; LPushBack 2; LPushFront 0] []) = 0 :: [1] ++ [2].
Proof. reflexivity. Qed.

(** ** C22 (SList) callbacks and pointers
    In every reachable state, standing for xs: the callback sees the elements
    once each in order and the values it leaves are what every later call sees. *)
Theorem C22_SList_ForEachMutable : forall T St (zero : T) h0 (ops ops2 : list (sop T St)) cb st,
  let s := snd (run (slist_step zero) ops (h0, empty_slist)) in
  let xs := snd (run slist_spec ops []) in
  fst (run (slist_step zero) (LForEachMutable cb st :: ops2) s) =
    Ok (RSt (snd (map_st cb st xs))) :: fst (run slist_spec ops2 (fst (map_st cb st xs))) /\
  length (fst (map_st cb st xs)) = length xs.
Proof.
  intros T St zero h0 ops ops2 cb st. cbn zeta. destruct (run_ok zero _ ops [] _ (Rel_init h0)) as [_ R].
  destruct (run_ok zero _ (LForEachMutable cb st :: ops2) _ _ R) as [E _]. rewrite E. cbn [run slist_spec].
  split; [|apply map_st_len]. destruct (map_st cb st _) as [ys st']. cbn. destruct (run slist_spec ops2 ys). reflexivity.
Qed.
Print Assumptions C22_SList_ForEachMutable.
Theorem C22_SList_ForEachMutableIf : forall T St (zero : T) h0 (ops ops2 : list (sop T St)) cb st,
  let s := snd (run (slist_step zero) ops (h0, empty_slist)) in
  let xs := snd (run slist_spec ops []) in
  fst (run (slist_step zero) (LForEachMutableIf cb st :: ops2) s) =
    Ok (RSt (snd (map_while cb st xs))) :: fst (run slist_spec ops2 (fst (map_while cb st xs))) /\
  length (fst (map_while cb st xs)) = length xs.
Proof.
  intros T St zero h0 ops ops2 cb st. cbn zeta. destruct (run_ok zero _ ops [] _ (Rel_init h0)) as [_ R].
  destruct (run_ok zero _ (LForEachMutableIf cb st :: ops2) _ _ R) as [E _]. rewrite E. cbn [run slist_spec].
  split; [|apply map_while_len]. destruct (map_while cb st _) as [ys st']. cbn. destruct (run slist_spec ops2 ys). reflexivity.
Qed.
Print Assumptions C22_SList_ForEachMutableIf.
(** ForEach and ForEachIf: elements in order, the latter up to the first false;
    the list does not change. *)
Theorem C22_SList_ForEach : forall T St (zero : T) h0 (ops ops2 : list (sop T St)) cb cb2 st,
  let s := snd (run (slist_step zero) ops (h0, empty_slist)) in
  let xs := snd (run slist_spec ops []) in
  fst (run (slist_step zero) (LForEach cb st :: LForEachIf cb2 st :: ops2) s) =
    Ok (RSt (fold_left cb xs st)) :: Ok (RSt (fold_while cb2 st xs)) :: fst (run slist_spec ops2 xs).
Proof.
  intros T St zero h0 ops ops2 cb cb2 st. cbn zeta. destruct (run_ok zero _ ops [] _ (Rel_init h0)) as [_ R].
  destruct (run_ok zero _ (LForEach cb st :: LForEachIf cb2 st :: ops2) _ _ R) as [E _]. rewrite E. cbn [run slist_spec].
  destruct (run slist_spec ops2 _). reflexivity.
Qed.
Print Assumptions C22_SList_ForEach.
(** A write through the pointer of an iterator moved i times changes element i
    and nothing else. *)
Theorem C22_SList_iterator_pointer : forall T St (zero : T) h0 (ops ops2 : list (sop T St)) i v,
  let s := snd (run (slist_step zero) ops (h0, empty_slist)) in
  let xs := snd (run slist_spec ops []) in
  (i < length xs)%nat ->
  exists xs1 x xs2, xs = xs1 ++ x :: xs2 /\ length xs1 = i /\
    fst (run (slist_step zero) (LIterSet i v :: ops2) s) = Ok (RObs ONone) :: fst (run slist_spec ops2 (xs1 ++ v :: xs2)).
Proof.
  intros T St zero h0 ops ops2 i v. cbn zeta. intros L. destruct (run_ok zero _ ops [] _ (Rel_init h0)) as [_ R].
  set (xs := snd (run slist_spec ops [])) in *. destruct (nth_error xs i) as [x|] eqn:Ex; [|apply nth_error_None in Ex; lia].
  destruct (nth_error_split xs i Ex) as (xs1 & xs2 & Exs & L1). exists xs1, x, xs2. split; auto. split; auto.
  destruct (run_ok zero _ (LIterSet i v :: ops2) _ _ R) as [E _]. rewrite E. cbn [run slist_spec]. rewrite Ex, Exs, <- L1, upd_middle.
  destruct (run slist_spec ops2 (xs1 ++ v :: xs2)). reflexivity.
Qed.
Print Assumptions C22_SList_iterator_pointer.

Example SList_callbacks_run :
  fst (run (slist_step 0) [LPushBack 1; LPushBack 2; LPushBack 3; LForEachMutable (fun st x => (x * 10, st + x)) 100;
    LForEachMutableIf (fun st x => (x + 1, x <? 20, st + 1)) 0; LValues; LIterSet 2 5; LIterGet 2; LIterSet 3 5; LForEachIf (fun st x => (x =? 11, st + x)) 0; LIter]
    ([], empty_slist)) =
  [Ok (RObs ONone); Ok (RObs ONone); Ok (RObs ONone); Ok (RSt 106); Ok (RSt 2); Ok (RObs (OSeq [11;21;30])); Ok (RObs ONone); Ok (RObs (OVal 5)); Panic;
   Ok (RSt 32); Ok (RObs (OSeq [11;21;5]))].
Proof. reflexivity. Qed.
