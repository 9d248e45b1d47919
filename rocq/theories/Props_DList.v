(** Theorems C20-C24 about /repo/dlist.go and /repo/dlist_queue.go. *)
From Verif Require Import BaseLemmas Spec Trace Spec_List Nodes Proof_Nodes Model_DList Proof_DList Model_DListQueue.

(** ** C20 DList is a deque
    Any sequence of calls on a new list, in a heap that already holds other
    nodes, shows what a plain double-ended sequence shows; loops terminate and
    the other nodes are untouched. *)
Theorem C20_DList_is_deque : forall T St (zero : T) h0 (ops : list (dop T St)),
  let r := run (dlist_step zero) ops (h0, empty_dlist) in
  fst r = fst (run (dlist_spec zero) ops []) /\ (forall a n, nth_error h0 a = Some n -> nth_error (fst (snd r)) a = Some n).
Proof.
  intros T St zero h0 ops. cbn zeta. destruct (run_ok zero _ ops [] _ (Rel_init h0)) as [E R]. split; auto.
  exact (Rel_keeps _ _ _ R).
Qed.
Print Assumptions C20_DList_is_deque.
Theorem C20_DListOf : forall T St (zero : T) h0 l vs (ops : list (dop T St)),
  exists s, DListOf zero vs (h0, l) = (Ok tt, s) /\ fst (run (dlist_step zero) ops s) = fst (run (dlist_spec zero) ops vs).
Proof.
  intros T St zero h0 l vs ops. destruct (DListOf_ok zero h0 vs l) as (s & E & R). exists s. split; auto. now apply (run_ok zero (nth_error h0)).
Qed.
Print Assumptions C20_DListOf.
Lemma spec_panics : forall T St (zero : T) (xs : list T) (o : dop T St),
  fst (dlist_spec zero o xs) = Panic <-> xs = [] /\ In o [DFront; DBack; DPopFront; DPopBack].
Proof.
  intros T St zero xs o. split.
  - intros H. destruct o; cbn in H; unfold seq_back in H; try discriminate;
      try (destruct xs; [|discriminate]; split; [reflexivity|cbn; tauto]);
      try (destruct (rev xs) eqn:E; [|discriminate]; split; [rewrite <- (rev_involutive xs), E; reflexivity|cbn; tauto]);
      try (destruct xs; discriminate).
    + destruct (rev xs); discriminate.
    + destruct (map_st cb st xs); discriminate.
    + destruct (map_while cb st xs); discriminate.
    + destruct (nth_error xs i); discriminate.
    + destruct (nth_error xs i); discriminate.
  - intros [-> I]. cbn in I. destruct I as [<-|[<-|[<-|[<-|[]]]]]; reflexivity.
Qed.
Lemma spec_unchanged T St (zero : T) (xs : list T) (o : dop T St) : fst (dlist_spec zero o xs) = Panic -> snd (dlist_spec zero o xs) = xs.
Proof. intros H. pose proof H as H'. apply spec_panics in H' as [-> I]. cbn in I. destruct I as [<-|[<-|[<-|[<-|[]]]]]; reflexivity. Qed.
(** Exactly Front, Back, PopFront and PopBack of the empty list panic (xs is what is in
    the list after the calls ops), and all later calls show what they would have shown
    without the one that panicked. *)
Theorem C20_panics : forall T St (zero : T) h0 (ops : list (dop T St)) (o : dop T St),
  let s := snd (run (dlist_step zero) ops (h0, empty_dlist)) in
  let xs := snd (run (dlist_spec zero) ops []) in
  (fst (dlist_step zero o s) = Panic <-> xs = [] /\ In o [DFront; DBack; DPopFront; DPopBack]) /\
  (fst (dlist_step zero o s) = Panic -> forall more : list (dop T St), fst (run (dlist_step zero) more (snd (dlist_step zero o s))) = fst (run (dlist_step zero) more s)).
Proof.
  intros T St zero h0 ops o s xs. destruct (run_ok zero (nth_error h0) ops [] _ (Rel_init h0)) as [_ R]. fold s in R. fold xs in R. destruct (run_ok zero (nth_error h0) [o] _ _ R) as [E R1]. cbn [run] in E, R1.
  pose proof (spec_panics T St zero xs o) as SP. pose proof (spec_unchanged T St zero xs o) as SU.
  destruct (dlist_step zero o s) as [r s1], (dlist_spec zero o xs) as [r' xs1]. cbn [fst snd] in *. injection E as ->. split; [exact SP|]. intros H more. rewrite (SU H) in R1.
  rewrite (proj1 (run_ok zero (nth_error h0) more _ _ R1)). symmetry. apply (run_ok zero (nth_error h0) more _ _ R).
Qed.
Print Assumptions C20_panics.
(** The Try variants give (zero, false) on the empty list and change nothing. *)
Theorem C20_empty : forall T St (zero : T) h0 (ops : list (dop T St)) (o : dop T St),
  let s := snd (run (dlist_step zero) ops (h0, empty_dlist)) in
  snd (run (dlist_spec zero) ops []) = [] -> In o [DTryPopFront; DTryPopBack] ->
  fst (dlist_step zero o s) = Ok (RObs (OTry zero false)) /\
  forall more : list (dop T St), fst (run (dlist_step zero) more (snd (dlist_step zero o s))) = fst (run (dlist_step zero) more s).
Proof.
  intros T St zero h0 ops o s X I. destruct (run_ok zero (nth_error h0) ops [] _ (Rel_init h0)) as [_ R]. fold s in R. rewrite X in R. destruct (run_ok zero (nth_error h0) [o] _ _ R) as [E R1]. cbn [run] in E, R1.
  assert (SE : dlist_spec zero o [] = (Ok (RObs (OTry zero false)), [])) by (cbn in I; destruct I as [<-|[<-|[]]]; reflexivity). rewrite SE in E, R1.
  destruct (dlist_step zero o s) as [r s1]. cbn [fst snd] in *. injection E as ->. split; [reflexivity|]. intros more.
  rewrite (proj1 (run_ok zero (nth_error h0) more _ _ R1)). symmetry. apply (run_ok zero (nth_error h0) more _ _ R).
Qed.
Print Assumptions C20_empty.

Example DList_runs :
  fst (run (dlist_step (St := Z) 0) [DFront; DTryPopBack; DPushBack 2; DPushFront 1; DPushBack 3; DBack; DPopBack; DPushBack 4; DTryPopFront; DIter; DLen; DClear; DPopFront; DPushBack 9; DFront; DPopBack; DIsEmpty]
    ([mkDNode None None 99], empty_dlist)) =
  [Panic; Ok (RObs (OTry 0 false)); Ok (RObs ONone); Ok (RObs ONone); Ok (RObs ONone); Ok (RObs (OVal 3)); Ok (RObs (OVal 3)); Ok (RObs ONone); Ok (RObs (OTry 1 true));
   Ok (RObs (OSeq [2;4])); Ok (RObs (OInt 2)); Ok (RObs ONone); Panic; Ok (RObs ONone); Ok (RObs (OVal 9)); Ok (RObs (OVal 9)); Ok (RObs (OBool true))].
Proof. reflexivity. Qed.

(** ** C21 iteration and ring consistency
    In every reachable state, standing for xs: an iterator walk and ForEach see
    exactly xs, and following the backward links from the sentinel spells rev xs. *)
Theorem C21_both_directions : forall T St (zero : T) h0 (ops : list (dop T St)),
  let s := snd (run (dlist_step zero) ops (h0, empty_dlist)) in
  let xs := snd (run (dlist_spec zero) ops []) in
  iter_all s = (Ok xs, s) /\ back_all s = (Ok (rev xs), s) /\
  (forall U (cb : U -> T -> U) u, ForEach cb u s = (Ok (fold_left cb xs u), s)) /\
  (forall U (cb : U -> T -> bool * U) u, ForEachIf cb u s = (Ok (fold_while cb u xs), s)).
Proof.
  intros T St zero h0 ops. cbn zeta. destruct (run_ok zero _ ops [] _ (Rel_init h0)) as [_ (l & V & R)]. rewrite <- V.
  split; [eapply iter_all_ok; eauto|]. split; [eapply back_all_ok; eauto|]. split; intros U cb u; [eapply ForEach_ok; eauto|eapply ForEachIf_ok; eauto].
Qed.
Print Assumptions C21_both_directions.
(** Collecting callback: ForEach visits each element once, front to back. *)
Theorem C21_ForEach_collects : forall T St (zero : T) h0 (ops : list (dop T St)),
  let s := snd (run (dlist_step zero) ops (h0, empty_dlist)) in
  fst (ForEach (fun seen x => seen ++ [x]) [] s) = Ok (snd (run (dlist_spec zero) ops [])).
Proof.
  intros T St zero h0 ops. cbn zeta. destruct (C21_both_directions T St zero h0 ops) as (_ & _ & E & _). rewrite E. cbn [fst]. f_equal.
  assert (K : forall l acc, fold_left (fun seen (x : T) => seen ++ [x]) l acc = acc ++ l).
  { induction l as [|x l IH]; intros acc; cbn; [now rewrite app_nil_r|]. rewrite IH, <- app_assoc. reflexivity. }
  apply (K _ []).
Qed.
Print Assumptions C21_ForEach_collects.
Example DList_back : let s := snd (run (dlist_step (St := Z) 0) [DPushBack 2; DPushFront 1; DPushBack 3; DPushBack 4; DPopFront; DPopBack] ([], empty_dlist)) in
  fst (back_all s) = Ok [3; 2] /\ fst (iter_all s) = Ok [2; 3].
Proof. split; reflexivity. Qed.

(** ** C22 (DList) callbacks and pointers *)
Theorem C22_DList_ForEachMutable : forall T St (zero : T) h0 (ops ops2 : list (dop T St)) cb st,
  let s := snd (run (dlist_step zero) ops (h0, empty_dlist)) in
  let xs := snd (run (dlist_spec zero) ops []) in
  fst (run (dlist_step zero) (DForEachMutable cb st :: ops2) s) =
    Ok (RSt (snd (map_st cb st xs))) :: fst (run (dlist_spec zero) ops2 (fst (map_st cb st xs))) /\
  length (fst (map_st cb st xs)) = length xs.
Proof.
  intros T St zero h0 ops ops2 cb st. cbn zeta. destruct (run_ok zero _ ops [] _ (Rel_init h0)) as [_ R].
  destruct (run_ok zero _ (DForEachMutable cb st :: ops2) _ _ R) as [E _]. rewrite E. cbn [run dlist_spec].
  split; [|apply Proof_SList.map_st_len]. destruct (map_st cb st _) as [ys st']. cbn. destruct (run (dlist_spec zero) ops2 ys). reflexivity.
Qed.
Print Assumptions C22_DList_ForEachMutable.
Theorem C22_DList_ForEachMutableIf : forall T St (zero : T) h0 (ops ops2 : list (dop T St)) cb st,
  let s := snd (run (dlist_step zero) ops (h0, empty_dlist)) in
  let xs := snd (run (dlist_spec zero) ops []) in
  fst (run (dlist_step zero) (DForEachMutableIf cb st :: ops2) s) =
    Ok (RSt (snd (map_while cb st xs))) :: fst (run (dlist_spec zero) ops2 (fst (map_while cb st xs))) /\
  length (fst (map_while cb st xs)) = length xs.
Proof.
  intros T St zero h0 ops ops2 cb st. cbn zeta. destruct (run_ok zero _ ops [] _ (Rel_init h0)) as [_ R].
  destruct (run_ok zero _ (DForEachMutableIf cb st :: ops2) _ _ R) as [E _]. rewrite E. cbn [run dlist_spec].
  split; [|apply Proof_SList.map_while_len]. destruct (map_while cb st _) as [ys st']. cbn. destruct (run (dlist_spec zero) ops2 ys). reflexivity.
Qed.
Print Assumptions C22_DList_ForEachMutableIf.
Theorem C22_DList_iterator_pointer : forall T St (zero : T) h0 (ops ops2 : list (dop T St)) i v,
  let s := snd (run (dlist_step zero) ops (h0, empty_dlist)) in
  let xs := snd (run (dlist_spec zero) ops []) in
  (i < length xs)%nat ->
  exists xs1 x xs2, xs = xs1 ++ x :: xs2 /\ length xs1 = i /\
    fst (run (dlist_step zero) (DIterSet i v :: ops2) s) = Ok (RObs (OBool true)) :: fst (run (dlist_spec zero) ops2 (xs1 ++ v :: xs2)).
Proof.
  intros T St zero h0 ops ops2 i v. cbn zeta. intros L. destruct (run_ok zero _ ops [] _ (Rel_init h0)) as [_ R].
  set (xs := snd (run (dlist_spec zero) ops [])) in *. destruct (nth_error xs i) as [x|] eqn:Ex; [|apply nth_error_None in Ex; lia].
  destruct (nth_error_split xs i Ex) as (xs1 & xs2 & Exs & L1). exists xs1, x, xs2. split; auto. split; auto.
  destruct (run_ok zero _ (DIterSet i v :: ops2) _ _ R) as [E _]. rewrite E. cbn [run dlist_spec]. rewrite Ex, Exs, <- L1, upd_middle.
  destruct (run (dlist_spec zero) ops2 (xs1 ++ v :: xs2)). reflexivity.
Qed.
Print Assumptions C22_DList_iterator_pointer.
Example DList_callbacks_run :
  fst (run (dlist_step 0) [DPushBack 1; DPushBack 2; DPushBack 3; DForEachMutable (fun st x => (x * 10, st + x)) 100;
    DForEachMutableIf (fun st x => (x + 1, x <? 20, st + 1)) 0; DIter; DIterSet 2 5; DIterGet 2; DIterSet 3 5; DForEachIf (fun st x => (x =? 11, st + x)) 0; DIter]
    ([], empty_dlist)) =
  [Ok (RObs ONone); Ok (RObs ONone); Ok (RObs ONone); Ok (RSt 106); Ok (RSt 2); Ok (RObs (OSeq [11;21;30])); Ok (RObs (OBool true)); Ok (RObs (OTry 5 true)); Ok (RObs (OBool false));
   Ok (RSt 32); Ok (RObs (OSeq [11;21;5]))].
Proof. reflexivity. Qed.

(** ** C23 DListQueue *)
Definition QRel {T} (h0 : list (dnode T)) (xs : list T) (s : list (dnode T) * dqueue) : Prop := Rel (nth_error h0) xs (fst s, q_list (snd s)).
Definition dop_of {T} (o : qop T) : dop T unit :=
  match o with
  | QPushFront v => DPushFront v | QPushBack v => DPushBack v | QPopFront => DPopFront | QPopBack => DPopBack
  | QTryPopFront => DTryPopFront | QTryPopBack => DTryPopBack | QClear => DClear | QLen => DLen | QIsEmpty => DIsEmpty | QFront => DFront | QBack => DBack
  end.
Lemma queue_dlist {T} (zero : T) o s : let '(r, (h, l)) := dlist_step zero (dop_of o) (fst s, q_list (snd s)) in
  omap RObs (fst (queue_step zero o s)) = r /\ snd (queue_step zero o s) = (h, mkDQueue l).
Proof.
  destruct s as [h0 [l0]]. destruct o; cbn [dop_of dlist_step queue_step]; unfold observe, show, on_list, q_Len, q_IsEmpty, q_Clear, q_Front, q_Back, q_PushFront, q_PushBack, q_PopFront, q_PopBack, q_TryPopFront, q_TryPopBack, on_list;
    cbn [fst snd q_list];
    match goal with |- context[let '(_, _) := ?p (h0, l0) in _] => destruct (p (h0, l0)) as [r [h1 l1]] end; destruct r; split; reflexivity.
Qed.
Lemma queue_spec_dlist {T} (zero : T) o xs : omap RObs (fst (queue_spec zero o xs)) = fst (dlist_spec (St := unit) zero (dop_of o) xs) /\
  snd (queue_spec zero o xs) = snd (dlist_spec (St := unit) zero (dop_of o) xs).
Proof.
  destruct o; cbn; unfold seq_back; split; auto; try (destruct xs; reflexivity); try (destruct (rev xs); reflexivity).
Qed.
Lemma omap_inj {A B} (f : A -> B) (x y : outcome A) : (forall a b, f a = f b -> a = b) -> omap f x = omap f y -> x = y.
Proof. intros I E. destruct x, y; cbn in E; try discriminate; auto. injection E as E. f_equal. auto. Qed.
Lemma queue_sim {T} (zero : T) h0 ops xs s : QRel h0 xs s ->
  fst (run (queue_step zero) ops s) = fst (run (queue_spec zero) ops xs) /\ QRel h0 (snd (run (queue_spec zero) ops xs)) (snd (run (queue_step zero) ops s)).
Proof.
  apply (run_sim (queue_step zero) (queue_spec zero) (QRel h0)). clear. intros xs s o R.
  destruct (step_ok zero _ xs _ (dop_of o) R) as [E R']. pose proof (queue_dlist zero o s) as Q. destruct (queue_spec_dlist zero o xs) as [E1 E2].
  destruct (dlist_step zero (dop_of o) (fst s, q_list (snd s))) as [r [h l]]. destruct Q as [Q1 Q2]. cbn [fst snd] in *. split.
  - apply (omap_inj (RObs (St := unit))); [intros a b K; now injection K|]. now rewrite Q1, E1, E.
  - rewrite Q2, E2. exact R'.
Qed.
Lemma QRel_init {T} (h0 : list (dnode T)) : QRel h0 [] (h0, NewDListQueue).
Proof. apply Rel_init. Qed.
Theorem C23_queue_is_deque : forall T (zero : T) h0 (ops : list (qop T)),
  fst (run (queue_step zero) ops (h0, NewDListQueue)) = fst (run (queue_spec zero) ops []).
Proof. intros T zero h0 ops. apply (queue_sim zero h0), QRel_init. Qed.
Print Assumptions C23_queue_is_deque.
(** Pushing only at the back and popping only from the front (other calls that
    change nothing may be mixed in): what came out followed by what is still
    inside is what went in; popping until empty returns everything in order. *)
Definition fifo_op {T} (o : qop T) : bool := match o with QPushBack _ | QPopFront | QTryPopFront | QLen | QIsEmpty => true | _ => false end.
Lemma fifo_spec {T} (zero : T) ops : forall xs, forallb fifo_op ops = true ->
  popped (fst (run (queue_spec zero) ops xs)) ++ snd (run (queue_spec zero) ops xs) = xs ++ pushed ops.
Proof.
  induction ops as [|o ops IH]; intros xs F; cbn [run]; [cbn; now rewrite app_nil_r|].
  cbn in F. apply andb_prop in F as [F1 F]. destruct (queue_spec zero o xs) as [r xs1] eqn:E. specialize (IH xs1 F). destruct (run (queue_spec zero) ops xs1) as [rs xs2]. cbn [fst snd] in *.
  destruct o; try discriminate; cbn in E; injection E as <- <-; cbn [popped pushed flat_map] in *; fold (popped rs) in *; fold (pushed ops) in *; rewrite <- ?app_assoc in *; cbn [app] in *; auto.
  - destruct xs as [|x xs]; cbn in *; auto. now rewrite IH.
  - destruct xs as [|x xs]; cbn in *; auto. now rewrite IH.
Qed.
Theorem C23_FIFO : forall T (zero : T) h0 (ops : list (qop T)), forallb fifo_op ops = true ->
  exists rest, popped (fst (run (queue_step zero) ops (h0, NewDListQueue))) ++ rest = pushed ops /\
    fst (queue_step zero QLen (snd (run (queue_step zero) ops (h0, NewDListQueue)))) = Ok (OInt (zlen rest)).
Proof.
  intros T zero h0 ops F. destruct (queue_sim zero h0 ops [] _ (QRel_init h0)) as [E R]. exists (snd (run (queue_spec zero) ops [])). split.
  - rewrite E. now apply (fifo_spec zero ops []).
  - destruct (queue_sim zero h0 [QLen] _ _ R) as [E2 _]. cbn [run] in E2. cbn [queue_spec] in E2. destruct (queue_step zero QLen _). cbn in E2. now injection E2 as ->.
Qed.
Print Assumptions C23_FIFO.
Theorem C23_drain : forall T (zero : T) h0 (ops : list (qop T)) n, forallb fifo_op ops = true -> (length (pushed ops) <= n)%nat ->
  popped (fst (run (queue_step zero) (ops ++ repeat QTryPopFront n) (h0, NewDListQueue))) = pushed ops.
Proof.
  intros T zero h0 ops n F L. destruct (queue_sim zero h0 (ops ++ repeat QTryPopFront n) [] _ (QRel_init h0)) as [E _]. rewrite E. clear E.
  assert (F2 : forallb fifo_op (ops ++ repeat (@QTryPopFront T) n) = true).
  { rewrite forallb_app, F. cbn. clear. induction n; auto. }
  pose proof (fifo_spec zero _ [] F2) as K. cbn [app] in K.
  assert (P0 : pushed (ops ++ repeat QTryPopFront n) = pushed ops).
  { unfold pushed. rewrite flat_map_app. assert (Z0 : forall m, flat_map (fun o : qop T => match o with QPushBack v => [v] | _ => [] end) (repeat QTryPopFront m) = []) by (induction m; auto). now rewrite Z0, app_nil_r. }
  rewrite P0 in K. assert (S0 : snd (run (queue_spec zero) (ops ++ repeat QTryPopFront n) []) = []); [|now rewrite S0, app_nil_r in K].
  assert (Ln : (length (snd (run (queue_spec zero) ops [])) <= n)%nat).
  { pose proof (fifo_spec zero ops [] F) as K1. cbn [app] in K1. apply (f_equal (@length T)) in K1. rewrite app_length in K1. lia. }
  rewrite run_app. destruct (run (queue_spec zero) ops []) as [rs xs]. cbn [snd] in Ln. clear - Ln.
  assert (G : snd (run (queue_spec zero) (repeat QTryPopFront n) xs) = []).
  { revert xs Ln. induction n as [|n IH]; intros xs Ln; cbn; [destruct xs; [auto|cbn in Ln; lia]|].
    specialize (IH (tl xs)). destruct (run (queue_spec zero) (repeat QTryPopFront n) (tl xs)). cbn in *. apply IH. destruct xs; cbn in *; lia. }
  exact G.
Qed.
Print Assumptions C23_drain.
Example Queue_runs : let ops := [QPushBack 1; QPushBack 2; QPopFront; QPushBack 3; QTryPopFront; QLen; QPushBack 4] in
  forallb fifo_op ops = true /\ popped (fst (run (queue_step 0) ops ([], NewDListQueue))) = [1; 2] /\
  popped (fst (run (queue_step 0) (ops ++ repeat QTryPopFront 4) ([], NewDListQueue))) = [1; 2; 3; 4] /\
  fst (run (queue_step 0) [QPushFront 1; QPushBack 2; QBack; QFront; QPopBack; QPopBack; QPopBack] ([], NewDListQueue)) =
    [Ok ONone; Ok ONone; Ok (OVal 2); Ok (OVal 1); Ok (OVal 2); Ok (OVal 1); Panic].
Proof. repeat split. Qed.

(** ** C24 iterators and mutation
    What holds: in any reachable state standing for xs take an iterator to
    element i; after any calls that do not remove that element (track_all) it
    stands at position j: IsNotEnd is true, Value is the j-th value, a write
    through Pointer changes the j-th value only, MoveToNext gives what a fresh
    iterator moved j+1 times gives. *)
Theorem C24_iterator_survives : forall T St (zero : T) h0 (ops ops2 : list (dop T St)) i j,
  let s := snd (run (dlist_step zero) ops (h0, empty_dlist)) in
  let xs := snd (run (dlist_spec zero) ops []) in
  let s2 := snd (run (dlist_step zero) ops2 s) in
  let xs2 := snd (run (dlist_spec zero) ops2 xs) in
  (i < length xs)%nat -> track_all zero ops2 xs i = Some j ->
  exists it v, (p <- Iterate ;; advance i p) s = (Ok it, s) /\ nth_error xs2 j = Some v /\
    IsNotEnd it s2 = (Ok true, s2) /\ Value it s2 = (Ok v, s2) /\
    MoveToNext it s2 = (p <- Iterate ;; advance (S j) p) s2 /\
    (forall w (ops3 : list (dop T St)), exists s3, Pointer_store it w s2 = (Ok tt, s3) /\
      fst (run (dlist_step zero) ops3 s3) = fst (run (dlist_spec zero) ops3 (upd j w xs2))).
Proof.
  intros T St zero h0 ops ops2 i j. cbn zeta. intros L Tr. destruct (run_ok zero _ ops [] _ (Rel_init h0)) as [_ (l & V & R)]. rewrite <- V in *.
  destruct (nth_error (addrs l) i) as [a|] eqn:Ea; [|apply nth_error_None in Ea; unfold addrs in Ea; rewrite !map_length in *; lia].
  destruct (iter_at_ok _ l _ i a R Ea) as (_ & _ & _ & _ & E & _).
  destruct (run_track zero _ ops2 l _ i j a R Ea Tr) as (l2 & V2 & R2 & Ea2). rewrite <- V2.
  destruct (iter_at_ok _ l2 _ j a R2 Ea2) as (v & Ev & A1 & A2 & _ & A3 & A4).
  exists (Some a), v. repeat (split; [assumption|]). intros w ops3. destruct (A4 w) as (s3 & l3 & E3 & R3 & V3). exists s3. split; auto.
  rewrite <- V3. apply (run_ok zero (nth_error h0)). exists l3. auto.
Qed.
Print Assumptions C24_iterator_survives.

(** False of the code: after popping the element under an iterator, IsNotEnd
    still says true and Value still returns the popped value; one MoveToNext
    later IsNotEnd still says true, and Value panics. *)
Definition dangling {T} (it : ptr) (x : T) (s2 : list (dnode T) * dlist) : Prop :=
  IsNotEnd it s2 = (Ok true, s2) /\ Value it s2 = (Ok x, s2) /\ MoveToNext it s2 = (Ok None, s2) /\
  IsNotEnd None s2 = (Ok true, s2) /\ Value None s2 = (Panic, s2).
Lemma dangling_ok {T} h0 (l : list (nat * T)) s2 c x hd : rep h0 l s2 -> d_head (snd s2) = Some hd -> c <> hd -> nxt (fst s2) c = Some None -> val (fst s2) c = Some x -> dangling (Some c) x s2.
Proof.
  destruct s2 as [h hdr]. cbn [fst snd]. intros R Eh NE N V. unfold dangling, IsNotEnd, Value, MoveToNext.
  rewrite !bind_hget, Eh, peqb_ne by auto. rewrite (ld_value_ok h _ c _ V), (ld_next_ok h _ c _ N). repeat split.
Qed.
Theorem C24_popped_front : forall T St (zero : T) h0 (ops : list (dop T St)) x xs,
  let s := snd (run (dlist_step zero) ops (h0, empty_dlist)) in
  snd (run (dlist_spec zero) ops []) = x :: xs ->
  exists it s2, Iterate s = (Ok it, s) /\ PopFront zero s = (Ok x, s2) /\ dangling it x s2.
Proof.
  intros T St zero h0 ops x xs. cbn zeta. intros H. destruct (run_ok zero _ ops [] _ (Rel_init h0)) as [_ (l & V & R)]. rewrite H in V.
  destruct (snd (run (dlist_step zero) ops (h0, empty_dlist))) as [h [[hd|] k]]; [|destruct R as (_ & _ & ->); discriminate].
  destruct l as [|[c v] l]; [discriminate|]. injection V as -> V.
  destruct (Iterate_ok _ _ _ _ _ R) as [E _]. destruct (TryPopFront_ok zero _ c x l _ R) as (s2 & E2 & R2 & Eh & N & Vl).
  exists (Some c), s2. split; auto. split; [unfold PopFront; now rewrite (bind_eq _ _ _ _ _ E2)|].
  cbn [snd d_head] in Eh. eapply dangling_ok; eauto. destruct R as (_ & _ & (_ & _ & _ & ND) & _). eapply nodup_ne; eauto. now left.
Qed.
Print Assumptions C24_popped_front.
Theorem C24_popped_back : forall T St (zero : T) h0 (ops : list (dop T St)) x xs,
  let s := snd (run (dlist_step zero) ops (h0, empty_dlist)) in
  snd (run (dlist_spec zero) ops []) = xs ++ [x] ->
  exists it s2, (p <- Iterate ;; advance (length xs) p) s = (Ok it, s) /\ PopBack zero s = (Ok x, s2) /\ dangling it x s2.
Proof.
  intros T St zero h0 ops x xs. cbn zeta. intros H. destruct (run_ok zero _ ops [] _ (Rel_init h0)) as [_ (l & V & R)]. rewrite H in V.
  destruct (Proof_SList.snoc_case l) as [->|(l' & [c v] & ->)]; [destruct xs; discriminate|]. rewrite map_app in V. apply app_inj_tail in V as [<- <-]. cbn [snd] in *.
  assert (Ea : nth_error (addrs (l' ++ [(c, v)])) (length (map snd l')) = Some c).
  { rewrite addrs_app. unfold addrs. rewrite map_length, nth_error_app2; rewrite map_length; auto. now rewrite Nat.sub_diag. }
  destruct (iter_at_ok _ _ _ _ c R Ea) as (_ & _ & _ & _ & E & _).
  destruct (snd (run (dlist_step zero) ops (h0, empty_dlist))) as [h [[hd|] k]]; [|destruct R as (_ & _ & K); destruct l'; discriminate].
  destruct (TryPopBack_ok zero _ c v l' _ R) as (s2 & E2 & R2 & Eh & N & Vl).
  exists (Some c), s2. split; auto. split; [unfold PopBack; now rewrite (bind_eq _ _ _ _ _ E2)|].
  cbn [snd d_head] in Eh. eapply dangling_ok; eauto. destruct R as (_ & _ & (_ & _ & _ & ND) & _). apply nodup_snoc in ND as [_ NI]. intros ->. apply NI. now left.
Qed.
Print Assumptions C24_popped_back.
(** An iterator taken from a list that never held anything says IsNotEnd after
    the first push, though Value panics. *)
Theorem C24_new_list : forall T (zero : T) h0 v,
  Iterate (h0, empty_dlist) = (Ok None, (h0, empty_dlist)) /\ IsNotEnd None (h0, empty_dlist) = (Ok false, (h0, empty_dlist)) /\
  exists s2, PushBack zero v (h0, empty_dlist) = (Ok tt, s2) /\ IsNotEnd None s2 = (Ok true, s2) /\ Value None s2 = (Panic, s2).
Proof.
  intros T zero h0 v. split; [reflexivity|]. split; [reflexivity|]. destruct (Rel_init h0) as (l & V & R).
  destruct (PushBack_ok zero _ l _ v R) as (s2 & a & E & R2). exists s2. split; auto.
  destruct s2 as [h [[hd|] k]]; [split; reflexivity|]. destruct R2 as (_ & _ & K). destruct l; discriminate.
Qed.
Print Assumptions C24_new_list.
(** After Clear an iterator to the former first element still walks over all
    the removed elements. *)
Theorem C24_cleared : forall T St (zero : T) h0 (ops : list (dop T St)),
  let s := snd (run (dlist_step zero) ops (h0, empty_dlist)) in
  exists it s2, Iterate s = (Ok it, s) /\ Clear s = (Ok tt, s2) /\ fst (Len s2) = Ok 0 /\
    (fuel <- heap_fuel ;; iter_loop fuel it []) s2 = (Ok (snd (run (dlist_spec zero) ops [])), s2).
Proof.
  intros T St zero h0 ops. cbn zeta. destruct (run_ok zero _ ops [] _ (Rel_init h0)) as [_ (l & V & R)]. rewrite <- V.
  destruct (snd (run (dlist_step zero) ops (h0, empty_dlist))) as [h [[hd|] k]].
  - destruct (Iterate_ok _ _ _ _ _ R) as [E A]. destruct (Clear_ok _ l _ R) as ([h2 hdr2] & E2 & R2 & Eh & EL & Nx & Vl). cbn [fst snd d_head] in *.
    exists (Some (hdp hd l)), (h2, hdr2). split; auto. split; auto. split; [unfold Len, hget; cbn; f_equal; now apply empty_head in R2|].
    rewrite bind_fuel. apply (iter_loop_fwd h2 hdr2 hd l Eh _ _ []).
    + apply (fwd_frame h); auto; [intros x NE; apply Nx; congruence|now apply ahead_fwd].
    + rewrite EL. destruct R as (_ & _ & R & _). eapply ring_fuel; eauto.
  - pose proof R as (_ & _ & ->). eexists None, _. repeat split.
Qed.
Print Assumptions C24_cleared.
Example C24_hyp : let ops := [DPushBack 1; DPushBack 2; DPushBack 3] : list (dop Z unit) in
  snd (run (dlist_spec 0) ops []) = [1; 2; 3] /\
  track_all 0 [DPushFront 0; DPopBack; DPopFront; DPushBack 7; DForEachMutable (fun st x => (x + 1, st)) tt] [1; 2; 3] 1 = Some 1%nat /\
  track_all (St := unit) 0 [DPushFront 0; DPopBack; DPopBack] [1; 2; 3] 1 = None.
Proof. repeat split. Qed.
