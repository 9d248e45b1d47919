(** Property C112 (skiplist.go, NewSkipListFunc with a comparison function whose
    answers change, as when the program changes what keys point to). *)
From Coq Require Import Sorted.
From Verif Require Import BaseLemmas Spec Trace Spec_List Spec_Map Spec_Fx Nodes Proof_Nodes Model_SkipList Proof_SkipList Proof_Map Proof_SkipListAny Props_SkipList Props_SkipListNaN
  Model_SkipFx Spec_SkipVary Model_SkipVary Proof_SkipVary.
Set Default Proof Using "Type".
Local Arguments zlen : simpl never.

(** *** Answers that change during a call *)
(** The comparison function always returns. *)
Definition returns {K X} (keyCmp : K -> K -> M X Z) : Prop := contract_of (fun _ => True) (fun _ => False) keyCmp.
Definition vfx_after {K V St X} (keyCmp : K -> K -> M X Z) (ops : list (mop K V St)) zk zv h0 l0 (x : X) := snd (run (map_step_fx keyCmp) ops (fresh zk zv h0 l0, x)).
(** Expected: whatever it answers, the search loops come to an end; no call
    panics (but the walk over FindRange, C07); Has finds only what is there. *)
Definition C112_expected_ends : Prop := forall K V St X (keyCmp : K -> K -> M X Z) zk zv h0 l0 (ops : list (mop K V St)) x key, returns keyCmp ->
  let s := vfx_after keyCmp ops zk zv h0 l0 x in
  exists n, fst (lower_loop_fx keyCmp key n (sl_level (snd (fst s))) (sl_head (snd (fst s))) s) <> NoFuel.
Definition C112_expected_no_panic : Prop := forall K V St X (keyCmp : K -> K -> M X Z) zk zv h0 l0 (ops : list (mop K V St)) x k, returns keyCmp ->
  fst (Remove_fx keyCmp k (vfx_after keyCmp ops zk zv h0 l0 x)) <> Panic.
Definition C112_expected_agrees : Prop := forall K V St X (keyCmp : K -> K -> M X Z) zk zv h0 l0 (ops : list (mop K V St)) x k m, returns keyCmp ->
  let s := vfx_after keyCmp ops zk zv h0 l0 x in
  fst (walk Iterate (fst s)) = Ok m -> fst (Has_fx keyCmp k s) = Ok true -> m <> [].

(** A function that gives the answers of a list first, then those of a - b. *)
Definition answering (a b : Z) : M (list Z) Z := fun x => match x with [] => (Ok (a - b), []) | r :: x' => (Ok r, x') end.
Lemma answering_returns : returns answering.
Proof. intros a b [|r x] _; exact I. Qed.
(** 5 and 3 get two levels; on the upper one 3 comes first, on the lower one 5. *)
Definition ops_twisted : list (mop Z Z unit) := [MInsert 5 50 (2 ^ 38); MInsert 3 30 (2 ^ 38)].
(** Removing 3 then makes 5 its own successor on the upper level: the search for
    7 goes round for ever. *)
Theorem C112_refuted_ends : ~ C112_expected_ends.
Proof.
  intros H. destruct (H Z Z unit (list Z) answering 0 0 [] (mkSL 0 0 None []) (ops_twisted ++ [MRemove 3]) [1; -1; -1; -1; 1; 0] 7 answering_returns) as (n & N).
  apply N. clear N H. set (s := vfx_after _ _ _ _ _ _ _). vm_compute in s.
  cbn [lower_loop_fx fst snd sl_level sl_head s]. 
  assert (G : forall n, fst (scan_fx answering 7 n 1 (Some 1%nat) (Some 1%nat) s) = NoFuel).
  { intros m. induction m as [|m IH]; [reflexivity|]. cbn [scan_fx is_nil]. unfold bind. exact IH. }
  destruct n as [|[|n]]; [reflexivity|reflexivity|]. specialize (G n).
  assert (E0 : quiet (X := list Z) (ld_next (Some 0%nat) 1) s = (Ok (Some 2%nat), s)) by reflexivity. rewrite (bind_eq _ _ _ _ _ E0).
  assert (E : scan_fx answering 7 (S (S n)) 1 (Some 0%nat) (Some 2%nat) s = scan_fx answering 7 n 1 (Some 1%nat) (Some 1%nat) s) by reflexivity.
  unfold bind at 1. rewrite E. destruct (scan_fx answering 7 n 1 (Some 1%nat) (Some 1%nat) s) as [o s1]. cbn [fst] in G. subst o. reflexivity.
Qed.
Print Assumptions C112_refuted_ends.
(** Removing 5 instead takes the upper level away from 3 as well: the list has one
    level, 3 has two, and Remove(3) panics. *)
Theorem C112_refuted_no_panic : ~ C112_expected_no_panic.
Proof.
  intros H. apply (H Z Z unit (list Z) answering 0 0 [] (mkSL 0 0 None []) (ops_twisted ++ [MRemove 5]) [1; -1; 1; 1; 0] 3 answering_returns). vm_compute. reflexivity.
Qed.
Print Assumptions C112_refuted_no_panic.
(** In the first case 5, the last element, is still found after it is removed as
    well. *)
Theorem C112_refuted_agrees : ~ C112_expected_agrees.
Proof.
  intros H. apply (H Z Z unit (list Z) answering 0 0 [] (mkSL 0 0 None []) (ops_twisted ++ [MRemove 3; MRemove 5]) [1; -1; -1; -1; 1; 0; 1; 1; 0] 5 [] answering_returns); vm_compute; reflexivity.
Qed.
Print Assumptions C112_refuted_agrees.

(** *** Answers that change between calls only *)
Definition vary_after {K V St} (ops : list ((K -> K -> Z) * mop K V St)) zk zv h0 l0 : list (slnode K V) * sklist := snd (run vary_step ops (fresh zk zv h0 l0)).
(** Every call returns, but the walk over FindRange; calls that compare no keys
    show exactly the pairs, Len their number; Insert puts one pair in, between
    neighbours that compare right with it, or sets the value of one pair that
    compares equal; Remove takes out at most one pair, that compares equal; what
    Find and Has find is there and compares equal; LowerBound and UpperBound go
    from some pair to the last. *)
Theorem C112_changing_order : forall K V St (zk : K) (zv : V) h0 l0 (ops : list ((K -> K -> Z) * mop K V St)),
  exists m, accepts loose [] ops (fst (run vary_step ops (fresh zk zv h0 l0))) m /\
    fst (walk Iterate (vary_after ops zk zv h0 l0)) = Ok m /\ fst (Len (vary_after ops zk zv h0 l0)) = Ok (zlen m).
Proof.
  intros K V St zk zv h0 l0 ops. destruct (vary_run (nth_error h0) (length h0) ops [] _ (fresh_rep zk zv h0 l0)) as (ps & R & A). exists (kvs ps). split; [exact A|].
  unfold vary_after. split; [now rewrite (rep_walk _ _ _ _ R)|eapply rep_lenv; exact R].
Qed.
Print Assumptions C112_changing_order.
(** Whenever the keys stand in ascending order of the comparison function of the
    moment, the list is again the sorted map, as long as the function stays. *)
Theorem C112_sorted_again : forall K V St (zk : K) (zv : V) h0 l0 (ops : list ((K -> K -> Z) * mop K V St)) cmp m, three_way cmp ->
  let s := vary_after ops zk zv h0 l0 in let lt := fun a b => cmp a b <? 0 in
  fst (walk Iterate s) = Ok m -> StronglySorted (fun p q => lt (fst p) (fst q) = true) m ->
  forall rest : list (mop K V St), fst (run (map_step (implFunc cmp)) rest s) = fst (run (map_spec lt) rest m).
Proof.
  intros K V St zk zv h0 l0 ops cmp m TW. cbn zeta. intros Em S rest. destruct (vary_run (nth_error h0) (length h0) ops [] _ (fresh_rep zk zv h0 l0)) as (ps & R & _). unfold vary_after in *.
  rewrite (rep_walk _ _ _ _ R) in Em. cbn [fst] in Em. injection Em as <-.
  assert (Hk : kind (V := V) (implFunc cmp) (fun a b => cmp a b <? 0)) by (right; exists cmp; auto).
  apply (proj1 (use_run (implFunc cmp) _ Hk (nth_error h0) rest (kvs ps) _ (ex_intro _ (length h0) (ex_intro _ ps (conj eq_refl (conj R S)))))).
Qed.
Print Assumptions C112_sorted_again.
(** A list made with one order, cmp, and used while the keys compare in other
    ways, but not inserted into, is the sorted map of what is left when the keys
    compare as before. *)
Theorem C112_order_restored : forall K V St (zk : K) (zv : V) h0 l0 (ops1 : list (mop K V St)) (ops2 : list ((K -> K -> Z) * mop K V St)) cmp, three_way cmp ->
  (forall c k v n, ~ In (c, MInsert k v n) ops2) ->
  let lt := fun a b => cmp a b <? 0 in let m1 := snd (run (map_spec lt) ops1 []) in
  let s2 := vary_after (map (fun o => (cmp, o)) ops1 ++ ops2) zk zv h0 l0 in
  exists m2, fst (walk Iterate s2) = Ok m2 /\ (forall k, In k (map fst m2) -> In k (map fst m1)) /\
    forall rest : list (mop K V St), fst (run (map_step (implFunc cmp)) rest s2) = fst (run (map_spec lt) rest m2).
Proof.
  intros K V St zk zv h0 l0 ops1 ops2 cmp TW N. cbn zeta. set (lt := fun a b => cmp a b <? 0).
  assert (Hk : kind (V := V) (implFunc cmp) lt) by (right; exists cmp; auto).
  assert (E1 : forall s, run (vary_step (St := St)) (map (fun o => (cmp, o)) ops1) s = run (map_step (implFunc cmp)) ops1 s).
  { clear. induction ops1 as [|o ops1 IH]; intros s; cbn [map run]; auto. unfold vary_step at 1. cbn [fst snd]. destruct (map_step (implFunc cmp) o s) as [r s1]. now rewrite IH. }
  destruct (use_run (implFunc cmp) lt Hk (nth_error h0) ops1 [] _ (fresh_Rel lt zk zv h0 l0)) as [_ (hd & ps & Ek & R & S)]. unfold after in R.
  destruct (vary_run (nth_error h0) hd ops2 ps _ R) as (ps2 & R2 & A). rewrite Ek in A. destruct (accepts_sorted lt ops2 _ _ _ A N S) as [S2 I2].
  assert (E : vary_after (map (fun o => (cmp, o)) ops1 ++ ops2) zk zv h0 l0 = snd (run vary_step ops2 (snd (run (map_step (implFunc cmp)) ops1 (fresh zk zv h0 l0))))). { unfold vary_after. rewrite run_app. now rewrite E1. }
  rewrite E. exists (kvs ps2). split; [now rewrite (rep_walk _ _ _ _ R2)|]. split; [exact I2|]. intros rest.
  apply (proj1 (use_run (implFunc cmp) lt Hk (nth_error h0) rest (kvs ps2) _ (ex_intro _ hd (ex_intro _ ps2 (conj eq_refl (conj R2 S2)))))).
Qed.
Print Assumptions C112_order_restored.

(** Concrete case: the order is reversed while 1, 2 and 3 are stored.  2, on two
    levels, is found, 1 is not; 1 goes in a second time.  Without inserting, even a
    function that calls all keys equal only takes pairs out, and with the first
    order back the list is the sorted map of the rest. *)
Definition up (a b : Z) : Z := a - b.
Definition down (a b : Z) : Z := b - a.
Definition ops_up : list (mop Z Z unit) := [MInsert 1 10 (2 ^ 39); MInsert 2 20 (2 ^ 38); MInsert 3 30 (2 ^ 39)].
Example C112_hyp :
  three_way up /\ three_way down /\
  fst (run vary_step (map (fun o => (up, o)) ops_up ++ [(down, MFind 2); (down, MFind 1); (down, MInsert 1 11 (2 ^ 39)); (down, MIter); (down, MLen); (down, MRemove 2); (down, MIter)]) (fresh 0 0 [] (mkSL 0 0 None []))) =
  [Ok MNone; Ok MNone; Ok MNone; Ok (MOpt (Some 20)); Ok (MOpt None); Ok MNone; Ok (MSeq [(1, 10); (2, 20); (3, 30); (1, 11)]); Ok (MInt 4); Ok (MBool false); Ok (MSeq [(1, 10); (2, 20); (3, 30); (1, 11)])] /\
  fst (run vary_step (map (fun o => (up, o)) ops_up ++ [(down, MRemove 2); (fun _ _ => 0, MRemove 9); (up, MIter); (up, MFind 3); (up, MInsert 1 11 (2 ^ 39)); (up, MIter)]) (fresh 0 0 [] (mkSL 0 0 None []))) =
  [Ok MNone; Ok MNone; Ok MNone; Ok (MBool false); Ok (MBool true); Ok (MSeq [(2, 20); (3, 30)]); Ok (MOpt (Some 30)); Ok MNone; Ok (MSeq [(1, 11); (2, 20); (3, 30)])].
Proof. split; [exact Z_three_way|]. split; [constructor; unfold down; intros; lia|]. split; vm_compute; reflexivity. Qed.
