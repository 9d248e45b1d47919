(** The cost of SkipList searches (skiplist.go:284-463) and the space of its
    nodes, averaged over the random numbers drawn: C76, C77. *)
From Verif Require Import BaseLemmas Spec Trace Spec_List Spec_Map Nodes Model_SkipList Proof_SkipList Proof_Map Spec_SkipCost Proof_Draws Proof_SkipCost Props_SkipList.

(** *** C76: searches read O(log n) keys on average *)
(** The counting searches do and return what the searches of Model_SkipList.v do. *)
Theorem C76_counting : forall K V (impl : @slimpl K V) cnt lt, counted impl cnt lt -> kind impl lt /\ forall key s,
  plain (findNode_count cnt key) s = findNode impl key s /\ plain (lowerBound_count cnt key) s = lowerBound impl key s /\
  plain (upperBound_count cnt key) s = upperBound impl key s /\ plain (findInsertPoint_count cnt key) s = findInsertPoint impl key s /\
  plain (findRemovePoint_count cnt key) s = findRemovePoint impl key s.
Proof.
  intros K V impl cnt lt C. split; [destruct C as [(eqb & -> & _ & O)|(cmp & -> & _ & O)]; [left|right]; eauto|]. exact (impl_plain impl cnt lt C).
Qed.
Print Assumptions C76_counting.
(** Whatever is drawn, no key is read twice on the same level and passed nodes
    are not read again. *)
Theorem C76_worst_case : forall K V St (impl : @slimpl K V) cnt lt (zk : K) (zv : V) h0 l0 (ops : list (mop K V St)) key, counted impl cnt lt ->
  let s := after impl ops (fresh zk zv h0 l0) in
  each_search cnt key (fun f => 0 <= f s <= zlen (snd (run (map_spec lt) ops [])) + Z.of_nat (sl_level (snd s)) + 1).
Proof.
  intros K V St impl cnt lt zk zv h0 l0 ops key C s. pose proof (searches_read impl cnt lt key C) as (H1 & H2 & H3 & H4 & H5). pose proof (proj1 (C76_counting _ _ _ _ _ C)) as Hk.
  pose proof (fun f => reach_search_worst impl lt Hk zk zv h0 l0 ops key f []) as W. unfold state_of in W. destruct ops; (split; [|split; [|split; [|split]]]; apply W; assumption).
Qed.
Print Assumptions C76_worst_case.
(** After any calls (chosen without looking at the random numbers), over all
    the numbers that rand.Uint64 may have returned in them, all equally likely,
    each search reads at most 2.5*log2 n + 7.5 keys on average, n being the
    number of keys stored. *)
Theorem C76_average : forall K V St (impl : @slimpl K V) cnt lt (zk : K) (zv : V) h0 l0 (ops : list (mop K V St)) key, counted impl cnt lt ->
  let n := zlen (snd (run (map_spec lt) ops [])) in n < 2 ^ 39 ->
  each_search cnt key (fun f => twice_average_at_most ops (fun ops' => f (after impl ops' (fresh zk zv h0 l0))) (5 * Z.log2 n + 15)).
Proof.
  intros K V St impl cnt lt zk zv h0 l0 ops key C n Hn. pose proof (searches_read impl cnt lt key C) as (H1 & H2 & H3 & H4 & H5). pose proof (proj1 (C76_counting _ _ _ _ _ C)) as Hk.
  pose proof (fun f S => reach_search_average impl lt Hk zk zv h0 l0 ops key f S Hn) as W. split; [|split; [|split; [|split]]]; apply W; assumption.
Qed.
Print Assumptions C76_average.

Example C76_hyp : counted (V := Z) (implOrdered Z.ltb Z.eqb) (countOrdered Z.ltb Z.eqb) Z.ltb /\ counted (V := Z) (implFunc Z.sub) (countFunc Z.sub) Z.ltb /\
  let keys := [4; 2; 8; 6; 1; 7; 3; 5] in
  let ins rs := map (fun p => MInsert (fst p) (10 * fst p) (snd p)) (combine keys rs) in
  let st rs := after (St := unit) (implOrdered Z.ltb Z.eqb) (ins rs) (fresh 0 0 [] (mkSL 0 0 None [])) in
  let flat := st (repeat (2 ^ 39) 8) in
  let tall := st [0; 2 ^ 38; 2 ^ 38; 2 ^ 38; 2 ^ 39; 2 ^ 39; 2 ^ 39; 2 ^ 39] in
  let find k := reads (findNode_count (countOrdered Z.ltb Z.eqb) k) in let rem k := reads (findRemovePoint_count (countOrdered Z.ltb Z.eqb) k) in
  map (fun k => find k flat) [1; 4; 7; 9] = [1; 4; 7; 8] /\ map (fun k => find k tall) [1; 4; 7; 9] = [3; 1; 4; 3] /\
  map (fun k => rem k flat) [1; 4; 7; 9] = [2; 5; 8; 8] /\ map (fun k => rem k tall) [1; 4; 7; 9] = [4; 6; 5; 3] /\
  sl_level (snd flat) = 1%nat /\ sl_level (snd tall) = 3%nat /\ zlen (snd (run (map_spec Z.ltb) (ins (repeat 0 8)) [])) = 8 /\
  with_draws (ins (repeat 0 8)) (repeat (2 ^ 39) 8) = ins (repeat (2 ^ 39) 8).
Proof.
  split; [left; exists Z.eqb; repeat split; try apply Z_ordered|]. split; [right; exists Z.sub; repeat split; intros; lia|]. vm_compute. repeat split.
Qed.

(** *** C77: the nodes hold at most two links per key on average *)
Theorem C77_average_space : forall K V St (impl : @slimpl K V) lt (zk : K) (zv : V) h0 l0 (ops : list (mop K V St)), kind impl lt ->
  twice_average_at_most ops (fun ops' => links (after impl ops' (fresh zk zv h0 l0))) (2 * (2 * zlen (snd (run (map_spec lt) ops [])))).
Proof. intros K V St impl lt zk zv h0 l0 ops Hk. pose proof (reach_links impl lt Hk zk zv h0 l0 ops) as B. unfold twice_average_at_most, stored in *. unfold after, fresh. lia. Qed.
Print Assumptions C77_average_space.
Example C77_hyp : let ins rs := map (fun p => MInsert (fst p) 0 (snd p)) (combine [4; 2; 8; 6] rs) in
  let st rs := after (St := unit) (implOrdered Z.ltb Z.eqb) (ins rs) (fresh 0 0 [] (mkSL 0 0 None [])) in
  links (st (repeat (2 ^ 39) 4)) = 4 /\ links (st [0; 2 ^ 38; 0; 0]) = 13 /\ zlen (snd (run (map_spec Z.ltb) (ins [0; 2 ^ 38; 0; 0]) [])) = 4.
Proof. vm_compute. repeat split. Qed.

(** *** C12: how many of the 2^64 numbers give a level of at least j *)
Theorem C12_shares : forall len j, (1 <= j <= 40)%nat -> (j <= 3)%nat \/ 2 ^ (Z.of_nat j - 3) <= len ->
  2 ^ (Z.of_nat j - 1) * sum_below (fun r => if Nat.leb j (randomLevel r len) then 1 else 0) uint64s = 2 ^ 64.
Proof.
  intros len j Hj Hl. rewrite uint64s_width. assert (Ep : Z.of_nat (Z.to_nat (2 ^ 40)) = 2 ^ 40) by (rewrite Z2Nat.id; lia).
  pose proof (count_ge (Z.to_nat (2 ^ 24)) (Z.to_nat (2 ^ 40)) Ep len j ltac:(lia)) as C. replace (Z.of_nat (j - 1)) with (Z.of_nat j - 1) in C by lia.
  assert (O : open j len = true). { unfold open. rewrite andb_true_iff, orb_true_iff, !Nat.leb_le, Z.leb_le. split; [lia|]. destruct Hl; [now left|]. destruct (Nat.leb_spec j 3); [now left|right]. now replace (Z.of_nat (j - 3)) with (Z.of_nat j - 3) by lia. }
  rewrite O in C. etransitivity; [exact C|]. unfold width. rewrite Nat2Z.inj_mul, !Z2Nat.id by lia. reflexivity.
Qed.
Print Assumptions C12_shares.
