(** C99: a PriorityQueue built on the caller's slice (priority_queue.go
    NewPriorityQueueOn, NewPriorityQueueOf) and that slice. *)
From Verif Require Import BaseLemmas Spec Trace Proof_Mem Model_Heap Proof_Heap Proof_HeapOps Proof_HeapTotal Model_PriorityQueue Spec_Containers Proof_StackPQ Spec_PQOn Proof_PQOn.
Local Arguments zlen : simpl never.

(** Where the queue is after any calls.  As long as it never held more than
    [cap s] elements, it is the beginning of the caller's window, with the
    elements in heap order; from the first Push beyond [cap s] on it is in
    storage that did not exist before.  Nothing but that window of the
    caller's array is ever written. *)
Theorem C99_storage : forall T (less : T -> T -> bool), strict_weak less ->
  forall zero grow ops m s, wf_slice m s -> s_len s + pushes ops <= max_int ->
  exists q bag, NewPriorityQueueOn less s m = Ok q /\ NewPriorityQueueOf less s m = Ok q /\
  accepts (pq_spec less) (contents m s) ops (fst (run (pq_step zero grow) ops q)) bag /\
  let (m', h) := pq_heap (snd (run (pq_step zero grow) ops q)) in
  (peak (s_len s) ops <= s_cap s -> h = mkSlice (s_arr s) (s_off s) (size_of (s_len s) ops) (s_cap s)) /\
  (s_cap s < peak (s_len s) ops -> (length m <= s_arr h)%nat) /\
  wf_slice m' h /\ min_heap less (contents m' h) /\ Permutation (contents m' h) bag /\
  old_same_except m m' (s_arr s) (s_off s) (s_off s + s_cap s).
Proof.
  intros T less SW zero grow ops m s Hwf Hm. assert (Hpn : 0 <= pushes ops) by apply zlen_nonneg.
  destruct (on_start less SW grow m s Hwf ltac:(lia)) as (q & E1 & E2 & Eh & _ & HR & HP).
  destruct (pq_run less SW zero grow ops _ _ HR) as (bag & Ha & HR'); [rewrite zlen_contents by auto; exact Hm|].
  destruct (run_placed less SW zero grow m s ops (s_len s) _ q HR) as (L & (P & F) & _); [rewrite zlen_contents by auto; exact Hm|rewrite Eh; lia|exact HP|].
  exists q, bag. do 3 (split; [assumption|]). rewrite Eh in *.
  assert (Epk : Z.max (s_len s) (peak (s_len s) ops) = peak (s_len s) ops) by (pose proof (peak_ge grow ops (s_len s)); lia). rewrite Epk in P.
  destruct (snd (run (pq_step zero grow) ops q)) as [[m' h] im]. cbn [pq_heap fst snd] in *. destruct HR' as (W & H & Hp & _).
  split; [|split].
  - intros Hc. destruct (Z.leb_spec (peak (s_len s) ops) (s_cap s)); [|lia]. destruct P as (P1 & P2 & P3). rewrite <- P1, <- P2, <- P3, <- L. destruct h; reflexivity.
  - intros Hc. destruct (Z.leb_spec (peak (s_len s) ops) (s_cap s)); [lia|auto].
  - auto.
Qed.
Print Assumptions C99_storage.

(** After a Push has outgrown the caller's slice, no later call changes the
    caller's array. *)
Theorem C99_left : forall T (less : T -> T -> bool), strict_weak less ->
  forall zero grow before later m s, wf_slice m s -> s_len s + pushes (before ++ later) <= max_int -> s_cap s < peak (s_len s) before ->
  exists q, NewPriorityQueueOn less s m = Ok q /\
  let m1 := fst (pq_heap (snd (run (pq_step zero grow) before q))) in
  let m2 := fst (pq_heap (snd (run (pq_step zero grow) (before ++ later) q))) in
  nth (s_arr s) m2 [] = nth (s_arr s) m1 [].
Proof.
  intros T less SW zero grow a b m s Hwf Hm Hc. rewrite pushes_app in Hm. assert (0 <= pushes a) by apply zlen_nonneg. assert (0 <= pushes b) by apply zlen_nonneg.
  destruct (on_start less SW grow m s Hwf ltac:(lia)) as (q & E1 & _ & Eh & _ & HR & HP).
  exists q. split; [exact E1|]. cbv zeta. rewrite run_app.
  destruct (pq_run less SW zero grow a _ _ HR) as (bag & Ha & HR'); [rewrite zlen_contents by auto; lia|].
  destruct (run_placed less SW zero grow m s a (s_len s) _ q HR) as (L & P & _); [rewrite zlen_contents by auto; lia|rewrite Eh; lia|exact HP|].
  rewrite Eh in *. set (q1 := snd (run (pq_step zero grow) a q)) in *.
  assert (Lb : zlen bag = s_len (snd (pq_heap q1))).
  { destruct q1 as [[m1 h1] im]. destruct HR' as (W & _ & Hp & _). cbn. rewrite <- (perm_zlen _ _ Hp). now apply zlen_contents. }
  assert (Sz : forall (l : list (pq_op T)) n, 0 <= n -> size_of n l <= n + pushes l /\ size_of n l <= peak n l).
  { induction l as [|o l IH]; intros n Hn; cbn [size_of peak]; [change (@pushes T []) with 0; lia|].
    destruct (IH _ (size_after_nonneg grow n o Hn)) as [I1 I2]. rewrite pushes_cons. split; [destruct o; cbn [size_after] in *; lia|lia]. }
  assert (Hs : 0 <= s_len s) by (destruct Hwf as (_ & _ & H3 & _); lia). destruct (Sz a _ Hs) as [Sz1 Sz2].
  destruct (run_placed less SW zero grow m s b (Z.max (s_len s) (peak (s_len s) a)) _ q1 HR') as (_ & _ & N); [lia|lia|exact P|].
  apply N; [lia|]. apply Hwf.
Qed.
Print Assumptions C99_left.

(** Popping: after k Pops the caller's slice, at its full length, holds the
    rest of the queue followed by the popped elements, last popped first;
    with k = len(s) it is sorted in descending order. *)
Theorem C99_pops : forall T (less : T -> T -> bool), strict_weak less ->
  forall zero grow m s k, wf_slice m s -> Z.of_nat k <= s_len s <= max_int ->
  exists q out, NewPriorityQueueOn less s m = Ok q /\
  let (rs, q') := run (pq_step zero grow) (repeat PPop k) q in let (m', h) := pq_heap q' in
  rs = map (fun x => Ok (OVal x)) out /\ length out = k /\ sorted_by less out /\
  (forall x y, In x out -> In y (contents m' h) -> less y x = false) /\
  contents m' s = contents m' h ++ rev out /\ Permutation (contents m' s) (contents m s) /\
  (s_len s = Z.of_nat k -> contents m' s = rev out) /\
  same_except m m' (s_arr s) (s_off s) (s_off s + s_len s).
Proof.
  intros T less SW zero grow m s k Hwf Hk. unfold NewPriorityQueueOn.
  destruct (MakeHeap_mem T less m s SW Hwf ltac:(lia)) as (m0 & Hr & Hwf' & Hh & Hp & Hf).
  assert (Hr2 : on_slice s (MakeMinHeap less) m = (Ok tt, m0)) by exact Hr. rewrite Hr2.
  destruct (pops less SW zero grow k m0 s (pqOrdered less)) as (out & m' & R & L & W & F & C & P & S & M); [split; auto|lia|].
  exists (mkPQ (m0, s) (pqOrdered less)), out. split; [reflexivity|]. rewrite R. cbn [pq_heap].
  split; [reflexivity|]. split; [exact L|]. split; [exact S|]. split; [exact M|]. split; [exact C|]. split; [now rewrite P|]. split.
  - intros E. rewrite C. rewrite contents_empty; [reflexivity| |cbn; lia]. apply wf_prefix; auto. pose proof W as (_ & _ & W3 & _). lia.
  - eapply same_except_trans; eauto.
Qed.
Print Assumptions C99_pops.

(** Expected: a queue of given elements is not the slice they were passed in. *)
Definition C99_expected_untouched : Prop := forall (m : mem Z) s ops q, wf_slice m s -> NewPriorityQueueOf Z.ltb s m = Ok q ->
  contents (fst (pq_heap (snd (run (pq_step 0 (fun _ n => n)) ops q)))) s = contents m s.
Definition C99_expected_own : Prop := forall (m : mem Z) s ops q i v m', wf_slice m s -> NewPriorityQueueOf Z.ltb s m = Ok q ->
  sstore s i v (fst (pq_heap q)) = (Ok tt, m') ->
  fst (run (pq_step 0 (fun _ n => n)) ops (mkPQ (m', snd (pq_heap q)) (pq_impl q))) = fst (run (pq_step 0 (fun _ n => n)) ops q).
Theorem C99_refuted : ~ C99_expected_untouched /\ ~ C99_expected_own.
Proof.
  assert (W : wf_slice [[3; 1; 2]] (mkSlice 0 0 3 3)) by (unfold wf_slice, zlen; simpl; lia). split; intros H.
  - specialize (H _ _ [PPop] _ W eq_refl). vm_compute in H. discriminate.
  - specialize (H _ _ [PPop; PPop] _ 0 9 _ W eq_refl eq_refl). vm_compute in H. discriminate.
Qed.
Print Assumptions C99_refuted.

Example C99_hyp : let m := [[]; [7; 3; 1; 2; 0; 8]] in let s := mkSlice 1 1 3 4 in
  wf_slice m s /\ contents m s = [3; 1; 2] /\
  peak (s_len s) [PPush 5; PPop; PPush 4] = 4 /\ peak (s_len s) [PPush 5; PPush 6; PClear] = 5 /\
  (forall q, NewPriorityQueueOn Z.ltb s m = Ok q ->
    contents (fst (pq_heap (snd (run (pq_step 0 (fun _ n => n)) (repeat PPop 3) q)))) s = [3; 2; 1] /\
    fst (pq_heap (snd (run (pq_step 0 (fun _ n => n)) [PPush 0; PPop; PPush 4] q))) = [[]; [7; 1; 3; 2; 4; 8]] /\
    s_arr (snd (pq_heap (snd (run (pq_step 0 (fun _ n => n)) [PPush 5; PPush 6; PClear] q)))) = 2%nat).
Proof.
  split; [unfold wf_slice, zlen; simpl; lia|]. do 3 (split; [reflexivity|]). intros q E. vm_compute in E. injection E as <-. repeat split.
Qed.
