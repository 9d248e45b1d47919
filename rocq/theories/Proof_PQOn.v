(** Proofs for C99: where a queue built on the caller's slice writes. *)
From Verif Require Import BaseLemmas Spec Trace Proof_Mem Model_Heap Proof_Heap Proof_HeapOps Proof_HeapTotal
  Model_PriorityQueue Spec_Containers Proof_StackPQ Spec_PQOn Props_Reach.

Section PQOn.
Context {T : Type}.
Variable less : T -> T -> bool.
Hypothesis SW : strict_weak less.
Variable zero : T.
Variable grow : Z -> Z -> Z.
Local Notation mem_of q := (fst (pq_heap q)).
Local Notation hdr q := (snd (pq_heap q)).

Lemma step_place bag q o : pq_rel less bag q -> zlen bag <= max_int ->
  let q' := snd (pq_step zero grow o q) in
  s_len (hdr q') = size_after (s_len (hdr q)) o /\
  if s_len (hdr q') <=? s_cap (hdr q)
  then s_arr (hdr q') = s_arr (hdr q) /\ s_off (hdr q') = s_off (hdr q) /\ s_cap (hdr q') = s_cap (hdr q) /\
    same_except (mem_of q) (mem_of q') (s_arr (hdr q)) (s_off (hdr q)) (s_off (hdr q) + s_cap (hdr q))
  else s_arr (hdr q') = length (mem_of q) /\ extends (mem_of q) (mem_of q').
Proof.
  destruct q as [[m h] im]. intros (Hwf & Hh & Hp & Him) Hmax. simpl in Him.
  pose proof (zlen_contents m h Hwf) as Hz. pose proof (perm_zlen _ _ Hp) as Hbl.
  pose proof Hwf as (Q1 & Q2 & Q3 & Q4). cbn [pq_heap fst snd].

  assert (Keep : forall q', q' = mkPQ (m, h) im -> s_len (hdr q') = s_len h /\
    if s_len (hdr q') <=? s_cap h
    then s_arr (hdr q') = s_arr h /\ s_off (hdr q') = s_off h /\ s_cap (hdr q') = s_cap h /\ same_except m (mem_of q') (s_arr h) (s_off h) (s_off h + s_cap h)
    else s_arr (hdr q') = length m /\ extends m (mem_of q')).
  { intros q' ->. cbn [pq_heap fst snd]. split; [reflexivity|]. destruct (Z.leb_spec (s_len h) (s_cap h)); [|lia].
    do 3 (split; [reflexivity|]). apply same_except_refl. }
  destruct o; cbn [size_after].
  - (* Push *)
    destruct (PushHeapFunc_ok less SW zero grow v m h Hwf Hh) as (m' & h' & Hr & _ & _ & _ & Hl & Hf).
    assert (E : snd (pq_step zero grow (PPush v) (mkPQ (m, h) im)) = mkPQ (m', h') im).
    { unfold pq_step, observe, PQ_Push, on_heap. simpl.
      assert (Hr2 : PushMinHeap zero grow less v (m, h) = (Ok tt, (m', h'))) by (rewrite PushMinHeap_eq; auto).
      destruct Him as [-> | ->]; rewrite ?Hr, ?Hr2; reflexivity. }
    rewrite E. cbn [pq_heap fst snd]. rewrite Hl. split; [reflexivity|].
    destruct (Z.leb_spec (s_len h + 1) (s_cap h)).
    + destruct Hf as (A & B & C & D). do 3 (split; [assumption|]). eapply same_except_weaken; [exact D|lia..].
    + destruct Hf as (A & B & C). auto.
  - (* Pop *)
    destruct (Z.eq_dec (s_len h) 0) as [E|E].
    + pose proof (PopHeapFunc_panic less m h Hwf E) as Hr.
      assert (Hr2 : PopMinHeap less (m, h) = (Panic, (m, h))) by (rewrite PopMinHeap_eq; auto).
      replace (Z.max 0 (s_len h - 1)) with (s_len h) by lia. apply Keep. unfold pq_step, observe, PQ_Pop, on_heap. simpl.
      destruct Him as [-> | ->]; rewrite ?Hr, ?Hr2; reflexivity.
    + destruct (PopHeapFunc_ok less SW m h Hwf Hh ltac:(lia)) as (x & m' & h' & Hr & _ & _ & _ & _ & Eh & Hf).
      assert (Hr2 : PopMinHeap less (m, h) = (Ok x, (m', h'))) by (rewrite PopMinHeap_eq; auto).
      assert (E2 : snd (pq_step zero grow PPop (mkPQ (m, h) im)) = mkPQ (m', h') im).
      { unfold pq_step, observe, PQ_Pop, on_heap. simpl. destruct Him as [-> | ->]; rewrite ?Hr, ?Hr2; reflexivity. }
      rewrite E2. cbn [pq_heap fst snd]. subst h'. cbn [s_arr s_off s_len s_cap]. split; [lia|].
      destruct (Z.leb_spec (s_len h - 1) (s_cap h)); [|lia]. do 3 (split; [reflexivity|]). eapply same_except_weaken; [exact Hf|lia..].
  - apply Keep. unfold pq_step, observe, PQ_Top, on_heap. cbn [pq_heap pq_impl]. rewrite bind_get_hdr.
    destruct (zget (contents m h) 0) as [x|] eqn:G.
    + rewrite (lift_mem_ok _ m h _ _ (sload_ok m h _ _ Hwf G)). reflexivity.
    + rewrite (lift_mem_panic _ m h m (sload_panic m h _ Hwf G)). reflexivity.
  - apply Keep. reflexivity.
  - apply Keep. reflexivity.
  - unfold pq_step, observe, PQ_Clear, on_heap. cbn [pq_heap pq_impl]. rewrite bind_get_hdr.
    rewrite reslice_prefix by lia. cbn. split; [reflexivity|]. destruct (Z.leb_spec 0 (s_cap h)); [|lia].
    do 3 (split; [reflexivity|]). apply same_except_refl.
Qed.

(** What a queue built on slice [s] of memory [m0] satisfies when it has held at most [pk] elements. *)
Definition placed (m0 : mem T) (s : slice) (pk : Z) (q : PriorityQueue T) : Prop :=
  (if pk <=? s_cap s then s_arr (hdr q) = s_arr s /\ s_off (hdr q) = s_off s /\ s_cap (hdr q) = s_cap s
   else (length m0 <= s_arr (hdr q))%nat) /\
  old_same_except m0 (mem_of q) (s_arr s) (s_off s) (s_off s + s_cap s).

Lemma ose_same (m0 m1 m2 : mem T) (a : nat) lo hi : old_same_except m0 m1 a lo hi -> same_except m1 m2 a lo hi -> old_same_except m0 m2 a lo hi.
Proof.
  intros (A1 & A2 & A3 & A4) (B1 & B2 & B3 & B4). split; [lia|split; [|split]].
  - intros b Hb Hn. rewrite <- (B1 b Hn). auto.
  - intros i Ha Hi Ho. rewrite <- (B2 i Hi Ho). auto.
  - intros Ha. rewrite <- B3. auto.
Qed.
Lemma ose_else (m0 m1 m2 : mem T) (a b : nat) lo hi lo' hi' : old_same_except m0 m1 a lo hi -> (length m0 <= b)%nat -> same_except m1 m2 b lo' hi' -> old_same_except m0 m2 a lo hi.
Proof.
  intros (A1 & A2 & A3 & A4) L (B1 & B2 & B3 & B4). split; [lia|split; [|split]].
  - intros c Hc Hn. rewrite <- (B1 c) by lia. auto.
  - intros i Ha Hi Ho. rewrite <- (B1 a) by lia. auto.
  - intros Ha. rewrite <- (B1 a) by lia. auto.
Qed.
Lemma ose_extends (m0 m1 m2 : mem T) (a : nat) lo hi : old_same_except m0 m1 a lo hi -> extends m1 m2 -> old_same_except m0 m2 a lo hi.
Proof.
  intros (A1 & A2 & A3 & A4) (B1 & B2). split; [lia|split; [|split]].
  - intros c Hc Hn. rewrite B2 by lia. auto.
  - intros i Ha Hi Ho. rewrite B2 by lia. auto.
  - intros Ha. rewrite B2 by lia. auto.
Qed.

Lemma step_placed m0 s pk bag q o : pq_rel less bag q -> zlen bag <= max_int -> s_len (hdr q) <= pk -> placed m0 s pk q ->
  placed m0 s (Z.max pk (size_after (s_len (hdr q)) o)) (snd (pq_step zero grow o q)) /\
  (s_cap s < pk -> (s_arr s < length m0)%nat -> nth (s_arr s) (mem_of (snd (pq_step zero grow o q))) [] = nth (s_arr s) (mem_of q) []).
Proof.
  intros HR Hm Hl [P F]. destruct (step_place bag q o HR Hm) as [El St]. cbv zeta in El, St.
  assert (Wf : wf_slice (mem_of q) (hdr q)) by (destruct q as [[m h] im]; apply HR).
  pose proof Wf as (W1 & W2 & W3 & W4). set (q' := snd (pq_step zero grow o q)) in *.
  rewrite <- El. unfold placed. destruct (Z.leb_spec pk (s_cap s)).
  - destruct P as (P1 & P2 & P3). rewrite P1, P2, P3 in St. destruct (Z.leb_spec (s_len (hdr q')) (s_cap s)).
    + destruct St as (S1 & S2 & S3 & S4). destruct (Z.leb_spec (Z.max pk (s_len (hdr q'))) (s_cap s)); [|lia].
      split; [|lia]. split; [auto|]. eapply ose_same; eauto.
    + destruct St as (S1 & S2). destruct (Z.leb_spec (Z.max pk (s_len (hdr q'))) (s_cap s)); [lia|].
      split; [|lia]. destruct F as (F1 & F2). split; [lia|]. eapply ose_extends; [split; eassumption|auto].
  - destruct (Z.leb_spec (Z.max pk (s_len (hdr q'))) (s_cap s)); [lia|].
    destruct (Z.leb_spec (s_len (hdr q')) (s_cap (hdr q))).
    + destruct St as (S1 & S2 & S3 & S4). split.
      * split; [lia|]. eapply ose_else; eauto.
      * intros _ Ha. destruct S4 as (S4 & _). symmetry. apply S4. lia.
    + destruct St as (S1 & S2). destruct F as (F1 & F2). split.
      * split; [lia|]. eapply ose_extends; [split; eassumption|auto].
      * intros _ Ha. apply S2. lia.
Qed.

Lemma size_after_nonneg n (o : pq_op T) : 0 <= n -> 0 <= size_after n o.
Proof. destruct o; cbn; lia. Qed.
Lemma pushes_cons o (ops : list (pq_op T)) : pushes (o :: ops) = (match o with PPush _ => 1 | _ => 0 end) + pushes ops.
Proof. unfold pushes. simpl. destruct o; rewrite ?zlen_cons; lia. Qed.
Lemma peak_ge (ops : list (pq_op T)) n : n <= peak n ops.
Proof. destruct ops; cbn; lia. Qed.
Lemma run_snd (ops : list (pq_op T)) o q : snd (run (pq_step zero grow) (o :: ops) q) = snd (run (pq_step zero grow) ops (snd (pq_step zero grow o q))).
Proof. cbn. destruct (pq_step zero grow o q) as [r q1]. cbn. destruct (run (pq_step zero grow) ops q1). reflexivity. Qed.

Lemma run_placed m0 s ops : forall pk bag q, pq_rel less bag q -> zlen bag + pushes ops <= max_int -> s_len (hdr q) <= pk -> placed m0 s pk q ->
  let q' := snd (run (pq_step zero grow) ops q) in
  s_len (hdr q') = size_of (s_len (hdr q)) ops /\
  placed m0 s (Z.max pk (peak (s_len (hdr q)) ops)) q' /\
  (s_cap s < pk -> (s_arr s < length m0)%nat -> nth (s_arr s) (mem_of q') [] = nth (s_arr s) (mem_of q) []).
Proof.
  induction ops as [|o ops IH]; intros pk bag q HR Hm Hl HP; cbv zeta.
  - cbn. replace (Z.max pk (s_len (hdr q))) with pk by lia. auto.
  - rewrite run_snd, pushes_cons in *. assert (Hpn : 0 <= pushes ops) by apply zlen_nonneg.
    destruct (step_placed m0 s pk bag q o HR ltac:(destruct o; lia) Hl HP) as [P1 N1].
    destruct (step_place bag q o HR ltac:(destruct o; lia)) as [El _]. cbv zeta in El.
    destruct (pq_step_ok less SW zero grow bag q o HR ltac:(destruct o; lia)) as (b1 & _ & HR1).
    assert (Lb : forall b (qq : PriorityQueue T), pq_rel less b qq -> zlen b = s_len (hdr qq)).
    { intros b [[m h] im] (W & _ & Hp & _). cbn. rewrite <- (perm_zlen _ _ Hp). apply zlen_contents. auto. }
    pose proof (Lb _ _ HR) as L0. pose proof (Lb _ _ HR1) as L1. pose proof (zlen_nonneg bag).
    rewrite <- El in P1.
    destruct (IH (Z.max pk (s_len (hdr (snd (pq_step zero grow o q))))) b1 _ HR1 ltac:(rewrite L1, El; rewrite L0 in *; clear - Hm H; destruct o; cbn [size_after]; lia) ltac:(lia) P1) as (A & B & C).
    cbn [size_of peak]. rewrite <- El. split; [exact A|]. split.
    + replace (Z.max pk (Z.max (s_len (hdr q)) (peak (s_len (hdr (snd (pq_step zero grow o q)))) ops))) with
        (Z.max (Z.max pk (s_len (hdr (snd (pq_step zero grow o q))))) (peak (s_len (hdr (snd (pq_step zero grow o q)))) ops)); [exact B|].
      pose proof (peak_ge ops (s_len (hdr (snd (pq_step zero grow o q))))). lia.
    + intros Hc Ha. rewrite C by (auto; lia). auto.
Qed.

(** The state right after NewPriorityQueueOn. *)
Lemma on_start m s : wf_slice m s -> s_len s <= max_int ->
  exists q, NewPriorityQueueOn less s m = Ok q /\ NewPriorityQueueOf less s m = Ok q /\ hdr q = s /\ pq_impl q = pqOrdered less /\
    pq_rel less (contents m s) q /\ placed m s (s_len s) q.
Proof.
  intros Hwf Hmax. unfold NewPriorityQueueOf, NewPriorityQueueOn.
  destruct (MakeHeap_mem T less m s SW Hwf ltac:(lia)) as (m' & Hr & Hwf' & Hh & Hp & Hf).
  assert (Hr2 : on_slice s (MakeMinHeap less) m = (Ok tt, m')) by exact Hr. rewrite Hr2.
  exists (mkPQ (m', s) (pqOrdered less)). do 4 (split; [reflexivity|]). split; [split; auto|].
  pose proof Hwf as (W1 & W2 & W3 & W4). unfold placed. destruct (Z.leb_spec (s_len s) (s_cap s)); [|lia]. split; [auto|].
  cbn [pq_heap fst snd]. eapply ose_same; [|eapply same_except_weaken; [exact Hf|lia|lia]].
  split; [lia|]. auto.
Qed.

Lemma run_app (a b : list (pq_op T)) : forall q, snd (run (pq_step zero grow) (a ++ b) q) = snd (run (pq_step zero grow) b (snd (run (pq_step zero grow) a q))).
Proof. induction a as [|o a IH]; intros q; [reflexivity|]. rewrite <- app_comm_cons, !run_snd. apply IH. Qed.
Lemma pushes_app (a b : list (pq_op T)) : pushes (a ++ b) = pushes a + pushes b.
Proof. unfold pushes. rewrite filter_app, zlen_app. reflexivity. Qed.

(** Popping. *)
Lemma pops k : forall m h im, pq_rel less (contents m h) (mkPQ (m, h) im) -> Z.of_nat k <= s_len h <= max_int ->
  exists out m', run (pq_step zero grow) (repeat PPop k) (mkPQ (m, h) im) =
      (map (fun x => Ok (OVal x)) out, mkPQ (m', mkSlice (s_arr h) (s_off h) (s_len h - Z.of_nat k) (s_cap h)) im) /\
    length out = k /\ wf_slice m' h /\
    same_except m m' (s_arr h) (s_off h) (s_off h + s_len h) /\
    contents m' h = contents m' (mkSlice (s_arr h) (s_off h) (s_len h - Z.of_nat k) (s_cap h)) ++ rev out /\
    Permutation (contents m' h) (contents m h) /\
    sorted_by less out /\ (forall x y, In x out -> In y (contents m' (mkSlice (s_arr h) (s_off h) (s_len h - Z.of_nat k) (s_cap h))) -> less y x = false).
Proof.
  induction k as [|k IH]; intros m h im (Hwf & Hh & _ & Him) Hk.
  - exists [], m. change (Z.of_nat 0) with 0. rewrite Z.sub_0_r. replace (mkSlice (s_arr h) (s_off h) (s_len h) (s_cap h)) with h by (destruct h; reflexivity).
    split; [reflexivity|]. split; [reflexivity|]. split; [assumption|]. split; [apply same_except_refl|]. split; [now rewrite app_nil_r|]. split; [reflexivity|]. split; [|intros x y []].
    intros i j a b _ Ha. pose proof (zget_Some_range _ _ _ Ha) as K. change (zlen (@nil T)) with 0 in K. lia.
  - simpl in Him.
    destruct (PopHeapFunc_ok less SW m h Hwf Hh ltac:(lia)) as (x & m1 & h1 & Hr & Hx & Hwf1 & Hh1 & Hp1 & Eh & Hf1).
    destruct (C97_heap_keeps T less SW m h Hwf Hh ltac:(lia)) as (_ & (x' & m1' & h1' & Hr' & Hk1) & _).
    rewrite Hr in Hr'. injection Hr' as <- <- <-.
    assert (Hr2 : PopMinHeap less (m, h) = (Ok x, (m1, h1))) by (rewrite PopMinHeap_eq; auto).
    assert (E : pq_step zero grow PPop (mkPQ (m, h) im) = (Ok (OVal x), mkPQ (m1, h1) im)).
    { unfold pq_step, observe, PQ_Pop, on_heap. simpl. destruct Him as [-> | ->]; rewrite ?Hr, ?Hr2; reflexivity. }
    assert (L1 : s_len h1 = s_len h - 1) by (rewrite Eh; reflexivity).
    destruct (IH m1 h1 im) as (out & m2 & R2 & Lo & W2 & F2 & K2 & P2 & S2 & M2); [split; auto|lia|].
    assert (W2h : wf_slice m2 h).
    { rewrite Eh in W2. destruct W2 as (V1 & V2 & V3 & V4). destruct Hwf as (U1 & U2 & U3 & U4). unfold wf_slice, arr_of in *. cbn in *. lia. }
    assert (W1h : wf_slice m1 h).
    { rewrite Eh in Hwf1. destruct Hwf1 as (V1 & V2 & V3 & V4). destruct Hwf as (U1 & U2 & U3 & U4). unfold wf_slice, arr_of in *. cbn in *. lia. }
    assert (Hlast : contents m2 h = contents m2 h1 ++ [x]).
    { rewrite Eh. apply contents_snoc; [exact W2h|].
      assert (G1 : zget (contents m1 h) (s_len h - 1) = Some x).
      { rewrite Hk1. rewrite zget_app_r; rewrite zlen_contents by auto; [|lia]. rewrite L1. replace (s_len h - 1 - (s_len h - 1)) with 0 by lia. reflexivity. }
      rewrite zget_contents in * by (auto; lia). destruct (s_len h - 1 <? s_len h); [|discriminate].
      destruct F2 as (_ & F2 & _). rewrite Eh in F2. cbn in F2. unfold arr_of in *. rewrite <- F2; [exact G1|destruct Hwf as (U1 & U2 & U3 & U4); lia|right; lia]. }
    assert (Eh2 : mkSlice (s_arr h1) (s_off h1) (s_len h1 - Z.of_nat k) (s_cap h1) = mkSlice (s_arr h) (s_off h) (s_len h - Z.of_nat (S k)) (s_cap h)).
    { rewrite Eh. cbn [s_arr s_off s_len s_cap]. f_equal. lia. }
    rewrite Eh2 in *. set (h2 := mkSlice (s_arr h) (s_off h) (s_len h - Z.of_nat (S k)) (s_cap h)) in *.
    assert (Hmin : forall y, In y (contents m2 h1) -> less y x = false).
    { intros y Hy. apply (heap_root_min less SW (contents m h)); auto. rewrite <- Hp1. right. rewrite <- P2. exact Hy. }
    exists (x :: out), m2. cbn [repeat run]. rewrite E, R2. split; [reflexivity|]. split; [cbn; lia|]. split; [exact W2h|]. split.
    { eapply same_except_trans; [exact Hf1|]. eapply same_except_weaken; [rewrite Eh in F2; cbn [s_arr s_off s_len] in F2; exact F2|lia|lia]. }
    split; [rewrite Hlast, K2; cbn [rev]; now rewrite app_assoc|].
    split; [rewrite Hlast, <- Hp1, <- P2; symmetry; apply Permutation_cons_append|]. split.
    + intros i j a b Hij Ha Hb. destruct (Z.eq_dec i 0) as [->|].
      * rewrite zget_cons_0 in Ha. injection Ha as <-. rewrite zget_cons_S in Hb by lia. apply Hmin. rewrite K2. apply in_or_app. right. apply in_rev. rewrite rev_involutive.
        apply in_zget. exists (j - 1). split; [pose proof (zget_Some_range _ _ _ Hb); lia|exact Hb].
      * rewrite zget_cons_S in Ha, Hb by lia. apply (S2 (i - 1) (j - 1) a b); auto; lia.
    + intros a y [<-|Ha] Hy; [apply Hmin; rewrite K2; apply in_or_app; now left|]. eapply M2; eauto.
Qed.
End PQOn.
