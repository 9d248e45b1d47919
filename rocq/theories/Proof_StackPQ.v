From Verif Require Import BaseLemmas Spec Trace Proof_Mem Model_Heap Proof_Heap Proof_HeapOps Proof_HeapTotal
  Model_Stack Model_PriorityQueue Spec_Containers.

Section StackProof.
Context {T : Type}.
Variable zero : T.
Variable grow : Z -> Z -> Z.

Definition stack_rel (st : list T) (c : cell T) : Prop :=
  wf_slice (fst c) (snd c) /\ c_contents c = rev st.

Lemma last_rev (t : T) r l n : l = rev (t :: r) -> zlen l = n -> zget l (n - 1) = Some t /\ zsub l 0 (n - 1) = rev r.
Proof.
  intros -> Hn. simpl in *. rewrite zlen_app in Hn. change (zlen [t]) with 1 in Hn.
  split.
  - rewrite zget_app_r by lia. replace (n - 1 - zlen (rev r)) with 0 by lia. reflexivity.
  - unfold zsub. simpl. rewrite firstn_app. replace (Z.to_nat (n - 1 - 0)) with (length (rev r)) by (unfold zlen in Hn; lia).
    rewrite Nat.sub_diag. simpl. rewrite firstn_all. apply app_nil_r.
Qed.

Lemma stack_step_ok st c o : stack_rel st c ->
  fst (stack_step zero grow o c) = fst (stack_spec zero o st) /\
  stack_rel (snd (stack_spec zero o st)) (snd (stack_step zero grow o c)).
Proof.
  destruct c as [m s]. intros [Hwf Hc]. simpl in Hwf. unfold c_contents in Hc. simpl in Hc.
  pose proof (zlen_contents m s Hwf) as Hz. pose proof Hwf as (Q1 & Q2 & Q3 & Q4).
  assert (Hl : s_len s = zlen st) by (rewrite <- Hz, Hc; unfold zlen; now rewrite rev_length).
  destruct o; unfold stack_step, observe.
  - (* Push *)
    unfold Stack_Push. rewrite bind_get_hdr.
    destruct (append_list_ok zero grow s [t] m Hwf) as (s' & m' & Happ & Hwf' & Hc' & _).
    rewrite (bind_Ok _ _ _ _ _ (lift_mem_ok _ m s _ _ Happ)). simpl. split; auto.
    split; auto. unfold c_contents. simpl. rewrite Hc', Hc. reflexivity.
  - (* Pop *)
    unfold Stack_Pop. rewrite bind_get_hdr. destruct st as [|t r].
    + unfold bind. rewrite (lift_mem_panic _ m s m).
      * simpl. split; auto. split; auto.
      * apply sload_panic; auto. apply zget_None. change (zlen []) with 0 in Hl. lia.
    + destruct (last_rev t r _ _ Hc Hz) as [E1 E2].
      rewrite (bind_Ok _ _ _ _ _ (lift_mem_ok _ m s _ _ (sload_ok m s _ _ Hwf E1))).
      rewrite zlen_cons in Hl. pose proof (zlen_nonneg r).
      unfold reslice_to. rewrite reslice_prefix by lia. simpl. split; auto.
      split; [apply wf_prefix; auto; lia|]. unfold c_contents. simpl.
      rewrite contents_prefix by (auto; lia). auto.
  - (* TryPop *)
    unfold Stack_TryPop. rewrite bind_get_hdr. destruct st as [|t r].
    + change (zlen []) with 0 in Hl. rewrite Hl. simpl. split; auto. split; auto.
    + rewrite zlen_cons in Hl. pose proof (zlen_nonneg r).
      destruct (Z.eqb_spec (s_len s) 0); [lia|].
      destruct (last_rev t r _ _ Hc Hz) as [E1 E2].
      rewrite (bind_Ok _ _ _ _ _ (lift_mem_ok _ m s _ _ (sload_ok m s _ _ Hwf E1))).
      unfold reslice_to. rewrite reslice_prefix by lia. simpl. split; auto.
      split; [apply wf_prefix; auto; lia|]. unfold c_contents. simpl.
      rewrite contents_prefix by (auto; lia). auto.
  - (* Top *)
    unfold Stack_Top. rewrite bind_get_hdr. destruct st as [|t r].
    + rewrite (lift_mem_panic _ m s m).
      * simpl. split; auto. split; auto.
      * apply sload_panic; auto. apply zget_None. change (zlen []) with 0 in Hl. lia.
    + destruct (last_rev t r _ _ Hc Hz) as [E1 E2].
      rewrite (lift_mem_ok _ m s _ _ (sload_ok m s _ _ Hwf E1)). simpl. split; auto. split; auto.
  - simpl. rewrite Hl. split; auto. split; auto.
  - simpl. rewrite Hl. split; auto. split; auto.
  - unfold Stack_Clear. rewrite bind_get_hdr. rewrite reslice_prefix by lia. simpl. split; auto.
    split; [apply wf_prefix; auto; lia|]. unfold c_contents. simpl. rewrite contents_empty; auto.
    apply wf_prefix; auto; lia.
Qed.

Lemma stack_run ops st c : stack_rel st c ->
  fst (run (stack_step zero grow) ops c) = fst (run (stack_spec zero) ops st) /\
  stack_rel (snd (run (stack_spec zero) ops st)) (snd (run (stack_step zero grow) ops c)).
Proof. apply run_sim. intros; now apply stack_step_ok. Qed.

Lemma NewStack_run ops m : (0 < length m)%nat ->
  exists s m1, NewStack m = (Ok s, m1) /\
  fst (run (stack_step zero grow) ops (m1, s)) = fst (run (stack_spec zero) ops []).
Proof.
  intros Hm. exists nil_slice, m. split; auto. apply stack_run. split; simpl; auto using wf_nil.
Qed.

Lemma NewStackCap_run cap ops m : 0 <= cap ->
  exists s m1, NewStackCap zero cap m = (Ok s, m1) /\ s_cap s = cap /\
  fst (run (stack_step zero grow) ops (m1, s)) = fst (run (stack_spec zero) ops []).
Proof.
  intros Hc. unfold NewStackCap. destruct (make_slice zero 0 cap m) as [o m1] eqn:E.
  destruct o as [s| |]; try (exfalso; unfold make_slice, alloc in E; destruct ((0 <=? 0) && (0 <=? cap)) eqn:E2; [discriminate|lia]).
  destruct (wf_make _ _ _ _ _ _ E) as (K1 & K2 & K3 & K4 & _).
  exists s, m1. split; auto. split; auto. apply stack_run. split; auto.
Qed.

(** Push within capacity reuses the storage (no reallocation). *)
Lemma Stack_Push_frame t m s : wf_slice m s ->
  exists m' s', Stack_Push zero grow t (m, s) = (Ok tt, (m', s')) /\ append_frame m m' s s' (s_len s + 1).
Proof.
  intros Hwf. unfold Stack_Push. rewrite bind_get_hdr. pose proof Hwf as (Q1 & Q2 & Q3 & Q4).
  destruct (append_list_ok zero grow s [t] m Hwf) as (s' & m' & Happ & Hwf' & Hc' & Hl & Hf).
  change (zlen [t]) with 1 in *.
  rewrite (bind_Ok _ _ _ _ _ (lift_mem_ok _ m s _ _ Happ)). exists m', s'. split; auto.
  split; auto. destruct (Z.leb_spec (s_len s + 1) (s_cap s)).
  - destruct Hf as (F1 & F2 & F3 & F4). do 3 (split; [auto|]).
    subst m'. apply same_except_write_at; auto; change (zlen [t]) with 1; lia.
  - destruct Hf as (F1 & F2 & F3 & F4). split; [auto|]. split; [lia|auto].
Qed.
End StackProof.

Lemma NewStackCap_panic T (zero : T) cap (m : mem T) : cap < 0 -> NewStackCap zero cap m = (Panic, m).
Proof. intros. unfold NewStackCap, make_slice. replace (0 <=? cap) with false by lia. reflexivity. Qed.


Section PQProof.
Context {T : Type}.
Variable less : T -> T -> bool.
Hypothesis SW : strict_weak less.
Variable zero : T.
Variable grow : Z -> Z -> Z.

Definition pushes (ops : list (pq_op T)) : Z :=
  zlen (filter (fun o => match o with PPush _ => true | _ => false end) ops).

Definition pq_rel (bag : list T) (q : PriorityQueue T) : Prop :=
  let '(m, h) := pq_heap q in
  wf_slice m h /\ min_heap less (contents m h) /\ Permutation (contents m h) bag /\
  (pq_impl q = pqOrdered less \/ pq_impl q = pqFunc less).

Lemma perm_zlen (l l' : list T) : Permutation l l' -> zlen l = zlen l'.
Proof. intros H. unfold zlen. now rewrite (Permutation_length H). Qed.

Lemma pq_step_ok bag q o : pq_rel bag q -> zlen bag <= max_int ->
  exists bag', pq_spec less bag o (fst (pq_step zero grow o q)) bag' /\
    pq_rel bag' (snd (pq_step zero grow o q)).
Proof.
  destruct q as [[m h] im]. intros (Hwf & Hh & Hp & Him) Hmax. simpl in Him.
  pose proof (zlen_contents m h Hwf) as Hz. pose proof (perm_zlen _ _ Hp) as Hbl.
  pose proof Hwf as (Q1 & Q2 & Q3 & Q4).
  assert (Hmin : forall x, zget (contents m h) 0 = Some x -> is_min less x bag).
  { intros x Hx. split.
    - rewrite <- Hp. apply in_zget. exists 0. split; auto. apply zget_Some_range in Hx. auto.
    - intros y Hy. apply (heap_root_min less SW (contents m h)); auto. now rewrite Hp. }
  assert (Hempty : s_len h = 0 -> bag = []).
  { intros E. rewrite (contents_empty m h Hwf E) in Hp. now apply Permutation_nil in Hp. }
  destruct o; unfold pq_step, observe.
  - (* Push *)
    destruct (PushHeapFunc_ok less SW zero grow v m h Hwf Hh) as (m' & h' & Hr & Hwf' & Hh' & Hp' & _).
    exists (v :: bag). unfold PQ_Push, on_heap. simpl.
    assert (Hr2 : PushMinHeap zero grow less v (m, h) = (Ok tt, (m', h'))) by (rewrite PushMinHeap_eq; auto).
    destruct Him as [-> | ->]; rewrite ?Hr, ?Hr2; simpl; (split; [auto|]);
      (split; [auto|split; [auto|split; [rewrite Hp', Hp; auto|auto]]]).
  - (* Pop *)
    destruct (Z.eq_dec (s_len h) 0) as [E|E].
    + pose proof (PopHeapFunc_panic less m h Hwf E) as Hr.
      assert (Hr2 : PopMinHeap less (m, h) = (Panic, (m, h))) by (rewrite PopMinHeap_eq; auto).
      exists []. rewrite (Hempty E) in *. unfold PQ_Pop, on_heap. simpl.
      destruct Him as [-> | ->]; rewrite ?Hr, ?Hr2; simpl; (split; [auto|]); repeat (split; auto).
    + destruct (PopHeapFunc_ok less SW m h Hwf Hh ltac:(lia)) as (x & m' & h' & Hr & Hx & Hwf' & Hh' & Hp' & _).
      assert (Hr2 : PopMinHeap less (m, h) = (Ok x, (m', h'))) by (rewrite PopMinHeap_eq; auto).
      exists (contents m' h'). unfold PQ_Pop, on_heap. simpl.
      destruct Him as [-> | ->]; rewrite ?Hr, ?Hr2; simpl;
        (split; [right; exists x; split; [auto|split; [auto|rewrite Hp', Hp; auto]]|]);
        (split; [auto|split; [auto|split; auto]]).
  - (* Top *)
    unfold PQ_Top, on_heap. cbn [pq_heap pq_impl]. rewrite bind_get_hdr. exists bag.
    destruct (Z.eq_dec (s_len h) 0) as [E|E].
    + rewrite (lift_mem_panic _ m h m) by (apply sload_panic; auto; apply zget_None; lia).
      simpl. split; [split; auto|]. repeat (split; auto).
    + destruct (zget_range (contents m h) 0) as [x Hx]; [lia|].
      rewrite (lift_mem_ok _ m h _ _ (sload_ok m h _ _ Hwf Hx)). simpl.
      split; [split; eauto|]. repeat (split; auto).
  - exists bag. simpl. rewrite <- Hbl, Hz. split; auto. repeat (split; auto).
  - exists bag. simpl. rewrite <- Hbl, Hz. split; auto. repeat (split; auto).
  - exists []. unfold PQ_Clear, on_heap. cbn [pq_heap pq_impl]. rewrite bind_get_hdr.
    rewrite reslice_prefix by lia. simpl. split; auto.
    assert (Hwf' : wf_slice m (mkSlice (s_arr h) (s_off h) 0 (s_cap h))) by (apply wf_prefix; auto; lia).
    unfold pq_rel. simpl. rewrite (contents_empty m _ Hwf' eq_refl). split; auto. split; auto.
    intros c a b _ Ha. pose proof (zget_Some_range _ _ _ Ha) as K. change (zlen (@nil T)) with 0 in K. lia.
Qed.

Lemma pq_run ops : forall bag q, pq_rel bag q -> zlen bag + pushes ops <= max_int ->
  exists bag', accepts (pq_spec less) bag ops (fst (run (pq_step zero grow) ops q)) bag' /\
    pq_rel bag' (snd (run (pq_step zero grow) ops q)).
Proof.
  induction ops as [|o ops IH]; intros bag q HR Hm.
  - exists bag. split; [constructor|auto].
  - assert (Hpn : 0 <= pushes ops) by apply zlen_nonneg.
    assert (Hpo : pushes (o :: ops) = (match o with PPush _ => 1 | _ => 0 end) + pushes ops).
    { unfold pushes. simpl. destruct o; rewrite ?zlen_cons; lia. }
    destruct (pq_step_ok bag q o HR) as (b1 & Hs & HR1); [destruct o; lia|].
    destruct (IH b1 _ HR1) as (b2 & Ha & HR2).
    { assert (zlen b1 <= zlen bag + (match o with PPush _ => 1 | _ => 0 end)).
      { destruct o; simpl in Hs.
        - destruct Hs as [_ Hs]. apply perm_zlen in Hs. rewrite zlen_cons in Hs. lia.
        - destruct Hs as [(-> & _ & ->)|(x & _ & _ & Hs)]; [lia|]. apply perm_zlen in Hs. rewrite zlen_cons in Hs. lia.
        - destruct Hs as [Hs _]. apply perm_zlen in Hs. lia.
        - destruct Hs as [_ Hs]. apply perm_zlen in Hs. lia.
        - destruct Hs as [_ Hs]. apply perm_zlen in Hs. lia.
        - destruct Hs as [_ ->]. pose proof (zlen_nonneg bag). change (zlen (@nil T)) with 0. lia. }
      lia. }
    exists b2. simpl. destruct (pq_step zero grow o q) as [r s1]. simpl in *.
    destruct (run (pq_step zero grow) ops s1) as [rs s2]. simpl in *. split; auto. econstructor; eauto.
Qed.

Lemma empty_heap (l : list T) : l = [] -> min_heap less l.
Proof. intros -> c a b _ Ha. pose proof (zget_Some_range _ _ _ Ha) as K. change (zlen (@nil T)) with 0 in K. lia. Qed.

Lemma NewPQ_run ops m : (0 < length m)%nat -> pushes ops <= max_int ->
  (exists bag', accepts (pq_spec less) [] ops (fst (run (pq_step zero grow) ops (NewPriorityQueue less m))) bag') /\
  (exists bag', accepts (pq_spec less) [] ops (fst (run (pq_step zero grow) ops (NewPriorityQueueFunc less m))) bag').
Proof.
  intros Hm Hp. split.
  - destruct (pq_run ops [] (NewPriorityQueue less m)) as (b & Ha & _); eauto.
    split; [apply wf_nil; auto|]. split; [now apply empty_heap|]. auto.
  - destruct (pq_run ops [] (NewPriorityQueueFunc less m)) as (b & Ha & _); eauto.
    split; [apply wf_nil; auto|]. split; [now apply empty_heap|]. auto.
Qed.

Lemma NewPQOn_run ops m s : wf_slice m s -> s_len s + pushes ops <= max_int ->
  exists q bag', NewPriorityQueueOn less s m = Ok q /\ NewPriorityQueueOf less s m = Ok q /\
    accepts (pq_spec less) (contents m s) ops (fst (run (pq_step zero grow) ops q)) bag' /\
    snd (pq_heap q) = s /\ min_heap less (contents (fst (pq_heap q)) s) /\
    same_except m (fst (pq_heap q)) (s_arr s) (s_off s) (s_off s + s_len s).
Proof.
  intros Hwf Hmax. unfold NewPriorityQueueOf, NewPriorityQueueOn.
  assert (0 <= pushes ops) by apply zlen_nonneg.
  destruct (MakeHeap_mem T less m s SW Hwf ltac:(lia)) as (m' & Hr & Hwf' & Hh & Hp & Hf).
  assert (Hr2 : on_slice s (MakeMinHeap less) m = (Ok tt, m')) by exact Hr.
  rewrite Hr2.
  destruct (pq_run ops (contents m s) (mkPQ (m', s) (pqOrdered less))) as (b & Ha & _).
  - split; auto.
  - rewrite zlen_contents by auto. auto.
  - exists (mkPQ (m', s) (pqOrdered less)), b. do 5 (split; [auto|]). auto.
Qed.

(** Pop returns what Top shows. *)
Lemma pq_top_pop bag q : pq_rel bag q -> zlen bag <= max_int ->
  fst (pq_step zero grow PTop q) = fst (pq_step zero grow PPop q).
Proof.
  destruct q as [[m h] im]. intros (Hwf & Hh & Hp & Him) Hmax. simpl in Him.
  pose proof (zlen_contents m h Hwf) as Hz. pose proof (perm_zlen _ _ Hp) as Hbl.
  pose proof Hwf as (Q1 & Q2 & Q3 & Q4).
  unfold pq_step, observe, PQ_Top, PQ_Pop, on_heap. cbn [pq_heap pq_impl]. rewrite bind_get_hdr.
  destruct (Z.eq_dec (s_len h) 0) as [E|E].
  - rewrite (lift_mem_panic _ m h m) by (apply sload_panic; auto; apply zget_None; lia).
    pose proof (PopHeapFunc_panic less m h Hwf E) as Hr.
    assert (Hr2 : PopMinHeap less (m, h) = (Panic, (m, h))) by (rewrite PopMinHeap_eq; auto).
    destruct Him as [-> | ->]; rewrite ?Hr, ?Hr2; reflexivity.
  - destruct (PopHeapFunc_ok less SW m h Hwf Hh ltac:(lia)) as (x & m' & h' & Hr & Hx & _).
    assert (Hr2 : PopMinHeap less (m, h) = (Ok x, (m', h'))) by (rewrite PopMinHeap_eq; auto).
    rewrite (lift_mem_ok _ m h _ _ (sload_ok m h _ _ Hwf Hx)).
    destruct Him as [-> | ->]; rewrite ?Hr, ?Hr2; reflexivity.
Qed.

Lemma pushes_bound ops : forall bag rs bag',
  accepts (pq_spec less) bag ops rs bag' -> zlen bag' <= zlen bag + pushes ops.
Proof.
  induction ops as [|o ops IH]; intros bag rs bag' H.
  - apply accepts_nil_inv in H. destruct H as [_ ->]. change (pushes []) with 0. lia.
  - apply accepts_cons_inv in H. destruct H as (r & a1 & rs' & _ & H4 & H6). specialize (IH _ _ _ H6).
    assert (Hpo : pushes (o :: ops) = (match o with PPush _ => 1 | _ => 0 end) + pushes ops).
    { unfold pushes. simpl. destruct o; rewrite ?zlen_cons; lia. }
    assert (zlen a1 <= zlen bag + (match o with PPush _ => 1 | _ => 0 end)).
    { destruct o; simpl in H4.
      - destruct H4 as [_ Hs]. apply perm_zlen in Hs. rewrite zlen_cons in Hs. lia.
      - destruct H4 as [(-> & _ & ->)|(x & _ & _ & Hs)]; [lia|]. apply perm_zlen in Hs. rewrite zlen_cons in Hs. lia.
      - destruct H4 as [Hs _]. apply perm_zlen in Hs. lia.
      - destruct H4 as [_ Hs]. apply perm_zlen in Hs. lia.
      - destruct H4 as [_ Hs]. apply perm_zlen in Hs. lia.
      - destruct H4 as [_ ->]. pose proof (zlen_nonneg bag). change (zlen (@nil T)) with 0. lia. }
    lia.
Qed.

Lemma pq_top_pop_reach ops m : (0 < length m)%nat -> pushes ops <= max_int ->
  let q := snd (run (pq_step zero grow) ops (NewPriorityQueue less m)) in
  let qf := snd (run (pq_step zero grow) ops (NewPriorityQueueFunc less m)) in
  fst (pq_step zero grow PTop q) = fst (pq_step zero grow PPop q) /\
  fst (pq_step zero grow PTop qf) = fst (pq_step zero grow PPop qf).
Proof.
  intros Hm Hp q qf. split.
  - destruct (pq_run ops [] (NewPriorityQueue less m)) as (b & Ha & HR); auto.
    { split; [apply wf_nil; auto|]. split; [now apply empty_heap|]. auto. }
    apply (pq_top_pop b); auto. apply pushes_bound in Ha. change (zlen (@nil T)) with 0 in Ha. lia.
  - destruct (pq_run ops [] (NewPriorityQueueFunc less m)) as (b & Ha & HR); auto.
    { split; [apply wf_nil; auto|]. split; [now apply empty_heap|]. auto. }
    apply (pq_top_pop b); auto. apply pushes_bound in Ha. change (zlen (@nil T)) with 0 in Ha. lia.
Qed.
End PQProof.
