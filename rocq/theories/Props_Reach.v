(** C97: what stays reachable of the elements a container no longer has. *)
From Verif Require Import BaseLemmas Spec Trace Spec_List Spec_Map Nodes Spec_Reach Proof_Mem Proof_Reach Spec_Heap Model_Heap Model_Stack Model_PriorityQueue Model_Vector Spec_Client Spec_VecClient Model_VecClient Proof_VecClient Proof_VecLoop.
From Verif Require Model_SList Proof_SList Model_DList Proof_DList Model_DListQueue Props_DList Model_SkipList Proof_SkipList Proof_Map Props_SkipList Props_Heap Props_VecClient.
Local Arguments zlen : simpl never.

(** SList: exactly the nodes of its elements can be reached from it. *)
Theorem C97_SList : forall T St (zero : T) h0 (ops : list (sop T St)),
  let s := snd (run (Model_SList.slist_step zero) ops (h0, Model_SList.empty_slist)) in
  keeps_only slinks Model_SList.s_value (fst s) [Model_SList.s_head (snd s); Model_SList.s_tail (snd s)] [] (snd (run slist_spec ops [])).
Proof. intros T St zero h0 ops. cbn zeta. eapply s_keeps. apply (Proof_SList.run_ok zero (nth_error h0) ops [] _ (Proof_SList.Rel_init h0)). Qed.
Print Assumptions C97_SList.
(** DList and DListQueue: the nodes of the elements and the head node, once there is one. *)
Theorem C97_DList : forall T St (zero : T) h0 (ops : list (dop T St)),
  let s := snd (run (Model_DList.dlist_step zero) ops (h0, Model_DList.empty_dlist)) in let head := [Model_DList.d_head (snd s)] in
  keeps_only dlinks Model_DList.d_value (fst s) head head (snd (run (dlist_spec zero) ops [])).
Proof. intros T St zero h0 ops. cbn zeta. eapply d_keeps. apply (Proof_DList.run_ok zero (nth_error h0) ops [] _ (Proof_DList.Rel_init h0)). Qed.
Print Assumptions C97_DList.
Theorem C97_DListQueue : forall T (zero : T) h0 (ops : list (qop T)),
  let s := snd (run (Model_DListQueue.queue_step zero) ops (h0, Model_DListQueue.NewDListQueue)) in let head := [Model_DList.d_head (Model_DListQueue.q_list (snd s))] in
  keeps_only dlinks Model_DList.d_value (fst s) head head (snd (run (queue_spec zero) ops [])).
Proof.
  intros T zero h0 ops. cbn zeta. destruct (Props_DList.queue_sim zero h0 ops [] _ (Props_DList.QRel_init h0)) as [_ R]. exact (d_keeps _ _ _ R).
Qed.
Print Assumptions C97_DListQueue.
(** SkipList: from the head node, that and the nodes of the current pairs ... *)
Theorem C97_SkipList_head : forall K V St (impl : @Model_SkipList.slimpl K V) lt (zk : K) (zv : V) h0 l0 (ops : list (mop K V St)), Model_SkipList.kind impl lt ->
  let s := Props_SkipList.after impl ops (Props_SkipList.fresh zk zv h0 l0) in let head := [Model_SkipList.sl_head (snd s)] in
  keeps_only Model_SkipList.n_next pair_of (fst s) head head (snd (run (map_spec lt) ops [])).
Proof.
  intros K V St impl lt zk zv h0 l0 ops Hk. cbn zeta. destruct (Props_SkipList.reach_Rel impl lt Hk zk zv h0 l0 ops) as (hd & ps & <- & R & _). exact (rep_keeps _ _ _ _ R).
Qed.
Print Assumptions C97_SkipList_head.
(** ... but prevsCache keeps others: after Remove of a key that is not there and
    Clear, every pair with a greater key is still reachable from the empty list,
    if there was a pair with a smaller one. *)
Theorem C97_SkipList_leak : forall K V St (impl : @Model_SkipList.slimpl K V) lt (zk : K) (zv : V) h0 l0 (ops : list (mop K V St)) k p0, Model_SkipList.kind impl lt ->
  let m := snd (run (map_spec lt) ops []) in has lt k m = false -> In p0 m -> lt (fst p0) k = true ->
  let s := Props_SkipList.after impl (ops ++ [MRemove k; MClear]) (Props_SkipList.fresh zk zv h0 l0) in
  fst (Model_SkipList.Len s) = Ok 0 /\
  forall p, In p m -> lt k (fst p) = true -> exists a,
    reach Model_SkipList.n_next (fst s) (Model_SkipList.sl_head (snd s) :: Model_SkipList.sl_prevs (snd s)) a /\ option_map pair_of (nth_error (fst s) a) = Some p.
Proof.
  intros K V St impl lt zk zv h0 l0 ops k p0 Hk. cbn zeta. intros Hn I0 L0. pose proof (Props_SkipList.reach_Rel impl lt Hk zk zv h0 l0 ops) as R.
  pose proof (Props_SkipList.reach_Rel impl lt Hk zk zv h0 l0 (ops ++ [MRemove k; MClear])) as R2. set (s := Props_SkipList.after impl (ops ++ _) _) in *.
  split; [rewrite (Props_SkipList.call_len _ _ Hk _ _ _ R2), run_app; destruct (run (map_spec lt) ops []); reflexivity|].
  assert (Es : s = snd (Model_SkipList.Clear (snd (Model_SkipList.Remove impl k (Props_SkipList.after impl ops (Props_SkipList.fresh zk zv h0 l0)))))).
  { unfold s, Props_SkipList.after. rewrite run_app. destruct (run (Model_SkipList.map_step impl) ops _) as [rs s1]. cbn [run Model_SkipList.map_step snd]. unfold show.
    destruct (Model_SkipList.Remove impl k s1) as [r s2]. cbn [snd]. destruct (Model_SkipList.Clear s2) as [r2 s3]. reflexivity. }
  rewrite Es. exact (remove_clear impl lt Hk _ _ _ k p0 R Hn I0 L0).
Qed.
Print Assumptions C97_SkipList_leak.

(** Vector: every slot behind the last element holds the zero value, if it did at
    first, after any calls and any use of iterators but writing through them. *)
Definition clean {T} (zero : T) (w : vworld T) : Prop := forall j, vw_len w <= j < room w -> zget (vw_now w) j = Some zero.
Lemma clean_keep {T} (zero : T) w l : wok w -> zlen l <= room w -> clean zero w -> clean zero (keep zero w l).
Proof.
  intros H Hl C j Hj. rewrite keep_len in Hj. pose proof (zlen_nonneg l). rewrite zget_keep by (auto; lia).
  destruct (Z.ltb_spec j (zlen l)); [lia|]. destruct (Z.ltb_spec j (vw_len w)); auto. apply C.
  assert (E : room (keep zero w l) = room w). { clear C Hj. unfold wok in H. unfold room in *. unfold keep, room. cbn [vw_now]. rewrite !zlen_app, zlen_repeat, zlen_zsub by lia. lia. }
  lia.
Qed.
Lemma clean_move {T} (zero : T) w l c : clean zero (move zero w l c).
Proof.
  intros j Hj. unfold move, room in *. cbn [vw_now vw_len] in *. rewrite zlen_app, zlen_repeat in Hj. pose proof (zlen_nonneg l). rewrite zget_app_r by lia. apply zget_rep. lia.
Qed.
Lemma clean_put {T} (zero : T) w l c : wok w -> clean zero w -> clean zero (put zero w l c).
Proof. intros H C. unfold put. destruct (Z.leb_spec (zlen l) (room w)); [now apply clean_keep|apply clean_move]. Qed.
Lemma zlen_filter_le {T} (p : T -> bool) (l : list T) : zlen (filter p l) <= zlen l.
Proof. unfold zlen. induction l as [|x l IH]; cbn [filter length]; [lia|]. destruct (p x); cbn [length]; lia. Qed.
Lemma clean_step {T} (zero : T) grow (o : vec_op T) w : wok w -> clean zero w -> clean zero (snd (vw_step zero grow o w)).
Proof.
  intros H C. pose proof (zlen_elems w H) as Ze. pose proof (fun l Hl => clean_keep zero w l H Hl C) as Kp. pose proof (fun l c => clean_put zero w l c H C) as Pt. pose proof H as H'. unfold wok in H'.
  destruct o as [x|xs|i xs| | | |i|i x|i|i j|i k|p| | | |r|]; cbn [vw_step snd] in *; unfold removed;
    repeat match goal with |- context [if (?a && ?b && ?c) then _ else _] => destruct (Z.leb_spec 0 i); cbn [andb]; [|exact C] | |- context [match zget ?l ?i with _ => _ end] => destruct (zget l i) eqn:?G end; cbn [snd]; auto.
  - destruct (_ && _); cbn [snd]; auto.
  - apply Kp. apply zget_Some_range in G. rewrite zlen_zsub; lia.
  - apply Kp. apply zget_Some_range in G. rewrite zlen_zsub; lia.
  - apply Kp. rewrite zlen_zupd. lia.
  - destruct (Z.leb_spec i (i + 1)); cbn [andb]; [|exact C]. destruct (Z.leb_spec (i + 1) (vw_len w)); cbn [snd]; [|exact C]. apply Kp. rewrite zlen_app, !zlen_zsub; lia.
  - destruct (Z.leb_spec i j); cbn [andb]; [|exact C]. destruct (Z.leb_spec j (vw_len w)); cbn [snd]; [|exact C]. apply Kp. rewrite zlen_app, !zlen_zsub; lia.
  - destruct (Z.leb_spec i (i + k)); cbn [andb]; [|exact C]. destruct (Z.leb_spec (i + k) (vw_len w)); cbn [snd]; [|exact C]. apply Kp. rewrite zlen_app, !zlen_zsub; lia.
  - apply Kp. pose proof (zlen_filter_le (fun x => negb (p x)) (elems w)). lia.
  - apply Kp. change (zlen (@nil T)) with 0. lia.
  - destruct (_ <? _); auto. apply clean_move.
  - destruct (_ <? _); auto. apply clean_move.
Qed.
Theorem C97_Vector : forall T (zero : T) grow m s (ops : list (Props_VecClient.vop T)), wf_slice m s -> s_len s <= max_int -> clean_behind zero m s -> Forall no_store ops ->
  let c := fst (Props_VecClient.v_after zero grow ops (m, s, [])) in clean_behind zero (fst c) (snd c).
Proof.
  intros T zero grow m s ops W Hm Hc F. cbn zeta. destruct (run_sim zero grow m s ops [full s] (m, s, []) (mkVW (cap_contents m s) (s_len s) [], [])) as (_ & k & _ & R); [split; [now apply Rs_init|constructor]|].
  assert (C : clean zero (fst (snd (run (client (vw_spec zero grow)) ops (mkVW (cap_contents m s) (s_len s) [], []))))).
  { apply (run_inv zero grow m s no_store (clean zero) ops F) with (k := [full s]) (c := (m, s, [])); [|split; [now apply Rs_init|constructor]|].
    - intros o w vs N H C. rewrite client_world by exact N. destruct o as [[o|]| | | | | | ]; auto. destruct (in_scope _ _ o); auto. now apply clean_step.
    - intros j Hj. unfold room in Hj. cbn [fst vw_now vw_len] in *. rewrite Hc in *. pose proof (zlen_contents m s W) as Zc. rewrite zlen_app, zlen_repeat in Hj. rewrite zget_app_r by lia. apply zget_rep. lia. }
  fold (Props_VecClient.v_after zero grow ops (m, s, [])) in R. destruct (Props_VecClient.v_after zero grow ops (m, s, [])) as [[m' s'] its]. destruct (snd (run (client (vw_spec zero grow)) ops _)) as [w vs]. destruct R as [R _]. cbn [fst snd] in *.
  pose proof (Rs_wf _ _ _ _ _ _ R) as W'. pose proof (Rs_len _ _ _ _ _ _ R) as L. pose proof (Rs_room _ _ _ _ _ _ R) as Rm. pose proof (Rs_now _ _ _ _ _ _ R) as Nw. pose proof (Rs_elems _ _ _ _ _ _ R) as El. pose proof W' as (W1 & W2 & W3 & W4).
  unfold clean_behind. rewrite <- El. rewrite cap_full. change (mkSlice (s_arr s') (s_off s') (s_cap s') (s_cap s')) with (full s'). rewrite Nw. unfold elems. rewrite <- L. unfold clean in C. rewrite <- L, Rm in C. unfold room in Rm.
  apply zlist_eq. intros j Hj. destruct (Z.ltb_spec j (s_len s')) as [Lj|Lj].
  - rewrite zget_app_l by (rewrite zlen_zsub; lia). rewrite zget_zsub by lia. destruct (Z.ltb_spec j (s_len s' - 0)); [|lia]. f_equal.
  - rewrite zget_app_r by (rewrite zlen_zsub; lia). rewrite zlen_zsub by lia. destruct (Z.ltb_spec j (s_cap s')).
    + rewrite (C j) by lia. symmetry. apply zget_rep. lia.
    + transitivity (@None T); [|symmetry]; apply zget_None; rewrite ?zlen_repeat; lia.
Qed.
Print Assumptions C97_Vector.

Lemma zsub_one {T} (l : list T) i x : 0 <= i -> zget l i = Some x -> zsub l i (i + 1) = [x].
Proof.
  intros Hi G. pose proof (zget_Some_range _ _ _ G). apply zlist_eq. intros j Hj. rewrite zget_zsub by lia. destruct (Z.ltb_spec j (i + 1 - i)).
  - assert (j = 0) as -> by lia. now rewrite Z.add_0_r, G.
  - symmetry. apply zget_None. unfold zlen. cbn. lia.
Qed.
Lemma contents_snoc {T} (m : mem T) s x : wf_slice m s -> zget (contents m s) (s_len s - 1) = Some x ->
  contents m s = contents m (mkSlice (s_arr s) (s_off s) (s_len s - 1) (s_cap s)) ++ [x].
Proof.
  intros W G. pose proof (zget_Some_range _ _ _ G) as Hr. pose proof (zlen_contents m s W) as Zc. pose proof W as (W1 & W2 & W3 & W4).
  unfold contents, arr_of in *. cbn [s_arr s_off s_len] in *. set (l := nth (s_arr s) m []) in *. rewrite zget_zsub in G by lia. destruct (_ <? _) in G; [|discriminate].
  rewrite (zsub_split l (s_off s) (s_off s + (s_len s - 1)) (s_off s + s_len s)) by lia. f_equal.
  replace (s_off s + s_len s) with (s_off s + (s_len s - 1) + 1) by lia. apply zsub_one; [lia|exact G].
Qed.
(** Stack, the heap functions and PriorityQueue keep what they give back: it stays
    in the slot behind the last element; Clear keeps everything. *)
Theorem C97_Stack_keeps : forall T (zero : T) m s, wf_slice m s ->
  (forall x m' s', Stack_Pop (m, s) = (Ok x, (m', s')) -> m' = m /\ contents m s = contents m s' ++ [x]) /\
  (forall x m' s', Stack_TryPop zero (m, s) = (Ok (x, true), (m', s')) -> m' = m /\ contents m s = contents m s' ++ [x]) /\
  exists s', Stack_Clear (m, s) = (Ok tt, (m, s')) /\ cap_contents m s' = cap_contents m s.
Proof.
  intros T zero m s W. assert (P : forall x c', (t <- lift_mem (sload s (s_len s - 1)) ;; s' <- lift_o (reslice_to s (s_len s - 1)) ;; set_hdr s' ;; ret t) (m, s) = (Ok x, c') -> fst c' = m /\ contents m s = contents m (snd c') ++ [x]).
  { intros x c' H. destruct (zget (contents m s) (s_len s - 1)) as [y|] eqn:G.
    - rewrite (bind_Ok _ _ _ _ _ (lift_mem_ok _ m s _ _ (sload_ok m s _ _ W G))) in H. pose proof (zget_Some_range _ _ _ G) as Hr. pose proof (zlen_contents m s W) as Zc. pose proof W as (W1 & W2 & W3 & W4).
      unfold bind, lift_o, reslice_to, reslice in H. destruct (_ && _) eqn:Q in H; [|lia]. cbn in H. injection H as <- <-. split; [reflexivity|]. cbn [snd].
      rewrite (contents_snoc m s y W G) at 1. do 2 f_equal. f_equal; lia.
    - unfold bind in H. unfold lift_mem in H at 1. cbn [fst snd] in H. rewrite (sload_panic m s _ W G) in H. discriminate. }
  split; [|split].
  - intros x m' s' H. unfold Stack_Pop in H. rewrite bind_get_hdr in H. exact (P x _ H).
  - intros x m' s' H. unfold Stack_TryPop in H. rewrite bind_get_hdr in H. destruct (s_len s =? 0); [discriminate|]. apply (P x (m', s')).
    unfold bind in *. destruct (lift_mem _ _) as [[y| |] c1]; try discriminate. destruct (lift_o _ c1) as [[s1| |] c2]; try discriminate. destruct (set_hdr s1 c2) as [[[]| |] c3]; try discriminate. unfold ret in *. congruence.
  - exists (mkSlice (s_arr s) (s_off s) 0 (s_cap s)). unfold Stack_Clear. rewrite bind_get_hdr. unfold bind, lift_o, reslice. destruct W as (W1 & W2 & W3 & W4). destruct (_ && _) eqn:Q; [|lia]. cbn. rewrite Z.add_0_r, Z.sub_0_r. split; reflexivity.
Qed.
Print Assumptions C97_Stack_keeps.
Theorem C97_heap_keeps : forall T (less : T -> T -> bool), strict_weak less -> forall m h, wf_slice m h -> min_heap less (contents m h) -> 0 < s_len h <= max_int ->
  (exists x m' h', PopMinHeap less (m, h) = (Ok x, (m', h')) /\ contents m' h = contents m' h' ++ [x]) /\
  (exists x m' h', PopHeapFunc less (m, h) = (Ok x, (m', h')) /\ contents m' h = contents m' h' ++ [x]) /\
  forall i, 0 <= i < s_len h ->
  (exists x m' h', RemoveMinHeap less i (m, h) = (Ok x, (m', h')) /\ contents m' h = contents m' h' ++ [x]) /\
  (exists x m' h', RemoveHeapFunc i less (m, h) = (Ok x, (m', h')) /\ contents m' h = contents m' h' ++ [x]).
Proof.
  intros T less SW m h W Hh Hl. pose proof W as (W1 & W2 & W3 & W4).
  assert (Fin : forall (x : T) m' h' c, lift_mem (on_slice h (wload (s_len h - 1))) c = (Ok x, (m', h')) -> wf_slice m' h' -> h' = mkSlice (s_arr h) (s_off h) (s_len h - 1) (s_cap h) -> contents m' h = contents m' h' ++ [x]).
  { intros x m' h' c E W' Eh. assert (Wh : wf_slice m' h) by (subst h'; destruct W' as (V1 & V2 & V3 & V4); unfold wf_slice, arr_of in *; cbn in *; lia).
    rewrite Eh. apply contents_snoc; [exact Wh|]. eapply final_load; eauto. }
  split; [|split].
  - destruct (Props_Heap.C35_PopMinHeap T less SW m h W Hh Hl) as (x & m' & h' & E & _ & W' & _ & _ & Eh & _). exists x, m', h'. split; [exact E|]. unfold PopMinHeap in E. rewrite bind_get_hdr in E. cbv zeta in E.
    do 4 (apply bind_inv in E as (? & ? & _ & E)). eapply Fin; eauto.
  - destruct (Props_Heap.C35_PopHeapFunc T less SW m h W Hh Hl) as (x & m' & h' & E & _ & W' & _ & _ & Eh & _). exists x, m', h'. split; [exact E|]. unfold PopHeapFunc in E. rewrite bind_get_hdr in E. cbv zeta in E.
    do 4 (apply bind_inv in E as (? & ? & _ & E)). eapply Fin; eauto.
  - intros i Hi. split.
    + destruct (Props_Heap.C36_RemoveMinHeap T less SW i m h W Hh Hi ltac:(lia)) as (x & m' & h' & E & _ & W' & _ & _ & Eh & _). exists x, m', h'. split; [exact E|]. unfold RemoveMinHeap in E. rewrite bind_get_hdr in E. cbv zeta in E.
      do 3 (apply bind_inv in E as (? & ? & _ & E)). eapply Fin; eauto.
    + destruct (Props_Heap.C36_RemoveHeapFunc T less SW i m h W Hh Hi ltac:(lia)) as (x & m' & h' & E & _ & W' & _ & _ & Eh & _). exists x, m', h'. split; [exact E|]. unfold RemoveHeapFunc in E. rewrite bind_get_hdr in E. cbv zeta in E.
      do 3 (apply bind_inv in E as (? & ? & _ & E)). eapply Fin; eauto.
Qed.
Print Assumptions C97_heap_keeps.
Theorem C97_PriorityQueue_Clear_keeps : forall T (q : PriorityQueue T), let (m, s) := pq_heap q in wf_slice m s ->
  exists s', PQ_Clear q = (Ok tt, mkPQ (m, s') (pq_impl q)) /\ s_len s' = 0 /\ cap_contents m s' = cap_contents m s.
Proof.
  intros T [[m s] impl]. cbn [pq_heap]. intros W. exists (mkSlice (s_arr s) (s_off s) 0 (s_cap s)). unfold PQ_Clear, on_heap. cbn [pq_heap pq_impl]. rewrite bind_get_hdr. unfold bind, lift_o, reslice.
  destruct W as (W1 & W2 & W3 & W4). destruct (_ && _) eqn:Q; [|lia]. cbn. rewrite Z.add_0_r, Z.sub_0_r. auto.
Qed.
Print Assumptions C97_PriorityQueue_Clear_keeps.

(** Expected: a container keeps nothing of what it no longer contains. *)
Definition C97_expected_Stack : Prop := forall T (zero : T) grow m (ops : list (stack_op T)),
  let c := snd (run (stack_step zero grow) ops (m, nil_slice)) in clean_behind zero (fst c) (snd c).
Definition C97_expected_PriorityQueue : Prop := forall T (zero : T) grow ltb m (ops : list (pq_op T)), strict_weak ltb ->
  let c := pq_heap (snd (run (pq_step zero grow) ops (NewPriorityQueue ltb m))) in clean_behind zero (fst c) (snd c).
Definition C97_expected_SkipList : Prop := forall K V St (impl : @Model_SkipList.slimpl K V) lt (zk : K) (zv : V) h0 l0 (ops : list (mop K V St)), Model_SkipList.kind impl lt ->
  let s := Props_SkipList.after impl ops (Props_SkipList.fresh zk zv h0 l0) in let head := Model_SkipList.sl_head (snd s) in
  keeps_only Model_SkipList.n_next pair_of (fst s) (head :: Model_SkipList.sl_prevs (snd s)) [head] (snd (run (map_spec lt) ops [])).
Lemma Zordered : ordered Z.ltb Z.eqb.
Proof. split; [exact Z_ltb_strict_weak|]. intros a b. unfold eqv. destruct (Z.ltb_spec a b), (Z.ltb_spec b a), (Z.eqb_spec a b); auto; lia. Qed.
Theorem C97_refuted : ~ C97_expected_Stack /\ ~ C97_expected_PriorityQueue /\ ~ C97_expected_SkipList.
Proof.
  split; [|split].
  - intros H. specialize (H Z 0 (fun c n => n) [[]] [SPush 7; SPop]). vm_compute in H. discriminate.
  - intros H. specialize (H Z 0 (fun c n => n) Z.ltb [[]] [PPush 7; PPush 8; PPop] Z_ltb_strict_weak). vm_compute in H. discriminate.
  - intros H. set (ops := [MInsert 1 10 0; MInsert 3 30 0] : list (mop Z Z unit)). set (impl := Model_SkipList.implOrdered (V := Z) Z.ltb Z.eqb).
    assert (Hk : Model_SkipList.kind impl Z.ltb) by (left; exists Z.eqb; split; [reflexivity|exact Zordered]).
    destruct (C97_SkipList_leak Z Z unit impl Z.ltb 0 0 [] (Model_SkipList.mkSL 0 0 None []) ops 2 (1, 10) Hk eq_refl (or_introl eq_refl) eq_refl) as [_ L].
    destruct (L (3, 30)) as (a & R & E); [vm_compute; auto|reflexivity|].
    specialize (H Z Z unit impl Z.ltb 0 0 [] (Model_SkipList.mkSL 0 0 None []) (ops ++ [MRemove 2; MClear]) Hk). cbn zeta in H. destruct H as (nodes & _ & _ & Hm & Hr).
    change (map Some (snd (run (map_spec Z.ltb) (ops ++ [MRemove 2; MClear]) []))) with (@nil (option (Z * Z))) in Hm. destruct nodes; [|discriminate]. apply Hr in R. destruct R as [[]|[R|[]]].
    vm_compute in R. injection R as <-. vm_compute in E. discriminate.
Qed.
Print Assumptions C97_refuted.
Example C97_hyp : let impl := Model_SkipList.implOrdered (V := Z) Z.ltb Z.eqb in let ops := [MInsert 1 10 0; MInsert 5 50 0; MInsert 3 30 0] : list (mop Z Z unit) in
  Model_SkipList.kind impl Z.ltb /\ snd (run (map_spec Z.ltb) ops []) = [(1, 10); (3, 30); (5, 50)] /\ has Z.ltb 2 [(1, 10); (3, 30); (5, 50)] = false /\
  clean_behind 0 [[4; 5; 0; 9]] (mkSlice 0 0 2 3) /\ min_heap Z.ltb (contents [[1; 3; 2]] (mkSlice 0 0 3 3)) /\ wf_slice [[1; 3; 2]] (mkSlice 0 0 3 3) /\
  PopMinHeap Z.ltb ([[1; 3; 2]], mkSlice 0 0 3 3) = (Ok 1, ([[2; 3; 1]], mkSlice 0 0 2 3)).
Proof.
  cbn zeta. split; [left; exists Z.eqb; split; [reflexivity|exact Zordered]|]. split; [reflexivity|]. split; [reflexivity|]. split; [reflexivity|]. split; [|split; [unfold wf_slice, zlen; simpl; lia|reflexivity]].
  destruct (Props_Heap.C37_IsMinHeap Z Z.ltb (contents [[1; 3; 2]] (mkSlice 0 0 3 3))) as (b & E & H). vm_compute in E. apply H. now injection E as <-.
Qed.
