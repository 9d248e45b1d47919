(** C98: calls that only look at a container write nothing, so any number of them
    can run at the same time. *)
From Verif Require Import Base BaseLemmas Nodes Trace Spec Spec_List Spec_Map Spec_Set Spec_BSet Spec_Reads Proof_Reads.
From Verif Require Model_SList Model_DList Model_DListQueue Model_SkipList Model_SkipListSet Model_Vector Model_Stack Model_PriorityQueue Model_BuiltinSet.

(** Which calls look only. *)
Definition slist_looks {T St} (o : Spec_List.sop T St) : Prop :=
  match o with LLen | LIsEmpty | LFront | LBack | LValues | LForEach _ _ | LForEachIf _ _ | LIter | LIterGet _ => True | _ => False end.
Definition dlist_looks {T St} (o : dop T St) : Prop :=
  match o with DLen | DIsEmpty | DFront | DBack | DForEach _ _ | DForEachIf _ _ | DIter | DIterGet _ => True | _ => False end.
Definition queue_looks {T} (o : qop T) : Prop :=
  match o with QLen | QIsEmpty | QFront | QBack => True | _ => False end.
Definition map_looks {K V St} (o : mop K V St) : Prop :=
  match o with MLen | MIsEmpty | MFind _ | MHas _ | MLower _ | MUpper _ | MRange _ _ | MIter | MForEach _ _ | MForEachIf _ _ => True | _ => False end.
Definition set_looks {K St} (o : Spec_Set.sop K St) : Prop :=
  match o with SLen | SIsEmpty | SHas _ | SKeys | SLower _ | SUpper _ | SRange _ _ | SForEach _ _ | SForEachIf _ _ => True | _ => False end.
Definition bset_looks {K St} (o : bop K St) : Prop :=
  match o with BHas _ _ | BLen _ | BIsEmpty _ | BKeys _ _ | BForEach _ _ _ _ | BForEachIf _ _ _ _ | BDisjoint _ _ _ | BSubset _ _ _ | BSuperset _ _ _ => True | _ => False end.
Definition stack_looks {T} (o : Model_Stack.stack_op T) : Prop :=
  match o with Model_Stack.STop | Model_Stack.SLen | Model_Stack.SIsEmpty => True | _ => False end.
Definition pq_looks {T} (o : Model_PriorityQueue.pq_op T) : Prop :=
  match o with Model_PriorityQueue.PTop | Model_PriorityQueue.PLen | Model_PriorityQueue.PIsEmpty => True | _ => False end.
(** The looking calls of a Vector; LkWalk walks a new iterator to its end. *)
Inductive vec_look (T St : Type) :=
| LkLen | LkCap | LkIsEmpty | LkAt (i : Z) | LkBack | LkWalk
| LkForEach (cb : St -> T -> St) (st : St) | LkForEachIf (cb : St -> T -> bool * St) (st : St).
Arguments LkLen {T St}. Arguments LkCap {T St}. Arguments LkIsEmpty {T St}. Arguments LkAt {T St}. Arguments LkBack {T St}.
Arguments LkWalk {T St}. Arguments LkForEach {T St}. Arguments LkForEachIf {T St}.
Definition vec_look_step {T St} (o : vec_look T St) : M (cell T) (res T St) :=
  match o with
  | LkLen => show (fun n => RObs (OInt n)) Model_Vector.Vector_Len
  | LkCap => show (fun n => RObs (OInt n)) Model_Vector.Vector_Cap
  | LkIsEmpty => show (fun b => RObs (OBool b)) Model_Vector.Vector_IsEmpty
  | LkAt i => show (fun v => RObs (OVal v)) (Model_Vector.Vector_At i)
  | LkBack => show (fun v => RObs (OVal v)) Model_Vector.Vector_Back
  | LkWalk => show (fun l => RObs (OSeq l)) (v <- get_hdr ;; lift_mem (Model_Vector.vi_collect (Z.to_nat (s_len v)) (Model_Vector.Vector_Iterate v)))
  | LkForEach cb st => show RSt (v <- get_hdr ;; lift_mem (Model_Vector.Vector_ForEach v cb st))
  | LkForEachIf cb st => show RSt (v <- get_hdr ;; lift_mem (Model_Vector.Vector_ForEachIf v cb st))
  end.

Theorem C98_SList {T St} (zero : T) (ops : list (Spec_List.sop T St)) :
  (forall o, In o ops -> slist_looks o) ->
  may_run_together node_read any (Model_SList.slist_step zero) ops.
Proof.
  intros H. apply (run_together _ node_reading). intros o Ho. specialize (H o Ho).
  destruct o; try contradiction; cbn [slist_looks] in H; apply (rd_show _ node_reading); clear H Ho;
    unfold Model_SList.Len, Model_SList.IsEmpty, Model_SList.Front, Model_SList.Back, Model_SList.Values, Model_SList.ForEach, Model_SList.ForEachIf, Model_SList.iter_all, Model_SList.Iterate, Model_SList.Value; reads;
    first [apply sl_Values_loop | apply sl_ForEach_loop | apply sl_ForEachIf_loop | apply sl_iter_loop | apply sl_advance].
Qed.
Print Assumptions C98_SList.

Theorem C98_DList {T St} (zero : T) (ops : list (dop T St)) :
  (forall o, In o ops -> dlist_looks o) ->
  may_run_together node_read any (Model_DList.dlist_step zero) ops.
Proof.
  intros H. apply (run_together _ node_reading). intros o Ho. specialize (H o Ho).
  destruct o; try contradiction; cbn [dlist_looks] in H; apply (rd_show _ node_reading); clear H Ho;
    unfold Model_DList.Len, Model_DList.IsEmpty, Model_DList.Front, Model_DList.Back, Model_DList.ForEach, Model_DList.ForEachIf, Model_DList.iter_all, Model_DList.iter_get, Model_DList.Iterate, Model_DList.Value; reads;
    first [apply dl_ForEach_loop | apply dl_ForEachIf_loop | apply dl_iter_loop | apply dl_advance].
Qed.
Print Assumptions C98_DList.

Lemma queue_lift {T A} (p : M (list (Model_DList.dnode T) * Model_DList.dlist) A) :
  rd node_read any p -> rd queue_read any (Model_DListQueue.on_list p).
Proof.
  intros [r [Hm Ha]]. exists (prog_lift (@Model_DListQueue.on_list T) r). split.
  - apply (prog_lift_made _ node_read); [|exact Hm]. intros B q Hq. constructor. exact Hq.
  - intros [h l] _. rewrite prog_lift_alone.
    + unfold Model_DListQueue.on_list. cbn [fst snd]. rewrite Ha by exact I. reflexivity.
    + intros B o [h' [l']]. reflexivity.
    + intros B C q f [h' [l']]. unfold Model_DListQueue.on_list, bind. cbn.
      destruct (q (h', l')) as [[b| |] [h'' l'']]; reflexivity.
Defined.
Lemma queue_reading {T} B (p : M (list (Model_DList.dnode T) * Model_DListQueue.dqueue) B) : queue_read B p -> forall s, snd (p s) = s.
Proof.
  intros [C q Hq] [h [l]]. unfold Model_DListQueue.on_list. cbn. pose proof (node_reading C q Hq (h, l)) as E.
  destruct (q (h, l)) as [o [h' l']]. injection E as -> ->. reflexivity.
Qed.
Theorem C98_DListQueue {T} (zero : T) (ops : list (qop T)) :
  (forall o, In o ops -> queue_looks o) ->
  may_run_together queue_read any (Model_DListQueue.queue_step zero) ops.
Proof.
  intros H. apply (run_together _ queue_reading). intros o Ho. specialize (H o Ho).
  destruct o; try contradiction; cbn [queue_looks] in H; apply (rd_observe _ queue_reading); apply queue_lift; clear H Ho;
    unfold Model_DList.Len, Model_DList.IsEmpty, Model_DList.Front, Model_DList.Back; reads.
Qed.
Print Assumptions C98_DListQueue.

Lemma map_step_reads {K V St} (impl : @Model_SkipList.slimpl K V) : impl_reads impl ->
  forall o : mop K V St, map_looks o -> rd node_read any (Model_SkipList.map_step impl o).
Proof.
  intros [[Hf Hl] Hu] o H. destruct o; try contradiction; cbn [map_looks] in H; apply (rd_show _ node_reading); clear H;
    unfold Model_SkipList.Len, Model_SkipList.IsEmpty, Model_SkipList.find_get, Model_SkipList.Find, Model_SkipList.Has, Model_SkipList.walk,
      Model_SkipList.LowerBound, Model_SkipList.UpperBound, Model_SkipList.FindRange, Model_SkipList.Iterate, Model_SkipList.ForEach, Model_SkipList.ForEachIf;
    repeat first [apply Hf | apply Hl | apply Hu | apply sk_value | apply sk_next | progress reads | apply sk_iter_loop | apply sk_ForEach_loop | apply sk_ForEachIf_loop].
Defined.
(** Both kinds of SkipList, with any < and == or any key comparison function. *)
Theorem C98_SkipList {K V St} (ops : list (mop K V St)) :
  (forall o, In o ops -> map_looks o) ->
  (forall ltb eqb, may_run_together node_read any (Model_SkipList.map_step (Model_SkipList.implOrdered ltb eqb)) ops) /\
  (forall cmp, may_run_together node_read any (Model_SkipList.map_step (Model_SkipList.implFunc cmp)) ops).
Proof.
  intros H. split.
  - intros ltb eqb. apply (run_together _ node_reading). intros o Ho. apply map_step_reads; [apply ordered_reads | exact (H o Ho)].
  - intros cmp. apply (run_together _ node_reading). intros o Ho. apply map_step_reads; [apply func_reads | exact (H o Ho)].
Qed.
Print Assumptions C98_SkipList.

Lemma set_step_reads {K St} (impl : @Model_SkipList.slimpl K unit) : impl_reads impl ->
  forall o : Spec_Set.sop K St, set_looks o -> rd node_read any (Model_SkipListSet.set_step impl o).
Proof.
  intros [[Hf Hl] Hu] o H. destruct o; try contradiction; cbn [set_looks] in H; apply (rd_show _ node_reading); clear H;
    unfold Model_SkipListSet.set_Len, Model_SkipListSet.set_IsEmpty, Model_SkipListSet.set_Has, Model_SkipListSet.set_Keys, Model_SkipListSet.si_walk,
      Model_SkipListSet.set_LowerBound, Model_SkipListSet.set_UpperBound, Model_SkipListSet.set_FindRange, Model_SkipListSet.set_ForEach, Model_SkipListSet.set_ForEachIf,
      Model_SkipListSet.set_Len, Model_SkipList.Len, Model_SkipList.IsEmpty, Model_SkipList.Has, Model_SkipList.ForEach, Model_SkipList.ForEachIf;
    repeat first [apply Hf | apply Hl | apply Hu | apply sk_value | apply sk_next | progress reads | apply sk_si_loop | apply sk_ForEach_loop | apply sk_ForEachIf_loop].
Defined.
Theorem C98_SkipListSet {K St} (ops : list (Spec_Set.sop K St)) :
  (forall o, In o ops -> set_looks o) ->
  (forall ltb eqb, may_run_together node_read any (Model_SkipListSet.set_step (Model_SkipList.implOrdered ltb eqb)) ops) /\
  (forall cmp, may_run_together node_read any (Model_SkipListSet.set_step (Model_SkipList.implFunc cmp)) ops).
Proof.
  intros H. split.
  - intros ltb eqb. apply (run_together _ node_reading). intros o Ho. apply set_step_reads; [apply ordered_reads | exact (H o Ho)].
  - intros cmp. apply (run_together _ node_reading). intros o Ho. apply set_step_reads; [apply func_reads | exact (H o Ho)].
Qed.
Print Assumptions C98_SkipListSet.

Theorem C98_BuiltinSet {K St} (eqb : K -> K -> bool) (pick : K -> K -> K) (ops : list (bop K St)) :
  (forall o, In o ops -> bset_looks o) ->
  may_run_together (map_read eqb) any (Model_BuiltinSet.bset_step eqb pick) ops.
Proof.
  intros H. apply (run_together _ (map_reading eqb)). intros o Ho. specialize (H o Ho).
  destruct o; try contradiction; cbn [bset_looks] in H; apply (rd_show _ (map_reading eqb)); clear H Ho.
  - apply map_has.
  - apply map_len.
  - apply (rd_then _ (map_reading eqb)); [apply map_len | intros n; apply rd_ret].
  - apply map_range. intros a k. apply rd_ret.
  - apply map_range. intros a k. apply rd_ret.
  - apply map_range. intros a k. destruct (cb a k) as [go st']. destruct go; apply rd_ret.
  - apply (rd_then _ (map_reading eqb)); [apply map_orderSet|]. intros sl. apply map_range. intros a k.
    apply (rd_then _ (map_reading eqb)); [apply map_has|]. intros [|]; apply rd_ret.
  - apply (rd_then _ (map_reading eqb)); [apply map_len|]. intros ls. apply (rd_then _ (map_reading eqb)); [apply map_len|]. intros lo.
    destruct (lo <? ls); [apply rd_ret|]. apply map_range. intros a k.
    apply (rd_then _ (map_reading eqb)); [apply map_has|]. intros [|]; apply rd_ret.
  - apply (rd_then _ (map_reading eqb)); [apply map_len|]. intros ls. apply (rd_then _ (map_reading eqb)); [apply map_len|]. intros lo.
    destruct (lo <? ls); [apply rd_ret|]. apply map_range. intros a k.
    apply (rd_then _ (map_reading eqb)); [apply map_has|]. intros [|]; apply rd_ret.
Qed.
Print Assumptions C98_BuiltinSet.

(** Slices: [sound] says that the variable holds a slice a Go program can have. *)
Theorem C98_Vector {T St} (ops : list (vec_look T St)) : may_run_together cell_read sound vec_look_step ops.
Proof.
  apply (run_together _ cell_reading). intros o _. destruct o; apply (rd_show _ cell_reading); apply cell_of_hdr; intros v.
  - apply rd_ret.
  - apply rd_ret.
  - apply rd_ret.
  - apply cell_load, sound_wf.
  - apply cell_load, sound_wf.
  - apply cell_collect, sound_wf.
  - apply cell_each_loop, sound_wf.
  - apply cell_eachif_loop, sound_wf.
Qed.
Print Assumptions C98_Vector.
Theorem C98_Stack {T} (zero : T) grow (ops : list (Model_Stack.stack_op T)) :
  (forall o, In o ops -> stack_looks o) -> may_run_together cell_read sound (Model_Stack.stack_step zero grow) ops.
Proof.
  intros H. apply (run_together _ cell_reading). intros o Ho. specialize (H o Ho).
  destruct o; try contradiction; cbn [stack_looks] in H; apply (rd_observe _ cell_reading); apply cell_of_hdr; intros v.
  - apply cell_load, sound_wf.
  - apply rd_ret.
  - apply rd_ret.
Qed.
Print Assumptions C98_Stack.
Lemma pq_lift {T A} (p : M (cell T) A) :
  rd cell_read sound p -> rd pq_read (fun q => sound (Model_PriorityQueue.pq_heap q)) (Model_PriorityQueue.on_heap p).
Proof.
  intros [r [Hm Ha]]. exists (prog_lift (@Model_PriorityQueue.on_heap T) r). split.
  - apply (prog_lift_made _ cell_read); [|exact Hm]. intros B q Hq. constructor. exact Hq.
  - intros [c i] Hc. rewrite prog_lift_alone.
    + unfold Model_PriorityQueue.on_heap. cbn [Model_PriorityQueue.pq_heap]. rewrite Ha by exact Hc. reflexivity.
    + intros B o [c' i']. reflexivity.
    + intros B C q f [c' i']. unfold Model_PriorityQueue.on_heap, bind. cbn.
      destruct (q c') as [[b| |] c'']; reflexivity.
Defined.
Lemma pq_reading {T} B (p : M (Model_PriorityQueue.PriorityQueue T) B) : pq_read B p -> forall s, snd (p s) = s.
Proof.
  intros [C q Hq] [c i]. unfold Model_PriorityQueue.on_heap. cbn. pose proof (cell_reading C q Hq c) as E.
  destruct (q c) as [o c']. cbn in E. subst c'. reflexivity.
Qed.
Theorem C98_PriorityQueue {T} (zero : T) grow (ops : list (Model_PriorityQueue.pq_op T)) :
  (forall o, In o ops -> pq_looks o) ->
  may_run_together pq_read (fun q => sound (Model_PriorityQueue.pq_heap q)) (Model_PriorityQueue.pq_step zero grow) ops.
Proof.
  intros H. apply (run_together _ pq_reading). intros o Ho. specialize (H o Ho).
  destruct o; try contradiction; cbn [pq_looks] in H; apply (rd_observe _ pq_reading); apply pq_lift; apply cell_of_hdr; intros v.
  - apply cell_load, sound_wf.
  - apply rd_ret.
  - apply rd_ret.
Qed.
Print Assumptions C98_PriorityQueue.

(** Expected: a Remove that finds nothing to remove is a look.  *)
Definition C98_expected : Prop :=
  forall (ops : list (mop Z Z unit)) (k : Z) s s',
    s = snd (run (Model_SkipList.map_step (Model_SkipList.implOrdered Z.ltb Z.eqb)) ops (snd (Model_SkipList.init 0 0 ([], Model_SkipList.mkSL 0 0 None [])))) ->
    Model_SkipList.Remove (Model_SkipList.implOrdered Z.ltb Z.eqb) k s = (Ok false, s') -> s' = s.
(** It writes prevsCache. *)
Theorem C98_refuted : ~ C98_expected.
Proof.
  intros H. specialize (H [MInsert 5 50 1] 7 _ _ eq_refl eq_refl). vm_compute in H. discriminate H.
Qed.
Print Assumptions C98_refuted.

(** What holds: nothing else is written. *)
Section Missing.
Import Model_SkipList.
Context {K V : Type}.
Notation St := (list (slnode K V) * sklist)%type.
Definition all_but_prevs (s s' : St) : Prop :=
  fst s' = fst s /\ sl_level (snd s') = sl_level (snd s) /\ sl_len (snd s') = sl_len (snd s) /\ sl_head (snd s') = sl_head (snd s).
Definition quiet {A} (p : P (slnode K V) sklist A) : Prop := forall s, all_but_prevs s (snd (p s)).
Lemma quiet_refl s : all_but_prevs s s.
Proof. repeat split. Qed.
Lemma quiet_bind {A B} (p : P (slnode K V) sklist A) (f : A -> P (slnode K V) sklist B) : quiet p -> (forall a, quiet (f a)) -> quiet (bind p f).
Proof.
  intros Hp Hf s. unfold bind. specialize (Hp s). destruct (p s) as [[a| |] s']; [|exact Hp|exact Hp].
  specialize (Hf a s'). unfold all_but_prevs in *. cbn [snd] in Hp. destruct Hp as (H1 & H2 & H3 & H4), Hf as (H5 & H6 & H7 & H8).
  repeat split; congruence.
Qed.
Lemma quiet_rd {A} (p : P (slnode K V) sklist A) : rd node_read any p -> quiet p.
Proof. intros [r [Hm Ha]] s. rewrite <- Ha by exact I. rewrite (alone_state _ node_reading) by exact Hm. apply quiet_refl. Qed.
Lemma quiet_set prevs i q : quiet (prevs_set prevs i q).
Proof.
  unfold prevs_set. apply quiet_bind; [apply quiet_rd; reads|]. intros c. destruct (Nat.ltb i prevs); [|intros s; apply quiet_refl].
  intros s. repeat split.
Qed.
Lemma quiet_descend hit stop fuel prevs level : forall prev, quiet (descend_prevs hit stop fuel prevs level prev).
Proof.
  induction level as [|level IH]; intros prev; cbn [descend_prevs]; [intros s; apply quiet_refl|].
  apply quiet_bind; [apply quiet_rd, sk_next|]. intros cur. apply quiet_bind; [apply quiet_rd, sk_scan|].
  intros [n|prev']; [intros s; apply quiet_refl|]. apply quiet_bind; [apply quiet_set | intros _; apply IH].
Qed.
Lemma quiet_prevs_slice : quiet prevs_slice.
Proof. apply quiet_rd. unfold prevs_slice. reads. Qed.
Lemma quiet_prevs_get prevs i : quiet (prevs_get prevs i).
Proof. apply quiet_rd. unfold prevs_get. reads. Qed.
Ltac quiet := repeat first
  [ intros s; apply quiet_refl | apply quiet_descend | apply quiet_prevs_slice | apply quiet_prevs_get
  | apply quiet_rd; solve [reads] | apply quiet_rd, sk_next | apply quiet_rd, sk_key | apply quiet_bind; [|intros ?]
  | match goal with |- quiet (match ?x with _ => _ end) => destruct x end ].
Lemma quiet_ord ltb eqb key : quiet (@ord_findRemovePoint K V ltb eqb key).
Proof. unfold ord_findRemovePoint, ord_findPrevNodes. quiet. Qed.
Lemma quiet_fn cmp key : quiet (@fn_findRemovePoint K V cmp key).
Proof. unfold fn_findRemovePoint, fn_findPrevNodes. quiet. Qed.
Lemma missing (impl : @slimpl K V) key s s' : quiet (findRemovePoint impl key) -> Remove impl key s = (Ok false, s') -> all_but_prevs s s'.
Proof.
  intros Hq E. unfold Remove in E. unfold bind at 1 in E. specialize (Hq s).
  destruct (findRemovePoint impl key s) as [[[node prevs]| |] s1]; [|discriminate|discriminate].
  cbn [snd] in Hq. destruct node as [a|]; cbn [is_nil] in E.
  - exfalso. revert E. unfold bind. repeat match goal with |- context [match ?x with _ => _ end] => destruct x end; discriminate.
  - injection E as <-. exact Hq.
Qed.
End Missing.
Theorem C98_Remove_missing {K V} (key : K) s s' :
  (forall ltb eqb, Model_SkipList.Remove (V := V) (Model_SkipList.implOrdered ltb eqb) key s = (Ok false, s') -> all_but_prevs s s') /\
  (forall cmp, Model_SkipList.Remove (V := V) (Model_SkipList.implFunc cmp) key s = (Ok false, s') -> all_but_prevs s s').
Proof.
  split.
  - intros ltb eqb. apply missing, quiet_ord.
  - intros cmp. apply missing, quiet_fn.
Qed.
Print Assumptions C98_Remove_missing.

(** Two calls on a SkipList with two keys, with turns in any order. *)
Example C98_hyp : exists (rs : list (prog (list (Model_SkipList.slnode Z Z) * Model_SkipList.sklist) (mres Z Z unit))) s, exists n, forall turns,
  (forall i, (i < 2)%nat -> (n <= count_occ Nat.eq_dec turns i)%nat) ->
  together turns rs s = ([Done (Ok (MBool true)); Done (Ok (MSeq [(5, 50); (8, 80)]))], s).
Proof.
  destruct (C98_SkipList (V := Z) (St := unit) [MHas 8; MIter]) as [H _]; [intros o [<-|[<-|[]]]; exact I|].
  destruct (H Z.ltb Z.eqb) as [rs [_ Hrs]].
  set (s := snd (run (Model_SkipList.map_step (St := unit) (Model_SkipList.implOrdered Z.ltb Z.eqb)) [MInsert 8 80 1; MInsert 5 50 3] (snd (Model_SkipList.init 0 0 ([], Model_SkipList.mkSL 0 0 None []))))).
  destruct (Hrs s I) as [Hs [n Hn]]. exists rs, s, n. intros turns Ht. specialize (Hs turns). specialize (Hn turns Ht).
  destruct (together turns rs s) as [rs' s']. cbn [fst snd] in Hs, Hn. subst s' rs'. vm_compute. reflexivity.
Qed.
