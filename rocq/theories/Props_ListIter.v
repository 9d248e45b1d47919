(** C84-C90: clients of SList and DList that keep iterators and pointers over
    changes, and ForEach callbacks that change the list. *)
From Verif Require Import BaseLemmas Nodes Spec Trace Spec_List Spec_Client Spec_ListIter Model_ListIter Proof_Client Proof_ListIter Proof_Nodes Proof_ListEach Proof_ListLoop Proof_ListWalk.
From Verif Require Model_SList Model_DList Proof_SList Proof_DList Proof_SListIter Proof_DListIter.

(** Bodies of callbacks. *)
Notation sprog T S0 := (prog (iop (sop T S0) T) (ires (res T S0) T)).
Notation dprog T S0 := (prog (iop (dop T S0) T) (ires (res T S0) T)).
(** After any statements on the zero list, in any heap. *)
Definition s_after {T St} zero (h0 : list (Model_SList.snode T)) (ops : list (iop (sop T St) T)) := snd (run (client (slist_listing zero)) ops (h0, Model_SList.empty_slist, [])).
Definition s_world {T St} (ops : list (iop (sop T St) T)) := snd (run (client sl_spec) ops (w_empty, [])).
Definition d_after {T St} zero (h0 : list (Model_DList.dnode T)) (ops : list (iop (dop T St) T)) := snd (run (client (dlist_listing zero)) ops (h0, Model_DList.empty_dlist, [])).
Definition d_world {T St} zero (ops : list (iop (dop T St) T)) := snd (run (client (dl_spec zero)) ops (dw_empty, [])).

Notation SR h0 := (RC know (Proof_SListIter.Rs (nth_error h0)) Proof_SListIter.Rp).
Notation DR h0 := (RC know (Proof_DListIter.Rs (nth_error h0)) Proof_DListIter.Rp).
Lemma s_start {T St} (zero : T) h0 (ops : list (iop (sop T St) T)) : fst (run (client (slist_listing zero)) ops (h0, Model_SList.empty_slist, [])) = fst (run (client sl_spec) ops (w_empty, [])) /\
  exists k, SR h0 k (s_after zero h0 ops) (s_world ops).
Proof.
  destruct (run_client_sim (slist_listing zero) sl_spec know kle kle_refl kle_trans _ _ Proof_SListIter.Rp_le (Proof_SListIter.slist_sims (St := St) zero (nth_error h0)) ops ((fun i => i), O, None) (h0, Model_SList.empty_slist, []) (w_empty, [])) as (E & k & _ & R).
  - split; [apply Proof_SListIter.Rs_init|constructor].
  - eauto.
Qed.
Lemma d_start {T St} (zero : T) h0 (ops : list (iop (dop T St) T)) : fst (run (client (dlist_listing zero)) ops (h0, Model_DList.empty_dlist, [])) = fst (run (client (dl_spec zero)) ops (dw_empty, [])) /\
  exists k, DR h0 k (d_after zero h0 ops) (d_world zero ops).
Proof.
  destruct (run_client_sim (dlist_listing zero) (dl_spec zero) know kle kle_refl kle_trans _ _ Proof_DListIter.Rp_le (Proof_DListIter.dlist_sims (St := St) zero (nth_error h0)) ops ((fun i => i), O, None) (h0, Model_DList.empty_dlist, []) (dw_empty, [])) as (E & k & _ & R).
  - split; [apply Proof_DListIter.Rs_init|constructor].
  - eauto.
Qed.
Lemma s_world_ok {T St} (ops : list (iop (sop T St) T)) : wf (fst (s_world ops)) /\ leave (fun q => q) (fst (s_world ops)) /\ w_made (fst (s_world ops)) = total sl_pushes ops.
Proof. destruct (sl_run ops (w_empty, []) (wf_empty) ltac:(intros i v q [])) as (A & B & C). split; auto. split; auto. cbn [fst w_made w_empty] in C. unfold s_world. lia. Qed.
Lemma d_world_ok {T St} zero (ops : list (iop (dop T St) T)) : dwf (fst (d_world zero ops)) /\ leave place_id (dw_list (fst (d_world zero ops))) /\ w_made (dw_list (fst (d_world zero ops))) = total dl_pushes ops.
Proof. destruct (dl_run zero ops (dw_empty, []) (conj wf_empty (fun _ => eq_refl)) ltac:(intros i v q [])) as (A & B & C). split; auto. split; auto. cbn [fst dw_list dw_empty w_made w_empty] in C. unfold d_world. lia. Qed.

(** ** C84 *)
(** Every sequence of statements on a zero SList (calls, iterators and pointers
    taken, moved, read and written whenever) shows what the specification shows,
    and leaves the other nodes of the heap alone. *)
Theorem C84_kept_iterators : forall T St (zero : T) h0 (ops : list (iop (sop T St) T)),
  fst (run (client (slist_listing zero)) ops (h0, Model_SList.empty_slist, [])) = fst (run (client sl_spec) ops (w_empty, [])).
Proof. intros. apply s_start. Qed.
Print Assumptions C84_kept_iterators.
Theorem C84_others_untouched : forall T St (zero : T) h0 (ops : list (iop (sop T St) T)) a n, nth_error h0 a = Some n -> nth_error (fst (fst (s_after zero h0 ops))) a = Some n.
Proof. intros T St zero h0 ops a n E. destruct (s_start zero h0 ops) as (_ & k & R & _). exact (Proof_SListIter.Rs_keeps _ _ _ _ R a n E). Qed.
Print Assumptions C84_others_untouched.
(** An iterator kept over a pop, a push, a reversal and a clear. *)
Example C84_hyp : let ops := [ICall (LPushBack 1); ICall (LPushBack 2); IIterate; ICall LPopFront; IValue 0; ICall (LPushFront 3); IMoveToNext 0; IValue 0; ICall LReverse; IStore 0 5; ICall LValues; IMoveToNext 0; IValue 0; ICall LClear; IMoveToNext 0; IIsNotEnd 0; IValue 0] in
  fst (run (client (sl_spec (St := unit))) ops (w_empty, [])) =
    [Ok (IRes (RObs ONone)); Ok (IRes (RObs ONone)); Ok IDone; Ok (IRes (RObs (OVal 1))); Ok (IValueIs 1); Ok (IRes (RObs ONone)); Ok IDone; Ok (IValueIs 2); Ok (IRes (RObs ONone)); Ok IDone;
     Ok (IRes (RObs (OSeq [5; 3]))); Ok IDone; Ok (IValueIs 3); Ok (IRes (RObs ONone)); Ok IDone; Ok (IBool false); Panic] /\
  fst (run (client (slist_listing (St := unit) 0)) ops ([Model_SList.mkSNode None 7], Model_SList.empty_slist, [])) = fst (run (client (sl_spec (St := unit))) ops (w_empty, [])).
Proof. cbn zeta. split; vm_compute; reflexivity. Qed.

(** ** C85 *)
Theorem C85_kept_iterators : forall T St (zero : T) h0 (ops : list (iop (dop T St) T)),
  fst (run (client (dlist_listing zero)) ops (h0, Model_DList.empty_dlist, [])) = fst (run (client (dl_spec zero)) ops (dw_empty, [])).
Proof. intros. apply d_start. Qed.
Print Assumptions C85_kept_iterators.
Theorem C85_others_untouched : forall T St (zero : T) h0 (ops : list (iop (dop T St) T)) a n, nth_error h0 a = Some n -> nth_error (fst (fst (d_after zero h0 ops))) a = Some n.
Proof. intros T St zero h0 ops a n E. destruct (d_start zero h0 ops) as (_ & k & R & _). exact (Proof_DListIter.Rs_keeps _ _ _ _ R a n E). Qed.
Print Assumptions C85_others_untouched.
(** An iterator kept over a push before it, written at the end, and kept over a pop. *)
Example C85_hyp : let ops := [IIterate; IIsNotEnd 0; ICall (DPushBack 1); ICall (DPushBack 2); IIsNotEnd 0; IValue 0; IIterate; ICall (DPushFront 3); IMoveToNext 1; IValue 1; IMoveToNext 1; IIsNotEnd 1; IValue 1; IStore 1 9; IValue 1; IMoveToNext 1; IValue 1; ICall DPopFront; IValue 1; IIsNotEnd 1; IMoveToNext 1; IIsNotEnd 1; IValue 1; ICall DIter] in
  fst (run (client (dl_spec (St := unit) 0)) ops (dw_empty, [])) =
    [Ok IDone; Ok (IBool false); Ok (IRes (RObs ONone)); Ok (IRes (RObs ONone)); Ok (IBool true); Panic; Ok IDone; Ok (IRes (RObs ONone)); Ok IDone; Ok (IValueIs 2); Ok IDone; Ok (IBool false); Ok (IValueIs 0); Ok IDone; Ok (IValueIs 9); Ok IDone; Ok (IValueIs 3);
     Ok (IRes (RObs (OVal 3))); Ok (IValueIs 3); Ok (IBool true); Ok IDone; Ok (IBool true); Panic; Ok (IRes (RObs (OSeq [1; 2])))] /\
  fst (run (client (dlist_listing (St := unit) 0)) ops ([], Model_DList.empty_dlist, [])) = fst (run (client (dl_spec (St := unit) 0)) ops (dw_empty, [])).
Proof. cbn zeta. split; vm_compute; reflexivity. Qed.

(** ** C86 *)
Lemma s_way {T} (fr0 : nat -> option (Model_SList.snode T)) k h hdr w l : forall fuel it q seen, Proof_SListIter.Rs fr0 k (h, hdr) w -> Proof_SListIter.Rp k it q -> way (fun q => q) (fun q => q) w q l -> (length l < fuel)%nat ->
  exists vs, Model_SList.iter_loop fuel it seen (h, hdr) = (Ok (seen ++ vs), (h, hdr)) /\ length vs = length l.
Proof.
  induction l as [|i l IH]; intros fuel it q seen Hs Hp Hw Lf; (destruct fuel as [|fuel]; [cbn in Lf; lia|]); cbn [Model_SList.iter_loop]; inversion Hw as [q0 E|q0 i0 q' l0 E En Hw']; subst; destruct Hp as (-> & Lq).
  - exists []. cbn. rewrite app_nil_r. auto.
  - pose proof Hs as (Em & fr & Hrw). assert (Li : (i < w_made w)%nat) by (rewrite Em; auto). destruct (Proof_SListIter.element _ _ _ _ _ _ _ Hrw Li) as (v & nx & En' & Ev & Enx & Lnx). rewrite En in Enx. injection Enx as <-.
    unfold Model_SList.IsNotEnd, Model_SList.Value, Model_SList.MoveToNext, bind. cbn [option_map is_nil negb ret]. rewrite (pload_ok _ _ _ _ En'). cbn [ret]. 
    destruct (IH fuel (option_map (fst (fst k)) q') q' (seen ++ [v]) Hs) as (vs & E & El); auto; [split; auto; intros j Ej; rewrite <- Em; auto|cbn in Lf; lia|].
    exists (v :: vs). rewrite (pload_ok _ _ _ _ En'). cbn [ret Model_SList.s_next Model_SList.s_value]. rewrite <- app_assoc in E. cbn [app] in E. split; [exact E|cbn; congruence].
Qed.
Lemma s_vars {T St} (zero : T) h0 (ops : list (iop (sop T St) T)) it : In it (snd (s_after zero h0 ops)) -> exists k q l, Proof_SListIter.Rs (nth_error h0) k (fst (s_after zero h0 ops)) (fst (s_world ops)) /\ Proof_SListIter.Rp k it q /\
  way (fun q => q) (fun q => q) (fst (s_world ops)) q l /\ (length l <= total sl_pushes ops)%nat.
Proof.
  intros I. destruct (s_start zero h0 ops) as (_ & k & R & F). destruct (s_world_ok ops) as (H & Hl & Em). exists k.
  assert (Hq : exists q, Proof_SListIter.Rp k it q). { clear - I F. induction F; [destruct I|]. destruct I as [<-|I]; eauto. } destruct Hq as (q & Hq). exists q.
  assert (Hw : exists l, way (fun q => q) (fun q => q) (fst (s_world ops)) q l).
  { destruct q as [i|]; [|exists []; now apply way_stop]. apply (way_from _ _ (fun q => eq_refl) _ i); auto. destruct R as (E & _). rewrite E. now apply Hq. }
  destruct Hw as (l & Hw). exists l. split; auto. split; auto. split; auto. rewrite <- Em. eapply (way_length _ _ _ _ _ H Hw).
Qed.
(** Whatever was done to the list, the walk from a kept iterator ends, visits at
    most as many elements as were ever pushed, and never panics. *)
Theorem C86_walk_ends : forall T St (zero : T) h0 (ops : list (iop (sop T St) T)) it, let s := s_after zero h0 ops in let n := total sl_pushes ops in In it (snd s) ->
  exists vs, Model_SList.iter_loop (S n) it [] (fst s) = (Ok vs, fst s) /\ (length vs <= n)%nat.
Proof.
  intros T St zero h0 ops it. cbn zeta. intros I. destruct (s_vars _ _ _ _ I) as (k & q & l & R & Hp & Hw & Ll). destruct (fst (s_after zero h0 ops)) as [h hdr]. destruct (s_way _ _ _ _ _ l (S (total sl_pushes ops)) it q [] R Hp Hw ltac:(lia)) as (vs & E & El). exists vs. split; auto. lia.
Qed.
Print Assumptions C86_walk_ends.
(** Its every use under IsNotEnd is safe, and it is unsafe otherwise. *)
Theorem C86_guarded : forall T St (zero : T) h0 (ops : list (iop (sop T St) T)) it v, let s := s_after zero h0 ops in In it (snd s) ->
  exists b, Model_SList.IsNotEnd (T := T) it (fst s) = (Ok b, fst s) /\
  if b then (exists x, Model_SList.Value it (fst s) = (Ok x, fst s)) /\ (exists it', Model_SList.MoveToNext (T := T) it (fst s) = (Ok it', fst s)) /\ (exists s', Model_SList.Pointer_store it v (fst s) = (Ok tt, s'))
  else fst (Model_SList.Value it (fst s)) = Panic /\ fst (Model_SList.MoveToNext (T := T) it (fst s)) = Panic /\ fst (Model_SList.Pointer_store it v (fst s)) = Panic.
Proof.
  intros T St zero h0 ops it v. cbn zeta. intros I. destruct (s_vars _ _ _ _ I) as (k & q & l & R & (-> & Lq) & _). destruct (fst (s_after zero h0 ops)) as [h hdr]. eexists. split; [reflexivity|]. destruct q as [i|]; cbn [option_map is_nil negb].
  - destruct R as (Em & fr & Hrw). assert (Li : (i < w_made (fst (s_world ops)))%nat) by (rewrite Em; auto). destruct (Proof_SListIter.element _ _ _ _ _ _ _ Hrw Li) as (x & nx & En & _).
    unfold Model_SList.Value, Model_SList.MoveToNext, Model_SList.Pointer_store, bind. rewrite (pload_ok _ _ _ _ En). split; [eexists; reflexivity|]. split; [eexists; reflexivity|]. rewrite (pmod_ok _ _ _ _ _ En). eexists. reflexivity.
  - repeat split; reflexivity.
Qed.
Print Assumptions C86_guarded.
Example C86_hyp : let ops := [ICall (LPushBack 1); ICall (LPushBack 2); IIterate; ICall LPopFront; ICall (LPushBack 3); ICall LPopFront; ICall LReverse] in
  total (sl_pushes (St := unit)) ops = 3%nat /\ snd (s_after (St := unit) 0 [] ops) = [Some 0%nat] /\ fst (Model_SList.iter_loop 4 (Some 0%nat) [] (fst (s_after (St := unit) 0 [] ops))) = Ok [1; 2; 3].
Proof. cbn zeta. repeat split; vm_compute; reflexivity. Qed.

(** ** C87 *)
Definition C87_expected : Prop := forall T St (zero : T) h0 (ops : list (iop (dop T St) T)) it, let s := d_after zero h0 ops in In it (snd s) ->
  fst (Model_DList.IsNotEnd (T := T) it (fst s)) = Ok true -> fst (Model_DList.Value it (fst s)) <> Panic.
(** An iterator taken from a zero DList, used after the first push. *)
Theorem C87_refuted : ~ C87_expected.
Proof. intros H. apply (H Z unit 0 [] [IIterate; ICall (DPushBack 1)] None); vm_compute; auto. Qed.
Print Assumptions C87_refuted.
(** An iterator whose element is popped: the loop over it runs into a nil node. *)
Theorem C87_refuted_popped : exists ops : list (iop (dop Z unit) Z), let s := d_after 0 [] ops in
  nth_error (snd s) 0 = Some (Some 1%nat) /\ fst (Model_DList.Value (Some 1%nat) (fst s)) = Ok 1 /\ fst (Model_DList.iter_loop 9 (Some 1%nat) [] (fst s)) = Panic.
Proof. exists [ICall (DPushBack 1); ICall (DPushBack 2); IIterate; ICall DPopFront]. cbn zeta. repeat split; vm_compute; reflexivity. Qed.
Print Assumptions C87_refuted_popped.

Lemma d_way {T} (fr0 : nat -> option (Model_DList.dnode T)) k h hdr w l : forall fuel it q seen, Proof_DListIter.Rs fr0 k (h, hdr) w -> Proof_DListIter.Rp k it q -> way to_place place_id (dw_list w) q l -> (length l < fuel)%nat ->
  exists r, Model_DList.iter_loop fuel it seen (h, hdr) = (r, (h, hdr)) /\ (r = Panic \/ exists vs, r = Ok (seen ++ vs) /\ length vs = length l) /\ (linked w -> q <> Nowhere -> r <> Panic).
Proof.
  induction l as [|i l IH]; intros fuel it q seen Hs Hp Hw Lf; (destruct fuel as [|fuel]; [cbn in Lf; lia|]); cbn [Model_DList.iter_loop]; inversion Hw as [q0 E|q0 i0 q' l0 E En Hw']; subst; pose proof Hs as (Em & (Eh & _) & _); cbn [fst snd] in Eh.
  - unfold Model_DList.IsNotEnd, bind. cbn [hget snd]. unfold hget. cbn [snd]. rewrite Eh. destruct q as [| |j]; [|destruct Hp as [-> N]|discriminate].
    + cbn in Hp. subst it. destruct (snd k) as [hd|]; cbn [peqb negb ret]; [exists Panic; split; [reflexivity|]; split; [now left|congruence]|exists (Ok seen); split; [reflexivity|]; split; [right; exists []; now rewrite app_nil_r|congruence]].
    + destruct (snd k) as [hd|]; [|congruence]. cbn [peqb]. rewrite Nat.eqb_refl. cbn [negb ret]. exists (Ok seen). split; [reflexivity|]. split; [right; exists []; now rewrite app_nil_r|discriminate].
  - destruct (Proof_DListIter.Rp_node _ _ _ _ _ _ _ _ (kle_refl k) Hp Hs) as [[-> _]|(a & n & q2 & -> & Ea & _ & En2 & Hp2 & Hq)]; [discriminate|]. destruct q as [| |j]; try discriminate. cbn in E. injection E as ->. destruct Hq as (Li & -> & NE).
    unfold dl_next in En2. rewrite En in En2. injection En2 as <-.
    unfold Model_DList.IsNotEnd, Model_DList.Value, Model_DList.MoveToNext, Model_DList.ld_value, Model_DList.ld_next, bind. unfold hget. cbn [snd]. rewrite Eh.
    assert (Ep : peqb (Some (fst (fst k) i)) (snd k) = false). { destruct (snd k) as [hd|]; [|reflexivity]. cbn. apply Nat.eqb_neq. congruence. } rewrite Ep. cbn [negb ret]. rewrite !(pload_ok _ _ _ _ Ea). cbn [ret]. rewrite ?(pload_ok _ _ _ _ Ea). cbn [ret].
    destruct (IH fuel _ q' (seen ++ [Model_DList.d_value n]) Hs Hp2 Hw' ltac:(cbn in Lf; lia)) as (r & Er & Hr & Hn). exists r. split; [exact Er|]. split.
    + destruct Hr as [->|(vs & -> & El)]; [now left|right]. exists (Model_DList.d_value n :: vs). rewrite <- app_assoc. split; auto. cbn. congruence.
    + intros Hk _. apply Hn; auto. eapply linked_next; eauto.
Qed.
Lemma d_vars {T St} (zero : T) h0 (ops : list (iop (dop T St) T)) it : In it (snd (d_after zero h0 ops)) -> exists k q l, Proof_DListIter.Rs (nth_error h0) k (fst (d_after zero h0 ops)) (fst (d_world zero ops)) /\ Proof_DListIter.Rp k it q /\
  way to_place place_id (dw_list (fst (d_world zero ops))) q l /\ (length l <= total dl_pushes ops)%nat.
Proof.
  intros I. destruct (d_start zero h0 ops) as (_ & k & R & F). destruct (d_world_ok zero ops) as ((H & _) & Hl & Em). exists k.
  assert (Hq : exists q, Proof_DListIter.Rp k it q). { clear - I F. induction F; [destruct I|]. destruct I as [<-|I]; eauto. } destruct Hq as (q & Hq). exists q.
  assert (Hw : exists l, way to_place place_id (dw_list (fst (d_world zero ops))) q l).
  { destruct q as [| |i]; [exists []; now apply way_stop|exists []; now apply way_stop|]. apply (way_from _ _ place_id_to _ i); auto. destruct R as (E & _). rewrite E. apply Hq. }
  destruct Hw as (l & Hw). exists l. split; auto. split; auto. split; auto. rewrite <- Em. eapply (way_length _ _ _ _ _ H Hw).
Qed.
(** What holds: a walk from a kept iterator ends or panics, after at most as many
    elements as were ever pushed; ... *)
Theorem C87_walk_ends : forall T St (zero : T) h0 (ops : list (iop (dop T St) T)) it, let s := d_after zero h0 ops in let n := total dl_pushes ops in In it (snd s) ->
  exists r, Model_DList.iter_loop (S n) it [] (fst s) = (r, fst s) /\ (r = Panic \/ exists vs, r = Ok vs /\ (length vs <= n)%nat).
Proof.
  intros T St zero h0 ops it. cbn zeta. intros I. destruct (d_vars _ _ _ _ I) as (k & q & l & R & Hp & Hw & Ll). destruct (fst (d_after zero h0 ops)) as [h hdr]. destruct (d_way _ _ _ _ _ l (S (total dl_pushes ops)) it q [] R Hp Hw ltac:(lia)) as (r & E & Hr & _).
  exists r. split; auto. destruct Hr as [->|(vs & -> & El)]; [now left|right; exists vs; split; auto; lia].
Qed.
Print Assumptions C87_walk_ends.
(** ... it does not panic if nothing was popped and the iterator was not taken
    before the first push (it is not nil). *)
Theorem C87_unpopped : forall T St (zero : T) h0 (ops : list (iop (dop T St) T)) it, let s := d_after zero h0 ops in let n := total dl_pushes ops in In it (snd s) ->
  Forall (fun o => ~ dl_pops o) ops -> it <> None -> exists vs, Model_DList.iter_loop (S n) it [] (fst s) = (Ok vs, fst s) /\ (length vs <= n)%nat.
Proof.
  intros T St zero h0 ops it. cbn zeta. intros I Fp Nn. destruct (d_vars _ _ _ _ I) as (k & q & l & R & Hp & Hw & Ll). destruct (fst (d_after zero h0 ops)) as [h hdr]. destruct (d_way _ _ _ _ _ l (S (total dl_pushes ops)) it q [] R Hp Hw ltac:(lia)) as (r & E & Hr & Hn).
  destruct Hr as [->|(vs & -> & El)]; [|exists vs; split; auto; lia]. exfalso. apply Hn; auto; [apply (dl_run_linked zero ops (dw_empty, [])); auto; intros i v q0 []|]. intros ->. exact (Nn Hp).
Qed.
Print Assumptions C87_unpopped.
(** The end is a place like the others: it can be read (at first the zero value)
    and written, and leads to the first element. *)
Theorem C87_at_end : forall T St (zero : T) h0 (ops : list (iop (dop T St) T)) it v, let s := d_after zero h0 ops in In it (snd s) -> it <> None -> fst (Model_DList.IsNotEnd (T := T) it (fst s)) = Ok false ->
  (exists x, fst (Model_DList.Value it (fst s)) = Ok x) /\ fst (Model_DList.Pointer_store it v (fst s)) = Ok tt /\
  fst (Model_DList.MoveToNext (T := T) it (fst s)) = fst (Model_DList.Iterate (T := T) (fst s)).
Proof.
  intros T St zero h0 ops it v. cbn zeta. intros I Nn E. destruct (d_vars _ _ _ _ I) as (k & q & l & R & Hp & Hw & Ll). destruct (fst (d_after zero h0 ops)) as [h hdr]. pose proof R as (_ & (Eh & _) & _). cbn [snd] in Eh.
  destruct (Proof_DListIter.Rp_node _ _ _ _ _ _ _ _ (kle_refl k) Hp R) as [[-> ->]|(a & n & q2 & -> & Ea & _ & En2 & Hp2 & Hq)]; [congruence|].
  unfold Model_DList.IsNotEnd, bind, hget in E. cbn [snd ret fst] in E. injection E as E. apply negb_false_iff in E. rewrite Eh in E. destruct (snd k) as [hd|] eqn:Ek; [|discriminate]. cbn in E. apply Nat.eqb_eq in E. subst hd.
  unfold Model_DList.Value, Model_DList.ld_value, Model_DList.Pointer_store, Model_DList.st_value, pmod, Model_DList.MoveToNext, Model_DList.Iterate, Model_DList.ld_next, bind. rewrite (pload_ok _ _ _ _ Ea). unfold hget. cbn [snd]. rewrite Eh. cbn [is_nil negb]. rewrite (pload_ok _ _ _ _ Ea). split; [eexists; reflexivity|]. split; [cbn [fst]; now rewrite Ea|reflexivity].
Qed.
Print Assumptions C87_at_end.
Example C87_hyp : let ops := [ICall (DPushBack 1); ICall (DPushBack 2); IIterate; ICall (DPushFront 3); ICall DClear; ICall (DPushBack 4)] in
  Forall (fun o : iop (dop Z unit) Z => ~ dl_pops o) ops /\ In (Some 1%nat) (snd (d_after 0 [] ops)) /\ total dl_pushes ops = 4%nat /\
  fst (Model_DList.iter_loop 5 (Some 1%nat) [] (fst (d_after 0 [] ops))) = Ok [1; 2] /\
  let s := d_after 0 [] (ops ++ [IMoveToNext 0; IMoveToNext 0]) in snd s = [Some 0%nat] /\ fst (Model_DList.IsNotEnd (Some 0%nat) (fst s)) = Ok false /\ fst (Model_DList.Value (Some 0%nat) (fst s)) = Ok 0 /\
    fst (Model_DList.MoveToNext (T := Z) (Some 0%nat) (fst s)) = Ok (Some 4%nat).
Proof. cbn zeta. split; [repeat (constructor; [intros []|]); constructor|]. split; [vm_compute; auto|]. split; [vm_compute; reflexivity|]. split; [vm_compute; reflexivity|]. split; [vm_compute; reflexivity|]. split; [vm_compute; reflexivity|]. split; vm_compute; reflexivity. Qed.

(** ** C88 *)
Lemma alike_sym {C R T S1 P1 S2 P2 A} (L1 : listing C R T S1 P1) (L2 : listing C R T S2 P2) (a : outcome A * _) b : alike L1 L2 a b -> alike L2 L1 b a.
Proof. intros [E H]. split; auto. Qed.
Lemma alike_trans {C R T S1 P1 S2 P2 S3 P3 A} (L1 : listing C R T S1 P1) (L2 : listing C R T S2 P2) (L3 : listing C R T S3 P3) (a : outcome A * _) b c : alike L1 L2 a b -> alike L2 L3 b c -> alike L1 L3 a c.
Proof. intros [E H] [E' H']. split; [congruence|]. intros rest. now rewrite H. Qed.
Section Loops.
Context {T S0 St : Type}.
Variable zero : T.
Notation SL := (slist_listing (St := S0) zero).
Notation SS := (sl_spec (T := T) (St := S0)).
Notation DL := (dlist_listing (St := S0) zero).
Notation DS := (dl_spec (St := S0) zero).
Lemma s_exec {A} h0 (ops : list (iop (sop T S0) T)) (p : sprog T S0 A) : alike SL SS (exec (client SL) p (s_after zero h0 ops)) (exec (client SS) p (s_world ops)).
Proof.
  destruct (s_start zero h0 ops) as (_ & k & R). pose proof (Proof_SListIter.slist_sims (St := S0) zero (nth_error h0)) as Sm.
  eapply (agree_alike SL SS know kle kle_refl kle_trans _ _ Proof_SListIter.Rp_le Sm k). apply (exec_sim SL SS know kle kle_refl kle_trans _ _ Proof_SListIter.Rp_le Sm p k k); auto using kle_refl.
Qed.
Lemma s_loop {A} give give' (cb : St -> A -> sprog T S0 (bool * St)) h0 (ops : list (iop (sop T S0) T)) fuel st :
  (forall k p q, Proof_SListIter.Rp k p q -> sim know kle (SR h0) (same know) k (give p) (give' q)) ->
  alike SL SS (slist_from_head zero give cb fuel st (s_after zero h0 ops)) (from_start SS give' cb fuel st (s_world ops)).
Proof.
  intros Hg. rewrite slist_from_head_is. destruct (s_start zero h0 ops) as (_ & k & R). pose proof (Proof_SListIter.slist_sims (St := S0) zero (nth_error h0)) as Sm.
  eapply (agree_alike SL SS know kle kle_refl kle_trans _ _ Proof_SListIter.Rp_le Sm k). apply (from_start_sim SL SS know kle kle_refl kle_trans _ _ Proof_SListIter.Rp_le Sm give give' cb fuel st Hg k k); auto using kle_refl.
Qed.
Lemma s_give_value h0 k p q : Proof_SListIter.Rp k p q -> sim know kle (SR h0) (same know) k (slist_value p) (give_value SS q).
Proof. exact (give_value_sim SL SS know kle kle_refl kle_trans _ _ Proof_SListIter.Rp_le (Proof_SListIter.slist_sims (St := S0) zero (nth_error h0)) k p q). Qed.
Lemma s_give_pointer h0 k p q : Proof_SListIter.Rp k p q -> sim know kle (SR h0) (same know) k (slist_pointer p) (give_pointer SS q).
Proof. exact (give_pointer_sim SL SS know kle kle_refl kle_trans _ _ Proof_SListIter.Rp_le (Proof_SListIter.slist_sims (St := S0) zero (nth_error h0)) k p q). Qed.
Lemma d_exec {A} h0 (ops : list (iop (dop T S0) T)) (p : dprog T S0 A) : alike DL DS (exec (client DL) p (d_after zero h0 ops)) (exec (client DS) p (d_world zero ops)).
Proof.
  destruct (d_start zero h0 ops) as (_ & k & R). pose proof (Proof_DListIter.dlist_sims (St := S0) zero (nth_error h0)) as Sm.
  eapply (agree_alike DL DS know kle kle_refl kle_trans _ _ Proof_DListIter.Rp_le Sm k). apply (exec_sim DL DS know kle kle_refl kle_trans _ _ Proof_DListIter.Rp_le Sm p k k); auto using kle_refl.
Qed.
Lemma d_loop {A} give give' (cb : St -> A -> dprog T S0 (bool * St)) h0 (ops : list (iop (dop T S0) T)) fuel st :
  (forall k p q, Proof_DListIter.Rp k p q -> sim know kle (DR h0) (same know) k (give p) (give' q)) ->
  alike DL DS (dlist_from_head zero give cb (S fuel) st (d_after zero h0 ops)) (from_start DS give' cb (S fuel) st (d_world zero ops)).
Proof.
  intros Hg. destruct (d_start zero h0 ops) as (_ & k & R). pose proof (Proof_DListIter.dlist_sims (St := S0) zero (nth_error h0)) as Sm.
  eapply (agree_alike DL DS know kle kle_refl kle_trans _ _ Proof_DListIter.Rp_le Sm k). now apply dlist_from_head_sim.
Qed.
Lemma d_give_value h0 k p q : Proof_DListIter.Rp k p q -> sim know kle (DR h0) (same know) k (dlist_value p) (give_value DS q).
Proof. exact (give_value_sim DL DS know kle kle_refl kle_trans _ _ Proof_DListIter.Rp_le (Proof_DListIter.dlist_sims (St := S0) zero (nth_error h0)) k p q). Qed.
Lemma d_give_pointer h0 k p q : Proof_DListIter.Rp k p q -> sim know kle (DR h0) (same know) k (dlist_pointer p) (give_pointer DS q).
Proof. exact (give_pointer_sim DL DS know kle kle_refl kle_trans _ _ Proof_DListIter.Rp_le (Proof_DListIter.dlist_sims (St := S0) zero (nth_error h0)) k p q). Qed.
End Loops.
(** The loops with callbacks that do anything to the list show, and leave, what
    the walk of the specification shows and leaves. *)
Theorem C88_slist : forall T S0 St (zero : T) h0 (ops : list (iop (sop T S0) T)) fuel (st : St), let L := slist_listing (St := S0) zero in let Sp := sl_spec (T := T) (St := S0) in let s := s_after zero h0 ops in let w := s_world ops in
  (forall cb : St -> T -> sprog T S0 St, alike L Sp (SList_ForEach zero cb fuel st s) (from_start Sp (give_value Sp) (fun st v => always (cb st v)) fuel st w)) /\
  (forall cb : St -> T -> sprog T S0 (bool * St), alike L Sp (SList_ForEachIf zero cb fuel st s) (from_start Sp (give_value Sp) cb fuel st w)) /\
  (forall cb : St -> nat -> sprog T S0 St, alike L Sp (SList_ForEachMutable zero cb fuel st s) (from_start Sp (give_pointer Sp) (fun st p => always (cb st p)) fuel st w)) /\
  (forall cb : St -> nat -> sprog T S0 (bool * St), alike L Sp (SList_ForEachMutableIf zero cb fuel st s) (from_start Sp (give_pointer Sp) cb fuel st w)).
Proof. intros. split; [|split; [|split]]; intros cb; try (apply (s_loop zero slist_value); apply (s_give_value zero)); apply (s_loop zero slist_pointer); apply (s_give_pointer zero). Qed.
Print Assumptions C88_slist.
Theorem C88_dlist : forall T S0 St (zero : T) h0 (ops : list (iop (dop T S0) T)) n (st : St), let L := dlist_listing (St := S0) zero in let Sp := dl_spec (St := S0) zero in let s := d_after zero h0 ops in let w := d_world zero ops in let fuel := S n in
  (forall cb : St -> T -> dprog T S0 St, alike L Sp (DList_ForEach zero cb fuel st s) (from_start Sp (give_value Sp) (fun st v => always (cb st v)) fuel st w)) /\
  (forall cb : St -> T -> dprog T S0 (bool * St), alike L Sp (DList_ForEachIf zero cb fuel st s) (from_start Sp (give_value Sp) cb fuel st w)) /\
  (forall cb : St -> nat -> dprog T S0 St, alike L Sp (DList_ForEachMutable zero cb fuel st s) (from_start Sp (give_pointer Sp) (fun st p => always (cb st p)) fuel st w)) /\
  (forall cb : St -> nat -> dprog T S0 (bool * St), alike L Sp (DList_ForEachMutableIf zero cb fuel st s) (from_start Sp (give_pointer Sp) cb fuel st w)).
Proof. intros. split; [|split; [|split]]; intros cb; try (apply (d_loop zero dlist_value); apply (d_give_value zero)); apply (d_loop zero dlist_pointer); apply (d_give_pointer zero). Qed.
Print Assumptions C88_dlist.
(** A callback that pops and pushes: what it sees, and the list afterwards. *)
Definition cb88 (st : list Z) (v : Z) : sprog Z unit (list Z) :=
  if v =? 2 then Do (ICall LPopFront) (fun _ => Do (ICall (LPushBack 7)) (fun _ => Done (st ++ [v]))) else Done (st ++ [v]).
Example C88_hyp : let ops : list (iop (sop Z unit) Z) := [ICall (LPushBack 1); ICall (LPushBack 2); ICall (LPushBack 3)] in let s := s_after 0 [] ops in let r := SList_ForEach 0 cb88 9 [] s in
  fst r = Ok [1; 2; 3; 7] /\ fst (run (client (slist_listing (St := unit) 0)) [ICall LValues] (snd r)) = [Ok (IRes (RObs (OSeq [2; 3; 7])))].
Proof. cbn zeta. split; vm_compute; reflexivity. Qed.

(** ** C89 *)
Lemma s_values {T S0} (zero : T) h0 (ops : list (iop (sop T S0) T)) : fst (Model_SList.Values zero (fst (s_after zero h0 ops))) = Ok (values (fst (s_world ops))).
Proof.
  destruct (s_exec zero h0 ops (Do (ICall LValues) (fun r => Done r))) as [E _]. cbn [exec client] in E. unfold bind, on_list in E. cbn [fst snd l_call slist_listing sl_spec slist_spec Model_SList.slist_step] in E. unfold show in E.
  destruct (Model_SList.Values zero (fst (s_after zero h0 ops))) as [[l| |] s']; cbn [omap ret fst snd] in E; try discriminate; injection E as ->; reflexivity.
Qed.
Lemma d_values {T S0} (zero : T) h0 (ops : list (iop (dop T S0) T)) : fst (Model_DList.iter_all (fst (d_after zero h0 ops))) = Ok (values (dw_list (fst (d_world zero ops)))).
Proof.
  destruct (d_exec zero h0 ops (Do (ICall DIter) (fun r => Done r))) as [E _]. cbn [exec client] in E. unfold bind, on_list in E. cbn [fst snd l_call dlist_listing dl_spec dlist_spec Model_DList.dlist_step] in E. unfold show in E.
  destruct (Model_DList.iter_all (fst (d_after zero h0 ops))) as [[l| |] s']; cbn [omap ret fst snd] in E; try discriminate; injection E as ->; reflexivity.
Qed.
Lemma s_pure {T S0} : forall p (w : lworld T (option nat)), snd (l_value (sl_spec (St := S0)) p w) = w /\ snd (l_pointer (sl_spec (St := S0)) p w) = w.
Proof. intros [i|] w; auto. Qed.
Lemma d_pure {T S0} zero : forall p (w : dworld T), snd (l_value (dl_spec (St := S0) zero) p w) = w /\ snd (l_pointer (dl_spec (St := S0) zero) p w) = w.
Proof. intros [| |i] w; auto. Qed.
Lemma values_len {T Q} (w : lworld T Q) : length (values w) = length (w_live w).
Proof. apply map_length. Qed.
(** A callback that neither appends nor reverses (it may push in front, pop and
    clear) sees exactly the elements present at the start, once each and in
    order: what happens is what happens on visiting these elements one by one. *)
Theorem C89_slist : forall T S0 St (zero : T) h0 (ops : list (iop (sop T S0) T)) fuel (st : St) xs, let L := slist_listing (St := S0) zero in let Sp := sl_spec (T := T) (St := S0) in let s := s_after zero h0 ops in let w := s_world ops in
  let elements := map Some (map fst (w_live (fst w))) in fst (Model_SList.Values zero (fst s)) = Ok xs -> (length xs < fuel)%nat -> map snd (w_live (fst w)) = xs /\
  (forall cb : St -> T -> sprog T S0 (bool * St), (forall st v, only (fun o => ~ sl_appends o) (cb st v)) -> alike L Sp (SList_ForEachIf zero cb fuel st s) (over_at Sp (give_value Sp) cb elements st w)) /\
  (forall cb : St -> nat -> sprog T S0 (bool * St), (forall st v, only (fun o => ~ sl_appends o) (cb st v)) -> alike L Sp (SList_ForEachMutableIf zero cb fuel st s) (over_at Sp (give_pointer Sp) cb elements st w)) /\
  (forall cb : St -> T -> sprog T S0 St, (forall st v, only (fun o => ~ sl_appends o) (cb st v)) -> alike L Sp (SList_ForEach zero cb fuel st s) (over_at Sp (give_value Sp) (fun st v => always (cb st v)) elements st w)) /\
  (forall cb : St -> nat -> sprog T S0 St, (forall st v, only (fun o => ~ sl_appends o) (cb st v)) -> alike L Sp (SList_ForEachMutable zero cb fuel st s) (over_at Sp (give_pointer Sp) (fun st v => always (cb st v)) elements st w)).
Proof.
  intros T S0 St zero h0 ops fuel st xs. cbn zeta. rewrite s_values. intros Ex Lf. injection Ex as <-. rewrite values_len in Lf. split; [reflexivity|]. destruct (C88_slist T S0 St zero h0 ops fuel st) as (H3 & H1 & H4 & H2). destruct (s_world_ok ops) as (Hw & _). destruct (s_world ops) as [w vars]. cbn [fst] in *.
  split; [|split; [|split]]; intros cb Hc; [specialize (H1 cb)|specialize (H2 cb)|specialize (H3 cb)|specialize (H4 cb)]; cbn zeta in *.
  - rewrite sl_from_start in H1; auto. apply give_value_stays. apply s_pure.
  - rewrite sl_from_start in H2; auto. apply give_pointer_stays. apply s_pure.
  - rewrite sl_from_start in H3; auto; [|intros; now apply only_map]. apply give_value_stays. apply s_pure.
  - rewrite sl_from_start in H4; auto; [|intros; now apply only_map]. apply give_pointer_stays. apply s_pure.
Qed.
Print Assumptions C89_slist.
(** If it also leaves the values alone, the loop is the loop over the values that
    were in the list at the start; it ends, and only a panic in the callback makes
    it panic. *)
Theorem C89_slist_values : forall T S0 St (zero : T) h0 (ops : list (iop (sop T S0) T)) fuel (st : St) xs, let L := slist_listing (St := S0) zero in let s := s_after zero h0 ops in
  fst (Model_SList.Values zero (fst s)) = Ok xs -> (length xs < fuel)%nat ->
  (forall cb : St -> T -> sprog T S0 (bool * St), (forall st v, only (fun o => ~ sl_appends o /\ ~ sl_writes o) (cb st v)) -> alike L L (SList_ForEachIf zero cb fuel st s) (exec (client L) (over cb xs st) s)) /\
  (forall cb : St -> T -> sprog T S0 St, (forall st v, only (fun o => ~ sl_appends o /\ ~ sl_writes o) (cb st v)) -> alike L L (SList_ForEach zero cb fuel st s) (exec (client L) (over (fun st v => always (cb st v)) xs st) s)).
Proof.
  intros T S0 St zero h0 ops fuel st xs. cbn zeta. intros Ex Lf.
  assert (G : forall cb : St -> T -> sprog T S0 (bool * St), (forall st v, only (fun o => ~ sl_appends o /\ ~ sl_writes o) (cb st v)) -> alike (slist_listing (St := S0) zero) (slist_listing (St := S0) zero) (SList_ForEachIf zero cb fuel st (s_after zero h0 ops)) (exec (client (slist_listing (St := S0) zero)) (over cb xs st) (s_after zero h0 ops))).
  { intros cb Hc. destruct (C89_slist T S0 St zero h0 ops fuel st xs Ex Lf) as (Ev & H1 & _). eapply alike_trans; [apply H1; intros; eapply only_imp; [|apply Hc]; cbv beta; tauto|]. apply alike_sym. destruct (s_world_ok ops) as (Hw & _).
    pose proof (s_exec zero h0 ops (over cb xs st)) as H2. destruct (s_world ops) as [w vars]. cbn [fst] in *. rewrite sl_values; auto; [|intros; eapply only_imp; [|apply Hc]; cbv beta; tauto]. unfold values. now rewrite Ev. }
  split; [exact G|]. intros cb Hc. apply (G (fun st v => always (cb st v))). intros. now apply only_map.
Qed.
Print Assumptions C89_slist_values.
Theorem C89_dlist : forall T S0 St (zero : T) h0 (ops : list (iop (dop T S0) T)) fuel (st : St) xs, let L := dlist_listing (St := S0) zero in let Sp := dl_spec (St := S0) zero in let s := d_after zero h0 ops in let w := d_world zero ops in
  let elements := map At (map fst (w_live (dw_list (fst w)))) in fst (Model_DList.iter_all (fst s)) = Ok xs -> (length xs < fuel)%nat -> map snd (w_live (dw_list (fst w))) = xs /\
  (forall cb : St -> T -> dprog T S0 (bool * St), (forall st v, only (fun o => ~ dl_appends o /\ ~ dl_pops o) (cb st v)) -> alike L Sp (DList_ForEachIf zero cb fuel st s) (over_at Sp (give_value Sp) cb elements st w)) /\
  (forall cb : St -> nat -> dprog T S0 (bool * St), (forall st v, only (fun o => ~ dl_appends o /\ ~ dl_pops o) (cb st v)) -> alike L Sp (DList_ForEachMutableIf zero cb fuel st s) (over_at Sp (give_pointer Sp) cb elements st w)) /\
  (forall cb : St -> T -> dprog T S0 St, (forall st v, only (fun o => ~ dl_appends o /\ ~ dl_pops o) (cb st v)) -> alike L Sp (DList_ForEach zero cb fuel st s) (over_at Sp (give_value Sp) (fun st v => always (cb st v)) elements st w)) /\
  (forall cb : St -> nat -> dprog T S0 St, (forall st v, only (fun o => ~ dl_appends o /\ ~ dl_pops o) (cb st v)) -> alike L Sp (DList_ForEachMutable zero cb fuel st s) (over_at Sp (give_pointer Sp) (fun st v => always (cb st v)) elements st w)).
Proof.
  intros T S0 St zero h0 ops fuel st xs. cbn zeta. rewrite d_values. intros Ex Lf. injection Ex as <-. rewrite values_len in Lf. split; [reflexivity|]. destruct fuel as [|fuel]; [lia|]. destruct (C88_dlist T S0 St zero h0 ops fuel st) as (H3 & H1 & H4 & H2). destruct (d_world_ok zero ops) as (Hw & _). destruct (d_world zero ops) as [w vars]. cbn [fst] in *.
  split; [|split; [|split]]; intros cb Hc; [specialize (H1 cb)|specialize (H2 cb)|specialize (H3 cb)|specialize (H4 cb)]; cbn zeta in *.
  - rewrite dl_from_start in H1; auto; apply give_value_stays, d_pure.
  - rewrite dl_from_start in H2; auto; apply give_pointer_stays, d_pure.
  - rewrite dl_from_start in H3; auto; try (apply give_value_stays, d_pure). intros; now apply only_map.
  - rewrite dl_from_start in H4; auto; try (apply give_pointer_stays, d_pure). intros; now apply only_map.
Qed.
Print Assumptions C89_dlist.
Theorem C89_dlist_values : forall T S0 St (zero : T) h0 (ops : list (iop (dop T S0) T)) fuel (st : St) xs, let L := dlist_listing (St := S0) zero in let s := d_after zero h0 ops in
  let quiet := fun o : iop (dop T S0) T => ~ dl_appends o /\ ~ dl_pops o /\ ~ dl_writes o in
  fst (Model_DList.iter_all (fst s)) = Ok xs -> (length xs < fuel)%nat ->
  (forall cb : St -> T -> dprog T S0 (bool * St), (forall st v, only quiet (cb st v)) -> alike L L (DList_ForEachIf zero cb fuel st s) (exec (client L) (over cb xs st) s)) /\
  (forall cb : St -> T -> dprog T S0 St, (forall st v, only quiet (cb st v)) -> alike L L (DList_ForEach zero cb fuel st s) (exec (client L) (over (fun st v => always (cb st v)) xs st) s)).
Proof.
  intros T S0 St zero h0 ops fuel st xs. cbn zeta. intros Ex Lf. set (quiet := fun o : iop (dop T S0) T => ~ dl_appends o /\ ~ dl_pops o /\ ~ dl_writes o).
  assert (G : forall cb : St -> T -> dprog T S0 (bool * St), (forall st v, only quiet (cb st v)) -> alike (dlist_listing (St := S0) zero) (dlist_listing (St := S0) zero) (DList_ForEachIf zero cb fuel st (d_after zero h0 ops)) (exec (client (dlist_listing (St := S0) zero)) (over cb xs st) (d_after zero h0 ops))).
  { intros cb Hc. destruct (C89_dlist T S0 St zero h0 ops fuel st xs Ex Lf) as (Ev & H1 & _). eapply alike_trans; [apply H1; intros; eapply only_imp; [|apply Hc]; unfold quiet; cbv beta; tauto|]. apply alike_sym. destruct (d_world_ok zero ops) as (Hw & _).
    pose proof (d_exec zero h0 ops (over cb xs st)) as H2. destruct (d_world zero ops) as [w vars]. cbn [fst] in *. rewrite dl_values; auto; [|intros; eapply only_imp; [|apply Hc]; unfold quiet; cbv beta; tauto]. unfold values. now rewrite Ev. }
  split; [exact G|]. intros cb Hc. apply (G (fun st v => always (cb st v))). intros. now apply only_map.
Qed.
Print Assumptions C89_dlist_values.
(** Emptying the list while iterating it. *)
Definition cb89 (st : list Z) (v : Z) : sprog Z unit (list Z) := Do (ICall LPopFront) (fun _ => Do (ICall (LPushFront (v * 10))) (fun _ => Done (st ++ [v]))).
Example C89_hyp : let ops : list (iop (sop Z unit) Z) := [ICall (LPushBack 1); ICall (LPushBack 2); ICall (LPushBack 3)] in let s := s_after 0 [] ops in
  fst (Model_SList.Values 0 (fst s)) = Ok [1; 2; 3] /\ fst (SList_ForEach 0 cb89 4 [] s) = Ok [1; 2; 3] /\ fst (Model_SList.Values 0 (fst (snd (SList_ForEach 0 cb89 4 [] s)))) = Ok [30; 2; 3] /\
  (forall st v, only (fun o => ~ sl_appends o /\ ~ sl_writes o) (cb89 st v)).
Proof. cbn zeta. split; [vm_compute; reflexivity|]. split; [vm_compute; reflexivity|]. split; [vm_compute; reflexivity|]. intros st v. unfold cb89. repeat (constructor; [split; intros []|intros _]). constructor. Qed.
(** A DList cleared and pushed to in front while iterating it. *)
Definition cb89d (st : list Z) (v : Z) : dprog Z unit (list Z) := Do (ICall DClear) (fun _ => Do (ICall (DPushFront (v * 10))) (fun _ => Done (st ++ [v]))).
Example C89_hyp_dlist : let ops : list (iop (dop Z unit) Z) := [ICall (DPushBack 1); ICall (DPushBack 2); ICall (DPushBack 3)] in let s := d_after 0 [] ops in
  fst (Model_DList.iter_all (fst s)) = Ok [1; 2; 3] /\ fst (DList_ForEach 0 cb89d 4 [] s) = Ok [1; 2; 3] /\ fst (Model_DList.iter_all (fst (snd (DList_ForEach 0 cb89d 4 [] s)))) = Ok [30] /\
  (forall st v, only (fun o => ~ dl_appends o /\ ~ dl_pops o /\ ~ dl_writes o) (cb89d st v)).
Proof. cbn zeta. split; [vm_compute; reflexivity|]. split; [vm_compute; reflexivity|]. split; [vm_compute; reflexivity|]. intros st v. unfold cb89d. repeat (constructor; [split; [intros []|split; intros []]|intros _]). constructor. Qed.

(** ** C90 *)
Definition C90_expected : Prop := forall T S0 St (zero : T) h0 (ops : list (iop (sop T S0) T)) (cb : St -> T -> sprog T S0 St) st, exists fuel, fst (SList_ForEach zero cb fuel st (s_after zero h0 ops)) <> NoFuel.
(** A callback that pushes to the back is called forever. *)
Definition s_pusher {T S0 St} (st : St) (v : T) : sprog T S0 St := Do (ICall (LPushBack v)) (fun _ => Done st).
Definition d_pusher {T S0 St} (st : St) (v : T) : dprog T S0 St := Do (ICall (DPushBack v)) (fun _ => Done st).
Lemma s_pusher_runs {T S0 St} fuel : forall (w : lworld T (option nat)) vars (st : St) L i v R, wf w -> w_live w = L ++ (i, v) :: R ->
  fst (each (sl_spec (St := S0)) (give_value (sl_spec (St := S0))) (fun st v => always (s_pusher st v)) fuel (Some i) st (w, vars)) = NoFuel.
Proof.
  induction fuel as [|fuel IH]; intros w vars st L i v R Hw El; [reflexivity|]. cbn [each]. rewrite (on_list_same_step _ true) by reflexivity. cbn [negb]. destruct (at_live (fun q => q) w L i v R Hw El) as [_ Ev].
  unfold give_value. rewrite (on_list_same_step _ v) by (cbn [fst l_value sl_spec on_element]; unfold pure; now rewrite Ev).
  pose proof (wf_push_back v w Hw) as Hw'. assert (El' : w_live (push_back v w) = L ++ (i, v) :: R ++ [(w_made w, v)]) by (cbn; rewrite El, <- app_assoc; reflexivity).
  destruct (at_live (fun q => q) _ L i v _ Hw' El') as [En _]. unfold bind at 1. cbn [s_pusher always pmap exec client]. unfold bind at 1. unfold on_list at 1. cbn [fst snd l_call sl_spec slist_spec sl_world ret].
  destruct (R ++ [(w_made w, v)]) as [|[j u] R'] eqn:ER; [destruct R; discriminate|].
  rewrite (on_list_same_step _ (Some j)) by (cbn [fst l_next sl_spec on_element]; unfold pure; now rewrite En). apply (IH _ _ _ (L ++ [(i, v)]) _ u R'); auto. now rewrite <- app_assoc.
Qed.
Lemma d_pusher_runs {T S0 St} zero fuel : forall (w : dworld T) vars (st : St) L i v R, wf (dw_list w) -> w_live (dw_list w) = L ++ (i, v) :: R ->
  fst (each (dl_spec (St := S0) zero) (give_value (dl_spec (St := S0) zero)) (fun st v => always (d_pusher st v)) fuel (At i) st (w, vars)) = NoFuel.
Proof.
  induction fuel as [|fuel IH]; intros w vars st L i v R Hw El; [reflexivity|]. cbn [each]. rewrite (on_list_same_step _ true) by reflexivity. cbn [negb]. destruct (at_live to_place (dw_list w) L i v R Hw El) as [_ Ev].
  unfold give_value. rewrite (on_list_same_step _ v) by (cbn [fst l_value dl_spec]; unfold pure, dl_value; now rewrite Ev).
  pose proof (wf_push_back v _ Hw) as Hw'. assert (El' : w_live (push_back v (dw_list w)) = L ++ (i, v) :: R ++ [(w_made (dw_list w), v)]) by (cbn; rewrite El, <- app_assoc; reflexivity).
  destruct (at_live to_place _ L i v _ Hw' El') as [En _]. unfold bind at 1. cbn [d_pusher always pmap exec client]. unfold bind at 1. unfold on_list at 1. cbn [fst snd l_call dl_spec dlist_spec dl_world ret].
  destruct (R ++ [(w_made (dw_list w), v)]) as [|[j u] R'] eqn:ER; [destruct R; discriminate|].
  rewrite (on_list_same_step _ (At j)) by (cbn [fst l_next dl_spec]; unfold pure, dl_next; cbn [dw_list]; now rewrite En). apply (IH _ _ _ (L ++ [(i, v)]) _ u R'); auto. cbn [dw_list]. now rewrite <- app_assoc.
Qed.
Theorem C90_slist_append : forall T S0 St (zero : T) h0 (ops : list (iop (sop T S0) T)) (st : St) x xs fuel, let s := s_after zero h0 ops in
  fst (Model_SList.Values zero (fst s)) = Ok (x :: xs) -> fst (SList_ForEach (S0 := S0) zero s_pusher fuel st s) = NoFuel.
Proof.
  intros T S0 St zero h0 ops st x xs fuel. cbn zeta. rewrite s_values. intros E. destruct (C88_slist T S0 St zero h0 ops fuel st) as (H & _). specialize (H s_pusher). cbn zeta in H. rewrite (proj1 H). destruct (s_world_ok ops) as (Hw & _). destruct (s_world ops) as [w vars]. cbn [fst] in *.
  unfold values in E. destruct (w_live w) as [|[i v] R] eqn:El; [discriminate|]. unfold from_start. rewrite (on_list_same_step _ (Some i)) by (cbn; unfold pure; now rewrite El). now apply (s_pusher_runs fuel w vars st [] i v R).
Qed.
Print Assumptions C90_slist_append.
Theorem C90_dlist_append : forall T S0 St (zero : T) h0 (ops : list (iop (dop T S0) T)) (st : St) x xs n, let s := d_after zero h0 ops in
  fst (Model_DList.iter_all (fst s)) = Ok (x :: xs) -> fst (DList_ForEach (S0 := S0) zero d_pusher (S n) st s) = NoFuel.
Proof.
  intros T S0 St zero h0 ops st x xs n. cbn zeta. rewrite d_values. intros E. destruct (C88_dlist T S0 St zero h0 ops n st) as (H & _). specialize (H d_pusher). cbn zeta in H. rewrite (proj1 H). destruct (d_world_ok zero ops) as (Hw & _). destruct (d_world zero ops) as [w vars]. cbn [fst] in *. destruct Hw as [Hw He].
  unfold values in E. destruct (w_live (dw_list w)) as [|[i v] R] eqn:El; [discriminate|]. unfold from_start. rewrite (on_list_same_step _ (At i)); [now apply (d_pusher_runs zero (S n) w vars st [] i v R)|]. cbn. unfold pure. destruct (exists_end w); [now rewrite El|]. now specialize (He eq_refl).
Qed.
Print Assumptions C90_dlist_append.
Theorem C90_refuted : ~ C90_expected.
Proof. intros H. destruct (H Z unit unit 0 [] [ICall (LPushBack 1)] s_pusher tt) as (fuel & F). apply F. apply (C90_slist_append _ _ _ _ _ _ _ 1 []). vm_compute. reflexivity. Qed.
Print Assumptions C90_refuted.
(** It can run forever without any push: reversing an SList of three elements
    from the second call on turns the walk back and forth between two of them. *)
Definition reverser (first : bool) (v : Z) : sprog Z unit bool := if first then Done false else Do (ICall LReverse) (fun _ => Done false).
Theorem C90_slist_reverse : forall fuel, let s := s_after (St := unit) 0 [] [ICall (LPushBack 1); ICall (LPushBack 2); ICall (LPushBack 3)] in fst (SList_ForEach 0 reverser fuel true s) = NoFuel.
Proof.
  intros fuel. cbn zeta. set (ops := [_; _; _]). destruct (C88_slist Z unit bool 0 [] ops fuel true) as (H & _). specialize (H reverser). cbn zeta in H. rewrite (proj1 H). clear H.
  assert (G : forall fuel vars, fst (each (sl_spec (St := unit)) (give_value (sl_spec (St := unit))) (fun st v => always (reverser st v)) fuel (Some 1%nat) false (mkW [(0%nat, 1); (1%nat, 2); (2%nat, 3)] [] 3, vars)) = NoFuel /\
    fst (each (sl_spec (St := unit)) (give_value (sl_spec (St := unit))) (fun st v => always (reverser st v)) fuel (Some 0%nat) false (mkW [(2%nat, 3); (1%nat, 2); (0%nat, 1)] [] 3, vars)) = NoFuel).
  { clear. induction fuel as [|fuel IH]; intros vars; [split; reflexivity|]. split; [exact (proj2 (IH vars))|exact (proj1 (IH vars))]. }
  destruct fuel as [|fuel]; [reflexivity|]. exact (proj1 (G fuel [])).
Qed.
Print Assumptions C90_slist_reverse.
(** A DList callback that removes the element it is called with, without a panic
    of its own, makes the loop panic. *)
Theorem C90_dlist_pop : exists (ops : list (iop (dop Z unit) Z)) (cb : unit -> Z -> dprog Z unit unit), (forall st v, exists rest, cb st v = Do (ICall DTryPopFront) rest) /\
  forall n, fst (DList_ForEach 0 cb (S (S n)) tt (d_after 0 [] ops)) = Panic.
Proof.
  exists [ICall (DPushBack 1); ICall (DPushBack 2)], (fun _ _ => Do (ICall DTryPopFront) (fun _ => Done tt)). split; [intros; eexists; reflexivity|]. intros n. set (ops := [_; _]). destruct (C88_dlist Z unit unit 0 [] ops (S n) tt) as (H & _). specialize (H (fun _ _ => Do (ICall DTryPopFront) (fun _ => Done tt))). cbn zeta in H. rewrite (proj1 H). reflexivity.
Qed.
Print Assumptions C90_dlist_pop.
Example C90_hyp : fst (Model_SList.Values 0 (fst (s_after (St := unit) 0 [] [ICall (LPushBack 1); ICall (LPushFront 2)]))) = Ok [2; 1] /\ fst (Model_DList.iter_all (fst (d_after (St := unit) 0 [] [ICall (DPushBack 1); ICall (DPushFront 2)]))) = Ok [2; 1].
Proof. split; vm_compute; reflexivity. Qed.
