(** C105: SList values that are copied by assignment. *)
From Verif Require Import Base BaseLemmas Spec Trace Spec_List Nodes Model_SList Proof_SList Spec_SListCopy Model_SListCopy Proof_SListCopy.
From Verif Require Proof_DListCopy.

Section C105.
Context {T St : Type}.
Variable zero : T.

(** If the calls that write to elements already there are made only through
    variables that share no element with another, every variable behaves as a
    sequence of its own. *)
Theorem C105_independent (ops : list (wop T St)) : polite ops (O, []) ->
  fst (run (svars_step zero) ops ([], [])) = fst (run own_spec ops []).
Proof. intros P. exact (proj1 (svars_run zero ops _ _ _ lrel_init P)). Qed.

(** So without PushBack, Reverse, ForEachMutable, ForEachMutableIf and writing
    through iterators, copies are independent without further ado. *)
Lemma stack_like_polite (ops : list (wop T St)) : Forall stack_like ops -> forall w, polite ops w.
Proof.
  induction 1 as [|o ops Ho F IH]; intros w; cbn [polite]; auto. split; [|apply IH]. destruct o as [| | | |i c]; auto.
  destruct c; cbn in *; try contradiction; discriminate.
Qed.
Theorem C105_persistent (ops : list (wop T St)) : Forall stack_like ops ->
  fst (run (svars_step zero) ops ([], [])) = fst (run own_spec ops []).
Proof. intros F. apply C105_independent, stack_like_polite, F. Qed.

(** Elements ys pushed to the back of a copy of a list of elements xs: the copy
    is xs ++ ys, the original has become inconsistent. *)
Theorem C105_appended (before : list (wop T St)) i xs ys :
  polite before (O, []) ->
  let ls := snd (run own_spec before []) in
  nth_error ls i = Some xs -> xs <> [] ->
  let s := snd (run (svars_step zero) (before ++ WCopy i :: map (fun y => WCall (length ls) (LPushBack y)) ys) ([], [])) in
  (forall o : sop T St, looks o -> fst (svars_step zero (WCall i o) s) = stale_spec xs ys o) /\
  (forall o : sop T St, fst (svars_step zero (WCall (length ls) o) s) = fst (slist_spec o (xs ++ ys))).
Proof.
  cbv zeta. intros P. destruct (svars_run zero before _ _ _ lrel_init P) as [_ R]. set (ls := snd (run own_spec before [])) in *. intros Ei Hx.
  rewrite run_app. destruct (run (svars_step zero) before ([], [])) as [rs0 [h hs]]. cbn [fst snd] in *.
  destruct R as (_ & L & F & _ & El). cbn [fst snd] in *. rewrite El in *. rewrite nth_error_map in Ei. destruct (nth_error L i) as [l|] eqn:Eli; [|discriminate]. injection Ei as <-.
  destruct (Proof_DListCopy.F2_nth' _ _ _ _ _ F Eli) as (hdr & Eh & Ho). pose proof (Proof_DListCopy.F2_len _ _ _ F) as Len.
  cbn [run]. cbn [svars_step fst snd]. rewrite Eh. rewrite map_length, <- Len.
  destruct (append_calls (St:=St) zero (off_list h l) (length hs) ys h (hs ++ [hdr]) hdr l) as (h' & hdr' & new & E & <- & R').
  - rewrite nth_error_app2, Nat.sub_diag by lia. reflexivity.
  - apply holds_rep; auto; [apply off_list_keeps|apply off_list_own].
  - rewrite E. cbn [snd]. assert (Lt : (i < length hs)%nat) by (apply nth_error_Some; congruence). split.
    + intros o Lo. cbn [svars_step fst snd]. rewrite nth_error_upd_ne by lia. rewrite nth_error_app1 by lia. rewrite Eh. destruct Ho as (ND & C & Et & En).
      rewrite (stale_ok zero (off_list h l) h' hdr hdr' l new o); auto; [intros ->; now apply Hx|]. destruct R' as (_ & C' & _). cbn [fst snd] in C'. destruct l as [|[a v] l]; [now destruct Hx|].
      destruct C as (-> & _). cbn in C'. destruct C' as (-> & _). reflexivity.
    + intros o. cbn [svars_step fst snd]. rewrite nth_error_upd_eq by (rewrite app_length; cbn; lia). destruct (step_full zero _ _ _ o R') as (l' & Er & _). rewrite map_app in Er.
      rewrite <- Er. now destruct (slist_step zero o (h', hdr')) as [r [h2 hdr2]].
Qed.
End C105.
Print Assumptions C105_independent.
Print Assumptions C105_persistent.
Print Assumptions C105_appended.

(** A copy is a list of its own. *)
Definition C105_expected_own : Prop := forall (ops : list (wop Z unit)),
  fst (run (svars_step 0) ops ([], [])) = fst (run own_spec ops []).
(** A copy is another name for the list. *)
Definition C105_expected_alias : Prop := forall (vs : list Z) (calls : list (sop Z unit)) o,
  last (fst (run (svars_step 0) (WOf vs :: WCopy 0 :: map (WCall 1) calls ++ [WCall 0 o]) ([], []))) Panic = fst (slist_spec o (snd (run slist_spec calls vs))).
(** Values never panics. *)
Definition C105_expected_values : Prop := forall (ops : list (wop Z unit)) i,
  (i < length (snd (run own_spec ops [])))%nat -> last (fst (run (svars_step 0) (ops ++ [WCall i LValues]) ([], []))) Panic <> Panic.
(** What was pushed last through a variable and not removed through it is in it. *)
Definition C105_expected_kept : Prop := forall (vs ws : list Z) v, exists xs,
  last (fst (run (svars_step (St := unit) 0) (WOf vs :: WCopy 0 :: WCall 0 (LPushBack v) :: map (fun w => WCall 1 (LPushBack w)) ws ++ [WCall 0 LIter]) ([], []))) Panic = Ok (RObs (OSeq xs)) /\ In v xs.
Theorem C105_refuted : ~ C105_expected_own /\ ~ C105_expected_alias /\ ~ C105_expected_values /\ ~ C105_expected_kept.
Proof.
  split; [|split; [|split]]; intros H.
  - specialize (H [WOf [1]; WCopy 0; WCall 1 (LPushBack 2); WCall 0 LIter]). vm_compute in H. discriminate.
  - specialize (H [1] [LPushBack 2] LLen). vm_compute in H. discriminate.
  - apply (H [WOf [1]; WCopy 0; WCall 1 (LPushBack 2)] 0%nat); [vm_compute; lia|]. vm_compute. reflexivity.
  - destruct (H [1] [3] 2) as (xs & E & I). vm_compute in E. injection E as <-. cbn in I. lia.
Qed.
Print Assumptions C105_refuted.

(** Copies as versions of a stack; a polite program with all writing calls; what
    a forgotten variable shows. *)
Example C105_hyp :
  Forall stack_like ([WOf [1; 2]; WCopy 0; WCall 1 (LPushFront 3); WCall 0 (LPushFront 4); WCopy 1; WCall 2 LPopFront; WCall 2 LPopFront; WAssign 0 2; WCall 1 LValues] : list (wop Z unit)) /\
  polite ([WOf [1; 2]; WNew; WCopy 1; WCall 1 (LPushBack 3); WCall 2 (LPushBack 4); WCall 0 LReverse; WCopy 0; WCall 0 LPopFront; WCall 0 LPopFront; WCall 3 (LPushBack 7); WCall 0 (LPushBack 8);
    WCall 3 (LForEachMutable (fun s v => (v + 1, s)) tt); WCall 3 LValues; WCall 0 LValues; WAssign 3 0; WAssign 0 1; WCall 3 (LIterSet 0 5)] : list (wop Z unit)) (O, []) /\
  fst (run (svars_step (St := unit) 0) [WOf [1; 2]; WNew; WCopy 1; WCall 1 (LPushBack 3); WCall 2 (LPushBack 4); WCall 0 LReverse; WCopy 0; WCall 0 LPopFront; WCall 0 LPopFront; WCall 3 (LPushBack 7); WCall 0 (LPushBack 8);
    WCall 3 (LForEachMutable (fun s v => (v + 1, s)) tt); WCall 3 LValues; WCall 0 LValues; WAssign 3 0; WAssign 0 1; WCall 3 (LIterSet 0 5); WCall 3 LIter] ([], [])) =
    [Ok (RObs ONone); Ok (RObs ONone); Ok (RObs ONone); Ok (RObs ONone); Ok (RObs ONone); Ok (RObs ONone); Ok (RObs ONone); Ok (RObs (OVal 2)); Ok (RObs (OVal 1)); Ok (RObs ONone); Ok (RObs ONone);
     Ok (RSt tt); Ok (RObs (OSeq [3; 2; 8])); Ok (RObs (OSeq [8])); Ok (RObs ONone); Ok (RObs ONone); Ok (RObs ONone); Ok (RObs (OSeq [5]))] /\
  fst (run (svars_step (St := unit) 0) [WOf [1]; WCopy 0; WCall 0 (LPushBack 2); WCall 1 (LPushBack 3); WCall 0 LValues; WCall 0 LBack; WCall 1 LValues] ([], [])) =
    [Ok (RObs ONone); Ok (RObs ONone); Ok (RObs ONone); Ok (RObs ONone); Ok (RObs (OSeq [1; 3])); Ok (RObs (OVal 2)); Ok (RObs (OSeq [1; 3]))].
Proof.
  split; [repeat constructor|]. split; [|split; vm_compute; reflexivity].
  cbn. repeat split; auto; intros Hb; try discriminate Hb; intros j ids ids' a NE E1 E2 I1 I2; cbn in E1; injection E1 as <-;
    destruct j as [|[|[|[|j]]]]; cbn in E2; try congruence; try (destruct j; discriminate E2); injection E2 as <-; cbn in I1, I2; lia.
Qed.
