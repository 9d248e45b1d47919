(** C108: Stack values that are copied by assignment. *)
From Verif Require Import Base BaseLemmas Spec Trace Proof_Mem Model_Stack Spec_Containers Spec_VecCopy Model_VecCopy Proof_VecCopy Proof_StackCopy.

Section C108.
Context {T : Type}.
Variable zero : T.
Variable grow : Z -> Z -> Z.
Notation prog := (list (xop stack_make (stack_op T))).
Notation final ops := (snd (run (sx_step zero grow) ops xstart)).

(** If elements are pushed only through variables that no variable with the same
    storage is longer than, every variable behaves as a stack of its own. *)
Theorem C108_independent (ops : prog) : Forall sx_args ops -> polite_run stack_touched (sx_step zero grow) ops xstart ->
  fst (run (sx_step zero grow) ops xstart) = fst (run (own_stack zero) ops []).
Proof. intros Fa P. pose proof (own_det zero ops _ _ _ (sx_polite zero grow ops Fa P)) as E. cbn [map] in E. now rewrite E. Qed.

(** In any program at all, lengths, emptiness and whether a call panics or finds
    an element are those of stacks of their own; only the elements may differ. *)
Theorem C108_lengths (ops : prog) : Forall sx_args ops ->
  map forget (fst (run (sx_step zero grow) ops xstart)) = map forget (fst (run (own_stack zero) ops [])).
Proof.
  intros Fa.
  assert (H : forall sts w, lens_rel sts w -> map forget (fst (run (sx_step zero grow) ops w)) = map forget (fst (run (own_stack zero) ops sts))).
  { induction Fa as [|o ops Ho Fa IH]; intros sts w R; cbn [run]; auto. destruct (lens_step zero grow o sts w Ho R) as [E R'].
    destruct (sx_step zero grow o w) as [r w'], (own_stack zero o sts) as [r' sts']. cbn [fst snd] in *. specialize (IH _ _ R').
    destruct (run (sx_step zero grow) ops w'), (run (own_stack zero) ops sts'). cbn [fst snd map] in *. congruence. }
  apply H. split; [apply inv_start|constructor].
Qed.

(** In any program, calls other than Push change no other variable; Push of x
    through variable i puts x in the place of the element at the same height of
    every longer variable with the same storage, and changes nothing else. *)
Theorem C108_call (before : prog) i o :
  Forall sx_args before ->
  let w := final before in let w' := final (before ++ [XCall i o]) in
  (i < length (snd w))%nat ->
  stack_spec zero o (rev (shown w i)) = (last (fst (run (sx_step zero grow) (before ++ [XCall i o]) xstart)) Panic, rev (shown w' i)) /\
  forall j, j <> i ->
    match o with
    | SPush x => (~ share w i j \/ zlen (shown w j) <= zlen (shown w i) -> shown w' j = shown w j) /\
                 (share w i j -> zlen (shown w i) < zlen (shown w j) -> shown w' j = zupd (shown w j) (zlen (shown w i)) x)
    | _ => shown w' j = shown w j
    end.
Proof.
  cbv zeta. intros Fa Hi. pose proof (sx_run zero grow before Fa) as I. rewrite run_app.
  destruct (run (sx_step zero grow) before xstart) as [rs w] eqn:Er. cbn [fst snd run] in *.
  destruct (nth_error (snd w) i) as [s|] eqn:Ei; [|apply nth_error_None in Ei; lia].
  destruct (sx_effect zero grow w i o s I Ei) as (I' & Len & Sp & Oth).
  assert (Es : snd (snd (sx_step zero grow (XCall i o) w)) = upd i (snd (snd (stack_step zero grow o (fst w, s)))) (snd w) /\ fst (snd (sx_step zero grow (XCall i o) w)) = fst (snd (stack_step zero grow o (fst w, s)))).
  { unfold sx_step. cbn [xvars_step]. rewrite Ei. now destruct (stack_step zero grow o (fst w, s)) as [? [? ?]]. }
  destruct (sx_step zero grow (XCall i o) w) as [r w']. cbn [fst snd] in *. rewrite last_last. split; [exact Sp|]. intros j Nj. destruct (Oth j Nj) as [E C].
  assert (L : zlen (shown w' j) = zlen (shown w j)).
  { unfold shown. rewrite E. destruct (nth_error (snd w) j) as [t|] eqn:Ej; auto. destruct I as ((W & _) & _), I' as ((W' & _) & _). rewrite !zlen_contents; eauto. }
  assert (Q : (share w i j -> forall p, stack_touched o (shown w i) = Some p -> zlen (shown w j) <= p) -> shown w' j = shown w j).
  { intros H. apply zlist_eq_len; [auto|]. intros k Hk. apply C. intros Sh p Hp. specialize (H Sh p Hp). lia. }
  destruct o as [x| | | | | |]; try (apply Q; intros _ p Hp; discriminate Hp).
  split; [intros H; apply Q; intros Sh p Hp; injection Hp as <-; destruct H; [contradiction|auto]|].
  intros Sh Lt. unfold share in Sh. rewrite Ei in Sh. destruct (nth_error (snd w) j) as [t|] eqn:Ej; [|contradiction].
  destruct I as ((W & A) & _), I' as ((W' & _) & _). pose proof (W _ _ Ei) as Ws. pose proof (W _ _ Ej) as Wt. pose proof (W' _ _ E) as Wt'. destruct (A _ _ _ _ Ei Ej Sh) as [Eo Ecp].
  assert (Si : shown w i = contents (fst w) s) by (unfold shown; now rewrite Ei). assert (Sj : shown w j = contents (fst w) t) by (unfold shown; now rewrite Ej).
  assert (Sj' : shown w' j = contents (fst w') t) by (unfold shown; now rewrite E). rewrite Si, Sj in Lt. rewrite !zlen_contents in Lt by auto.
  rewrite Si, Sj, Sj' in *. rewrite (zlen_contents _ s) by auto. destruct Es as [_ Es]. rewrite Es.
  destruct (append_list_ok zero grow s [x] (fst w) Ws) as (s1 & m1 & E1 & _ & _ & _ & R).
  assert (Em : fst (snd (stack_step zero grow (SPush x) (fst w, s))) = m1).
  { cbn [stack_step]. rewrite observe_snd. unfold Stack_Push. rewrite bind_get_hdr. rewrite (bind_Ok _ _ _ _ _ (lift_mem_ok _ (fst w) s _ _ E1)). reflexivity. }
  rewrite Em in *. change (zlen [x]) with 1 in R. pose proof Ws as (V1 & V2 & V3 & V4). pose proof Wt as (U1 & U2 & U3 & U4).
  destruct (Z.leb_spec (s_len s + 1) (s_cap s)); [|lia]. destruct R as (_ & _ & _ & ->). rewrite <- Es in *. clear Em E1.
  apply zlist_eq_len; [rewrite zlen_zupd; exact L|]. intros k Hk. rewrite zlen_contents in Hk by auto.
  rewrite zget_zupd by (rewrite zlen_contents by auto; lia). rewrite !zget_contents by (auto; lia). destruct (Z.ltb_spec k (s_len t)); [|lia].
  unfold arr_of at 1. rewrite Es, <- Sh, write_at_nth by auto. rewrite zget_zwrite by (change (zlen [x]) with 1; lia). change (zlen [x]) with 1.
  replace (arr_of (fst w) t) with (arr_of (fst w) s) by (unfold arr_of; now rewrite Sh).
  destruct (Z.eqb_spec (s_len s) k) as [Ek|Nk], (Z.leb_spec (s_off s + s_len s) (s_off t + k)), (Z.ltb_spec (s_off t + k) (s_off s + s_len s + 1)); cbn [andb]; try lia; auto.
  replace (s_off t + k - (s_off s + s_len s)) with 0 by lia. reflexivity.
Qed.
End C108.
Print Assumptions C108_independent.
Print Assumptions C108_lengths.
Print Assumptions C108_call.

(** A copy of a stack is a stack of its own. *)
Definition C108_expected_own : Prop := forall grow (ops : list (xop stack_make (stack_op Z))), Forall sx_args ops ->
  fst (run (sx_step 0 grow) ops xstart) = fst (run (own_stack 0) ops []).
(** A copy keeps what it shows whatever is done to the original. *)
Definition C108_expected_snapshot : Prop := forall grow (before : list (xop stack_make (stack_op Z))) i calls,
  (i < length (snd (snd (run (sx_step 0%Z grow) before xstart))))%nat ->
  let c := length (snd (snd (run (sx_step 0%Z grow) before xstart))) in
  shown (snd (run (sx_step 0%Z grow) (before ++ XCopy i :: map (XCall i) calls) xstart)) c = shown (snd (run (sx_step 0%Z grow) before xstart)) i.
(** What is pushed can be popped again. *)
Definition C108_expected_kept : Prop := forall grow (before : list (xop stack_make (stack_op Z))) i j x y,
  Forall sx_args before -> i <> j -> (i < length (snd (snd (run (sx_step 0%Z grow) before xstart))))%nat ->
  last (fst (run (sx_step 0%Z grow) (before ++ [XCall i (SPush x); XCall j (SPush y); XCall i SPop]) xstart)) Panic = Ok (OVal x).
Theorem C108_refuted : ~ C108_expected_own /\ ~ C108_expected_snapshot /\ ~ C108_expected_kept.
Proof.
  split; [|split]; intros H.
  - specialize (H (fun _ _ => 0) [XNew KNew; XCall 0 (SPush 1); XCopy 0; XCall 0 SPop; XCall 0 (SPush 2); XCall 1 STop] ltac:(repeat constructor)). vm_compute in H. discriminate.
  - specialize (H (fun _ _ => 0) [XNew KNew; XCall 0 (SPush 1)] 0%nat [SPop; SPush 2] ltac:(vm_compute; lia)). vm_compute in H. discriminate.
  - specialize (H (fun _ _ => 0) [XNew (KNewCap 1); XCopy 0] 0%nat 1%nat 5 6 ltac:(repeat constructor; cbn; lia) ltac:(lia) ltac:(vm_compute; lia)). vm_compute in H. discriminate.
Qed.
Print Assumptions C108_refuted.

(** A polite program: variable 1 saves variable 0, which then grows and shrinks
    but not below the saved length before it pushes; variable 1 is restored to it
    at the end.  An impolite one. *)
Example C108_hyp :
  let ops := [XNew (KNewCap 4); XCall 0 (SPush 1); XCall 0 (SPush 2); XCopy 0; XCall 0 (SPush 3); XCall 0 SPop; XCall 0 (SPush 4); XCall 0 STop; XCall 1 SPop; XCall 1 SLen; XAssign 0 1; XCall 0 STryPop; XCall 0 SIsEmpty; XCall 1 (SPush 7); XCall 1 SPop] : list (xop stack_make (stack_op Z)) in
  Forall sx_args ops /\ polite_run stack_touched (sx_step 0 (fun _ n => 2 * n)) ops xstart /\
  fst (run (sx_step 0 (fun _ n => 2 * n)) ops xstart) = [Ok ONone; Ok ONone; Ok ONone; Ok ONone; Ok ONone; Ok (OVal 3); Ok ONone; Ok (OVal 4); Ok (OVal 2); Ok (OInt 1); Ok ONone; Ok (OTry 1 true); Ok (OBool true); Ok ONone; Ok (OVal 7)] /\
  fst (run (sx_step 0 (fun _ n => 2 * n)) [XNew (KNewCap 4); XCall 0 (SPush 1); XCopy 0; XCall 0 SClear; XCall 0 (SPush 8); XCall 1 SPop; XCall 1 STryPop; XCall 1 SPop] xstart) =
    [Ok ONone; Ok ONone; Ok ONone; Ok ONone; Ok ONone; Ok (OVal 8); Ok (OTry 0 false); Panic].
Proof.
  assert (PC : forall touched (step : xop stack_make (stack_op Z) -> xvars Z -> outcome (obs Z) * xvars Z) o ops w,
    polite_at touched o w -> polite_run touched step ops (snd (step o w)) -> polite_run touched step (o :: ops) w) by (intros; split; auto).
  cbv zeta. split; [repeat (apply Forall_cons; [cbn; try lia; auto|]); apply Forall_nil|]. split; [|split; vm_compute; reflexivity].
  repeat (apply PC; [|match goal with |- polite_run _ _ _ ?w => let v := eval vm_compute in w in replace w with v by (vm_compute; reflexivity) end]).
  all: try exact I.
  all: intros j p Nj Sh Et; unfold share in Sh; cbn [fst snd nth_error xstart] in Sh; vm_compute in Et; try discriminate Et; injection Et as <-;
    destruct j as [|[|j]]; cbn in Sh; try congruence; try contradiction; try discriminate; try (destruct j; contradiction); vm_compute; try discriminate.
Qed.
