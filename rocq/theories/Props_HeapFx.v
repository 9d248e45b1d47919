(** Properties C94 (heap.go and priority_queue.go with a comparison function
    that panics or has side effects).  [contract D P Q less]: called on elements
    of D in a state of its own satisfying P, less returns with P or panics with
    Q (Spec_Fx.v). *)
From Verif Require Import BaseLemmas Spec Trace Spec_Fx Proof_Mem Model_Heap Proof_Heap Proof_HeapOps Proof_HeapTotal
  Model_HeapFx Proof_HeapFx.

(** C94: whatever less does, and wherever it panics, the elements of the heap
    stay: MakeHeapFunc only permutes them, and panics only if less does. *)
Theorem C94_make : forall T St (less : T -> T -> M St bool) D P Q l st,
  contract D P Q less -> zlen l <= max_int -> Forall D l -> P st ->
  exists o l' st', MakeHeapFx less (l, st) = (o, (l', st')) /\
    Permutation l' l /\ ends_in P Q o st'.
Proof.
  intros T St less D P Q l st C Hm HD HP. destruct (make_fx less D P Q C l st Hm HD HP) as (o & l' & st' & H).
  exists o, l', st'. tauto.
Qed.
Print Assumptions C94_make.

(** C94: PushHeapFunc: the new element is in the heap, returned or panicked. *)
Theorem C94_push : forall T St (less : T -> T -> M St bool) D P Q zero grow v m h st,
  contract D P Q less -> wf_slice m h -> Forall D (v :: contents m h) -> P st ->
  exists o m' h' st', PushHeapFx zero grow less v ((m, h), st) = (o, ((m', h'), st')) /\
    wf_slice m' h' /\ Permutation (contents m' h') (v :: contents m h) /\
    append_frame m m' h h' (s_len h + 1) /\ ends_in P Q o st'.
Proof.
  intros T St less D P Q zero grow v m h st C Hwf HD HP.
  destruct (push_fx less D P Q C zero grow v m h st Hwf HD HP) as (o & m' & h' & st' & H).
  exists o, m', h', st'. tauto.
Qed.
Print Assumptions C94_push.

(** C94: PopHeapFunc returns the first element and takes it out, or panics and
    takes nothing out; on an empty heap it panics without calling less. *)
Theorem C94_pop : forall T St (less : T -> T -> M St bool) D P Q m h st,
  contract D P Q less -> wf_slice m h -> s_len h <= max_int -> Forall D (contents m h) -> P st ->
  match zget (contents m h) 0 with
  | Some x => exists o m' h' st', PopHeapFx less ((m, h), st) = (o, ((m', h'), st')) /\
      removal m h x o m' h' /\ ends_in P Q o st'
  | None => PopHeapFx less ((m, h), st) = (Panic, ((m, h), st))
  end.
Proof.
  intros T St less D P Q m h st C Hwf Hmax HD HP. pose proof (zlen_contents m h Hwf) as Hz.
  destruct (zget (contents m h) 0) as [x|] eqn:E.
  - pose proof (zget_Some_range _ _ _ E).
    destruct (pop_fx less D P Q C m h st x Hwf ltac:(lia) HD HP E) as (o & m' & h' & st' & H').
    exists o, m', h', st'. tauto.
  - apply zget_None in E. pose proof Hwf as (_ & _ & L & _). apply pop_empty_fx; auto. lia.
Qed.
Print Assumptions C94_pop.

(** C94: RemoveHeapFunc likewise, for the element at index i. *)
Theorem C94_remove : forall T St (less : T -> T -> M St bool) D P Q i m h st,
  contract D P Q less -> wf_slice m h -> s_len h <= max_int -> Forall D (contents m h) -> P st ->
  match zget (contents m h) i with
  | Some x => exists o m' h' st', RemoveHeapFx less i ((m, h), st) = (o, ((m', h'), st')) /\
      removal m h x o m' h' /\ ends_in P Q o st'
  | None => RemoveHeapFx less i ((m, h), st) = (Panic, ((m, h), st))
  end.
Proof.
  intros T St less D P Q i m h st C Hwf Hmax HD HP. pose proof (zlen_contents m h Hwf) as Hz.
  destruct (zget (contents m h) i) as [x|] eqn:E.
  - pose proof (zget_Some_range _ _ _ E).
    destruct (remove_fx less D P Q C i m h st x Hwf ltac:(lia) Hmax HD HP E) as (o & m' & h' & st' & H').
    exists o, m', h', st'. tauto.
  - apply zget_None in E. apply remove_out_fx; auto. lia.
Qed.
Print Assumptions C94_remove.

(** C94: IsHeapFunc changes nothing. *)
Theorem C94_is_heap : forall T St (less : T -> T -> M St bool) D P Q l st,
  contract D P Q less -> Forall D l -> P st ->
  exists o st', IsHeapFx less (l, st) = (o, (l, st')) /\ ends_in P Q o st'.
Proof.
  intros T St less D P Q l st C HD HP. destruct (is_fx less D P Q C l st HD HP) as (o & st' & H).
  exists o, st'. tauto.
Qed.
Print Assumptions C94_is_heap.

Lemma same_end {T St A} (r : outcome A * (cell T * St)) a o (c c' : cell T) (st st' : St) (p : outcome A * cell T) :
  r = (Ok a, (c, st)) -> r = (o, (c', st')) -> o = Panic \/ p = (o, c') -> p = (Ok a, c).
Proof. intros -> E [->| ->]; [discriminate|]. injection E as <- <- _. reflexivity. Qed.

(** C94: a call that returns has done exactly what it does with a pure
    comparison function giving the same answers; so all the theorems about the
    Func versions (C33-C39, C71, C72, C75) hold of it. *)
Theorem C94_returns : forall T St (less : T -> T -> M St bool) D P Q f,
  contract D P Q less -> answers D P f less ->
  (forall l st l' st', zlen l <= max_int -> Forall D l -> P st ->
     MakeHeapFx less (l, st) = (Ok tt, (l', st')) -> MakeHeapFunc f l = (Ok tt, l')) /\
  (forall l st b l' st', Forall D l -> P st ->
     IsHeapFx less (l, st) = (Ok b, (l', st')) -> IsHeapFunc l f = Ok b) /\
  (forall zero grow v m h st c' st', wf_slice m h -> Forall D (v :: contents m h) -> P st ->
     PushHeapFx zero grow less v ((m, h), st) = (Ok tt, (c', st')) -> PushHeapFunc zero grow v f (m, h) = (Ok tt, c')) /\
  (forall m h st x c' st', wf_slice m h -> s_len h <= max_int -> Forall D (contents m h) -> P st ->
     PopHeapFx less ((m, h), st) = (Ok x, (c', st')) -> PopHeapFunc f (m, h) = (Ok x, c')) /\
  (forall i m h st x c' st', wf_slice m h -> s_len h <= max_int -> Forall D (contents m h) -> P st ->
     RemoveHeapFx less i ((m, h), st) = (Ok x, (c', st')) -> RemoveHeapFunc i f (m, h) = (Ok x, c')).
Proof.
  intros T St less D P Q f C A. repeat split.
  - intros l st l' st' Hm HD HP E. destruct (make_fx less D P Q C l st Hm HD HP) as (o & l1 & st1 & E1 & _ & _ & H).
    destruct (H f A); congruence.
  - intros l st b l' st' HD HP E. destruct (is_fx less D P Q C l st HD HP) as (o & st1 & E1 & _ & H).
    destruct (H f A); congruence.
  - intros zero grow v m h st c' st' Hwf HD HP E.
    destruct (push_fx less D P Q C zero grow v m h st Hwf HD HP) as (o & m1 & h1 & st1 & E1 & _ & _ & _ & _ & H).
    exact (same_end _ _ _ _ _ _ _ _ E E1 (H f A)).
  - intros m h st x c' st' Hwf Hmax HD HP E. pose proof (zlen_contents m h Hwf) as Hz.
    destruct (zget (contents m h) 0) as [y|] eqn:G.
    + pose proof (zget_Some_range _ _ _ G).
      destruct (pop_fx less D P Q C m h st y Hwf ltac:(lia) HD HP G) as (o & m1 & h1 & st1 & E1 & _ & _ & H').
      exact (same_end _ _ _ _ _ _ _ _ E E1 (H' f A)).
    + apply zget_None in G. pose proof Hwf as (_ & _ & L & _). rewrite pop_empty_fx in E; [discriminate|auto|lia].
  - intros i m h st x c' st' Hwf Hmax HD HP E. pose proof (zlen_contents m h Hwf) as Hz.
    destruct (zget (contents m h) i) as [y|] eqn:G.
    + pose proof (zget_Some_range _ _ _ G).
      destruct (remove_fx less D P Q C i m h st y Hwf ltac:(lia) Hmax HD HP G) as (o & m1 & h1 & st1 & E1 & _ & _ & H').
      exact (same_end _ _ _ _ _ _ _ _ E E1 (H' f A)).
    + apply zget_None in G. rewrite remove_out_fx in E; [discriminate|auto|lia].
Qed.
Print Assumptions C94_returns.

(** C94: a queue made by NewPriorityQueueFunc, through any sequence of calls of
    which any may panic in less and be recovered: what is in it is what was
    pushed and not yet popped. *)
Lemma queue_run T St (less : T -> T -> M St bool) (D : T -> Prop) (P : St -> Prop) zero grow :
  contract D P P less ->
  forall ops m h st bag, wf_slice m h -> Permutation bag (contents m h) -> Forall D bag -> P st ->
    (forall v, In (LPush v) ops -> D v) -> zlen bag + ledger_pushes ops <= max_int ->
  exists bag' m' h' st',
    accepts ledger bag ops (fst (run (pqfx_step zero grow less) ops ((m, h), st))) bag' /\
    snd (run (pqfx_step zero grow less) ops ((m, h), st)) = ((m', h'), st') /\
    wf_slice m' h' /\ Permutation bag' (contents m' h') /\ P st'.
Proof.
  intros C ops. induction ops as [|o ops IH]; intros m h st bag Hwf Hb HD HP Hops Hmax.
  { exists bag, m, h, st. repeat (match goal with |- _ /\ _ => split end); auto. constructor. }
  pose proof (zlen_contents m h Hwf) as Hz. pose proof Hwf as (Q1 & Q2 & Q3 & Q4).
  assert (Hzb : zlen bag = s_len h) by (rewrite <- Hz; unfold zlen; now rewrite (Permutation_length Hb)).
  assert (HDc : Forall D (contents m h)) by (eapply Permutation_Forall; eauto).
  assert (Hpn : forall l : list (ledger_op T), 0 <= ledger_pushes l)
    by (intros l; clear; induction l as [|[] l IHl]; cbn [ledger_pushes]; lia). pose proof (Hpn ops) as Hpn1.
  assert (Hstep : exists r m1 h1 st1 bag1, pqfx_step zero grow less o ((m, h), st) = (r, ((m1, h1), st1)) /\
    ledger bag o r bag1 /\ wf_slice m1 h1 /\ Permutation bag1 (contents m1 h1) /\ Forall D bag1 /\ P st1 /\
    zlen bag1 + ledger_pushes ops <= max_int).
  { destruct o as [v| | | |]; cbn [pqfx_step ledger_pushes] in *; unfold observe.
    - assert (HDv : Forall D (v :: contents m h)) by (constructor; auto; apply Hops; now left).
      destruct (C94_push T St less D P P zero grow v m h st C Hwf HDv HP)
        as (o & m1 & h1 & st1 & E & W1 & Pm & _ & He).
      rewrite E. exists (omap (fun _ => ONone) o), m1, h1, st1, (contents m1 h1).
      split; [reflexivity|]. assert (Pb : Permutation (contents m1 h1) (v :: bag)) by now rewrite Pm, Hb.
      split; [destruct o as [[]| |]; [now constructor|now constructor|destruct He]|].
      split; [auto|]. split; [auto|]. split; [eapply Permutation_Forall; [symmetry; exact Pm|auto]|].
      split; [destruct o; simpl in He; tauto|].
      rewrite (zlen_contents m1 h1 W1). apply Permutation_length in Pm.
      unfold zlen in *. simpl in Pm. pose proof (zlen_contents m1 h1 W1). unfold zlen in *. lia.
    - pose proof (C94_pop T St less D P P m h st C Hwf ltac:(lia) HDc HP) as Hpop.
      destruct (zget (contents m h) 0) as [x|] eqn:G.
      + destruct Hpop as (o & m1 & h1 & st1 & E & (_ & W1 & [(-> & _ & Pm)|(-> & _ & Pm)]) & He);
          rewrite E; cbn [omap].
        * exists (Ok (OVal x)), m1, h1, st1, (contents m1 h1).
          split; [reflexivity|]. split; [constructor; now rewrite Pm, Hb|].
          split; [auto|]. split; [auto|]. split.
          { apply (Permutation_Forall (Permutation_sym Pm)) in HDc. now inversion HDc. }
          split; [exact He|]. apply Permutation_length in Pm. apply Permutation_length in Hb.
          simpl in Pm. unfold zlen in *. lia.
        * exists Panic, m1, h1, st1, (contents m1 h1).
          split; [reflexivity|]. split; [constructor; now rewrite Pm, Hb|].
          split; [auto|]. split; [auto|]. split; [eapply Permutation_Forall; [symmetry; exact Pm|auto]|].
          split; [exact He|]. apply Permutation_length in Pm. apply Permutation_length in Hb. unfold zlen in *. lia.
      + rewrite Hpop. exists Panic, m, h, st, bag. cbn [omap]. repeat (match goal with |- _ /\ _ => split end); auto.
        apply ledger_pop_panic. auto.
    - unfold on_cell. cbn [fst snd]. rewrite bind_get_hdr. unfold lift_mem. cbn [fst snd].
      destruct (zget (contents m h) 0) as [x|] eqn:G.
      + rewrite (sload_ok m h 0 x Hwf G). exists (Ok (OVal x)), m, h, st, bag.
        repeat (match goal with |- _ /\ _ => split end); auto. constructor. apply (Permutation_in x (Permutation_sym Hb)).
        unfold zget in G. eapply nth_error_In; exact G.
      + rewrite (sload_panic m h 0 Hwf G). exists Panic, m, h, st, bag. repeat (match goal with |- _ /\ _ => split end); auto.
        apply zget_None in G. assert (bag = []) as ->.
        { destruct bag; auto. unfold zlen in Hzb. simpl in Hzb. lia. }
        constructor.
    - exists (Ok (OInt (s_len h))), m, h, st, bag. repeat (match goal with |- _ /\ _ => split end); auto. rewrite <- Hzb. constructor.
    - unfold on_cell. cbn [fst snd]. rewrite bind_get_hdr, reslice_ok by lia.
      exists (Ok ONone), m, (mkSlice (s_arr h) (s_off h + 0) (0 - 0) (s_cap h - 0)), st, [].
      split; [reflexivity|]. split; [constructor|].
      split; [unfold wf_slice, arr_of in *; simpl; lia|].
      split; [rewrite Z.add_0_r; unfold contents, zsub; cbn [s_off s_len]; replace (s_off h + (0 - 0) - s_off h) with 0 by lia; reflexivity|].
      split; [constructor|]. split; [auto|]. pose proof (zlen_nonneg bag). unfold zlen in *. simpl. lia. }
  destruct Hstep as (r & m1 & h1 & st1 & bag1 & E & Hl & W1 & Hb1 & HD1 & HP1 & Hm1).
  destruct (IH m1 h1 st1 bag1 W1 Hb1 HD1 HP1 ltac:(intros; apply Hops; now right) Hm1)
    as (bag' & m' & h' & st' & Ha & Es & W' & Hb' & HP').
  exists bag', m', h', st'. cbn [run]. rewrite E.
  destruct (run (pqfx_step zero grow less) ops (m1, h1, st1)) as [rs s2]. cbn [fst snd] in *.
  split; [econstructor; eauto|]. auto.
Qed.

Theorem C94_queue : forall T St (less : T -> T -> M St bool) D P zero grow ops m st,
  contract D P P less -> (0 < length m)%nat -> P st ->
  (forall v, In (LPush v) ops -> D v) -> ledger_pushes ops <= max_int ->
  exists bag' m' h' st',
    accepts ledger [] ops (fst (run (pqfx_step zero grow less) ops ((m, nil_slice), st))) bag' /\
    snd (run (pqfx_step zero grow less) ops ((m, nil_slice), st)) = ((m', h'), st') /\
    wf_slice m' h' /\ Permutation bag' (contents m' h') /\ P st'.
Proof.
  intros T St less D P zero grow ops m st C Hm HP Hops Hmax.
  apply (queue_run T St less D P zero grow C); auto.
  - unfold wf_slice, nil_slice, arr_of. simpl. pose proof (zlen_nonneg (nth 0 m [])). lia.
Qed.
Print Assumptions C94_queue.

(** A comparison function that counts its calls and panics in call number k. *)
Definition panics_at (k : Z) (a b : Z) : M Z bool :=
  fun n => if n =? k then (Panic, n + 1) else (Ok (a <? b), n + 1).

(** C94, expected: a call that panics in less, and is recovered, leaves a heap
    (so that the next Pop returns a smallest element), and a Push that panics
    has not added the element. *)
Definition C94_expected_heap : Prop :=
  forall T St (less : T -> T -> M St bool) f, strict_weak f ->
    contract (fun _ => True) (fun _ => True) (fun _ => True) less ->
    answers (fun _ => True) (fun _ => True) f less ->
    forall m h st m' h' st', wf_slice m h -> s_len h <= max_int -> min_heap f (contents m h) ->
    PopHeapFx less ((m, h), st) = (Panic, ((m', h'), st')) -> min_heap f (contents m' h').
Definition C94_expected_push : Prop :=
  forall T St (less : T -> T -> M St bool) zero grow v m h st m' h' st', wf_slice m h ->
    PushHeapFx zero grow less v ((m, h), st) = (Panic, ((m', h'), st')) -> contents m' h' = contents m h.

Lemma panics_at_contract k : contract (fun _ => True) (fun _ => True) (fun _ => True) (panics_at k).
Proof. intros a b st _ _ _. unfold panics_at. destruct (st =? k); auto. Qed.
Lemma panics_at_answers k : answers (fun _ => True) (fun _ => True) Z.ltb (panics_at k).
Proof. intros a b st r st' _ _ _. unfold panics_at. destruct (st =? k); congruence. Qed.
Lemma ltb_strict_weak : strict_weak Z.ltb.
Proof. exact (proj1 heap_case_ok). Qed.

Theorem C94_refuted : ~ C94_expected_heap /\ ~ C94_expected_push.
Proof.
  split.
  - intros H.
    specialize (H Z Z (panics_at 0) Z.ltb ltb_strict_weak (panics_at_contract 0) (panics_at_answers 0)
      [[1; 2; 3; 4]] (mkSlice 0 0 4 4) 0 [[4; 2; 3; 1]] (mkSlice 0 0 4 4) 1).
    assert (F : min_heap Z.ltb [4; 2; 3; 1]).
    { apply H; [unfold wf_slice, zlen; simpl; lia|unfold max_int; simpl; lia| |reflexivity].
      intros c a b Hc Ga Gb. change (contents [[1; 2; 3; 4]] (mkSlice 0 0 4 4)) with [1; 2; 3; 4] in *.
      pose proof (zget_Some_range _ _ _ Gb) as Hc2. change (zlen [1; 2; 3; 4]) with 4 in Hc2.
      assert (c = 1 \/ c = 2 \/ c = 3) as [-> | [-> | ->]] by lia; cbn in Ga, Gb;
        inversion Ga; inversion Gb; reflexivity. }
    specialize (F 1 4 2 ltac:(lia) eq_refl eq_refl). discriminate F.
  - intros H. specialize (H Z Z (panics_at 0) 0 (fun _ n => n) 5 [[1]] (mkSlice 0 0 1 1) 0 [[1]; [1; 5]] (mkSlice 1 0 2 2) 1).
    assert (F : contents [[1]; [1; 5]] (mkSlice 1 0 2 2) = contents [[1]] (mkSlice 0 0 1 1)).
    { apply H; [unfold wf_slice, zlen; simpl; lia|reflexivity]. }
    discriminate F.
Qed.
Print Assumptions C94_refuted.

(** C94: after a recovered panic MakeHeapFunc makes the slice a heap of the same
    elements again (stated for Pop; the next Pop returns a smallest element). *)
Theorem C94_repair : forall T St (less : T -> T -> M St bool) f D P Q m h st m' h' st',
  strict_weak f -> contract D P Q less -> wf_slice m h -> 0 < s_len h <= max_int ->
  Forall D (contents m h) -> P st ->
  PopHeapFx less ((m, h), st) = (Panic, ((m', h'), st')) ->
  exists m'' x c, on_slice h' (MakeHeapFunc f) m' = (Ok tt, m'') /\
    Permutation (contents m'' h') (contents m h) /\ min_heap f (contents m'' h') /\
    PopHeapFunc f (m'', h') = (Ok x, c) /\ (forall y, In y (contents m h) -> f y x = false).
Proof.
  intros T St less f D P Q m h st m' h' st' SW C Hwf Hlen HD HP E.
  pose proof (zlen_contents m h Hwf) as Hz.
  pose proof (C94_pop T St less D P Q m h st C Hwf ltac:(lia) HD HP) as Hpop.
  destruct (zget_range (contents m h) 0) as [x0 G0]; [lia|]. rewrite G0 in Hpop.
  destruct Hpop as (o & m1 & h1 & st1 & E1 & (_ & W1 & Hr) & _). rewrite E in E1.
  injection E1 as <- <- <- <-.
  destruct Hr as [(? & _)|(_ & -> & Pm)]; [discriminate|].
  pose proof (zlen_contents m' h W1) as Hz'.
  destruct (MakeHeapFunc_spec f SW (contents m' h)) as (w & Ew & Pw & Hh); [lia|].
  assert (Lw : zlen w = s_len h) by (rewrite <- Hz'; unfold zlen; now rewrite (Permutation_length Pw)).
  rewrite (on_slice_run h _ m' _ _ Ew).
  assert (Hw : wf_slice (write_at m' h 0 w) h) by (apply wf_write_self; auto; lia).
  assert (Ec : contents (write_at m' h 0 w) h = w) by (apply contents_write_at; auto; lia).
  destruct (PopHeapFunc_ok f SW (write_at m' h 0 w) h Hw ltac:(now rewrite Ec) ltac:(lia))
    as (x & m2 & h2 & Ep & Gx & _).
  exists (write_at m' h 0 w), x, (m2, h2). rewrite Ec in *.
  split; [reflexivity|]. split; [now rewrite Pw|]. split; [auto|]. split; [auto|].
  intros y Hy. eapply (heap_root_min f SW w x); eauto. eapply Permutation_in; [|exact Hy].
  symmetry. now rewrite Pw.
Qed.
Print Assumptions C94_repair.

(** Concrete cases: a less that panics in its second call. *)
Example C94_hyp :
  contract (fun _ => True) (fun _ => True) (fun _ => True) (panics_at 1) /\
  answers (fun _ => True) (fun _ => True) Z.ltb (panics_at 1) /\
  PopHeapFx (panics_at 1) (([[9; 1; 3; 2; 3; 7; 0]], mkSlice 0 1 5 6), 0)
    = (Panic, (([[9; 7; 3; 2; 3; 1; 0]], mkSlice 0 1 5 6), 2)) /\
  PopHeapFx (panics_at 9) (([[9; 1; 3; 2; 3; 7; 0]], mkSlice 0 1 5 6), 0)
    = (Ok 1, (([[9; 2; 3; 7; 3; 1; 0]], mkSlice 0 1 4 6), 2)) /\
  MakeHeapFx (panics_at 3) ([5; 4; 3; 2; 1], 0) = (Panic, ([5; 1; 3; 2; 4], 4)) /\
  RemoveHeapFx (panics_at 0) 1 (([[1; 3; 2; 4; 5]], mkSlice 0 0 5 5), 0)
    = (Panic, (([[1; 5; 2; 4; 3]], mkSlice 0 0 5 5), 1)) /\
  fst (run (pqfx_step 0 (fun _ n => 2 * n) (panics_at 1)) [LPush 3; LPush 2; LPush 1; LPop; LPop; LPop; LPop; LLen] (([[]], nil_slice), 0))
    = [Ok ONone; Ok ONone; Panic; Ok (OVal 2); Ok (OVal 1); Ok (OVal 3); Panic; Ok (OInt 0)].
Proof. split; [apply panics_at_contract|]. split; [apply panics_at_answers|]. repeat split. Qed.
