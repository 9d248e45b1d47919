(** Property C111 (skiplist_set.go, NewSkipListSetFunc with a comparison function
    that panics or has side effects).  contract_of and answers_sign are as for
    C95 (Spec_Fx.v); Spec_SetFx.v has what a call may do. *)
From Coq Require Import Sorted.
From Verif Require Import BaseLemmas Spec Trace Spec_List Spec_Map Spec_Set Spec_Fx Spec_SkipFx Spec_SetFx Nodes Proof_Nodes Model_SkipList Proof_SkipList Proof_Map Props_SkipList
  Model_SkipListSet Props_SkipListSet Model_SkipFx Proof_SkipFx Props_SkipFx Model_SetFx Proof_SetFx.
Set Default Proof Using "Type".

(** The set and the state of the comparison function after the calls ops. *)
Definition set_fx_after {K St X} (keyCmp : K -> K -> M X Z) (ops : list (sop K St)) zk h0 l0 (x : X) := snd (run (set_step_fx keyCmp) ops (new_set zk h0 l0, x)).
Definition keys_of {K X} (s : (list (slnode K unit) * sklist) * X) : outcome (list K) := fst (set_Keys (fst s)).

(** Expected, as for SkipList (C95): a call that panics in the comparison function
    leaves the set as it was. *)
Definition C111_expected : Prop := forall K St X (keyCmp : K -> K -> M X Z) (P Q : X -> Prop) cmp zk h0 l0 (ops : list (sop K St)) x (o : sop K St) s',
  contract_of P Q keyCmp -> (forall y, Q y -> P y) -> answers_sign P cmp keyCmp -> three_way cmp -> P x ->
  let s := set_fx_after keyCmp ops zk h0 l0 x in
  set_step_fx keyCmp o s = (Panic, s') -> keys_of s' = keys_of s.
(** False: InsertN has inserted the keys before the one whose comparison panics. *)
Theorem C111_refuted : ~ C111_expected.
Proof.
  intros H. specialize (H Z unit Z (cmp_panics_at 3) (fun n => 0 <= n) (fun n => 0 <= n) Z.sub 0 [] (mkSL 0 0 None []) [] 0 (SInsertN [(2, 5); (1, 7); (3, 9); (4, 1)])).
  cbn zeta in H. unfold set_fx_after in H. destruct (set_step_fx _ _ _) as [o s'] eqn:E in H. vm_compute in E. injection E as <- <-.
  specialize (H _ (proj1 C95_hyp) (fun y Hy => Hy) (proj1 (proj2 C95_hyp)) Z_three_way ltac:(lia) eq_refl). vm_compute in H. discriminate H.
Qed.
Print Assumptions C111_refuted.

Section Use.
Context {K St X : Type}.
Variables (keyCmp : K -> K -> M X Z) (P Q : X -> Prop) (cmp : K -> K -> Z).
Hypothesis C : contract_of P Q keyCmp.
Hypothesis QP : forall y, Q y -> P y.
Hypothesis A : answers_sign P cmp keyCmp.
Hypothesis TW : three_way cmp.
Notation lt := (fun a b => cmp a b <? 0).
Lemma fx_after (ops : list (sop K St)) zk h0 l0 x : P x ->
  exists m', accepts (set_may_panic lt P Q) ([], x) ops (fst (run (set_step_fx keyCmp) ops (new_set zk h0 l0, x))) (m', snd (set_fx_after keyCmp ops zk h0 l0 x)) /\
    SRel lt (nth_error h0) m' (fst (set_fx_after keyCmp ops zk h0 l0 x)) /\ P (snd (set_fx_after keyCmp ops zk h0 l0 x)).
Proof using C QP A TW.
  intros Px. destruct (run_accepts (set_step_fx keyCmp) (set_may_panic lt P Q)
    (fun a s => SRel lt (nth_error h0) (fst a) (fst s) /\ snd a = snd s /\ P (snd s))
    (fun a s o => set_fx_step keyCmp P Q cmp C A TW (nth_error h0) a s o QP) ops ([], x) (new_set zk h0 l0, x)) as ([m' x'] & Ha & R & E & Px').
  - cbn [fst snd]. split; auto. apply (new_SRel (implFunc cmp) _ (set_kind cmp TW)).
  - cbn [fst snd] in *. subst x'. exists m'. auto.
Qed.
Lemma keys_SRel fr m (s : (list (slnode K unit) * sklist) * X) : SRel lt fr m (fst s) -> keys_of s = Ok m.
Proof using TW.
  intros R. pose proof (proj1 (set_call (St := unit) (implFunc cmp) _ (set_kind cmp TW) fr SKeys m (fst s) R)) as E. unfold keys_of. cbn [set_step set_spec fst] in E. rewrite show_fst in E. destruct (fst (set_Keys (fst s))); cbn in E; congruence.
Qed.
Lemma mem_refl k m : mem lt k (add lt k m) = true.
Proof using TW. rewrite (mem_add (implFunc cmp) _ (set_kind cmp TW)). rewrite (eqv_refl lt (kind_sw _ _ (set_kind cmp TW))). apply orb_true_r. Qed.
Lemma fold_add_known (ks : list (K * Z)) m : (forall k, In k (map fst ks) -> mem lt k m = true) -> fold_left (fun m p => add lt (fst p) m) ks m = m.
Proof. induction ks as [|k ks IH]; intros H; cbn [fold_left]; auto. unfold add at 2. rewrite (H (fst k)) by (left; reflexivity). apply IH. intros x I. apply H. right. exact I. Qed.
Lemma fold_add_twice (ks : list (K * Z)) m : fold_left (fun m p => add lt (fst p) m) ks (fold_left (fun m p => add lt (fst p) m) ks m) = fold_left (fun m p => add lt (fst p) m) ks m.
Proof using TW.
  apply fold_add_known. intros k I. rewrite (mem_fold_add (implFunc cmp) _ (set_kind cmp TW)). apply orb_true_iff. right. apply existsb_exists. apply in_map_iff in I as (p & <- & I). exists p. split; auto.
  apply (eqv_refl lt (kind_sw _ _ (set_kind cmp TW))).
Qed.
Lemma drop_drop a b m : drop lt a (drop lt b m) = drop lt b (drop lt a m).
Proof. unfold drop. induction m as [|x m IH]; cbn; auto. destruct (eqv lt x b) eqn:Eb, (eqv lt x a) eqn:Ea; cbn; rewrite ?Ea, ?Eb; cbn; rewrite ?IH; auto. Qed.
Lemma drop_twice k m : drop lt k (drop lt k m) = drop lt k m.
Proof. unfold drop. induction m as [|x m IH]; cbn; auto. destruct (eqv lt x k) eqn:E; cbn; rewrite ?E; cbn; rewrite ?IH; auto. Qed.
Lemma fold_drop_drop ks : forall k m, fold_left (fun m k => drop lt k m) ks (drop lt k m) = drop lt k (fold_left (fun m k => drop lt k m) ks m).
Proof. induction ks as [|a ks IH]; intros k m; cbn [fold_left]; auto. rewrite drop_drop. apply IH. Qed.
Lemma fold_drop_twice ks : forall m, fold_left (fun m k => drop lt k m) ks (fold_left (fun m k => drop lt k m) ks m) = fold_left (fun m k => drop lt k m) ks m.
Proof. induction ks as [|a ks IH]; intros m; cbn [fold_left]; auto. rewrite !fold_drop_drop, drop_twice, IH. reflexivity. Qed.
End Use.

(** C111: through any sequence of calls, some of which panic in keyCmp and are
    recovered, the set is the sorted set of what was done: a call of InsertN or
    RemoveN that panics has inserted or removed exactly the keys before some key,
    every other call that panics has done nothing, and a call that does not panic
    shows and does what it does on that set. *)
Theorem C111_sorted_set : forall K St X (keyCmp : K -> K -> M X Z) (P Q : X -> Prop) cmp zk h0 l0 (ops : list (sop K St)) x,
  contract_of P Q keyCmp -> (forall y, Q y -> P y) -> answers_sign P cmp keyCmp -> three_way cmp -> P x ->
  exists m', accepts (set_may_panic (fun a b => cmp a b <? 0) P Q) ([], x) ops
      (fst (run (set_step_fx keyCmp) ops (new_set zk h0 l0, x))) (m', snd (set_fx_after keyCmp ops zk h0 l0 x)) /\
    keys_of (set_fx_after keyCmp ops zk h0 l0 x) = Ok m'.
Proof.
  intros K St X keyCmp P Q cmp zk h0 l0 ops x C QP A TW Px. destruct (fx_after keyCmp P Q cmp C QP A TW ops zk h0 l0 x Px) as (m' & Ha & R & _). exists m'. split; auto. eapply keys_SRel; eauto.
Qed.
Print Assumptions C111_sorted_set.

(** C111: a call of InsertN or RemoveN that panicked can simply be repeated: if it
    then returns, the set is what one undisturbed call makes of it. *)
Theorem C111_repeat : forall K St X (keyCmp : K -> K -> M X Z) (P Q : X -> Prop) cmp zk h0 l0 (ops : list (sop K St)) x m (o : sop K St) s1 r s2,
  contract_of P Q keyCmp -> (forall y, Q y -> P y) -> answers_sign P cmp keyCmp -> three_way cmp -> P x ->
  (exists ks, o = SInsertN ks) \/ (exists ks, o = SRemoveN ks) ->
  let s := set_fx_after keyCmp ops zk h0 l0 x in keys_of s = Ok m ->
  set_step_fx keyCmp o s = (Panic, s1) -> set_step_fx keyCmp o s1 = (Ok r, s2) ->
  keys_of s2 = Ok (snd (set_spec (fun a b => cmp a b <? 0) o m)).
Proof.
  intros K St X keyCmp P Q cmp zk h0 l0 ops x m o s1 r s2 C QP A TW Px Ho. cbn zeta. intros Em E1 E2.
  destruct (fx_after keyCmp P Q cmp C QP A TW ops zk h0 l0 x Px) as (m' & _ & R & Px'). rewrite (keys_SRel cmp TW _ _ _ R) in Em. injection Em as ->.
  set (s := set_fx_after _ _ _ _ _ _) in *. clearbody s.
  destruct (set_fx_step keyCmp P Q cmp C A TW (nth_error h0) (m, snd s) s o QP ltac:(auto)) as ([m1 x1] & H1 & R1 & Ex1 & Px1). rewrite E1 in *. cbn [fst snd] in *.
  destruct (set_fx_step keyCmp P Q cmp C A TW (nth_error h0) (m1, x1) s1 o QP ltac:(auto)) as ([m2 x2] & H2 & R2 & _). rewrite E2 in *. cbn [fst snd] in *.
  rewrite (keys_SRel cmp TW _ _ _ R2). f_equal. destruct H2 as [(H2 & _)|(_ & Hp & _)]; [|discriminate Hp]. assert (Em2 : m2 = snd (set_spec (fun a b => cmp a b <? 0) o m1)) by (cbn [fst] in H2; rewrite <- H2; reflexivity).
  destruct H1 as [(H1 & _)|(_ & _ & _ & d & Hd & Em1)].
  - exfalso. destruct Ho as [(ks & ->)|(ks & ->)]; discriminate H1.
  - cbn [fst] in Em1. destruct Ho as [(ks & ->)|(ks & ->)]; cbn [begun] in Hd; destruct Hd as (ks1 & ks2 & -> & _ & ->); cbn [set_spec snd] in *; subst m1 m2; rewrite !fold_left_app; f_equal.
    + apply (fold_add_twice cmp TW).
    + apply (fold_drop_twice cmp).
Qed.
Print Assumptions C111_repeat.

(** C111: with a function that neither panics nor keeps state, the sets are those
    of C15: the same results for any calls. *)
Theorem C111_pure : forall K St X (cmp : K -> K -> Z) zk h0 l0 (ops : list (sop K St)) (x : X), three_way cmp ->
  run (set_step_fx (fun a b => ret (cmp a b))) ops (new_set zk h0 l0, x) =
  (set_results (implFunc cmp) ops (new_set zk h0 l0), (fst (set_fx_after (fun a b => ret (cmp a b)) ops zk h0 l0 x), x)).
Proof.
  intros K St X cmp zk h0 l0 ops x TW.
  assert (C : contract_of (fun y => y = x) (fun _ => False) (fun a b : K => ret (S := X) (cmp a b))) by (intros a b st H; exact H).
  assert (A : answers_sign (fun y => y = x) cmp (fun a b : K => ret (S := X) (cmp a b))). { intros a b st r st' H E. injection E as <- _. reflexivity. }
  destruct (fx_after _ _ _ cmp C (fun y F => False_ind _ F) A TW ops zk h0 l0 x eq_refl) as (m' & Ha & _ & Ex). unfold set_fx_after in *.
  destruct (run _ ops _) as [rs [s' x']]. cbn [fst snd] in *. subst x'. f_equal.
  rewrite (C15_sorted_set K St (implFunc cmp) _ (set_kind cmp TW) zk h0 l0 ops). clear C A. revert Ha.
  assert (G : forall m y, accepts (set_may_panic (fun a b => cmp a b <? 0) (fun y => y = x) (fun _ => False)) (m, y) ops rs (m', x) -> rs = fst (run (set_spec (fun a b => cmp a b <? 0)) ops m)); [|apply G].
  revert rs. induction ops as [|o ops IH]; intros rs m y Ha.
  - apply accepts_nil_inv in Ha as [-> _]. reflexivity.
  - apply accepts_cons_inv in Ha as (r & [m1 x1] & rs' & -> & H & Ha). destruct H as [(H & _)|(_ & _ & [] & _)]. cbn [run]. cbn [fst] in H. rewrite <- H. specialize (IH _ _ _ Ha). destruct (run (set_spec _) ops m1). cbn [fst] in *. now rewrite IH.
Qed.
Print Assumptions C111_pure.

(** Concrete case: the fourth comparison panics while 3 is being inserted; the
    second call of InsertN inserts the rest. *)
Example C111_hyp :
  contract_of (fun n => 0 <= n) (fun n => 0 <= n) (cmp_panics_at 3) /\ answers_sign (fun n => 0 <= n) Z.sub (cmp_panics_at 3) /\ three_way Z.sub /\
  fst (run (set_step_fx (St := unit) (cmp_panics_at 3))
    [SInsertN [(2, 5); (1, 7); (3, 9); (4, 1)]; SKeys; SLen; SInsertN [(2, 5); (1, 7); (3, 9); (4, 1)]; SKeys; SRemoveN [4; 9; 1]; SKeys; SRange 2 3]
    (new_set 0 [] (mkSL 0 0 None []), 0)) =
  [Panic; Ok (SSeq [1; 2]); Ok (SInt 2); Ok (SInt 2); Ok (SSeq [1; 2; 3; 4]); Ok (SInt 2); Ok (SSeq [2; 3]); Ok (SSeq [2; 3])].
Proof. split; [exact (proj1 C95_hyp)|]. split; [exact (proj1 (proj2 C95_hyp))|]. split; [exact Z_three_way|]. vm_compute. reflexivity. Qed.
