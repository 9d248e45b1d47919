(** C130: comparison functions that use the set they order (skiplist_set.go,
    NewSkipListSetFunc).  [looks_on], [keeps_on]: Spec_SkipSelf.v. *)
From Verif Require Import BaseLemmas Spec Trace Spec_List Spec_Map Spec_Set Spec_Fx Spec_SkipFx Spec_SkipSelf Nodes Model_SkipList Proof_SkipList Model_SkipListSet Model_SkipFx Proof_SkipFx Model_SkipSelf Proof_SkipSelf Model_SetSelf Proof_SetSelf Props_SkipList Props_SkipListSet.
From Verif Require Proof_Reads Props_Reads.

Lemma func_kind {K} (cmp : K -> K -> Z) : three_way cmp -> kind (V := unit) (implFunc cmp) (fun a b => cmp a b <? 0).
Proof. intros T. right. eauto. Qed.
Lemma set_after_snoc {K St} impl (ops : list (sop K St)) o s : set_after impl (ops ++ [o]) s = snd (set_step impl o (set_after impl ops s)).
Proof.
  unfold set_after. rewrite run_app. destruct (run (set_step impl) ops s) as [rs s1]. cbn [snd run].
  destruct (set_step impl o s1). reflexivity.
Qed.
(** Looking calls leave the set exactly as it is. *)
Lemma set_looks_state {K St} (cmp : K -> K -> Z) (o : sop K St) s : Props_Reads.set_looks o -> snd (set_step (implFunc cmp) o s) = s.
Proof.
  intros L. destruct (Props_Reads.set_step_reads (implFunc cmp) (Proof_Reads.func_reads cmp) o L) as (r & Md & E). rewrite <- E by exact I.
  exact (Proof_Reads.alone_state _ Proof_Reads.node_reading r Md s).
Qed.

(** *** C130 A comparison function that uses the set it orders *)
(** It only looks at the set, whichever set the client gets to: every sequence of
    calls shows what it shows on a sorted set, and does what it does with the pure
    function. *)
Theorem C130_looking : forall K St X (cmp : K -> K -> Z) (compare : K -> K -> @FP K unit X Z) (zk : K) h0 l0, three_way cmp ->
  (forall ops : list (sop K St), looks_on cmp compare (set_after (implFunc cmp) ops (new_set zk h0 l0))) ->
  forall (ops : list (sop K St)) x, exists x',
  run (set_step_self compare) ops (new_set zk h0 l0, x) =
  (fst (run (set_spec (fun a b => cmp a b <? 0)) ops []), (set_after (implFunc cmp) ops (new_set zk h0 l0), x')).
Proof.
  intros K St X cmp compare zk h0 l0 T Lk ops x. rewrite <- (C15_sorted_set K St _ _ (func_kind cmp T) zk h0 l0 ops). unfold set_results.
  set (Q := fun s => exists done : list (sop K St), s = set_after (implFunc cmp) done (new_set zk h0 l0)).
  assert (A : forall s, Q s -> looks_on cmp compare s) by (intros s (done & ->); apply Lk).
  assert (Qs : forall (o : sop K St) s, Q s -> Q (snd (set_step (implFunc cmp) o s))).
  { intros o s (done & ->). exists (done ++ [o]). symmetry. apply set_after_snoc. }
  assert (Qi : forall s k r, Q s -> Q (snd (set_Insert (implFunc cmp) k r s))).
  { intros s k r H. specialize (Qs (SInsert k r) s H). cbn [set_step] in Qs. unfold show in Qs. destruct (set_Insert (implFunc cmp) k r s). exact Qs. }
  assert (Qr : forall s k, Q s -> Q (snd (set_Remove (implFunc cmp) k s))).
  { intros s k H. specialize (Qs (SRemove k) s H). cbn [set_step] in Qs. unfold show in Qs. destruct (set_Remove (implFunc cmp) k s). exact Qs. }
  assert (H0 : Q (new_set zk h0 l0)) by (exists []; reflexivity).
  unfold set_after. clear Lk. clearbody Q. revert H0 x. generalize (new_set zk h0 l0) as s.
  induction ops as [|o ops IH]; intros s H0 x; [exists x; reflexivity|]. cbn [run].
  destruct (set_step_alike compare cmp Q A Qi Qr o s H0 x) as (r & s' & x1 & E & Eq). rewrite E, Eq.
  specialize (Qs o s H0). rewrite Eq in Qs. destruct (IH s' Qs x1) as (x2 & E2). exists x2. rewrite E2.
  destruct (run (set_step (implFunc cmp)) ops s'). reflexivity.
Qed.
Print Assumptions C130_looking.

(** Functions that make any looking calls on the set before they answer, nested to
    any depth, only look. *)
Theorem C130_nested_looks : forall K St (plan : list (outcome (sres K St)) -> K -> K -> list (sop K St)) (cmp : K -> K -> Z),
  (forall x a b o, In o (plan x a b) -> Props_Reads.set_looks o) -> forall n s, looks_on cmp (set_nest plan cmp n) s.
Proof.
  intros K St plan cmp L. induction n as [|n IH]; intros s s1 x a b Kp; cbn [set_nest snd]; [exists (cmp a b), x; auto|].
  enough (H : forall ops : list (sop K St), (forall o, In o ops -> Props_Reads.set_looks o) -> forall x : list (outcome (sres K St)), exists rs x', run (set_step_self (set_nest plan cmp n)) ops (s1, x) = (rs, (s1, x'))).
  { destruct (H (plan x a b) (L x a b) x) as (rs & x' & E). rewrite E. eauto. }
  clear x a b. induction ops as [|o ops IHo]; intros Lo x; [exists [], x; reflexivity|]. cbn [run].
  destruct (set_step_alike (set_nest plan cmp n) cmp (fun _ => True) (fun s _ => IH s) (fun _ _ _ _ => I) (fun _ _ _ => I) o s1 I x) as (r & s' & x1 & E & Eq). rewrite E.
  pose proof (set_looks_state cmp o s1 (Lo o (or_introl eq_refl))) as Es. rewrite Eq in Es. cbn [snd] in Es. subst s'.
  destruct (IHo (fun o' Ho => Lo o' (or_intror Ho)) x1) as (rs & x2 & E2). rewrite E2. eauto.
Qed.
Print Assumptions C130_nested_looks.
Theorem C130_nested : forall K St (plan : list (outcome (sres K St)) -> K -> K -> list (sop K St)) (cmp : K -> K -> Z) (zk : K) h0 l0 n, three_way cmp ->
  (forall x a b o, In o (plan x a b) -> Props_Reads.set_looks o) -> forall (ops : list (sop K St)) x, exists x',
  run (set_step_self (set_nest plan cmp n)) ops (new_set zk h0 l0, x) =
  (fst (run (set_spec (fun a b => cmp a b <? 0)) ops []), (set_after (implFunc cmp) ops (new_set zk h0 l0), x')).
Proof. intros K St plan cmp zk h0 l0 n T L. apply C130_looking; auto. intros ops. now apply C130_nested_looks. Qed.
Print Assumptions C130_nested.

(** The sets a client can have that are ordered by cmp. *)
Definition set_made_by {K} (cmp : K -> K -> Z) (s : list (slnode K unit) * sklist) : Prop :=
  exists zk h0 l0 (ops : list (sop K unit)), s = set_after (implFunc cmp) ops (new_set zk h0 l0).
Lemma set_made_SRel {K} (cmp : K -> K -> Z) (s : list (slnode K unit) * sklist) m : three_way cmp -> set_made_by cmp s -> fst (set_Keys s) = Ok m ->
  exists h0, SRel (fun a b => cmp a b <? 0) h0 m s.
Proof.
  intros T (zk & h0 & l0 & ops & ->) Em. exists (nth_error h0). pose proof (func_kind cmp T) as Hk.
  destruct (set_run _ _ Hk (nth_error h0) ops [] _ (new_SRel _ _ Hk zk h0 l0)) as [_ R].
  destruct (set_call _ _ Hk (nth_error h0) (SKeys : sop K unit) _ _ R) as [E _]. cbn [set_step set_spec fst] in E. unfold show in E.
  destruct (set_Keys _) as [o s']. cbn [fst omap] in *. subst o. cbn in E. injection E as ->. exact R.
Qed.
Lemma SRel_kept {K} (lt : K -> K -> bool) h0 m (s s' : list (slnode K unit) * sklist) : SRel lt h0 m s -> kept s s' -> SRel lt h0 m s'.
Proof. intros (mm & E & R) Kp. exists mm. split; auto. eapply Rel_kept; eauto. Qed.
Lemma SRel_keys {K} (cmp : K -> K -> Z) h0 m (s : list (slnode K unit) * sklist) : three_way cmp -> SRel (fun a b => cmp a b <? 0) h0 m s -> fst (set_Keys s) = Ok m.
Proof.
  intros T R. destruct (set_call _ _ (func_kind cmp T) h0 (SKeys : sop K unit) _ _ R) as [E _]. cbn [set_step set_spec fst] in E. unfold show in E.
  destruct (set_Keys s) as [[l| |] s']; cbn in *; congruence.
Qed.

(** Expected: a comparison function that changes nothing a client can see is as
    good, for every call. *)
Definition C130_expected : Prop :=
  forall K St X (cmp : K -> K -> Z) (compare : K -> K -> @FP K unit X Z) (s : list (slnode K unit) * sklist) m x (o : sop K St), three_way cmp -> set_made_by cmp s -> keeps_on cmp compare s ->
  fst (set_Keys s) = Ok m ->
  exists s' x', set_step_self compare o (s, x) = (fst (set_spec (fun a b => cmp a b <? 0) o m), (s', x')) /\
    fst (set_Keys s') = Ok (snd (set_spec (fun a b => cmp a b <? 0) o m)).
(** What holds: for the calls that only look, whatever the function does to
    prevsCache. *)
Theorem C130_searches : forall K St X (cmp : K -> K -> Z) (compare : K -> K -> @FP K unit X Z) (s : list (slnode K unit) * sklist) m x (o : sop K St), three_way cmp -> set_made_by cmp s -> keeps_on cmp compare s ->
  fst (set_Keys s) = Ok m -> Props_Reads.set_looks o ->
  exists s' x', set_step_self compare o (s, x) = (fst (set_spec (fun a b => cmp a b <? 0) o m), (s', x')) /\ kept s s' /\ fst (set_Keys s') = Ok m.
Proof.
  intros K St X cmp compare s m x o T Md Kp Em L. destruct (set_made_SRel cmp s m T Md Em) as (h0 & R). pose proof (func_kind cmp T) as Hk.
  destruct (set_call _ _ Hk h0 o m s R) as [Er _].
  assert (Fin : forall s', kept s s' -> fst (set_Keys s') = Ok m).
  { intros s' Ks. apply (SRel_keys cmp h0); auto. eapply SRel_kept; eauto. }
  destruct (set_compares o) eqn:Co.
  - destruct (set_step_near compare cmp s x Kp o) as (_ & _ & H); [destruct o; try exact I; try discriminate Co; contradiction|].
    destruct (H s x (kept_refl s)) as (r & s' & x' & E & Ks & Eq). exists s', x'. rewrite E, <- Er, Eq. auto.
  - rewrite (set_step_quiet compare cmp o s x Co). exists (snd (set_step (implFunc cmp) o s)), x. rewrite Er.
    rewrite (set_looks_state cmp o s L). split; [reflexivity|]. split; [apply kept_refl|]. apply Fin, kept_refl.
Qed.
Print Assumptions C130_searches.

(** Removing keys that are not there, by Remove or RemoveN, is a call that changes
    nothing a client can see. *)
Definition absent_call {K St} (cmp : K -> K -> Z) (m : list K) (o : sop K St) : Prop :=
  match o with
  | SRemove k => mem (fun a b => cmp a b <? 0) k m = false
  | SRemoveN ks => forall k, In k ks -> mem (fun a b => cmp a b <? 0) k m = false
  | _ => Props_Reads.set_looks o
  end.
Lemma absent_remove {K} (cmp : K -> K -> Z) h0 m (s : list (slnode K unit) * sklist) k : three_way cmp -> SRel (fun a b => cmp a b <? 0) h0 m s -> mem (fun a b => cmp a b <? 0) k m = false ->
  exists s', set_Remove (implFunc cmp) k s = (Ok false, s') /\ kept s s'.
Proof.
  intros T R Ab. destruct (Remove_set _ _ (func_kind cmp T) h0 m s k R) as (s' & E & _). rewrite Ab in E. exists s'. split; auto. exact (Remove_false cmp k s s' E).
Qed.
Lemma absent_step {K St} (cmp : K -> K -> Z) h0 m (s : list (slnode K unit) * sklist) (o : sop K St) : three_way cmp -> SRel (fun a b => cmp a b <? 0) h0 m s -> absent_call cmp m o ->
  kept s (snd (set_step (implFunc cmp) o s)).
Proof.
  intros T R Ab. destruct o; cbn [absent_call] in Ab; try (rewrite (set_looks_state cmp _ s Ab); apply kept_refl); try contradiction Ab; cbn [set_step]; unfold show.
  - destruct (absent_remove cmp h0 m s k T R Ab) as (s' & E & Kp). rewrite E. exact Kp.
  - enough (H : exists s', remove_loop (implFunc cmp) ks s = (Ok tt, s') /\ kept s s').
    { destruct H as (s' & E & Kp). unfold set_RemoveN. unfold bind at 1. rewrite len_still. unfold bind at 1. rewrite E. unfold bind. rewrite len_still. exact Kp. }
    revert s R Ab. induction ks as [|k ks IH]; intros s R Ab; cbn [remove_loop]; [exists s; split; [reflexivity|apply kept_refl]|].
    destruct (absent_remove cmp h0 m s k T R (Ab k (or_introl eq_refl))) as (s1 & E & K1). destruct (IH s1 (SRel_kept _ _ _ _ _ R K1) (fun k' Hk => Ab k' (or_intror Hk))) as (s2 & E2 & K2).
    exists s2. unfold bind. rewrite E, E2. split; auto. eapply kept_trans; eauto.
Qed.
Theorem C130_absent_keeps : forall K St (plan : list (outcome (sres K St)) -> K -> K -> list (sop K St)) (cmp : K -> K -> Z) (s : list (slnode K unit) * sklist) m, three_way cmp -> set_made_by cmp s ->
  fst (set_Keys s) = Ok m -> (forall x a b o, In o (plan x a b) -> absent_call cmp m o) -> keeps_on cmp (set_nest plan cmp 1) s.
Proof.
  intros K St plan cmp s m T Md Em L s1 x a b Kp. destruct (set_made_SRel cmp s m T Md Em) as (h0 & R).
  change (set_nest plan cmp 1 a b (s1, x)) with (let '(rs, (l, x)) := run (set_step_self (set_nest plan cmp 0)) (plan x a b) (s1, x) in (Ok (cmp a b), (l, x ++ rs))).
  enough (H : forall ops : list (sop K St), (forall o, In o ops -> absent_call cmp m o) ->
    forall s1 (x : list (outcome (sres K St))), kept s s1 -> exists rs s2 x', run (set_step_self (set_nest plan cmp 0)) ops (s1, x) = (rs, (s2, x')) /\ kept s s2).
  { destruct (H (plan x a b) (L x a b) s1 x Kp) as (rs & s2 & x' & E & K2). rewrite E. exists (cmp a b), s2, (x' ++ rs). auto. }
  clear x a b s1 Kp. intros ops1. induction ops1 as [|o ops1 IHo]; intros Lo s1 x Kp; [exists [], s1, x; auto|]. cbn [run].
  destruct (set_step_alike (set_nest plan cmp 0) cmp (fun _ => True) (fun s _ s2 x a b _ => ex_intro _ (cmp a b) (ex_intro _ x (conj eq_refl eq_refl))) (fun _ _ _ _ => I) (fun _ _ _ => I) o s1 I x) as (r & s' & x1 & E & Eq). rewrite E.
  pose proof (absent_step cmp h0 m s1 o T (SRel_kept _ _ _ _ _ R Kp) (Lo o (or_introl eq_refl))) as K1. rewrite Eq in K1. cbn [snd] in K1.
  destruct (IHo (fun o' Ho => Lo o' (or_intror Ho)) s' x1 (kept_trans _ _ _ Kp K1)) as (rs & s2 & x2 & E2 & K2). rewrite E2. eauto.
Qed.
Print Assumptions C130_absent_keeps.

(** It is not enough for Remove: s holds 10, 20, 30; s.Remove(20) with a function that
    calls s.Remove(100) returns true, but 20 stays and iteration never ends. *)
Definition c130_plan : list (outcome (sres Z unit)) -> Z -> Z -> list (sop Z unit) := fun _ _ _ => [SRemove 100].
Definition c130_set := set_after (implFunc Z.sub) [SInsertN [(10, 2^40 - 1); (20, 2^40 - 1); (30, 2^40 - 1)] : sop Z unit] (new_set 0 [] (mkSL 0 0 None [])).
Lemma c130_facts : set_made_by Z.sub c130_set /\ keeps_on Z.sub (set_nest c130_plan Z.sub 1) c130_set /\ fst (set_Keys c130_set) = Ok [10; 20; 30].
Proof.
  assert (M : set_made_by Z.sub c130_set) by (unfold set_made_by; do 4 eexists; reflexivity). assert (W : fst (set_Keys c130_set) = Ok [10; 20; 30]) by (vm_compute; reflexivity).
  split; auto. split; auto. eapply C130_absent_keeps; [exact Z_three_way|exact M|exact W|]. intros x a b o [<-|[]]. reflexivity.
Qed.
Theorem C130_refuted : ~ C130_expected.
Proof.
  intros H. destruct c130_facts as (M & Kp & W).
  destruct (H Z unit _ Z.sub (set_nest c130_plan Z.sub 1) c130_set _ [] (SRemove 20) Z_three_way M Kp W) as (s' & x' & E & Wk).
  apply (f_equal (fun p => fst (set_Keys (fst (snd p))))) in E. cbn [fst snd] in E. rewrite Wk in E. vm_compute in E. discriminate.
Qed.
Print Assumptions C130_refuted.

(** Insert compares the length before and after, so it counts what the comparison
    function puts in or takes out.  Expected: it says whether the key was missing. *)
Definition C130_expected_new : Prop :=
  forall K St (plan : list (outcome (sres K St)) -> K -> K -> list (sop K St)) (cmp : K -> K -> Z) n (s : list (slnode K unit) * sklist) m x k r b t, three_way cmp -> set_made_by cmp s ->
  fst (set_Keys s) = Ok m -> set_Insert_self (set_nest plan cmp n) k r (s, x) = (Ok b, t) -> b = negb (mem (fun a b => cmp a b <? 0) k m).
(** s holds 10, 20, 30; the first comparison of s.Insert(10) puts 40 in; it returns
    true, though 10 was there, and s then holds exactly 10, 20, 30, 40. *)
Definition c130_greedy : list (outcome (sres Z unit)) -> Z -> Z -> list (sop Z unit) := fun x _ _ => match x with [] => [SInsert 40 (2^40 - 1)] | _ => [] end.
Theorem C130_refuted_new : ~ C130_expected_new /\
  exists t, set_Insert_self (set_nest c130_greedy Z.sub 1) 10 0 (c130_set, []) = (Ok true, t) /\
    set_results (implFunc Z.sub) [SKeys; SLen; SHas 40; SRemove 10; SKeys : sop Z unit] (fst t) = [Ok (SSeq [10; 20; 30; 40]); Ok (SInt 4); Ok (SBool true); Ok (SBool true); Ok (SSeq [20; 30; 40])].
Proof.
  split.
  - intros H. destruct c130_facts as (M & _ & W).
    assert (E : set_Insert_self (set_nest c130_greedy Z.sub 1) 10 0 (c130_set, []) = (Ok true, snd (set_Insert_self (set_nest c130_greedy Z.sub 1) 10 0 (c130_set, [])))) by (vm_compute; reflexivity).
    specialize (H _ _ _ _ _ _ _ _ _ _ _ _ Z_three_way M W E). discriminate H.
  - eexists. split; [vm_compute; reflexivity|]. vm_compute. reflexivity.
Qed.
Print Assumptions C130_refuted_new.

(** Concrete cases: a function that calls Len, Has and Keys of its own set, nested
    twice; and the set above searched while the function calls Remove(100). *)
Definition c130_looking : list (outcome (sres Z Z)) -> Z -> Z -> list (sop Z Z) := fun x a b => SLen :: SHas a :: (if zlen x <? 5 then [SKeys] else []).
Example C130_hyp : three_way Z.sub /\ (forall x a b o, In o (c130_looking x a b) -> Props_Reads.set_looks o) /\
  fst (run (set_step_self (St := unit) (set_nest c130_looking Z.sub 2)) [SInsertN [(2, 5); (1, 7); (3, 9)]; SInsert 3 1; SRemoveN [2; 7]; SKeys; SUpper 1] (new_set 0 [] (mkSL 0 0 None []), [])) =
    [Ok (SInt 3); Ok (SBool false); Ok (SInt 1); Ok (SSeq [1; 3]); Ok (SSeq [3])] /\
  set_made_by Z.sub c130_set /\ keeps_on Z.sub (set_nest c130_plan Z.sub 1) c130_set /\
  fst (set_step_self (St := unit) (set_nest c130_plan Z.sub 1) (SLower 15) (c130_set, [])) = Ok (SSeq [20; 30]) /\
  fst (snd (set_step_self (St := unit) (set_nest c130_plan Z.sub 1) (SLower 15) (c130_set, []))) <> c130_set.
Proof.
  split; [exact Z_three_way|]. split.
  { intros x a b o. unfold c130_looking. destruct (zlen x <? 5); cbn [In]; intuition subst; exact I. }
  split; [vm_compute; reflexivity|]. destruct c130_facts as (M & Kp & _). split; auto. split; auto. split; vm_compute; [reflexivity|discriminate].
Qed.
