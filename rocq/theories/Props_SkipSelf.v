(** C115: key comparison functions that use the list they compare keys for
    (NewSkipListFunc).  [looks_on], [keeps_on]: Spec_SkipSelf.v. *)
From Verif Require Import BaseLemmas Spec Trace Spec_List Spec_Map Spec_Fx Spec_SkipFx Spec_SkipSelf Nodes Model_SkipList Proof_SkipList Model_SkipFx Proof_SkipFx Model_SkipSelf Proof_SkipSelf Props_SkipList.
From Verif Require Proof_Reads Props_Reads.

(** The lists a client can have whose map is ordered by cmp. *)
Definition made_by {K V} (cmp : K -> K -> Z) (s : list (slnode K V) * sklist) : Prop :=
  exists zk zv h0 l0 (ops : list (mop K V unit)), s = after (implFunc cmp) ops (fresh zk zv h0 l0).

(** Looking calls leave the list exactly as it is. *)
Lemma looks_state {K V St} (cmp : K -> K -> Z) (o : mop K V St) s : Props_Reads.map_looks o -> snd (map_step (implFunc cmp) o s) = s.
Proof.
  intros L. destruct (Props_Reads.map_step_reads (implFunc cmp) (Proof_Reads.func_reads cmp) o L) as (r & Md & E). rewrite <- E by exact I.
  exact (Proof_Reads.alone_state _ Proof_Reads.node_reading r Md s).
Qed.

(** A comparison function that only looks at the list: every sequence of calls
    shows and does what it does with the pure function. *)
Theorem C115_looking : forall K V St X (cmp : K -> K -> Z) (compare : K -> K -> @FP K V X Z) (zk : K) (zv : V) h0 l0, three_way cmp ->
  (forall ops : list (mop K V St), looks_on cmp compare (after (implFunc cmp) ops (fresh zk zv h0 l0))) ->
  forall (ops : list (mop K V St)) x, exists x',
  run (map_step_self compare) ops (fresh zk zv h0 l0, x) =
  (fst (run (map_spec (fun a b => cmp a b <? 0)) ops []), (after (implFunc cmp) ops (fresh zk zv h0 l0), x')).
Proof.
  intros K V St X cmp compare zk zv h0 l0 T Lk ops x. rewrite <- (proj1 (C02_sorted_map K V St cmp zk zv h0 l0 ops T)). unfold results.
  enough (H : forall ops done x, exists x', run (map_step_self compare) ops (after (implFunc cmp) (St := St) done (fresh zk zv h0 l0), x) =
    (fst (run (map_step (implFunc cmp)) ops (after (implFunc cmp) done (fresh zk zv h0 l0))), (after (implFunc cmp) ops (after (implFunc cmp) done (fresh zk zv h0 l0)), x'))) by exact (H ops [] x).
  clear ops x. induction ops as [|o ops IH]; intros done x; [exists x; reflexivity|]. unfold after at 3. cbn [run].
  destruct (step_same compare cmp _ (Lk done) o _ x (kept_refl _)) as (r & s' & x1 & E & Eq). rewrite E, Eq.
  assert (D : s' = after (implFunc cmp) (done ++ [o]) (fresh zk zv h0 l0)).
  { unfold after in *. rewrite run_app. destruct (run (map_step (implFunc cmp)) done (fresh zk zv h0 l0)) as [rs sd]. cbn [snd] in *. cbn [run]. rewrite Eq. reflexivity. }
  destruct (IH (done ++ [o]) x1) as (x2 & E2). rewrite <- D in E2. exists x2. rewrite E2. unfold after. destruct (run (map_step (implFunc cmp)) ops s'). reflexivity.
Qed.
Print Assumptions C115_looking.

(** Functions that make any looking calls on the list before they answer, nested
    to any depth, only look. *)
Theorem C115_nested_looks : forall K V St (plan : list (outcome (mres K V St)) -> K -> K -> list (mop K V St)) (cmp : K -> K -> Z),
  (forall x a b o, In o (plan x a b) -> Props_Reads.map_looks o) -> forall n s, looks_on cmp (nest plan cmp n) s.
Proof.
  intros K V St plan cmp L. induction n as [|n IH]; intros s s1 x a b Kp; cbn [nest snd]; [exists (cmp a b), x; auto|].
  enough (H : forall ops : list (mop K V St), (forall o, In o ops -> Props_Reads.map_looks o) -> forall x : list (outcome (mres K V St)), exists rs x', run (map_step_self (nest plan cmp n)) ops (s1, x) = (rs, (s1, x'))).
  { destruct (H (plan x a b) (L x a b) x) as (rs & x' & E). rewrite E. eauto. }
  clear x a b. induction ops as [|o ops IHo]; intros Lo x; [exists [], x; reflexivity|]. cbn [run].
  destruct (step_same (nest plan cmp n) cmp s1 (IH s1) o s1 x (kept_refl _)) as (r & s' & x1 & E & Eq). rewrite E.
  pose proof (looks_state cmp o s1 (Lo o (or_introl eq_refl))) as Es. rewrite Eq in Es. cbn [snd] in Es. subst s'.
  destruct (IHo (fun o' Ho => Lo o' (or_intror Ho)) x1) as (rs & x2 & E2). rewrite E2. eauto.
Qed.
Print Assumptions C115_nested_looks.
Theorem C115_nested : forall K V St (plan : list (outcome (mres K V St)) -> K -> K -> list (mop K V St)) (cmp : K -> K -> Z) (zk : K) (zv : V) h0 l0 n, three_way cmp ->
  (forall x a b o, In o (plan x a b) -> Props_Reads.map_looks o) -> forall (ops : list (mop K V St)) x, exists x',
  run (map_step_self (nest plan cmp n)) ops (fresh zk zv h0 l0, x) =
  (fst (run (map_spec (fun a b => cmp a b <? 0)) ops []), (after (implFunc cmp) ops (fresh zk zv h0 l0), x')).
Proof. intros K V St plan cmp zk zv h0 l0 n T L. apply C115_looking; auto. intros ops. now apply C115_nested_looks. Qed.
Print Assumptions C115_nested.

(** Expected: a comparison function that changes nothing a client can see is as
    good, for every call. *)
Definition C115_expected : Prop :=
  forall K V St X (cmp : K -> K -> Z) (compare : K -> K -> @FP K V X Z) (s : list (slnode K V) * sklist) m x (o : mop K V St), three_way cmp -> made_by cmp s -> keeps_on cmp compare s ->
  fst (walk Iterate s) = Ok m ->
  exists s' x', map_step_self compare o (s, x) = (fst (map_spec (fun a b => cmp a b <? 0) o m), (s', x')) /\
    fst (walk Iterate s') = Ok (snd (map_spec (fun a b => cmp a b <? 0) o m)).
(** What holds: for the calls that only look, whatever keyCmp does to
    prevsCache. *)
Theorem C115_searches : forall K V St X (cmp : K -> K -> Z) (compare : K -> K -> @FP K V X Z) (s : list (slnode K V) * sklist) m x (o : mop K V St), three_way cmp -> made_by cmp s -> keeps_on cmp compare s ->
  fst (walk Iterate s) = Ok m -> Props_Reads.map_looks o ->
  exists s' x', map_step_self compare o (s, x) = (fst (map_spec (fun a b => cmp a b <? 0) o m), (s', x')) /\ kept s s' /\ fst (walk Iterate s') = Ok m.
Proof.
  intros K V St X cmp compare s m x o T (zk & zv & h0 & l0 & ops & ->) Kp Em L.
  assert (Hk : kind (V := V) (implFunc cmp) (fun a b => cmp a b <? 0)) by (right; eauto).
  pose proof (reach_Rel _ _ Hk zk zv h0 l0 ops) as R. set (s := after _ _ _) in *. set (m0 := snd (run _ ops [])) in *. clearbody s m0.
  rewrite (call_iter _ _ Hk (nth_error h0) m0 s R) in Em. injection Em as ->.
  destruct (use_call _ _ Hk (nth_error h0) o m s R) as [Er _].
  assert (Fin : forall s', kept s s' -> fst (walk Iterate s') = Ok m).
  { intros s' Ks. apply (call_iter _ _ Hk (nth_error h0) m s'). eapply Rel_kept; eauto. }
  destruct (compares o) eqn:Co.
  - destruct (step_near compare cmp s x Kp o Co) as (_ & _ & H); [destruct o; try exact I; contradiction|].
    destruct (H s x (kept_refl s)) as (r & s' & x' & E & Ks & Eq). exists s', x'. rewrite E, <- Er, Eq. auto.
  - rewrite (step_self_quiet compare cmp o s x Co). exists (snd (map_step (implFunc cmp) o s)), x. rewrite Er.
    rewrite (looks_state cmp o s L). split; [reflexivity|]. split; [apply kept_refl|]. apply Fin, kept_refl.
Qed.
Print Assumptions C115_searches.

Lemma never_false {S B} (p : M S B) (k : B -> M S bool) : (forall b s s', k b s <> (Ok false, s')) -> forall s s', bind p k s <> (Ok false, s').
Proof. intros H s s' E. unfold bind in E. destruct (p s) as [[b| |] s1]; try discriminate. exact (H _ _ _ E). Qed.
(** Removing keys that are not there is a call that changes nothing a client can
    see. *)
Theorem C115_absent_keeps : forall K V St (plan : list (outcome (mres K V St)) -> K -> K -> list (mop K V St)) (cmp : K -> K -> Z) (s : list (slnode K V) * sklist) m, three_way cmp -> made_by cmp s ->
  fst (walk Iterate s) = Ok m -> (forall x a b o, In o (plan x a b) -> Props_Reads.map_looks o \/ exists k, o = MRemove k /\ has (fun a b => cmp a b <? 0) k m = false) ->
  keeps_on cmp (nest plan cmp 1) s.
Proof.
  intros K V St plan cmp s m T (zk & zv & h0 & l0 & ops & ->) Em L.
  assert (Hk : kind (V := V) (implFunc cmp) (fun a b => cmp a b <? 0)) by (right; eauto).
  pose proof (reach_Rel _ _ Hk zk zv h0 l0 ops) as R. set (s := after _ _ _) in *. set (m0 := snd (run _ ops [])) in *. clearbody s m0.
  rewrite (call_iter _ _ Hk (nth_error h0) m0 s R) in Em. injection Em as ->.
  intros s1 x a b Kp. change (nest plan cmp 1 a b (s1, x)) with (let '(rs, (l, x)) := run (map_step_self (nest plan cmp 0)) (plan x a b) (s1, x) in (Ok (cmp a b), (l, x ++ rs))).
  enough (H : forall ops : list (mop K V St), (forall o, In o ops -> Props_Reads.map_looks o \/ exists k, o = MRemove k /\ has (fun a b => cmp a b <? 0) k m = false) ->
    forall s1 (x : list (outcome (mres K V St))), kept s s1 -> exists rs s2 x', run (map_step_self (nest plan cmp 0)) ops (s1, x) = (rs, (s2, x')) /\ kept s s2).
  { destruct (H (plan x a b) (L x a b) s1 x Kp) as (rs & s2 & x' & E & K2). rewrite E. exists (cmp a b), s2, (x' ++ rs). auto. }
  clear x a b s1 Kp. intros ops1. induction ops1 as [|o ops1 IHo]; intros Lo s1 x Kp; [exists [], s1, x; auto|]. cbn [run].
  destruct (step_same (nest plan cmp 0) cmp s1 (fun s2 x a b _ => ex_intro _ (cmp a b) (ex_intro _ x (conj eq_refl eq_refl))) o s1 x (kept_refl _)) as (r & s' & x1 & E & Eq). rewrite E.
  assert (K1 : kept s s').
  { destruct (Lo o (or_introl eq_refl)) as [Lk|(k & -> & Ab)].
    - pose proof (looks_state cmp o s1 Lk) as Es. rewrite Eq in Es. cbn [snd] in Es. now subst.
    - pose proof (findRemovePoint_same (nest plan cmp 0) cmp s1 (fun s2 x a b _ => ex_intro _ (cmp a b) (ex_intro _ x (conj eq_refl eq_refl))) k s1 x (kept_refl _)) as (rp & s3 & x3 & _ & K3 & E3).
      destruct (use_call (St := St) _ _ Hk (nth_error h0) (MRemove k) m s1 (Rel_kept _ _ _ _ _ R Kp)) as [Er _]. rewrite Eq in Er. cbn [map_spec fst] in Er.
      assert (Kx : kept s s3) by (eapply kept_trans; eauto).
      cbn [map_step] in Eq. unfold show, Remove, bind at 1 in Eq. cbn [findRemovePoint implFunc] in Eq. rewrite E3 in Eq.
      destruct rp as [[node prevs]| |]; [|injection Eq as <- _; discriminate Er|injection Eq as <- _; discriminate Er].
      destruct (is_nil node); [cbn in Eq; now injection Eq as _ <-|]. exfalso. rewrite Ab in Er. subst r.
      match type of Eq with (let '(_, _) := ?p ?t in _) = _ => set (q := p) in Eq; destruct (q t) as [[[|]| |] s4] eqn:Eq4; try discriminate Eq end.
      revert Eq4. subst q. do 6 (apply never_false; intros ?). discriminate. }
  destruct (IHo (fun o' Ho => Lo o' (or_intror Ho)) s' x1 K1) as (rs & s2 & x2 & E2 & K2). rewrite E2. eauto.
Qed.
Print Assumptions C115_absent_keeps.

(** It is not enough for Remove: keyCmp overwrites prevsCache between the search
    and the unlinking.  sl has 10, 20, 30; sl.Remove(20) with a keyCmp that calls
    sl.Remove(100) returns true, but 20 stays, and the last node gets linked to
    itself: iteration never ends. *)
Definition c115_plan : list (outcome (mres Z Z unit)) -> Z -> Z -> list (mop Z Z unit) := fun _ _ _ => [MRemove 100].
Definition c115_list := after (implFunc Z.sub) [MInsert 10 1 (2^40 - 1); MInsert 20 2 (2^40 - 1); MInsert 30 3 (2^40 - 1) : mop Z Z unit] (fresh 0 0 [] (mkSL 0 0 None [])).
Lemma c115_facts : made_by Z.sub c115_list /\ keeps_on Z.sub (nest c115_plan Z.sub 1) c115_list /\ fst (walk Iterate c115_list) = Ok [(10, 1); (20, 2); (30, 3)].
Proof.
  assert (M : made_by Z.sub c115_list) by (unfold made_by; do 5 eexists; reflexivity). assert (W : fst (walk Iterate c115_list) = Ok [(10, 1); (20, 2); (30, 3)]) by (vm_compute; reflexivity).
  split; auto. split; auto. eapply C115_absent_keeps; [exact Z_three_way|exact M|exact W|]. intros x a b o [<-|[]]. right. exists 100. split; reflexivity.
Qed.
Theorem C115_refuted : ~ C115_expected.
Proof.
  intros H. destruct c115_facts as (M & Kp & W).
  destruct (H Z Z unit _ Z.sub (nest c115_plan Z.sub 1) c115_list _ [] (MRemove 20) Z_three_way M Kp W) as (s' & x' & E & Wk).
  apply (f_equal (fun p => fst (walk Iterate (fst (snd p))))) in E. cbn [fst snd] in E. rewrite Wk in E. vm_compute in E. discriminate.
Qed.
Print Assumptions C115_refuted.
(** The same with Insert, where levels above the lowest get mixed up: no call
    shows it at once, but after two more removals a removed key is found again. *)
Theorem C115_refuted_insert :
  let lvl1 := 2^40 - 1 in let lvl2 := 2^39 - 1 in
  let s := after (implFunc Z.sub) [MInsert 10 1 lvl2; MInsert 20 2 lvl1; MInsert 30 3 lvl1; MInsert 40 4 lvl2 : mop Z Z unit] (fresh 0 0 [] (mkSL 0 0 None [])) in
  keeps_on Z.sub (nest c115_plan Z.sub 1) s /\
  exists s' x', map_step_self (nest c115_plan Z.sub 1) (MInsert 25 5 lvl2 : mop Z Z unit) (s, []) = (Ok MNone, (s', x')) /\
    results (implFunc Z.sub) [MIter; MRemove 25; MHas 25; MRemove 40; MIter; MHas 25; MFind 25 : mop Z Z unit] s' =
      [Ok (MSeq [(10, 1); (20, 2); (25, 5); (30, 3); (40, 4)]); Ok (MBool true); Ok (MBool false); Ok (MBool true); Ok (MSeq [(10, 1); (20, 2); (30, 3)]); Ok (MBool true); Ok (MOpt (Some 5))].
Proof.
  cbn zeta. split.
  - eapply C115_absent_keeps; [exact Z_three_way|unfold made_by; do 5 eexists; reflexivity|vm_compute; reflexivity|]. intros x a b o [<-|[]]. right. exists 100. split; reflexivity.
  - eexists _, _. split; vm_compute; reflexivity.
Qed.
Print Assumptions C115_refuted_insert.

(** Concrete cases: a keyCmp that calls Len, Has and ForEach of its own list,
    nested twice; and the list above searched while keyCmp calls Remove(100). *)
Definition c115_looking : list (outcome (mres Z Z Z)) -> Z -> Z -> list (mop Z Z Z) := fun x a b => MLen :: MHas a :: (if zlen x <? 5 then [MForEach (fun n p => n + snd p) 0] else []).
Example C115_hyp : three_way Z.sub /\ (forall x a b o, In o (c115_looking x a b) -> Props_Reads.map_looks o) /\
  fst (run (map_step_self (St := unit) (nest c115_looking Z.sub 2)) [MInsert 2 20 5; MInsert 1 10 7; MInsert 3 30 9; MRemove 2; MIter; MFind 3] (fresh 0 0 [] (mkSL 0 0 None []), [])) =
    [Ok MNone; Ok MNone; Ok MNone; Ok (MBool true); Ok (MSeq [(1, 10); (3, 30)]); Ok (MOpt (Some 30))] /\
  made_by Z.sub c115_list /\ keeps_on Z.sub (nest c115_plan Z.sub 1) c115_list /\
  fst (map_step_self (St := unit) (nest c115_plan Z.sub 1) (MLower 15) (c115_list, [])) = Ok (MSeq [(20, 2); (30, 3)]) /\
  fst (snd (map_step_self (nest c115_plan Z.sub 1) (MLower 15 : mop Z Z unit) (c115_list, []))) <> c115_list.
Proof.
  split; [exact Z_three_way|]. split.
  { intros x a b o. unfold c115_looking. destruct (zlen x <? 5); cbn [In]; intuition subst; exact I. }
  split; [vm_compute; reflexivity|]. destruct c115_facts as (M & Kp & _). split; auto. split; auto. split; vm_compute; [reflexivity|discriminate].
Qed.
