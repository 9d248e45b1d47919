(** Properties of SkipListSet (skiplist_set.go): C15, C16. *)
From Coq Require Import Sorted Permutation.
From Verif Require Import BaseLemmas Spec Trace Spec_List Spec_Map Spec_Set Nodes Proof_Nodes Model_SkipList Proof_SkipList Proof_Map Props_SkipList Model_SkipListSet.
Set Default Proof Using "Type".
Local Arguments zlen : simpl never.

(** *** The set call by call *)
Section Sim.
Context {K : Type}.
Variables (impl : @slimpl K unit) (lt : K -> K -> bool).
Hypothesis Hk : kind impl lt.
Notation heap := (list (slnode K unit)).
Definition SRel h0 (m : list K) (s : heap * sklist) : Prop := exists mm : list (K * unit), map fst mm = m /\ Rel lt h0 mm s.

Lemma mem_has k (mm : list (K * unit)) : mem lt k (map fst mm) = has lt k mm.
Proof. unfold mem, has. induction mm; cbn; auto. now rewrite IHmm. Qed.
Lemma filter_fst (f : K -> bool) (mm : list (K * unit)) : filter f (map fst mm) = map fst (filter (fun p => f (fst p)) mm).
Proof. induction mm as [|p mm IH]; cbn; auto. rewrite IH. now destruct (f (fst p)). Qed.
Lemma existsb_fst (f : K -> bool) (mm : list (K * unit)) : existsb f (map fst mm) = existsb (fun p => f (fst p)) mm.
Proof. induction mm as [|p mm IH]; cbn; auto. now rewrite IH. Qed.
Lemma set_value_tt k (mm : list (K * unit)) : set_value lt k tt mm = mm.
Proof. unfold set_value. induction mm as [|[x []] mm IH]; cbn; auto. rewrite IH. now destruct (eqv lt x k). Qed.
Lemma add_insert k (mm : list (K * unit)) : map fst (insert lt k tt mm) = add lt k (map fst mm).
Proof. unfold insert, add. rewrite mem_has, set_value_tt. destruct (has lt k mm); auto. now rewrite map_app, !filter_fst. Qed.
Lemma drop_remove k (mm : list (K * unit)) : map fst (remove lt k mm) = drop lt k (map fst mm).
Proof. unfold remove, drop. now rewrite filter_fst. Qed.
Lemma SRel_len h0 m s : SRel h0 m s -> set_Len s = (Ok (zlen m), s).
Proof using Hk.
  intros (mm & <- & R). pose proof (call_len impl lt Hk h0 mm s R) as E. unfold set_Len, Len, hget in *. destruct s as [h l]. cbn in *. injection E as ->. unfold zlen. now rewrite map_length.
Qed.
Lemma zlen_app' {A} (x y : list A) : zlen (x ++ y) = zlen x + zlen y.
Proof. unfold zlen. rewrite app_length. lia. Qed.
Lemma add_len k m : strictly_sorted_by lt m -> zlen (add lt k m) = zlen m + if mem lt k m then 0 else 1.
Proof using Hk.
  intros S. unfold add. destruct (mem lt k m) eqn:E; [lia|]. pose proof (kind_sw impl lt Hk) as SW.
  assert (F : forall x, In x m -> negb (lt x k) = lt k x).
  { intros x I. destruct (trich lt x k) as [H|[H|H]].
    - rewrite H. cbn. symmetry. now apply lt_asym.
    - unfold mem in E. exfalso. rewrite <- not_true_iff_false in E. apply E. apply existsb_exists. eauto.
    - rewrite H. now rewrite (lt_asym lt SW _ _ H). }
  clear E S. rewrite zlen_app'. replace (filter (fun x => lt k x) m) with (filter (fun x => negb (lt x k)) m) by (apply filter_ext_in; intros; now apply F).
  clear F. unfold zlen. cbn [length]. induction m as [|a m IH]; cbn; [lia|]. destruct (lt a k); cbn in *; lia.
Qed.
Lemma SRel_sorted h0 m s : SRel h0 m s -> strictly_sorted_by lt m.
Proof using Hk. intros (mm & <- & R). apply ksorted_nth. eapply Rel_sorted; eauto. Qed.
Lemma Insert_set h0 m s k r : SRel h0 m s -> exists s', set_Insert impl k r s = (Ok (negb (mem lt k m)), s') /\ SRel h0 (add lt k m) s'.
Proof using Hk.
  intros R. pose proof (SRel_len _ _ _ R) as L. pose proof (SRel_sorted _ _ _ R) as S. unfold set_Insert. rewrite (bind_eq _ _ _ _ _ L). destruct R as (mm & Em & R).
  destruct (call_insert impl lt Hk h0 mm s R k tt r) as [E R1]. destruct (Insert impl k tt r s) as [o s1] eqn:Ei. cbn [fst snd] in *. subst o.
  rewrite (bind_eq _ _ _ _ _ Ei). assert (R2 : SRel h0 (add lt k m) s1) by (exists (insert lt k tt mm); rewrite add_insert, Em; auto).
  rewrite (bind_eq _ _ _ _ _ (SRel_len _ _ _ R2)). exists s1. split; auto. unfold ret. do 2 f_equal. rewrite add_len by auto. destruct (mem lt k m); cbn [negb]; [apply Z.ltb_ge|apply Z.ltb_lt]; lia.
Qed.
Lemma Remove_set h0 m s k : SRel h0 m s -> exists s', set_Remove impl k s = (Ok (mem lt k m), s') /\ SRel h0 (drop lt k m) s'.
Proof using Hk.
  intros (mm & <- & R). destruct (call_remove impl lt Hk h0 mm s R k) as [E R1]. unfold set_Remove. destruct (Remove impl k s) as [o s1]. cbn [fst snd] in *. subst o.
  exists s1. rewrite mem_has. split; auto. exists (remove lt k mm). rewrite drop_remove. auto.
Qed.
Lemma insert_loop_ok h0 ks : forall m s, SRel h0 m s -> exists s', insert_loop impl ks s = (Ok tt, s') /\ SRel h0 (fold_left (fun m p => add lt (fst p) m) ks m) s'.
Proof using Hk.
  induction ks as [|[k r] ks IH]; intros m s R; cbn [insert_loop fold_left]; [exists s; split; [reflexivity|exact R]|]. destruct (Insert_set h0 m s k r R) as (s1 & E & R1). rewrite (bind_eq _ _ _ _ _ E). now apply IH.
Qed.
Lemma remove_loop_ok h0 ks : forall m s, SRel h0 m s -> exists s', remove_loop impl ks s = (Ok tt, s') /\ SRel h0 (fold_left (fun m k => drop lt k m) ks m) s'.
Proof using Hk.
  induction ks as [|k ks IH]; intros m s R; cbn [remove_loop fold_left]; [exists s; split; [reflexivity|exact R]|]. destruct (Remove_set h0 m s k R) as (s1 & E & R1). rewrite (bind_eq _ _ _ _ _ E). now apply IH.
Qed.

(** *** Counting *)
Lemma mem_cong a b m : eqv lt a b = true -> mem lt a m = mem lt b m.
Proof using Hk.
  intros E. unfold mem. induction m as [|x m IH]; cbn; auto. rewrite IH. f_equal. pose proof (kind_sw impl lt Hk) as SW. rewrite !(eqv_sym lt x). now apply eqv_cong.
Qed.
Lemma mem_add x k m : mem lt x (add lt k m) = mem lt x m || eqv lt x k.
Proof using Hk.
  pose proof (kind_sw impl lt Hk) as SW. unfold add. destruct (mem lt k m) eqn:E.
  - destruct (eqv lt x k) eqn:X; [|now rewrite orb_false_r]. rewrite (mem_cong _ _ _ X), E. reflexivity.
  - apply eq_true_iff_eq. rewrite orb_true_iff. unfold mem in *. rewrite !existsb_exists. split.
    + intros (y & I & H). apply in_app_iff in I as [I|[->|I]]; try (apply filter_In in I as [I _]); eauto. right. now rewrite eqv_sym.
    + intros [(y & I & H)|H].
      * exists y. split; auto. apply in_app_iff. destruct (trich lt y k) as [T|[T|T]]; [left; apply filter_In; auto| |right; right; apply filter_In; auto].
        exfalso. rewrite <- not_true_iff_false in E. apply E. apply existsb_exists. eauto.
      * exists k. split; [apply in_app_iff; right; now left|]. now rewrite eqv_sym.
Qed.
Lemma mem_drop x k m : mem lt x (drop lt k m) = mem lt x m && negb (eqv lt x k).
Proof using Hk.
  pose proof (kind_sw impl lt Hk) as SW. apply eq_true_iff_eq. rewrite andb_true_iff, negb_true_iff. unfold mem, drop. rewrite !existsb_exists. split.
  - intros (y & I & H). apply filter_In in I as [I N]. split; eauto. apply negb_true_iff in N. rewrite <- N. symmetry. now apply eqv_cong.
  - intros [(y & I & H) N]. exists y. split; auto. apply filter_In. split; auto. apply negb_true_iff. rewrite (eqv_cong lt SW y x k H). exact N.
Qed.
Lemma count_new_add k ks m : count_new lt ks (add lt k m) = count_new lt ks m - if mem lt k m then 0 else if mem lt k ks then 1 else 0.
Proof using Hk.
  destruct (mem lt k m) eqn:E; [unfold add; rewrite E; lia|]. induction ks as [|x ks IH]; cbn [count_new]; [cbn; lia|]. rewrite IH, mem_add. cbn [mem existsb]. fold (mem lt k ks).
  destruct (eqv lt x k) eqn:X.
  - rewrite (mem_cong _ _ m X), (mem_cong _ _ ks X), E. cbn. destruct (mem lt k ks); lia.
  - rewrite orb_false_r. cbn. lia.
Qed.
Lemma count_old_drop k ks m : count_old lt ks (drop lt k m) = count_old lt ks m - if mem lt k m && mem lt k ks then 1 else 0.
Proof using Hk.
  induction ks as [|x ks IH]; cbn [count_old]; [cbn; rewrite andb_false_r; lia|]. rewrite IH, mem_drop. cbn [mem existsb]. fold (mem lt k ks).
  destruct (eqv lt x k) eqn:X.
  - rewrite (mem_cong _ _ m X), (mem_cong _ _ ks X). cbn. destruct (mem lt k m), (mem lt k ks); cbn; lia.
  - rewrite andb_true_r. cbn. lia.
Qed.
Lemma remove_len k (mm : list (K * unit)) : ksorted lt mm -> zlen (remove lt k mm) = zlen mm - if has lt k mm then 1 else 0.
Proof using Hk.
  pose proof (kind_sw impl lt Hk) as SW. intros S. induction S as [|p mm S IH F]; [reflexivity|]. cbn [remove filter has existsb]. fold (remove lt k mm) (has lt k mm).
  destruct (eqv lt (fst p) k) eqn:E; cbn.
  - assert (has lt k mm = false) as N.
    { destruct (has lt k mm) eqn:H; auto. apply has_iff in H as (q & I & Eq). rewrite Forall_forall in F. specialize (F q I).
      pose proof (eqv_trans lt SW _ _ _ E (eq_trans (eqv_sym lt k (fst q)) Eq)) as X. rewrite (eqv_false_l lt _ _ F) in X. discriminate. }
    rewrite N in IH. rewrite IH. unfold zlen. cbn [length]. lia.
  - unfold zlen in *. cbn [length]. destruct (has lt k mm); lia.
Qed.
Lemma InsertN_set h0 ks m s : SRel h0 m s -> exists s', set_InsertN impl ks s = (Ok (count_new lt (map fst ks) m), s') /\ SRel h0 (fold_left (fun m p => add lt (fst p) m) ks m) s'.
Proof using Hk.
  intros R. unfold set_InsertN. rewrite (bind_eq _ _ _ _ _ (SRel_len _ _ _ R)). destruct (insert_loop_ok h0 ks m s R) as (s' & E & R'). rewrite (bind_eq _ _ _ _ _ E), (bind_eq _ _ _ _ _ (SRel_len _ _ _ R')).
  exists s'. split; auto. unfold ret. do 2 f_equal. clear E. revert m s R R'. induction ks as [|[k r] ks IH]; intros m s R R'; cbn [fold_left map count_new fst] in *; [lia|].
  destruct (Insert_set h0 m s k r R) as (s1 & _ & R1). specialize (IH _ s1 R1 R'). rewrite count_new_add, (add_len k m) in IH by (eapply SRel_sorted; eauto). destruct (mem lt k m); cbn; destruct (mem lt k (map fst ks)); lia.
Qed.
Lemma RemoveN_set h0 ks m s : SRel h0 m s -> exists s', set_RemoveN impl ks s = (Ok (count_old lt ks m), s') /\ SRel h0 (fold_left (fun m k => drop lt k m) ks m) s'.
Proof using Hk.
  intros R. unfold set_RemoveN. rewrite (bind_eq _ _ _ _ _ (SRel_len _ _ _ R)). destruct (remove_loop_ok h0 ks m s R) as (s' & E & R'). rewrite (bind_eq _ _ _ _ _ E), (bind_eq _ _ _ _ _ (SRel_len _ _ _ R')).
  exists s'. split; auto. unfold ret. do 2 f_equal. clear E. revert m s R R'. induction ks as [|k ks IH]; intros m s R R'; cbn [fold_left map count_old fst] in *; [lia|].
  destruct (Remove_set h0 m s k R) as (s1 & _ & R1). specialize (IH _ s1 R1 R'). destruct R as (mm & <- & R). rewrite count_old_drop, <- drop_remove in IH. 
  assert (El : zlen (map fst (remove lt k mm)) = zlen (map fst mm) - if mem lt k (map fst mm) then 1 else 0) by (unfold zlen; rewrite !map_length, mem_has; apply remove_len; eapply Rel_sorted; eauto).
  rewrite El in IH. rewrite drop_remove in IH. destruct (mem lt k (map fst mm)), (mem lt k ks); cbn in *; lia.
Qed.
(** *** Iterators *)
Lemma si_loop_iter fuel : forall it (seen : list (K * unit)) s, si_loop fuel it (map fst seen) s = (omap (map fst) (fst (iter_loop fuel it seen s)), snd (iter_loop fuel it seen s)).
Proof using Type.
  induction fuel as [|fuel IH]; intros it seen s; cbn [si_loop iter_loop]; auto. unfold si_IsNotEnd, IsNotEnd. destruct (negb (peqb (fst it) (snd it))); auto.
  unfold si_Value, Key, Value, si_MoveToNext, MoveToNext, ld_key, ld_value, ld_next, bind, pload, ret, panic. destruct s as [h l]. destruct (fst it) as [a|]; [|reflexivity]. cbn [fst snd].
  destruct (nth_error h a) as [n|] eqn:En; [|reflexivity]. do 3 (cbn [fst snd]; rewrite ?En). destruct (nth_error (n_next n) 0) as [q|]; [|reflexivity].
  specialize (IH (q, snd it) (seen ++ [(n_key n, n_value n)]) (h, l)). rewrite map_app in IH. exact IH.
Qed.
Lemma si_walk_walk p (s : heap * sklist) : si_walk p s = (omap (map fst) (fst (walk p s)), snd (walk p s)).
Proof using Type.
  destruct s as [h l]. unfold si_walk, walk. rewrite !bind_fuel. unfold bind. destruct (p (h, l)) as [[it| |] s1]; auto. exact (si_loop_iter _ it [] s1).
Qed.
Lemma fold_fst {St} (cb : St -> K -> St) (mm : list (K * unit)) : forall st, fold_left (fun st p => cb st (fst p)) mm st = fold_left cb (map fst mm) st.
Proof using Type. induction mm; cbn; auto. Qed.
Lemma fold_while_fst {St} (cb : St -> K -> bool * St) (mm : list (K * unit)) : forall st, fold_while (fun st p => cb st (fst p)) st mm = fold_while cb st (map fst mm).
Proof using Type. induction mm as [|p mm IH]; intros st; cbn; auto. destruct (cb st (fst p)) as [[] st']; auto. Qed.
Lemma fold_snoc (l : list K) : forall acc, fold_left (fun a k => a ++ [k]) l acc = acc ++ l.
Proof using Type. induction l as [|x l IH]; intros acc; cbn; [now rewrite app_nil_r|]. rewrite IH. now rewrite <- app_assoc. Qed.

(** One call. *)
Lemma set_call {St} h0 (o : sop K St) m s : SRel h0 m s -> fst (set_step impl o s) = fst (set_spec lt o m) /\ SRel h0 (snd (set_spec lt o m)) (snd (set_step impl o s)).
Proof using Hk.
  intros R.
  assert (Q : forall (mo : mop K unit St), (forall mm, snd (map_spec lt mo mm) = mm) -> SRel h0 m (snd (map_step impl mo s))).
  { intros mo H. destruct R as (mm & Em & R). destruct (use_call impl lt Hk h0 mo mm s R) as [_ R1]. rewrite H in R1. exists mm. auto. }
  assert (W : forall p (mo : mop K unit St), map_step impl mo s = show MSeq (walk p) s -> (forall mm, snd (map_spec lt mo mm) = mm) -> SRel h0 m (snd (walk p s))).
  { intros p mo E H. specialize (Q mo H). rewrite E, show_snd in Q. exact Q. }
  destruct o; cbn [set_step set_spec fst snd]; unfold show.
  - destruct (Insert_set h0 m s k r R) as (s' & E & R'). rewrite E. auto.
  - destruct (InsertN_set h0 ks m s R) as (s' & E & R'). rewrite E. auto.
  - destruct (Remove_set h0 m s k R) as (s' & E & R'). rewrite E. auto.
  - destruct (RemoveN_set h0 ks m s R) as (s' & E & R'). rewrite E. auto.
  - destruct R as (mm & <- & R). destruct (call_clear impl lt Hk h0 mm s R) as [E R']. unfold set_Clear. destruct (Clear s). cbn in *. subst. cbn. split; auto. exists []. auto.
  - rewrite (SRel_len _ _ _ R). auto.
  - destruct R as (mm & <- & R). pose proof (call_empty impl lt Hk h0 mm s R) as E. specialize (Q MIsEmpty ltac:(reflexivity)). cbn [map_step] in Q. rewrite show_snd in Q. unfold set_IsEmpty. destruct (IsEmpty s). cbn in *. subst. split; auto. now destruct mm.
  - specialize (Q (MHas k) ltac:(reflexivity)). cbn [map_step] in Q. rewrite show_snd in Q. destruct R as (mm & <- & R). pose proof (call_has impl lt Hk h0 mm s R k) as E. unfold set_Has. destruct (Has impl k s). cbn in *. subst. now rewrite mem_has.
  - unfold set_Keys. rewrite (bind_eq _ _ _ _ _ (SRel_len _ _ _ R)). assert (zlen m <? 0 = false) as -> by (unfold zlen; lia). destruct R as (mm & <- & R).
    destruct (use_call impl lt Hk h0 (MForEach (fun (st : list K) p => st ++ [fst p]) []) mm s R) as [E R']. cbn [map_step map_spec fst snd] in *. rewrite show_snd in R'.
    pose proof (show_ok MSt _ s _ ltac:(intros ? ? H; now injection H) E) as E'. unfold set_ForEach. destruct (ForEach _ [] s). cbn in *. subst. cbn. rewrite (fold_fst (fun a k => a ++ [k])), fold_snoc. split; auto. exists mm. auto.
  - rewrite si_walk_walk. specialize (W (LowerBound impl k) (MLower k) ltac:(reflexivity) ltac:(reflexivity)). destruct R as (mm & <- & R). change (set_LowerBound impl k) with (LowerBound impl k).
    rewrite (call_lower impl lt Hk h0 mm s R k). cbn [omap fst snd]. now rewrite filter_fst.
  - rewrite si_walk_walk. specialize (W (UpperBound impl k) (MUpper k) ltac:(reflexivity) ltac:(reflexivity)). destruct R as (mm & <- & R). change (set_UpperBound impl k) with (UpperBound impl k).
    rewrite (call_upper impl lt Hk h0 mm s R k). cbn [omap fst snd]. now rewrite filter_fst.
  - rewrite si_walk_walk. specialize (W (FindRange impl first last) (MRange first last) ltac:(reflexivity) ltac:(reflexivity)). destruct R as (mm & <- & R). change (set_FindRange impl first last) with (FindRange impl first last).
    destruct (use_call (St := unit) impl lt Hk h0 (MRange first last) mm s R) as [E _]. cbn [map_step map_spec fst] in E. rewrite show_fst in E. cbn [fst snd]. split; auto.
    rewrite existsb_fst, filter_fst. destruct (existsb _ mm); destruct (fst (walk (FindRange impl first last) s)); cbn in *; congruence.
  - specialize (Q (MForEach (fun st p => cb st (fst p)) st) ltac:(reflexivity)). cbn [map_step] in Q. rewrite show_snd in Q. destruct R as (mm & <- & R).
    destruct (use_call impl lt Hk h0 (MForEach (fun st p => cb st (fst p)) st) mm s R) as [E R']. cbn [map_step map_spec fst snd] in *. pose proof (show_ok MSt _ s _ ltac:(intros ? ? H; now injection H) E) as E'.
    unfold set_ForEach. destruct (ForEach _ st s). cbn in *. subst. cbn. now rewrite fold_fst.
  - specialize (Q (MForEachIf (fun st p => cb st (fst p)) st) ltac:(reflexivity)). cbn [map_step] in Q. rewrite show_snd in Q. destruct R as (mm & <- & R).
    destruct (use_call impl lt Hk h0 (MForEachIf (fun st p => cb st (fst p)) st) mm s R) as [E R']. cbn [map_step map_spec fst snd] in *. pose proof (show_ok MSt _ s _ ltac:(intros ? ? H; now injection H) E) as E'.
    unfold set_ForEachIf. destruct (ForEachIf _ st s). cbn in *. subst. cbn. now rewrite fold_while_fst.
Qed.
End Sim.
Definition set_after {K St} (impl : @slimpl K unit) (ops : list (sop K St)) s := snd (run (set_step impl) ops s).
Definition set_results {K St} (impl : @slimpl K unit) (ops : list (sop K St)) s := fst (run (set_step impl) ops s).
(** A new set in a heap h0 that may hold anything else. *)
Definition new_set {K} (zk : K) h0 l0 := snd (NewSkipListSet zk (h0, l0)).
Section Runs.
Context {K St : Type} (impl : @slimpl K unit) (lt : K -> K -> bool) (Hk : kind impl lt).
Lemma new_SRel (zk : K) h0 l0 : SRel lt (nth_error h0) [] (new_set zk h0 l0).
Proof using Hk. exists []. split; auto. unfold new_set, NewSkipListSet. exact (fresh_Rel lt zk tt h0 l0). Qed.
Lemma set_run h0 (ops : list (sop K St)) : forall m s, SRel lt h0 m s -> set_results impl ops s = fst (run (set_spec lt) ops m) /\ SRel lt h0 (snd (run (set_spec lt) ops m)) (set_after impl ops s).
Proof using Hk. intros m s R. apply (run_sim (set_step impl) (set_spec lt) (SRel lt h0)); auto. intros a s' o R'. now apply set_call. Qed.
(** The list a specification run keeps is sorted and has the elements of the
    predicate the calls describe. *)
Lemma mem_fold_add ks m x : mem lt x (fold_left (fun m (p : K * Z) => add lt (fst p) m) ks m) = mem lt x m || existsb (fun kr => eqv lt x (fst kr)) ks.
Proof using Hk. revert m. induction ks as [|k ks IH]; intros m; cbn [fold_left existsb]; [now rewrite orb_false_r|]. now rewrite IH, (mem_add impl lt Hk), orb_assoc. Qed.
Lemma mem_fold_drop ks m x : mem lt x (fold_left (fun m k => drop lt k m) ks m) = mem lt x m && negb (existsb (fun k => eqv lt x k) ks).
Proof using Hk. revert m. induction ks as [|k ks IH]; intros m; cbn [fold_left existsb negb]; [now rewrite andb_true_r|]. now rewrite IH, (mem_drop impl lt Hk), negb_orb, andb_assoc. Qed.
Lemma pset_sim (o : sop K St) p m : (forall x, p x = mem lt x m) -> forall x, pset_spec lt o p x = mem lt x (snd (set_spec lt o m)).
Proof using Hk.
  intros H x. destruct o; cbn [pset_spec set_spec snd]; auto.
  - now rewrite (mem_add impl lt Hk), H.
  - now rewrite mem_fold_add, H.
  - now rewrite (mem_drop impl lt Hk), H.
  - now rewrite mem_fold_drop, H.
Qed.
End Runs.

(** *** C15: SkipListSet is a sorted finite set *)
Theorem C15_created : forall K (zk : K) h0 l0, fst (NewSkipListSet zk (h0, l0)) = Ok tt.
Proof. intros K zk h0 l0. exact (C01_created K unit zk tt h0 l0). Qed.
Print Assumptions C15_created.
(** Every call returns what the sorted list of elements returns. *)
Theorem C15_sorted_set : forall K St (impl : @slimpl K unit) lt, kind impl lt -> forall zk h0 l0 (ops : list (sop K St)),
  set_results impl ops (new_set zk h0 l0) = fst (run (set_spec lt) ops []).
Proof. intros. apply (set_run impl lt H (nth_error h0)). now apply (new_SRel impl lt H). Qed.
Print Assumptions C15_sorted_set.
(** The same against sets as predicates: after any calls, Keys lists the
    elements of the predicate they describe, ascending and each once; Has
    decides it; Len counts it; Insert and Remove report a change. *)
Theorem C15_finite_set : forall K St (impl : @slimpl K unit) lt, kind impl lt -> forall zk h0 l0 (ops : list (sop K St)) k r,
  let s := set_after impl ops (new_set zk h0 l0) in
  let p := fold_left (fun p o => pset_spec lt o p) ops (fun _ => false) in
  exists l, lists lt l p /\ fst (set_Keys s) = Ok l /\ fst (set_Len s) = Ok (zlen l) /\ fst (set_IsEmpty s) = Ok (zlen l =? 0) /\
    fst (set_Has impl k s) = Ok (p k) /\ fst (set_Insert impl k r s) = Ok (negb (p k)) /\ fst (set_Remove impl k s) = Ok (p k).
Proof.
  intros K St impl lt Hk zk h0 l0 ops k r s p. destruct (set_run impl lt Hk (nth_error h0) ops [] _ (new_SRel impl lt Hk zk h0 l0)) as [_ R]. fold s in R.
  set (m := snd (run (set_spec lt) ops [])) in *.
  assert (P : forall x, p x = mem lt x m).
  { subst p m. assert (G : forall ops p m, (forall x, p x = mem lt x m) -> forall x, fold_left (fun p (o : sop K St) => pset_spec lt o p) ops p x = mem lt x (snd (run (set_spec lt) ops m))).
    { induction ops0 as [|o ops0 IH]; intros p m H x; cbn [fold_left run]; auto. pose proof (pset_sim impl lt Hk o p m H) as H1. destruct (set_spec lt o m) as [r1 m1]. cbn [snd] in H1.
      specialize (IH _ _ H1 x). destruct (run (set_spec lt) ops0 m1). exact IH. }
    apply G. reflexivity. }
  exists m. split.
  { split; [eapply SRel_sorted; eauto|]. intros x. rewrite P. unfold mem. rewrite existsb_exists. reflexivity. }
  assert (C : forall o : sop K unit, fst (set_step impl o s) = fst (set_spec lt o m)) by (intros o; exact (proj1 (set_call impl lt Hk (nth_error h0) o m s R))).
  split; [|split; [|split; [|split; [|split]]]].
  - eapply show_ok; [|exact (C SKeys)]. intros ? ? X; now injection X.
  - eapply show_ok; [|exact (C SLen)]. intros ? ? X; now injection X.
  - assert (zlen m =? 0 = match m with [] => true | _ => false end) as -> by now destruct m. eapply show_ok; [|exact (C SIsEmpty)]. intros ? ? X; now injection X.
  - rewrite P. eapply show_ok; [|exact (C (SHas k))]. intros ? ? X; now injection X.
  - rewrite P. eapply show_ok; [|exact (C (SInsert k r))]. intros ? ? X; now injection X.
  - rewrite P. eapply show_ok; [|exact (C (SRemove k))]. intros ? ? X; now injection X.
Qed.
Print Assumptions C15_finite_set.
(** InsertN and RemoveN return the number of different keys of the argument that
    were not, respectively were, in the set: the size of the list of just those. *)
Section Counts.
Context {K : Type} (impl : @slimpl K unit) (lt : K -> K -> bool) (Hk : kind impl lt).
Lemma sorted_apart l : strictly_sorted_by lt l -> apart lt l.
Proof using Hk.
  pose proof (kind_sw impl lt Hk) as SW. intros S i j a b NE Hi Hj. destruct (Nat.lt_ge_cases i j) as [Lt|Ge].
  - apply eqv_false_l. apply (S (Z.of_nat i) (Z.of_nat j)); [lia| |]; now rewrite zget_nat.
  - apply eqv_false_r. apply (S (Z.of_nat j) (Z.of_nat i)); [lia| |]; now rewrite zget_nat.
Qed.
Lemma apart_app A B : apart lt A -> apart lt B -> (forall a b, In a A -> In b B -> eqv lt a b = false) -> apart lt (A ++ B).
Proof using Hk.
  pose proof (kind_sw impl lt Hk) as SW. intros HA HB HC i j a b NE Hi Hj. destruct (Nat.lt_ge_cases i (length A)) as [Li|Li], (Nat.lt_ge_cases j (length A)) as [Lj|Lj];
    rewrite ?(nth_error_app1 A B Li), ?(nth_error_app1 A B Lj), ?(nth_error_app2 A B Li), ?(nth_error_app2 A B Lj) in *.
  - eapply HA; eauto.
  - apply nth_error_In in Hi, Hj. auto.
  - apply nth_error_In in Hi, Hj. rewrite eqv_sym. auto.
  - eapply (HB (i - length A) (j - length A))%nat; eauto. lia.
Qed.
Lemma mem_self x l : In x l -> mem lt x l = true.
Proof using Hk. intros I. unfold mem. apply existsb_exists. exists x. split; auto. pose proof (kind_sw impl lt Hk) as SW. now apply eqv_refl. Qed.
Lemma mem_true x l : mem lt x l = true -> exists y, In y l /\ eqv lt x y = true.
Proof using Type. intros H. apply existsb_exists in H as (y & I & E). exists y. rewrite eqv_sym. auto. Qed.
(** l1 and l2 together are l. *)
Lemma count_split l l1 l2 : strictly_sorted_by lt l -> strictly_sorted_by lt l1 -> strictly_sorted_by lt l2 -> (forall x, mem lt x l = mem lt x l1 || mem lt x l2) ->
  (forall x, mem lt x l1 && mem lt x l2 = false) -> zlen l = zlen l1 + zlen l2.
Proof using Hk.
  pose proof (kind_sw impl lt Hk) as SW. intros S S1 S2 H D. rewrite <- zlen_app'. unfold zlen. f_equal. apply Nat.le_antisymm; apply (apart_le lt SW).
  - now apply sorted_apart.
  - intros k I. apply mem_true. assert (E : mem lt k (l1 ++ l2) = mem lt k l) by (rewrite H; unfold mem; now rewrite existsb_app). rewrite E. now apply mem_self.
  - apply apart_app; try now apply sorted_apart. intros a b Ia Ib. destruct (eqv lt a b) eqn:E; auto. specialize (D a). rewrite (mem_self a l1 Ia), (mem_cong impl lt Hk a b l2 E), (mem_self b l2 Ib) in D. discriminate.
  - intros k I. apply mem_true. rewrite H. apply in_app_iff in I as [I|I]; rewrite (mem_self _ _ I); auto using orb_true_r.
Qed.
Lemma lists_mem l p : lists lt l p -> forall x, mem lt x l = p x.
Proof using Type. intros [_ H] x. apply eq_true_iff_eq. rewrite H. unfold mem. rewrite existsb_exists. reflexivity. Qed.
End Counts.
Theorem C15_counts : forall K St (impl : @slimpl K unit) lt, kind impl lt -> forall zk h0 l0 (ops : list (sop K St)) ks,
  let s := set_after impl ops (new_set zk h0 l0) in
  exists l, fst (set_Keys s) = Ok l /\
    (forall new, lists lt new (fun x => existsb (fun kr => eqv lt x (fst kr)) ks && negb (mem lt x l)) -> fst (set_InsertN impl ks s) = Ok (zlen new)) /\
    (forall old, lists lt old (fun x => existsb (eqv lt x) (map fst ks) && mem lt x l) -> fst (set_RemoveN impl (map fst ks) s) = Ok (zlen old)).
Proof.
  intros K St impl lt Hk zk h0 l0 ops ks s. pose proof (kind_sw impl lt Hk) as SW. destruct (set_run impl lt Hk (nth_error h0) ops [] _ (new_SRel impl lt Hk zk h0 l0)) as [_ R]. fold s in R.
  set (m := snd (run (set_spec lt) ops [])) in *. clearbody m s. exists m. pose proof (SRel_sorted impl lt Hk _ _ _ R) as Sm. split; [|split].
  - eapply show_ok; [|exact (proj1 (set_call impl lt Hk (nth_error h0) (SKeys (St := unit)) m s R))]. intros ? ? X; now injection X.
  - intros new L. pose proof (lists_mem lt _ _ L) as Mn. destruct L as [Sn _]. unfold set_InsertN. rewrite (bind_eq _ _ _ _ _ (SRel_len impl lt Hk _ _ _ R)).
    destruct (insert_loop_ok impl lt Hk (nth_error h0) ks m s R) as (s' & E & R'). rewrite (bind_eq _ _ _ _ _ E), (bind_eq _ _ _ _ _ (SRel_len impl lt Hk _ _ _ R')). cbn [ret fst]. f_equal.
    rewrite (count_split impl lt Hk _ m new (SRel_sorted impl lt Hk _ _ _ R')); auto; [lia| |].
    + intros x. rewrite (mem_fold_add impl lt Hk), Mn. destruct (mem lt x m); cbn; auto. now rewrite andb_true_r.
    + intros x. rewrite Mn. destruct (mem lt x m); cbn; auto. now rewrite andb_false_r.
  - intros old L. pose proof (lists_mem lt _ _ L) as Mo. destruct L as [So _]. unfold set_RemoveN. rewrite (bind_eq _ _ _ _ _ (SRel_len impl lt Hk _ _ _ R)).
    destruct (remove_loop_ok impl lt Hk (nth_error h0) (map fst ks) m s R) as (s' & E & R'). rewrite (bind_eq _ _ _ _ _ E), (bind_eq _ _ _ _ _ (SRel_len impl lt Hk _ _ _ R')). cbn [ret fst]. f_equal.
    set (m' := fold_left _ (map fst ks) m) in *. rewrite (count_split impl lt Hk m m' old Sm (SRel_sorted impl lt Hk _ _ _ R')); auto; [lia| |]; intros x; rewrite Mo; unfold m'; rewrite (mem_fold_drop impl lt Hk); fold (eqv lt x).
    + change (existsb (fun k => eqv lt x k) (map fst ks)) with (existsb (eqv lt x) (map fst ks)). now destruct (mem lt x m), (existsb (eqv lt x) (map fst ks)).
    + change (existsb (fun k => eqv lt x k) (map fst ks)) with (existsb (eqv lt x) (map fst ks)). now destruct (mem lt x m), (existsb (eqv lt x) (map fst ks)).
Qed.
Print Assumptions C15_counts.
(** NewSkipListSetOf makes the set of its arguments. *)
Theorem C15_of : forall K (impl : @slimpl K unit) lt, kind impl lt -> forall zk h0 l0 (elements : list (K * Z)),
  fst (NewSkipListSetOf zk impl elements (h0, l0)) = Ok tt /\
  exists l, fst (set_Keys (snd (NewSkipListSetOf zk impl elements (h0, l0)))) = Ok l /\ lists lt l (fun x => existsb (fun kr => eqv lt x (fst kr)) elements).
Proof.
  intros K impl lt Hk zk h0 l0 es. pose proof (new_SRel impl lt Hk zk h0 l0) as R. pose proof (C15_created K zk h0 l0) as E0. unfold new_set in R. unfold NewSkipListSetOf.
  destruct (NewSkipListSet zk (h0, l0)) as [o s] eqn:En. cbn [fst snd] in *. subst o. rewrite (bind_eq _ _ _ _ _ En). destruct (insert_loop_ok impl lt Hk (nth_error h0) es [] s R) as (s' & E & R'). rewrite E. split; auto. cbn [snd].
  set (m := fold_left _ es []) in *. exists m. split.
  - eapply show_ok; [|exact (proj1 (set_call impl lt Hk (nth_error h0) (SKeys (St := unit)) m s' R'))]. intros ? ? X; now injection X.
  - split; [eapply SRel_sorted; eauto|]. intros x. pose proof (mem_fold_add impl lt Hk es [] x) as M. cbn [mem existsb orb] in M. fold m in M. rewrite <- M. unfold mem. rewrite existsb_exists. reflexivity.
Qed.
Print Assumptions C15_of.
Example C15_hyp : kind (implOrdered (V := unit) Z.ltb Z.eqb) Z.ltb /\ kind (implFunc (V := unit) (fun a b => b - a)) (fun a b => b - a <? 0) /\
  set_results (St := unit) (implOrdered Z.ltb Z.eqb) [SInsertN [(3, 7); (1, 8); (3, 9)]; SInsert 1 5; SHas 1; SRemoveN [3; 3; 9]; SKeys; SLen] (new_set 0 [] (mkSL 0 0 None [])) =
    [Ok (SInt 2); Ok (SBool false); Ok (SBool true); Ok (SInt 1); Ok (SSeq [1]); Ok (SInt 1)] /\
  lists Z.ltb [1; 3] (fun x => existsb (fun kr => eqv Z.ltb x (fst kr)) [(3, 7); (1, 8); (3, 9)]).
Proof.
  split; [left; exists Z.eqb; split; [reflexivity|exact Z_ordered]|]. split; [right; exists (fun a b => b - a); split; [reflexivity|split; [|reflexivity]]|].
  { constructor; intros; lia. }
  split; [vm_compute; reflexivity|]. split.
  - intros i j a b L Hi Hj. assert (0 <= j < 2) by exact (zget_Some_range _ _ _ Hj). assert (i = 0) as -> by lia. assert (j = 1) as -> by lia. cbn in *. injection Hi as <-. injection Hj as <-. reflexivity.
  - intros x. cbn [existsb fst In]. rewrite orb_false_r, !orb_true_iff. unfold eqv. rewrite !andb_true_iff, !negb_true_iff, !Z.ltb_ge. split.
    + intros H. exists x. assert (x = 3 \/ x = 1) by lia. split; [lia|lia].
    + intros (y & [<-|[<-|[]]] & H); lia.
Qed.

Lemma filter_filter {A} (f g : A -> bool) l : filter f (filter g l) = filter (fun x => g x && f x) l.
Proof. induction l as [|a l IH]; cbn; auto. destruct (g a); cbn; rewrite IH; auto. Qed.
Lemma sorted_cons {K} (lt : K -> K -> bool) a m : strictly_sorted_by lt (a :: m) -> Forall (fun x => lt a x = true) m /\ strictly_sorted_by lt m.
Proof.
  intros S. split.
  - apply Forall_forall. intros x I. apply In_nth_error in I as [n Hn]. apply (S 0 (Z.of_nat (Datatypes.S n))); [lia|reflexivity|now rewrite zget_nat].
  - intros i j x y L Hi Hj. apply (S (i + 1) (j + 1)); [lia| |].
    + replace (i + 1) with (Z.of_nat (Datatypes.S (Z.to_nat i))) by lia. rewrite zget_nat. cbn. rewrite <- Hi. rewrite <- zget_nat. f_equal. lia.
    + replace (j + 1) with (Z.of_nat (Datatypes.S (Z.to_nat j))) by lia. rewrite zget_nat. cbn. rewrite <- Hj. rewrite <- zget_nat. f_equal. lia.
Qed.
Lemma sorted_split {K} (lt : K -> K -> bool) (f : K -> bool) m : (forall a b, lt a b = true -> f b = true -> f a = true) -> strictly_sorted_by lt m -> filter f m ++ filter (fun x => negb (f x)) m = m.
Proof.
  intros D. induction m as [|a m IH]; intros S; auto. apply sorted_cons in S as [F S]. cbn [filter]. destruct (f a) eqn:E; cbn; [f_equal; auto|].
  assert (N : Forall (fun x => f x = false) m). { eapply Forall_impl; [|exact F]. intros x L. destruct (f x) eqn:Fx; auto. rewrite (D _ _ L Fx) in E. discriminate. }
  replace (filter f m) with (@nil K) by (clear - N; induction N as [|x m H N IH]; cbn; auto; now rewrite H). cbn. f_equal. clear - N. induction N as [|x m H N IH]; cbn; auto. rewrite H. cbn. now f_equal.
Qed.

(** *** C16: LowerBound, UpperBound and FindRange of the set *)
(** The iterator LowerBound returns runs through just the elements not less than
    k, in order; the elements before them are less. *)
Theorem C16_lower_bound : forall K St (impl : @slimpl K unit) lt, kind impl lt -> forall zk h0 l0 (ops : list (sop K St)) k,
  let s := set_after impl ops (new_set zk h0 l0) in
  exists A B, fst (set_Keys s) = Ok (A ++ B) /\ Forall (fun x => lt x k = true) A /\ Forall (fun x => lt x k = false) B /\ fst (si_walk (set_LowerBound impl k) s) = Ok B.
Proof.
  intros K St impl lt Hk zk h0 l0 ops k s. pose proof (kind_sw impl lt Hk) as SW. destruct (set_run impl lt Hk (nth_error h0) ops [] _ (new_SRel impl lt Hk zk h0 l0)) as [_ R]. fold s in R.
  set (m := snd (run (set_spec lt) ops [])) in *. clearbody m s. pose proof (proj1 (set_call impl lt Hk (nth_error h0) (SKeys (St := unit)) m s R)) as Ek. pose proof (proj1 (set_call impl lt Hk (nth_error h0) (SLower (St := unit) k) m s R)) as El.
  exists (filter (fun x => lt x k) m), (filter (fun x => negb (lt x k)) m). split; [|split; [|split]].
  - rewrite (sorted_split lt (fun x => lt x k) m); [|intros; eapply sw_trans; eauto|eapply SRel_sorted; eauto]. eapply show_ok; [|exact Ek]. intros ? ? X; now injection X.
  - apply Forall_forall. intros x I. now apply filter_In in I as [_ I].
  - apply Forall_forall. intros x I. apply filter_In in I as [_ I]. now apply negb_true_iff in I.
  - eapply show_ok; [|exact El]. intros ? ? X; now injection X.
Qed.
Print Assumptions C16_lower_bound.
Theorem C16_upper_bound : forall K St (impl : @slimpl K unit) lt, kind impl lt -> forall zk h0 l0 (ops : list (sop K St)) k,
  let s := set_after impl ops (new_set zk h0 l0) in
  exists A B, fst (set_Keys s) = Ok (A ++ B) /\ Forall (fun x => lt k x = false) A /\ Forall (fun x => lt k x = true) B /\ fst (si_walk (set_UpperBound impl k) s) = Ok B.
Proof.
  intros K St impl lt Hk zk h0 l0 ops k s. pose proof (kind_sw impl lt Hk) as SW. destruct (set_run impl lt Hk (nth_error h0) ops [] _ (new_SRel impl lt Hk zk h0 l0)) as [_ R]. fold s in R.
  set (m := snd (run (set_spec lt) ops [])) in *. clearbody m s. pose proof (proj1 (set_call impl lt Hk (nth_error h0) (SKeys (St := unit)) m s R)) as Ek. pose proof (proj1 (set_call impl lt Hk (nth_error h0) (SUpper (St := unit) k) m s R)) as El.
  exists (filter (fun x => negb (lt k x)) m), (filter (fun x => lt k x) m). split; [|split; [|split]].
  - replace (filter (fun x => lt k x) m) with (filter (fun x => negb (negb (lt k x))) m) by (apply filter_ext; intros; apply negb_involutive).
    rewrite (sorted_split lt (fun x => negb (lt k x)) m); [eapply show_ok; [|exact Ek]; intros ? ? X; now injection X| |eapply SRel_sorted; eauto].
    intros a b L H. apply negb_true_iff in H. apply negb_true_iff. destruct (lt k a) eqn:E; auto. rewrite (sw_trans _ SW _ _ _ E L) in H. discriminate.
  - apply Forall_forall. intros x I. apply filter_In in I as [_ I]. now apply negb_true_iff in I.
  - apply Forall_forall. intros x I. now apply filter_In in I as [_ I].
  - eapply show_ok; [|exact El]. intros ? ? X; now injection X.
Qed.
Print Assumptions C16_upper_bound.
(** FindRange(first, last) with first <= last runs through the elements of
    [first, last], in order. *)
Theorem C16_find_range : forall K St (impl : @slimpl K unit) lt, kind impl lt -> forall zk h0 l0 (ops : list (sop K St)) first last, lt last first = false ->
  let s := set_after impl ops (new_set zk h0 l0) in
  exists A B C, fst (set_Keys s) = Ok (A ++ B ++ C) /\ Forall (fun x => lt x first = true) A /\ Forall (fun x => lt x first = false /\ lt last x = false) B /\ Forall (fun x => lt last x = true) C /\
    fst (si_walk (set_FindRange impl first last) s) = Ok B.
Proof.
  intros K St impl lt Hk zk h0 l0 ops first last Le s. pose proof (kind_sw impl lt Hk) as SW. destruct (set_run impl lt Hk (nth_error h0) ops [] _ (new_SRel impl lt Hk zk h0 l0)) as [_ R]. fold s in R.
  set (m := snd (run (set_spec lt) ops [])) in *. clearbody m s. pose proof (proj1 (set_call impl lt Hk (nth_error h0) (SKeys (St := unit)) m s R)) as Ek. pose proof (proj1 (set_call impl lt Hk (nth_error h0) (SRange (St := unit) first last) m s R)) as El.
  pose proof (SRel_sorted impl lt Hk _ _ _ R) as S. cbn [set_step set_spec fst] in El. rewrite show_fst in El.
  assert (X : existsb (fun x => lt last x && lt x first) m = false).
  { apply not_true_iff_false. intros X. apply existsb_exists in X as (x & _ & H). apply andb_true_iff in H as [H1 H2]. rewrite (sw_trans _ SW _ _ _ H1 H2) in Le. discriminate. }
  rewrite X in El.
  exists (filter (fun x => lt x first) m), (filter (fun x => negb (lt x first) && negb (lt last x)) m), (filter (fun x => lt last x) m). split; [|split; [|split; [|split]]].
  - assert (E2 : filter (fun x => negb (lt x first) && negb (lt last x)) m ++ filter (fun x => lt last x) m = filter (fun x => negb (lt x first)) m).
    { rewrite <- (sorted_split lt (fun x => negb (lt last x)) m) at 3; auto.
      - rewrite filter_app, !filter_filter. f_equal; [apply filter_ext; intros; apply andb_comm|]. apply filter_ext. intros x. rewrite negb_involutive. destruct (lt last x) eqn:E; cbn; auto.
        destruct (lt x first) eqn:E1; auto. rewrite (sw_trans _ SW _ _ _ E E1) in Le. discriminate.
      - intros a b L H. apply negb_true_iff in H. apply negb_true_iff. destruct (lt last a) eqn:E; auto. rewrite (sw_trans _ SW _ _ _ E L) in H. discriminate. }
    rewrite E2, (sorted_split lt (fun x => lt x first) m); [eapply show_ok; [|exact Ek]; intros ? ? Y; now injection Y|intros; eapply sw_trans; eauto|auto].
  - apply Forall_forall. intros x I. now apply filter_In in I as [_ I].
  - apply Forall_forall. intros x I. apply filter_In in I as [_ I]. apply andb_true_iff in I as [I1 I2]. apply negb_true_iff in I1, I2. auto.
  - apply Forall_forall. intros x I. now apply filter_In in I as [_ I].
  - destruct (fst (si_walk (set_FindRange impl first last) s)); cbn in El; congruence.
Qed.
Print Assumptions C16_find_range.
Example C16_hyp : Z.ltb 5 2 = false /\
  set_results (St := unit) (implOrdered Z.ltb Z.eqb) [SInsertN [(3, 7); (1, 8); (5, 9); (8, 1)]; SLower 3; SUpper 3; SRange 2 5; SRange 9 4; SRange 4 3] (new_set 0 [] (mkSL 0 0 None [])) =
    [Ok (SInt 4); Ok (SSeq [3; 5; 8]); Ok (SSeq [5; 8]); Ok (SSeq [3; 5]); Panic; Ok (SSeq [])].
Proof. split; vm_compute; reflexivity. Qed.
