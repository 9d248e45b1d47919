(** C131: a Pool whose sync.Pool is used too, or whose New function panics. *)
From Verif Require Import BaseLemmas Model_PoolRaw Spec_PoolRaw.
From Verif Require Props_Pool.

Lemma tally_app f a b : tally f (a ++ b) = (tally f a + tally f b)%nat.
Proof. unfold tally. now rewrite filter_app, app_length. Qed.
Lemma tally_one f e : tally f [e] = if f e then 1%nat else 0%nat.
Proof. unfold tally. cbn. now destruct (f e). Qed.
Lemma tally_none f : tally f [] = 0%nat.
Proof. reflexivity. Qed.
Definition amount (w : iface -> bool) (l : list iface) : nat := length (filter w l).
Lemma amount_app w a b : amount w (a ++ b) = (amount w a + amount w b)%nat.
Proof. unfold amount. now rewrite filter_app, app_length. Qed.
Lemma amount_cons w i l : amount w (i :: l) = ((if w i then 1 else 0) + amount w l)%nat.
Proof. unfold amount. cbn. now destruct (w i). Qed.
Definition of_call (c : nat * stage) : list iface := match snd c with Found i => [i] | Missed => [] end.

(** Accounts of the values that w picks out. *)
Section Account.
Variables (w : iface -> bool) (out dropped put made : revent -> bool).
Hypothesis w_nil : w INil = false.
Hypothesis out_result : forall g i, out (raw_result g i) = w i.
Hypothesis in_result : forall g i, dropped (raw_result g i) = false /\ put (raw_result g i) = false /\ made (raw_result g i) = false.
Hypothesis at_new : forall i, out (RNew i) = false /\ dropped (RNew i) = false /\ put (RNew i) = false /\ made (RNew i) = w i.
Hypothesis at_put : forall g x, out (RPut g x) = false /\ dropped (RPut g x) = false /\ put (RPut g x) = (match x with Some _ => w (IPtr x) | None => false end) /\ made (RPut g x) = false.
Hypothesis at_raw : forall g i, out (RRaw g i) = false /\ dropped (RRaw g i) = false /\ put (RRaw g i) = w i /\ made (RRaw g i) = false.
Hypothesis at_drop : forall i, out (RDrop i) = false /\ dropped (RDrop i) = w i /\ put (RDrop i) = false /\ made (RDrop i) = false.
Hypothesis at_rest : forall e, match e with RNewPanic _ | RMake _ _ | RPass _ _ _ => out e = false /\ dropped e = false /\ put e = false /\ made e = false | _ => True end.
Lemma account new tr s : rreach new tr s ->
  (tally out tr + tally dropped tr + amount w (in_flight s) = tally put tr + tally made tr)%nat.
Proof using All.
  intros R. induction R as [|tr s evs s' R IH S]; [reflexivity|]. rewrite !tally_app. unfold in_flight in *. fold of_call in *.
  destruct S; cbn [items calls] in *; rewrite ?flat_map_app, ?amount_app in *; cbn [flat_map of_call snd app] in *; rewrite ?tally_none, ?tally_one, ?amount_app, ?amount_cons in *; rewrite ?amount_app in *.
  - lia.
  - lia.
  - rewrite w_nil in *. lia.
  - destruct (at_new i) as (-> & -> & -> & ->). destruct (w i); lia.
  - destruct (at_rest (RNewPanic g)) as (-> & -> & -> & ->). lia.
  - destruct (in_result g i) as (-> & -> & ->). rewrite out_result. destruct (w i); lia.
  - destruct (at_put g x) as (-> & -> & -> & ->). destruct x as [y|]; cbn [raw_Put Put_value]; rewrite ?amount_cons; [destruct (w _); lia|lia].
  - destruct (at_raw g i) as (-> & -> & -> & ->). destruct i as [|p|]; cbn [sync_Put]; rewrite ?amount_cons; rewrite ?w_nil; try destruct (w _); lia.
  - destruct (at_drop i) as (-> & -> & -> & ->). destruct (w i); lia.
  - destruct (at_rest (RMake g x)) as (-> & -> & -> & ->). lia.
  - destruct (at_rest (RPass g g' x)) as (-> & -> & -> & ->). lia.
Qed.
End Account.

(** *** C131 A Pool whose sync.Pool is used too *)
(** Exact account of every object: what was put in or made has been handed out or
    dropped by sync.Pool or is still there.  No panic loses or doubles one. *)
Theorem C131_account : forall new tr s x, rreach new tr s ->
  (tally (rgets x) tr + tally (rdrops x) tr + length (filter (is_obj x) (in_flight s)) = tally (rputs x) tr + tally (rnews x) tr)%nat.
Proof.
  intros new tr s x R. apply (account (is_obj x) (rgets x) (rdrops x) (rputs x) (rnews x)) with (new := new); auto.
  - intros g [|[y|]|]; reflexivity.
  - intros g [|[y|]|]; auto.
  - intros g [y|]; auto.
  - intros [| | | | | | | |]; auto.
Qed.
Print Assumptions C131_account.
(** Values that are no *T: each that got in makes exactly one Get panic, unless it
    is dropped or still there. *)
Theorem C131_panics : forall new tr s, rreach new tr s ->
  (tally fpanics tr + tally fdrops tr + length (filter foreign (in_flight s)) = tally fputs tr + tally fnews tr)%nat.
Proof.
  intros new tr s R. apply (account foreign fpanics fdrops fputs fnews) with (new := new); auto.
  - intros g [|[y|]|]; reflexivity.
  - intros g [|[y|]|]; auto.
  - intros g [y|]; auto.
  - intros [| | | | | | | |]; auto.
Qed.
Print Assumptions C131_panics.

Lemma tally_in f e tr : In e tr -> f e = true -> (tally f tr > 0)%nat.
Proof.
  intros I E. unfold tally. assert (I' : In e (filter f tr)) by (apply filter_In; auto). destruct (filter f tr); [destruct I'|cbn; lia].
Qed.
Lemma tally_zero f tr : (forall e, In e tr -> f e = false) -> tally f tr = 0%nat.
Proof. intros H. unfold tally. induction tr as [|e tr IH]; cbn; auto. rewrite (H e (or_introl eq_refl)). apply IH. intros; apply H; now right. Qed.
(** What the New function returned or did, it may do. *)
Lemma new_may new tr s : rreach new tr s -> forall e, In e tr -> match e with
  | RNew i => exists ok, new = Some ok /\ ok (Some i) | RNewPanic _ => exists ok, new = Some ok /\ ok None | _ => True end.
Proof.
  intros R. induction R as [|tr s evs s' R IH S]; intros e I; [destruct I|]. apply in_app_iff in I as [I|I]; [now apply IH|].
  destruct S; cbn [In] in I; try contradiction I; destruct I as [<- | []]; eauto. destruct i; exact Logic.I.
Qed.
(** So a Get of a pool made by MakePool or MakePoolWithNew whose sync.Pool no
    client fills with other values panics only if the user's New function does. *)
Theorem C131_no_panic : forall new tr s, rreach new tr s -> new = raw_MakePool \/ (exists f, new = raw_MakePoolWithNew f) -> (forall g, ~ In (RRaw g IOther) tr) ->
  (forall g, ~ In (RPanic g) tr) /\ ((exists g, In (RNewPanic g) tr) -> exists f, new = raw_MakePoolWithNew (Some f) /\ f None).
Proof.
  intros new tr s R Hn Hr. split.
  - intros g I. pose proof (C131_panics new tr s R) as A. pose proof (tally_in fpanics _ _ I eq_refl).
    rewrite (tally_zero fputs), (tally_zero fnews) in A; [lia| |].
    + intros e Ie. pose proof (new_may new tr s R e Ie) as M. destruct e as [| |i| | | | | |]; auto. destruct M as (ok & E & O). destruct i as [|p|]; auto.
      destruct Hn as [->|([f|] & ->)]; cbn in E; [|injection E as <-; destruct O as ([p|] & _ & X); discriminate|discriminate].
      injection E as <-. destruct O as (x & X). discriminate.
    + intros e Ie. destruct e as [| | | | |g' i| | |]; auto. destruct i; auto. exfalso. exact (Hr g' Ie).
  - intros (g & I). pose proof (new_may new tr s R _ I) as (ok & E & O).
    destruct Hn as [->|([f|] & ->)]; cbn in E; [injection E as <-; destruct O as (x & X); discriminate| |discriminate].
    injection E as <-. destruct O as ([p|] & F & X); [discriminate|]. eauto.
Qed.
Print Assumptions C131_no_panic.

(** Get returns nil only if there is no New function, New has returned nil or a nil
    *T, or a nil *T was put into the sync.Pool. *)
Lemma last_step new tr s : rreach new tr s -> forall a e b, tr = a ++ e :: b -> exists s0 s1, rreach new a s0 /\ rstep new s0 [e] s1.
Proof.
  assert (One : forall s evs s', rstep new s evs s' -> (length evs <= 1)%nat) by (intros s0 evs s' []; cbn; lia).
  intros R. induction R as [|tr s evs s' R IH S]; intros a e b E; [destruct a; discriminate|].
  destruct (Props_Pool.app_prefix _ _ _ _ E) as [([|x d] & E1)|(d & -> & E2)].
  - rewrite app_nil_r in E1. subst a. apply app_inv_head in E. pose proof (One _ _ _ S) as L. rewrite E in L. destruct b; [|cbn in L; lia]. subst evs. eauto.
  - rewrite E1, <- app_assoc in E. apply app_inv_head in E. injection E as -> _. eapply IH; eauto.
  - pose proof (One _ _ _ S) as L. rewrite E2, app_length in L. cbn in L. destruct d; [|cbn in L; lia]. destruct b; [|cbn in L; lia]. cbn in E2. subst evs. rewrite app_nil_r. eauto.
Qed.
Definition nil_source (new : rnew) (tr : list revent) (i : iface) : Prop :=
  match i with
  | INil => new = None \/ In (RNew INil) tr
  | IPtr None => In (RNew (IPtr None)) tr \/ exists g, In (RRaw g (IPtr None)) tr
  | _ => True
  end.
Lemma nil_sources new tr s : rreach new tr s -> Forall (nil_source new tr) (in_flight s).
Proof.
  intros R. induction R as [|tr s evs s' R IH S]; [constructor|].
  assert (IH' : Forall (nil_source new (tr ++ evs)) (in_flight s)).
  { eapply Forall_impl; [|exact IH]. intros [|[y|]|]; cbn; auto; rewrite ?in_app_iff; intuition. right. destruct H0 as (g & H). exists g. rewrite in_app_iff. auto. }
  clear IH. unfold in_flight in *. fold of_call in *.
  destruct S; cbn [items calls] in *; rewrite ?flat_map_app in *; cbn [flat_map of_call snd app] in *; rewrite ?Forall_app, ?Forall_cons_iff, ?Forall_app in *; try tauto.
  - cbn [nil_source]. tauto.
  - assert (nil_source new (tr ++ [RNew i]) i); [|tauto]. destruct i as [|[y|]|]; cbn; auto; rewrite in_app_iff; cbn; auto.
  - assert (Forall (nil_source new (tr ++ [RPut g x])) (raw_Put x l)); [|tauto]. destruct x as [y|]; cbn; [constructor; [exact I|]|]; tauto.
  - assert (Forall (nil_source new (tr ++ [RRaw g i])) (sync_Put i l)); [|tauto]. destruct i as [|[y|]|]; cbn [sync_Put]; try tauto; constructor; try exact I; try tauto.
    cbn. right. exists g. apply in_app_iff. right. now left.
Qed.
Theorem C131_nil : forall new tr s, rreach new tr s -> forall a g b, tr = a ++ RGet g None :: b ->
  new = None \/ In (RNew INil) a \/ In (RNew (IPtr None)) a \/ exists g', In (RRaw g' (IPtr None)) a.
Proof.
  intros new tr s R a g b E. destruct (last_step new tr s R a _ b E) as (s0 & s1 & R0 & S). apply nil_sources in R0.
  remember [RGet g None] as ev eqn:Ev. destruct S; try discriminate Ev. unfold in_flight in R0. fold of_call in R0. cbn [items calls] in R0.
  rewrite flat_map_app, !Forall_app in R0. cbn [flat_map of_call snd app] in R0. rewrite Forall_cons_iff in R0. destruct R0 as (_ & _ & Src & _).
  destruct i as [|[y|]|]; cbn in Ev; try discriminate Ev; cbn in Src; tauto.
Qed.
Print Assumptions C131_nil.
(** So a Get of a pool made by MakePool returns nil only after a nil *T was put into
    the sync.Pool. *)
Theorem C131_make_pool : forall tr s, rreach raw_MakePool tr s -> forall a g b, tr = a ++ RGet g None :: b -> exists g', In (RRaw g' (IPtr None)) a.
Proof.
  intros tr s R a g b E. assert (N : forall p, p = INil \/ p = IPtr None -> ~ In (RNew p) a).
  { intros p Hp I. destruct (new_may _ _ _ R (RNew p)) as (ok & Eo & O); [rewrite E; apply in_app_iff; auto|]. injection Eo as <-. destruct O as (x & X). destruct Hp as [-> | ->]; discriminate X. }
  destruct (C131_nil _ _ _ R a g b E) as [X|[X|[X|X]]]; auto; [discriminate X| |]; exfalso; revert X; apply N; auto.
Qed.
Print Assumptions C131_make_pool.

(** If only holders put and pass objects on and no object is made twice, no object
    is held by two goroutines or twice by one, and Get returns only objects nobody
    holds; whatever else clients do to the sync.Pool, and whatever panics. *)
Lemma rholders_snoc tr e : rholders (tr ++ [e]) = rhold (rholders tr) e.
Proof. unfold rholders. now rewrite fold_left_app. Qed.
Lemma rrules_prefix a b : rrules (a ++ b) -> rrules a.
Proof. intros H c e d E. apply (H c e (d ++ b)). now rewrite E, <- app_assoc. Qed.
Notation occ := (count_occ Nat.eq_dec).
Lemma lose_drop p l : lose p l = Spec_Pool.drop_one p l.
Proof. reflexivity. Qed.
Lemma one_place new tr s x : rreach new tr s -> rrules tr -> (occ (map snd (rholders tr)) x + amount (is_obj x) (in_flight s) <= tally (births x) tr)%nat /\ (tally (births x) tr <= 1)%nat.
Proof.
  intros R. induction R as [|tr s evs s' R IH S]; intros V; [cbn; lia|]. specialize (IH (rrules_prefix _ _ V)) as [IH N1].
  pose proof (V tr) as Rule. clear V. rewrite !tally_app. unfold in_flight in *. fold of_call in *.
  destruct S; cbn [items calls] in *; rewrite ?app_nil_r, ?rholders_snoc; rewrite ?flat_map_app, ?amount_app in *; cbn [flat_map of_call snd app] in *; rewrite ?tally_none, ?tally_one, ?amount_app, ?amount_cons in *; rewrite ?amount_app in *; try specialize (Rule _ [] eq_refl).
  - lia.
  - lia.
  - cbn [is_obj]. lia.
  - cbn [rhold births]. destruct (is_obj x i) eqn:E; [|lia]. destruct i as [|[y|]|]; try discriminate E. cbn in E. apply Nat.eqb_eq in E. subst y. lia.
  - cbn [rhold births]. lia.
  - destruct i as [|[y|]|]; cbn [raw_result rhold births is_obj map snd count_occ] in *; try lia. destruct (Nat.eq_dec y x) as [->|N]; [rewrite Nat.eqb_refl in *; lia|]. destruct (x =? y)%nat; lia.
  - destruct x0 as [y|]; cbn [rhold births raw_Put Put_value] in *; [|lia]. rewrite lose_drop, (Props_Pool.occ_drop _ _ _ _ Rule). pose proof (Props_Pool.occ_pos _ _ _ Rule) as P. rewrite amount_cons. cbn [is_obj].
    destruct (Nat.eq_dec y x) as [->|N]; [rewrite Nat.eqb_refl; lia|]. destruct (Nat.eqb_spec x y); [congruence|lia].
  - destruct i as [|[y|]|]; cbn [rhold births sync_Put] in *; rewrite ?amount_cons; cbn [is_obj]; try lia. rewrite lose_drop, (Props_Pool.occ_drop _ _ _ _ Rule). pose proof (Props_Pool.occ_pos _ _ _ Rule) as P.
    destruct (Nat.eq_dec y x) as [->|N]; [rewrite Nat.eqb_refl; lia|]. destruct (Nat.eqb_spec x y); [congruence|lia].
  - cbn [rhold births]. destruct (is_obj x i); lia.
  - cbn [rhold births map snd count_occ] in *. destruct (Nat.eq_dec x0 x) as [->|N]; [rewrite Nat.eqb_refl; lia|]. destruct (Nat.eqb_spec x x0); [congruence|lia].
  - cbn [rhold births map snd count_occ] in *. rewrite lose_drop, (Props_Pool.occ_drop _ _ _ _ Rule). pose proof (Props_Pool.occ_pos _ _ _ Rule) as P. destruct (Nat.eq_dec x0 x) as [->|N]; lia.
Qed.
Theorem C131_one_holder : forall new tr s, rreach new tr s -> rrules tr -> forall g g' x i j, nth_error (rholders tr) i = Some (g, x) -> nth_error (rholders tr) j = Some (g', x) -> i = j.
Proof.
  intros new tr s R V g g' x i j Hi Hj. assert (ND : NoDup (map snd (rholders tr))). { apply (NoDup_count_occ Nat.eq_dec). intros y. destruct (one_place new tr s y R V). lia. }
  rewrite NoDup_nth_error in ND. apply ND; [rewrite map_length; apply nth_error_Some; congruence|]. now rewrite !nth_error_map, Hi, Hj.
Qed.
Print Assumptions C131_one_holder.
Theorem C131_get_free : forall new tr s, rreach new tr s -> rrules tr -> forall a g x b, tr = a ++ RGet g (Some x) :: b -> forall g', ~ In (g', x) (rholders a).
Proof.
  intros new tr s R V a g x b E g' I. destruct (last_step new tr s R a _ b E) as (s0 & s1 & R0 & S).
  pose proof (rr_step new a s0 _ s1 R0 S) as R1. assert (V1 : rrules (a ++ [RGet g (Some x)])) by (apply (rrules_prefix _ b); rewrite <- app_assoc; cbn; now rewrite <- E).
  apply In_nth_error in I as (n & Hn). pose proof (C131_one_holder new _ s1 R1 V1 g g' x 0 (Datatypes.S n)) as X. rewrite rholders_snoc in X. cbn in X. specialize (X eq_refl Hn). discriminate.
Qed.
Print Assumptions C131_get_free.

(** Expected: what C69 says of MakePool, that Get never panics and never returns nil,
    holds whatever clients do.  False of the code: a string or a nil *T put into the
    sync.Pool comes out. *)
Definition C131_expected_get : Prop := forall tr s, rreach raw_MakePool tr s -> forall g, ~ In (RPanic g) tr /\ ~ In (RGet g None) tr.
Lemma raw_run (i : iface) : i <> INil -> rreach raw_MakePool [RRaw 1 i; raw_result 2 i]%nat pool0.
Proof.
  intros N. pose proof (rr_step _ _ _ _ _ (rr_start raw_MakePool) (rs_raw _ 1%nat i [] [])) as S1. cbn [app] in S1.
  assert (E : sync_Put i [] = [i]) by (destruct i; [congruence|reflexivity|reflexivity]). rewrite E in S1.
  pose proof (rr_step _ _ _ _ _ S1 (rs_take _ 2%nat i [] [] [])) as S2. cbn [app] in S2.
  exact (rr_step _ _ _ _ _ S2 (rs_return _ 2%nat i [] [] [])).
Qed.
Theorem C131_refuted : ~ C131_expected_get /\
  (exists tr s, rreach raw_MakePool tr s /\ In (RPanic 2) tr) /\ (exists tr s, rreach raw_MakePool tr s /\ In (RGet 2 None) tr).
Proof.
  split; [|split].
  - intros H. destruct (H _ _ (raw_run IOther ltac:(discriminate)) 2%nat) as [X _]. apply X. cbn. auto.
  - exists [RRaw 1 IOther; RPanic 2]%nat, pool0. split; [exact (raw_run IOther ltac:(discriminate))|cbn; auto].
  - exists [RRaw 1 (IPtr None); RGet 2 None]%nat, pool0. split; [exact (raw_run (IPtr None) ltac:(discriminate))|cbn; auto].
Qed.
Print Assumptions C131_refuted.

(** A concrete case: goroutine 1 makes object 5 and puts it in, a string is put into
    the sync.Pool, the user's New panics once and later returns 7; goroutine 2 gets the
    string (a panic), then 5; 3 gets 7. *)
Example C131_hyp : let new := raw_MakePoolWithNew (Some (fun r => r = None \/ r = Some (Some 7%nat))) in
  let tr := [RMake 1 5; RPut 1 (Some 5); RRaw 1 IOther; RNewPanic 3; RNew (IPtr (Some 7)); RPanic 2; RGet 2 (Some 5); RGet 3 (Some 7)]%nat in
  rreach new tr pool0 /\ rrules tr /\ rholders tr = [(3, 7); (2, 5)]%nat.
Proof.
  cbn zeta. set (new := raw_MakePoolWithNew _). split; [|split; [|reflexivity]].
  - pose proof (rr_step _ _ _ _ _ (rr_start new) (rs_make _ 1%nat 5%nat [] [])) as S. cbn [app] in S.
    pose proof (rr_step _ _ _ _ _ S (rs_put _ 1%nat (Some 5%nat) [] [])) as S1. cbn [app raw_Put Put_value] in S1. clear S.
    pose proof (rr_step _ _ _ _ _ S1 (rs_raw _ 1%nat IOther _ [])) as S2. cbn [app sync_Put] in S2. clear S1.
    pose proof (rr_step _ _ _ _ _ S2 (rs_miss _ 3%nat _ [])) as S3. cbn [app] in S3. clear S2.
    pose proof (rr_step _ _ _ _ _ S3 (rs_newpanic new 3%nat _ _ [] [] eq_refl (ex_intro _ None (conj (or_introl eq_refl) eq_refl)))) as S4. cbn [app] in S4. clear S3.
    pose proof (rr_step _ _ _ _ _ S4 (rs_miss _ 3%nat _ [])) as S5. cbn [app] in S5. clear S4.
    pose proof (rr_step _ _ _ _ _ S5 (rs_new new 3%nat _ (IPtr (Some 7%nat)) _ [] [] eq_refl (ex_intro _ (Some (Some 7%nat)) (conj (or_intror eq_refl) eq_refl)))) as S6. cbn [app] in S6. clear S5.
    pose proof (rr_step _ _ _ _ _ S6 (rs_take _ 2%nat IOther [] _ _)) as S7. cbn [app] in S7. clear S6.
    pose proof (rr_step _ _ _ _ _ S7 (rs_return _ 2%nat _ _ [] _)) as S8. cbn [app raw_result] in S8. clear S7.
    pose proof (rr_step _ _ _ _ _ S8 (rs_take _ 2%nat (IPtr (Some 5%nat)) [] [] _)) as S9. cbn [app] in S9. clear S8.
    pose proof (rr_step _ _ _ _ _ S9 (rs_return _ 2%nat _ _ [] _)) as S10. cbn [app raw_result] in S10. clear S9.
    exact (rr_step _ _ _ _ _ S10 (rs_return _ 3%nat _ _ [] [])).
  - intros a e b E. do 8 (destruct a as [|? a]; cbn in E; [injection E as <- _; cbn; auto|injection E as <- E]). destruct a; discriminate.
Qed.
