(** C69: Pool. *)
From Verif Require Import BaseLemmas Model_Pool Spec_Pool.

Definition obj_of (i : iface) : list nat := match i with IPtr (Some x) => [x] | _ => [] end.
Definition obj_st (c : nat * stage) : list nat := match snd c with Found i => obj_of i | Missed => [] end.
Definition inside (s : pool) : list nat := flat_map obj_of (items s) ++ flat_map obj_st (calls s).

Lemma count_app f a b : count f (a ++ b) = (count f a + count f b)%nat.
Proof. unfold count. now rewrite filter_app, app_length. Qed.
Notation occ := (count_occ Nat.eq_dec).
Lemma occ_app l l' x : occ (l ++ l') x = (occ l x + occ l' x)%nat.
Proof. apply count_occ_app. Qed.
Lemma fm_app {A B} (f : A -> list B) l l' : flat_map f (l ++ l') = flat_map f l ++ flat_map f l'.
Proof. apply flat_map_app. Qed.
Lemma get_count g i x : count (gets x) [Get_result g i] = occ (obj_of i) x.
Proof. destruct i as [|[y|]|]; cbn; auto. unfold count. cbn. destruct (Nat.eq_dec y x) as [->|N]; [now rewrite Nat.eqb_refl|]. destruct (Nat.eqb_spec x y); [congruence|reflexivity]. Qed.
Lemma single_count (e : event) f : count f [e] = if f e then 1%nat else 0%nat.
Proof. unfold count. cbn. now destruct (f e). Qed.

(** Every object handed out was put or made before; counting, nothing is handed
    out more often than it was put or made.  No rule is needed for this. *)
Lemma conserve new tr s : reach new tr s -> forall x, (count (gets x) tr + occ (inside s) x <= count (puts x) tr + count (news x) tr)%nat.
Proof.
  intros R. induction R as [|tr s evs s' R IH S]; intros x; [cbn; lia|]. specialize (IH x). unfold inside in *. rewrite !count_app. destruct S; cbn [items calls] in *; rewrite ?fm_app, ?occ_app in *; cbn [flat_map] in *; rewrite ?occ_app in *.
  - cbn [obj_st snd] in *. change (count _ []) with 0%nat. lia.
  - cbn [obj_st snd] in *. cbn in *. lia.
  - cbn [obj_st snd obj_of] in *. cbn in *. lia.
  - cbn [obj_st snd obj_of] in *. rewrite !single_count. cbn. cbn in IH. destruct (Nat.eq_dec x0 x) as [->|N]; [rewrite Nat.eqb_refl; lia|]. destruct (x =? x0)%nat; lia.
  - cbn [obj_st snd] in *. rewrite !single_count. destruct p as [y|]; cbn in *; [|lia]. destruct (Nat.eq_dec y x) as [->|N]; [rewrite Nat.eqb_refl; lia|]. destruct (x =? y)%nat; lia.
  - cbn [obj_st snd] in *. rewrite get_count. replace (count (puts x) [Get_result g i]) with 0%nat by now destruct i. replace (count (news x) [Get_result g i]) with 0%nat by now destruct i. lia.
  - rewrite !single_count. destruct x0 as [y|]; cbn in *; [|lia]. destruct (Nat.eq_dec y x) as [->|N]; [rewrite Nat.eqb_refl; lia|]. destruct (x =? y)%nat; lia.
  - change (count _ []) with 0%nat. lia.
  - rewrite !single_count. cbn in *. lia.
Qed.
Theorem C69_conservation : forall new tr s, reach new tr s -> forall x, (count (gets x) tr <= count (puts x) tr + count (news x) tr)%nat.
Proof. intros new tr s R x. pose proof (conserve new tr s R x). lia. Qed.
Print Assumptions C69_conservation.

Lemma holders_snoc tr e : holders (tr ++ [e]) = hold (holders tr) e.
Proof. unfold holders. now rewrite fold_left_app. Qed.
Lemma rules_prefix a b : by_the_rules (a ++ b) -> by_the_rules a.
Proof. intros H c e d E. apply (H c e (d ++ b)). now rewrite E, <- app_assoc. Qed.
Lemma occ_drop g x y l : In (g, x) l -> occ (map snd (drop_one (g, x) l)) y = (occ (map snd l) y - if Nat.eq_dec x y then 1 else 0)%nat.
Proof.
  induction l as [|[g' x'] l IH]; intros I; [destruct I|]. cbn [drop_one fst snd]. destruct (Nat.eqb_spec g g') as [->|Ng]; destruct (Nat.eqb_spec x x') as [->|Nx]; cbn [andb map snd count_occ].
  - destruct (Nat.eq_dec x' y); lia.
  - destruct I as [X|I]; [congruence|]. specialize (IH I). rewrite IH. destruct (Nat.eq_dec x' y), (Nat.eq_dec x y); try lia. 
  - destruct I as [X|I]; [congruence|]. specialize (IH I). rewrite IH. assert (P : (occ (map snd l) x' > 0)%nat) by (apply count_occ_In; change x' with (snd (g, x')); now apply in_map). destruct (Nat.eq_dec x' y) as [->|]; lia.
  - destruct I as [X|I]; [congruence|]. specialize (IH I). rewrite IH. destruct (Nat.eq_dec x' y), (Nat.eq_dec x y); try lia.
Qed.
Lemma occ_pos (g x : nat) l : In (g, x) l -> (occ (map snd l) x > 0)%nat.
Proof. intros I. apply count_occ_In. change x with (snd (g, x)). now apply in_map. Qed.
Lemma held_unique new tr s : reach new tr s -> by_the_rules tr -> forall x, (occ (map snd (holders tr)) x + occ (inside s) x <= count (news x) tr)%nat /\ (count (news x) tr <= 1)%nat.
Proof.
  intros R. induction R as [|tr s evs s' R IH S]; intros V x; [cbn; lia|]. specialize (IH (rules_prefix _ _ V) x) as [IH N1].
  assert (NN : forall y, evs = [ENew (Some y)] -> count (news y) tr = 0%nat).
  { intros y E. subst evs. specialize (V tr _ [] eq_refl). cbn in V. unfold count. destruct (filter (news y) tr) as [|e l] eqn:F; auto. exfalso. apply V. assert (I : In e (filter (news y) tr)) by (rewrite F; now left).
    apply filter_In in I as [I Ne]. destruct e as [| | |[z|]|]; try discriminate. cbn in Ne. apply Nat.eqb_eq in Ne. now subst. }
  pose proof (V tr) as Rule. unfold inside in *. rewrite !count_app. destruct S; cbn [items calls] in *; rewrite ?app_nil_r; rewrite ?holders_snoc; rewrite ?fm_app, ?occ_app in *; cbn [flat_map] in *; rewrite ?occ_app in *.
  - cbn [obj_st snd] in *. change (count _ []) with 0%nat. lia.
  - cbn [obj_st snd] in *. cbn in *. lia.
  - cbn [obj_st snd obj_of] in *. cbn in *. lia.
  - specialize (NN x0 eq_refl). cbn [obj_st snd obj_of hold] in *. rewrite !single_count. cbn. cbn in IH. destruct (Nat.eq_dec x0 x) as [->|N]; [rewrite Nat.eqb_refl; lia|]. destruct (Nat.eqb_spec x x0); [congruence|]. lia.
  - cbn [obj_st snd] in *. rewrite !single_count. destruct p as [y|]; cbn in *; [|lia]. specialize (NN y eq_refl). destruct (Nat.eq_dec y x) as [->|N]; [rewrite Nat.eqb_refl; lia|]. destruct (Nat.eqb_spec x y); [congruence|]. lia.
  - cbn [obj_st snd] in *. replace (count (news x) [Get_result g i]) with 0%nat by now destruct i. destruct i as [|[y|]|]; cbn [Get_result hold obj_of map snd count_occ app] in *; try lia. destruct (Nat.eq_dec y x); lia.
  - rewrite !single_count. specialize (Rule _ [] eq_refl). destruct x0 as [y|]; cbn [hold Put_value] in *; [|cbn in *; lia]. rewrite (occ_drop _ _ _ _ Rule). pose proof (occ_pos _ _ _ Rule) as P. cbn in *. destruct (Nat.eq_dec y x) as [->|N]; lia.
  - change (count _ []) with 0%nat. lia.
  - rewrite !single_count. specialize (Rule _ [] eq_refl). cbn [hold] in *. cbn [map snd count_occ]. rewrite (occ_drop _ _ _ _ Rule). pose proof (occ_pos _ _ _ Rule) as P. cbn in *. destruct (Nat.eq_dec x0 x) as [->|N]; lia.
Qed.
(** At every point of every run that keeps the rules, no object is held by two
    goroutines, nor twice by one. *)
Theorem C69_one_holder : forall new tr s, reach new tr s -> by_the_rules tr -> forall g g' x i j, nth_error (holders tr) i = Some (g, x) -> nth_error (holders tr) j = Some (g', x) -> i = j.
Proof.
  intros new tr s R V g g' x i j Hi Hj. assert (ND : NoDup (map snd (holders tr))). { apply (NoDup_count_occ Nat.eq_dec). intros y. destruct (held_unique new tr s R V y). lia. }
  rewrite NoDup_nth_error in ND. apply ND; [rewrite map_length; apply nth_error_Some; congruence|]. now rewrite !nth_error_map, Hi, Hj.
Qed.
Print Assumptions C69_one_holder.
Lemma app_prefix {A} (a b c d : list A) : a ++ b = c ++ d -> (exists e, a = c ++ e) \/ (exists e, c = a ++ e /\ b = e ++ d).
Proof.
  revert c. induction a as [|x a IH]; intros [|y c] E; cbn in *; [right; exists []; auto|right; exists (y :: c); subst; auto|left; eexists; reflexivity|]. injection E as -> E. destruct (IH c E) as [(e & ->)|(e & -> & ->)]; [left|right]; eauto.
Qed.
Lemma one_event new s evs s' : pstep new s evs s' -> (length evs <= 1)%nat.
Proof. intros []; cbn; lia. Qed.
Lemma reach_prefix new tr s : reach new tr s -> forall a b, tr = a ++ b -> exists s', reach new a s'.
Proof.
  intros R. induction R as [|tr s evs s' R IH S]; intros a b E; [destruct a; [exists pool0; constructor|discriminate]|].
  destruct (app_prefix _ _ _ _ E) as [(e & E1)|(e & -> & ->)]; [eauto|]. pose proof (one_event _ _ _ _ S) as L. rewrite app_length in L. destruct e as [|x e]; [rewrite app_nil_r; eauto|]. destruct e; [|cbn in L; lia]. destruct b; [|cbn in L; lia]. exists s'. now apply (re_step new tr s [x] s').
Qed.
(** A Get only returns objects nobody holds. *)
Theorem C69_get_free : forall new tr s, reach new tr s -> by_the_rules tr -> forall a g x b, tr = a ++ EGet g (Some x) :: b -> forall g', ~ In (g', x) (holders a).
Proof.
  intros new tr s R V a g x b E g' I. assert (E' : tr = (a ++ [EGet g (Some x)]) ++ b) by now rewrite <- app_assoc. destruct (reach_prefix new tr s R _ _ E') as (s' & R').
  rewrite E' in V. apply rules_prefix in V. apply In_nth_error in I as (n & Hn). pose proof (C69_one_holder new _ s' R' V g g' x 0 (S n)) as X. rewrite holders_snoc in X. cbn in X. specialize (X eq_refl Hn). discriminate.
Qed.
Print Assumptions C69_get_free.

Lemma shapes new tr s : reach new tr s -> Forall (fun i => exists x, i = IPtr (Some x)) (items s) /\
  Forall (fun c => match snd c with Missed => True | Found INil => new = NoNew | Found (IPtr None) => new = NewUser /\ In (ENew None) tr | Found (IPtr (Some _)) => True | Found IOther => False end) (calls s).
Proof.
  intros R. induction R as [|tr s evs s' R IH S]; [split; constructor|]. destruct IH as [Hi Hc].
  assert (Hc' : Forall (fun c => match snd c with Missed => True | Found INil => new = NoNew | Found (IPtr None) => new = NewUser /\ In (ENew None) (tr ++ evs) | Found (IPtr (Some _)) => True | Found IOther => False end) (calls s)).
  { eapply Forall_impl; [|exact Hc]. intros [g [|[|[y|]|]]]; cbn; auto. intros [X Y]. split; auto. apply in_app_iff. auto. }
  clear Hc. destruct S; cbn [items calls] in *; rewrite ?Forall_app, ?Forall_cons_iff in *.
  - destruct Hi as (H1 & (x & ->) & H2). repeat split; auto.
  - repeat split; auto.
  - destruct Hc' as (H1 & H2 & H3). repeat split; auto.
  - destruct Hc' as (H1 & H2 & H3). repeat split; auto.
  - destruct Hc' as (H1 & H2 & H3). destruct p; cbn; repeat split; auto. apply in_app_iff. right. now left.
  - destruct Hc' as (H1 & H2 & H3). repeat split; auto.
  - split; auto. destruct x as [y|]; cbn; auto. constructor; eauto.
  - destruct Hi as (H1 & H & H2). repeat split; auto.
  - repeat split; auto.
Qed.
Lemma last_event new tr s : reach new tr s -> forall a e b, tr = a ++ e :: b -> exists s0 s1, reach new a s0 /\ pstep new s0 [e] s1.
Proof.
  intros R. induction R as [|tr s evs s' R IH S]; intros a e b E; [destruct a; discriminate|].
  destruct (app_prefix _ _ _ _ E) as [([|x d] & E1)|(d & -> & E2)].
  - rewrite app_nil_r in E1. subst a. apply app_inv_head in E. pose proof (one_event _ _ _ _ S) as L. rewrite E in L. destruct b; [|cbn in L; lia]. subst evs. eauto.
  - rewrite E1, <- app_assoc in E. apply app_inv_head in E. injection E as -> _. eapply IH; eauto.
  - pose proof (one_event _ _ _ _ S) as L. rewrite E2, app_length in L. cbn in L. destruct d; [|cbn in L; lia]. destruct b; [|cbn in L; lia]. cbn in E2. subst evs. rewrite app_nil_r. eauto.
Qed.
(** Get returns nil only if there is no New function or the user's New function
    has returned nil; it never panics (the type assertion always succeeds). *)
Theorem C69_nil : forall new tr s, reach new tr s -> forall a g b, tr = a ++ EGet g None :: b -> new = NoNew \/ new = NewUser /\ In (ENew None) a.
Proof.
  intros new tr s R a g b E. destruct (last_event new tr s R a _ b E) as (s0 & s1 & R0 & S). apply shapes in R0 as [Hi Hc]. inversion S as [| | | | |g' i l c1 c2 X Y Z| | |]; subst. cbn [calls] in Hc. rewrite Forall_app, Forall_cons_iff in Hc. destruct Hc as (_ & Hc & _). cbn in Hc.
  destruct i as [|[y|]|]; cbn in *; try congruence; auto.
Qed.
Print Assumptions C69_nil.
Theorem C69_no_panic : forall new tr s, reach new tr s -> forall g, ~ In (EPanic g) tr.
Proof.
  intros new tr s R g I. apply in_split in I as (a & b & E). destruct (last_event new tr s R a _ b E) as (s0 & s1 & R0 & S). apply shapes in R0 as [Hi Hc]. inversion S as [| | | | |g' i l c1 c2 X Y Z| | |]; subst. cbn [calls] in Hc. rewrite Forall_app, Forall_cons_iff in Hc. destruct Hc as (_ & Hc & _). cbn in Hc.
  destruct i as [|[y|]|]; cbn in *; try congruence; auto.
Qed.
Print Assumptions C69_no_panic.
(** A pool made by MakePool never returns nil; one made by MakePoolWithNew(nil)
    returns nil or an object put before. *)
Theorem C69_make_pool : forall tr s, reach MakePool tr s -> forall g, ~ In (EGet g None) tr.
Proof. intros tr s R g I. apply in_split in I as (a & b & E). destruct (C69_nil _ _ _ R _ _ _ E) as [X|[X _]]; discriminate. Qed.
Print Assumptions C69_make_pool.
Lemma no_new tr s : reach NoNew tr s -> forall x, count (news x) tr = 0%nat.
Proof.
  intros R. induction R as [|tr s evs s' R IH S]; intros x; auto. rewrite count_app, IH. destruct S; try discriminate; cbn; auto. now destruct i.
Qed.
Theorem C69_no_new : forall tr s, reach (MakePoolWithNew false) tr s -> forall x, (count (gets x) tr <= count (puts x) tr)%nat.
Proof. intros tr s R x. pose proof (C69_conservation _ _ _ R x). rewrite (no_new _ _ R) in H. lia. Qed.
Print Assumptions C69_no_new.
(** Put(nil) leaves the pool as it is; Put of an object adds that object and
    nothing else. *)
Theorem C69_put_nil : forall new s g s', pstep new s [EPut g None] s' -> s' = s.
Proof. intros new s g s' S. inversion S; subst; auto. now destruct i as [|[|]|]. Qed.
Print Assumptions C69_put_nil.
Theorem C69_put : forall new s g x s', pstep new s [EPut g (Some x)] s' -> s' = mkPool (IPtr (Some x) :: items s) (calls s).
Proof. intros new s g x s' S. inversion S; subst; auto. now destruct i as [|[|]|]. Qed.
Print Assumptions C69_put.

(** Two goroutines overlap: 1 makes object 7 and puts it back; both call Get, 2
    takes 7 while 1 gets the new 8; 2 passes 7 on to 3, who puts it back. *)
Example C69_hyp : let tr := [ENew (Some 7); EGet 1 (Some 7); EPut 1 (Some 7); ENew (Some 8); EGet 2 (Some 7); EPut 2 None; EPass 2 3 7; EGet 1 (Some 8); EPut 3 (Some 7)]%nat in
  (exists s, reach MakePool tr s) /\ by_the_rules tr /\ holders tr = [(1, 8)]%nat.
Proof.
  cbn zeta. split; [|split; [|reflexivity]].
  - assert (S1 : reach NewT [] (mkPool [] [(1%nat, Missed)])) by exact (re_step _ _ _ _ _ (re_start NewT) (st_miss _ 1%nat [] [])).
    assert (S2 : reach NewT [ENew (Some 7)]%nat (mkPool [] [(1, Found (IPtr (Some 7)))]%nat)) by exact (re_step _ _ _ _ _ S1 (st_newT _ 1%nat 7%nat [] [] [] eq_refl)).
    pose proof (re_step _ _ _ _ _ S2 (st_return _ 1%nat (IPtr (Some 7%nat)) [] [] [])) as S3. cbn in S3.
    pose proof (re_step _ _ _ _ _ S3 (st_put _ 1%nat (Some 7%nat) [] [])) as S4. cbn in S4.
    pose proof (re_step _ _ _ _ _ S4 (st_miss _ 1%nat _ [])) as S5. cbn in S5.
    pose proof (re_step _ _ _ _ _ S5 (st_take _ 2%nat (IPtr (Some 7%nat)) [] [] [(1%nat, Missed)])) as S6. cbn in S6.
    pose proof (re_step _ _ _ _ _ S6 (st_newT _ 1%nat 8%nat [] [(2, Found (IPtr (Some 7)))]%nat [] eq_refl)) as S7. cbn in S7.
    pose proof (re_step _ _ _ _ _ S7 (st_return _ 2%nat _ [] [] [(1, Found (IPtr (Some 8)))]%nat)) as S8. cbn in S8.
    pose proof (re_step _ _ _ _ _ S8 (st_put _ 2%nat None [] _)) as S9. cbn in S9.
    pose proof (re_step _ _ _ _ _ S9 (st_pass _ 2%nat 3%nat 7%nat [] _)) as S10. cbn in S10.
    pose proof (re_step _ _ _ _ _ S10 (st_return _ 1%nat _ [] [] [])) as S11. cbn in S11.
    pose proof (re_step _ _ _ _ _ S11 (st_put _ 3%nat (Some 7%nat) [] [])) as S12. cbn in S12. eexists. exact S12.
  - intros a e b E. do 9 (destruct a as [|? a]; cbn in E; [injection E as <- _; cbn; auto; intuition discriminate|injection E as <- E]). destruct a; discriminate.
Qed.
