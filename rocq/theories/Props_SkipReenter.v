(** Properties of the ForEach methods of SkipList (skiplist.go:173-202) with
    callbacks that use the list: C81-C83.  Spec_SkipReenter.v has the callbacks
    and the loop they are compared with. *)
From Coq Require Import Sorted.
From Verif Require Import BaseLemmas Spec Trace Spec_List Spec_Map Nodes Proof_Nodes Model_SkipList Proof_SkipList Proof_Map Proof_SkipListAny Spec_Client Spec_SkipIter Model_SkipIter Proof_SkipIter Proof_SkipStale Props_SkipList Props_SkipIter Spec_SkipReenter Model_SkipReenter Proof_SkipReenter.
Set Default Proof Using "Type".
Local Arguments zlen : simpl never. Local Arguments pload : simpl never.

(** Same result, and the same for all statements afterwards. *)
Definition agree {K V S0 R} (impl : @slimpl K V) (lt : K -> K -> bool) (a : outcome R * ((list (slnode K V) * sklist) * list iter)) (b : outcome R * (estate K V * list xvar)) : Prop :=
  fst a = fst b /\ forall rest : list (xop K V S0), fst (run (x_step impl) rest (snd a)) = fst (run (x_spec lt) rest (snd b)).

Section Use.
Context {K V S0 : Type}.
Variables (impl : @slimpl K V) (lt : K -> K -> bool).
Hypothesis Hk : kind impl lt.
Lemma pass_value_ok : passes lt (give_value (K := K) (V := V)) pass_value.
Proof.
  intros i e vars c p cvars R. destruct (cursor_key lt _ _ _ _ _ _ R) as (k & v & Ep & _ & _ & Lv). exists v, vars, cvars. unfold give_value, pass_value, lift. cbn [fst snd]. rewrite Ep, Lv. auto.
Qed.
Lemma pass_pointer_ok : passes lt (give_pointer (K := K) (V := V)) pass_pointer.
Proof.
  intros i e vars c p cvars R. exists (length vars), (vars ++ [(Some i, None)]), (cvars ++ [(p, None)]). unfold give_pointer, pass_pointer. cbn [fst snd].
  destruct R as (f & fr & hd & ps & X & Ev & F). cbn [fst snd map] in *. injection Ev as Ep ->. split; auto. split; [now rewrite map_length|]. exists f, fr, hd, ps. split; auto. cbn [fst snd map]. rewrite map_app. subst p. split; [reflexivity|].
  inversion F as [|? ? Fi Fv]; subst. constructor; auto. apply Forall_app. split; auto.
Qed.
Lemma start zk zv h0 l0 (ops : list (xop K V S0)) : let sp := snd (run (x_spec lt) ops (e_empty, [])) in XRel lt sp (xafter impl ops zk zv h0 l0) /\ forward lt (fst sp).
Proof using Hk.
  split; [apply (xrun impl lt Hk); apply fresh_XRel|]. apply (run_inv impl lt Hk (fun _ => True) ops _ _ (fresh_XRel lt zk zv h0 l0) (empty_forward lt) I (fun _ _ _ _ _ _ _ => I)).
Qed.
Lemma from_head {A St} (pass : ptr -> M _ A) (op : St -> K -> A -> xprog K V S0 (bool * St)) fuel st e vars c cvars : XRel lt (e, vars) (c, cvars) ->
  exists p, XRel lt (e, (first_id (e_live e), None) :: vars) (c, (p, None) :: cvars) /\ each_from_head impl pass op fuel st (c, cvars) = each impl pass op fuel p st (c, cvars).
Proof.
  intros R. destruct (cursor_first lt _ _ _ _ R) as (hd & p & Hd & Ln & R1). exists p. split; auto. unfold each_from_head, bind, lift, hget. cbn [fst snd]. rewrite Hd, Ln. reflexivity.
Qed.
Lemma for_each_ok {A St} give pass (Hp : passes lt give pass) (op : St -> K -> A -> xprog K V S0 (bool * St)) fuel st sp s : XRel lt sp s -> forward lt (fst sp) ->
  agree (S0 := S0) impl lt (each_from_head impl pass op fuel st s) (for_each_spec lt give op fuel st sp).
Proof using Hk.
  destruct sp as [e vars], s as [c cvars]. intros R F. destruct (from_head pass op fuel st e vars c cvars R) as (p & R1 & E). rewrite E.
  assert (On : forall st k a, only (fun _ => True) (op st k a)). { intros st0 k a. clear. induction (op st0 k a); constructor; auto. }
  destruct (each_ok impl lt Hk give pass Hp op _ On fuel _ st _ _ _ _ _ R1 F) as (r & e' & vars' & c' & cvars' & Es & Ec & R2). assert (Es' : for_each_spec lt give op fuel st (e, vars) = (r, (e', vars'))) by exact Es. assert (Ec' : each impl pass op fuel p st (c, cvars) = (r, (c', cvars'))) by exact Ec. unfold agree. rewrite Es', Ec'. cbn [fst snd]. split; auto. intros rest. now apply (xrun impl lt Hk rest).
Qed.
Lemma Has_ok k sp s : XRel lt sp s -> fst (Has impl k (fst s)) = Ok (has lt k (map snd (e_live (fst sp)))).
Proof using Hk.
  intros R. pose proof (proj1 (xstep impl lt Hk (XCall (MHas k) : xop K V unit) _ _ R)) as Eh. destruct sp as [e vars]. cbn [x_step x_spec fst map_step snd] in *. unfold show in Eh. destruct (Has impl k (fst s)) as [[b| |] s']; cbn in *; congruence.
Qed.
End Use.

(** *** C81: callbacks that use the list *)
Theorem C81_callbacks : forall K V S0 St (impl : @slimpl K V) lt zk zv h0 l0 (ops : list (xop K V S0)) fuel (st : St), kind impl lt ->
  let s := xafter impl ops zk zv h0 l0 in let sp := snd (run (x_spec lt) ops (e_empty, [])) in
  (forall cb : St -> K -> V -> xprog K V S0 St, agree (S0 := S0) impl lt (ForEach_re impl cb fuel st s) (for_each_spec lt give_value (fun st k v => always (cb st k v)) fuel st sp)) /\
  (forall cb : St -> K -> nat -> xprog K V S0 St, agree (S0 := S0) impl lt (ForEachMutable_re impl cb fuel st s) (for_each_spec lt give_pointer (fun st k x => always (cb st k x)) fuel st sp)) /\
  (forall cb : St -> K -> V -> xprog K V S0 (bool * St), agree (S0 := S0) impl lt (ForEachIf_re impl cb fuel st s) (for_each_spec lt give_value cb fuel st sp)) /\
  (forall cb : St -> K -> nat -> xprog K V S0 (bool * St), agree (S0 := S0) impl lt (ForEachMutableIf_re impl cb fuel st s) (for_each_spec lt give_pointer cb fuel st sp)).
Proof.
  intros K V S0 St impl lt zk zv h0 l0 ops fuel st Hk. cbn zeta. destruct (start impl lt Hk zk zv h0 l0 ops) as [R F].
  split; [|split; [|split]]; intros cb; apply for_each_ok; auto; try apply pass_value_ok; apply pass_pointer_ok.
Qed.
Print Assumptions C81_callbacks.
(** The callback removes the key behind the current one and inserts one before
    it, stores through the pointer it is given, and looks at the length. *)
Definition cb81 (st : list Z) (k : Z) (x : nat) : xprog Z Z unit (list Z) :=
  Do (del (k + 1)) (fun _ => Do (ins (k - 1)) (fun _ => Do (XStore x 5) (fun _ => Do (XCall MLen) (fun r => Done (st ++ [k; match r with XMap (MInt n) => n | _ => 0 end]))))).
Example C81_hyp : let s := xafter (St := unit) zimpl [ins 1; ins 2; ins 3; ins 5] 0 0 [] (mkSL 0 0 None []) in
  kind (V := Z) zimpl Z.ltb /\ fst (ForEachMutable_re zimpl cb81 10 [] s) = Ok [1; 4; 3; 5; 5; 6] /\
  fst (walk Iterate (fst (snd (ForEachMutable_re zimpl cb81 10 [] s)))) = Ok [(0, 0); (1, 5); (2, 20); (3, 5); (4, 40); (5, 5)].
Proof. cbn zeta. split; [exact (proj1 C78_hyp)|]. split; vm_compute; reflexivity. Qed.

(** *** C82: what such a loop visits *)
(** Ascending keys, stored at the start (m) or inserted by the callback, whose
    statements are all in Q. *)
Definition visits_ok {K V S0} (lt : K -> K -> bool) (Q : xop K V S0 -> Prop) (m : list (K * V)) (log : list K) : Prop :=
  strictly_sorted_by lt log /\ forall k, In k log -> In k (map fst m) \/ exists o, Q o /\ inserts o k.
(** Every key stored at the start that the callback never removes. *)
Definition visits_all {K V S0} (lt : K -> K -> bool) (Q : xop K V S0 -> Prop) (m : list (K * V)) (log : list K) : Prop :=
  forall k, In k (map fst m) -> (forall o, Q o -> ~ removes lt o k) -> exists k', In k' log /\ eqv lt k' k = true.
Section Visits.
Context {K V S0 A St : Type}.
Variables (impl : @slimpl K V) (lt : K -> K -> bool).
Hypothesis Hk : kind impl lt.
Variables (give : nat -> M (estate K V * list xvar) A) (pass : ptr -> M ((list (slnode K V) * sklist) * list iter) A).
Hypothesis Hp : passes lt give pass.
Variable op : St * list K -> K -> A -> xprog K V S0 (bool * (St * list K)).
Variable Q : xop K V S0 -> Prop.
Hypothesis HQ : forall st k a, only Q (op st k a).
Hypothesis Hl : forall st k a s r s', exec (x_spec lt) (op st k a) s = (Ok r, s') -> snd (snd r) = snd st ++ [k].
Lemma log_sorted log : ksorted lt (map (fun k : K => (k, tt)) log) -> strictly_sorted_by lt log.
Proof. intros S. pose proof (ksorted_nth lt _ S) as H. rewrite map_map, map_id in H. exact H. Qed.
Lemma stored_key (e : estate K V) i k : In (i, k) (map (fun x => (fst x, key x)) (e_live e)) -> In k (map fst (map snd (e_live e))).
Proof. intros I. apply in_map_iff in I as (x & E & I). injection E as _ <-. unfold key. now apply in_map, in_map. Qed.
Lemma loop_visits (stops : bool) fuel st sp s st' log s' : (stops = false -> forall st k a s r s', exec (x_spec lt) (op st k a) s = (Ok r, s') -> fst r = true) ->
  XRel lt sp s -> forward lt (fst sp) -> each_from_head impl pass op fuel (st, []) s = (Ok (st', log), s') ->
  visits_ok lt Q (map snd (e_live (fst sp))) log /\ (stops = false -> visits_all lt Q (map snd (e_live (fst sp))) log).
Proof using Hk Hp HQ Hl.
  intros Hs R F E. pose proof (kind_sw _ _ Hk) as SW. destruct sp as [e vars], s as [c cvars]. destruct (from_head impl lt pass op fuel (st, []) e vars c cvars R) as (p & R1 & Ep). rewrite Ep in E. clear Ep. cbn [fst] in *.
  pose proof (XRel_wf _ _ _ R) as W. cbn [fst] in W.
  assert (Vi := fun Inv Hi => each_visits impl lt Hk give pass Hp op Q HQ Hl stops Hs Inv Hi fuel _ st [] e vars c p cvars st' log s' R1 F).
  split.
  - split.
    + apply log_sorted. destruct (Vi (I_asc lt) (asc_step lt SW Q)) as [(e' & S & _)|(_ & i & log0 & e1 & k & v & [S H] & W1 & Ep & Ik & ->)]; auto.
      * split; [constructor|]. intros i Ei. destruct (e_live e) as [|x l] eqn:El; [discriminate|]. injection Ei as <-. exists (key x). split; [|constructor]. apply in_live. rewrite El. now left.
      * apply asc_snoc; auto. destruct (H i eq_refl) as (k0 & Ik0 & Fl). now rewrite (keyed_fun lt e1 i k k0).
    + assert (Fl : Forall (fine Q e) log).
      { destruct (Vi (I_seen Q e) (seen_step lt Q e)) as [(e' & _ & Fl & _)|(_ & i & log0 & e1 & k & v & (N & Fl & NB) & W1 & Ep & Ik & ->)]; auto.
        - split; [apply new_first|]. split; [constructor|]. intros i Ei IB. destruct (e_live e) as [|x l] eqn:El; [discriminate|]. injection Ei as <-. apply (live_not_gone lt e (fst x) (key x)); auto. rewrite El. now left.
        - apply Forall_app. split; auto. constructor; auto. apply (seen_key Q e i k e1); auto. }
      intros k I. rewrite Forall_forall in Fl. destruct (Fl k I) as [(i & Ii)|H]; auto. left. eapply stored_key; eauto.
  - intros Es kx Ikx Nr. apply in_map_iff in Ikx as (pr & <- & Ipr). apply in_map_iff in Ipr as (x & <- & Ix).
    assert (Ixk : In (fst x, key x) (map (fun x => (fst x, key x)) (e_live e))) by (now apply (in_map (fun x => (fst x, key x)))).
    destruct (Vi (I_met lt Q e (fst x) (key x)) (met_step lt SW Q e (fst x) (key x) Nr)) as [(e' & _ & H)|(Et & _)]; auto; [| |congruence].
    + split; [now apply still_first|]. right. destruct (e_live e) as [|y l] eqn:El; [destruct Ix|]. exists (fst y), (key y). split; auto. split; [|split].
      * intros IB. apply (live_not_gone lt e (fst y) (key y)); auto. rewrite El. now left.
      * apply in_live. rewrite El. now left.
      * destruct Ix as [->|Ix]; [apply (sw_irrefl lt SW)|]. destruct W as [S _]. rewrite El in S. cbn in S. inversion S as [|? ? _ FF]; subst. rewrite Forall_map, Forall_forall in FF. apply (lt_asym lt SW). now apply FF.
    + destruct H as [H|(i & k & Ei & _)]; [|discriminate]. apply Exists_exists in H as (k' & I' & E'). eauto.
Qed.
End Visits.
Lemma noting_if_log {K V S0 A St} (lt : K -> K -> bool) (cb : St -> K -> A -> xprog K V S0 (bool * St)) st k a s r s' : exec (x_spec lt) (noting_if cb st k a) s = (Ok r, s') -> snd (snd r) = snd st ++ [k].
Proof. unfold noting_if. rewrite exec_pmap. destruct (exec _ _ s) as [[r0| |] s0]; cbn; intros E; try discriminate. injection E as <- _. reflexivity. Qed.
Lemma noting_log {K V S0 A St} (lt : K -> K -> bool) (cb : St -> K -> A -> xprog K V S0 St) st k a s r s' : exec (x_spec lt) (always (noting cb st k a)) s = (Ok r, s') -> snd (snd r) = snd st ++ [k] /\ fst r = true.
Proof. unfold noting, always. rewrite !exec_pmap. destruct (exec _ _ s) as [[r0| |] s0]; cbn; intros E; try discriminate. injection E as <- _. auto. Qed.
Theorem C82_visits : forall K V S0 St (impl : @slimpl K V) lt zk zv h0 l0 (ops : list (xop K V S0)) fuel (st st' : St) (Q : xop K V S0 -> Prop) m log s', kind impl lt ->
  let s := xafter impl ops zk zv h0 l0 in fst (walk Iterate (fst s)) = Ok m ->
  (forall cb : St -> K -> V -> xprog K V S0 St, (forall st k v, only Q (cb st k v)) -> ForEach_re impl (noting cb) fuel (st, []) s = (Ok (st', log), s') -> visits_ok lt Q m log /\ visits_all lt Q m log) /\
  (forall cb : St -> K -> nat -> xprog K V S0 St, (forall st k x, only Q (cb st k x)) -> ForEachMutable_re impl (noting cb) fuel (st, []) s = (Ok (st', log), s') -> visits_ok lt Q m log /\ visits_all lt Q m log) /\
  (forall cb : St -> K -> V -> xprog K V S0 (bool * St), (forall st k v, only Q (cb st k v)) -> ForEachIf_re impl (noting_if cb) fuel (st, []) s = (Ok (st', log), s') -> visits_ok lt Q m log) /\
  (forall cb : St -> K -> nat -> xprog K V S0 (bool * St), (forall st k x, only Q (cb st k x)) -> ForEachMutableIf_re impl (noting_if cb) fuel (st, []) s = (Ok (st', log), s') -> visits_ok lt Q m log).
Proof.
  intros K V S0 St impl lt zk zv h0 l0 ops fuel st st' Q m log s' Hk. cbn zeta. intros Em. destruct (start impl lt Hk zk zv h0 l0 ops) as [R F]. rewrite (XRel_iter lt _ _ R) in Em. injection Em as <-.
  assert (Pv := pass_value_ok (K := K) (V := V) lt). assert (Pp := pass_pointer_ok (K := K) (V := V) lt).
  split; [|split; [|split]]; intros cb HQ E.
  - destruct (loop_visits impl lt Hk _ _ Pv _ Q (fun st k a => only_pmap Q _ _ (only_pmap Q _ _ (HQ (fst st) k a))) (fun st k a s r s' E => proj1 (noting_log lt cb st k a s r s' E)) false fuel st _ _ st' log s' (fun _ st k a s r s' E => proj2 (noting_log lt cb st k a s r s' E)) R F E) as [H1 H2]. auto.
  - destruct (loop_visits impl lt Hk _ _ Pp _ Q (fun st k a => only_pmap Q _ _ (only_pmap Q _ _ (HQ (fst st) k a))) (fun st k a s r s' E => proj1 (noting_log lt cb st k a s r s' E)) false fuel st _ _ st' log s' (fun _ st k a s r s' E => proj2 (noting_log lt cb st k a s r s' E)) R F E) as [H1 H2]. auto.
  - apply (loop_visits impl lt Hk _ _ Pv _ Q (fun st k a => only_pmap Q _ _ (HQ (fst st) k a)) (noting_if_log lt cb) true fuel st _ _ st' log s' (fun H => match diff_true_false H with end) R F E).
  - apply (loop_visits impl lt Hk _ _ Pp _ Q (fun st k a => only_pmap Q _ _ (HQ (fst st) k a)) (noting_if_log lt cb) true fuel st _ _ st' log s' (fun H => match diff_true_false H with end) R F E).
Qed.
Print Assumptions C82_visits.
(** At every key the callback removes 2 and inserts 0 and 4. *)
Definition cb82 (_ : unit) (k v : Z) : xprog Z Z unit unit := Do (del 2) (fun _ => Do (ins 0) (fun _ => Do (ins 4) (fun _ => Done tt))).
Definition Q82 (o : xop Z Z unit) : Prop := o = del 2 \/ o = ins 0 \/ o = ins 4.
Example C82_hyp : let s := xafter (St := unit) zimpl [ins 1; ins 2; ins 3; ins 5] 0 0 [] (mkSL 0 0 None []) in
  fst (walk Iterate (fst s)) = Ok [(1, 10); (2, 20); (3, 30); (5, 50)] /\ (forall st k v, only Q82 (cb82 st k v)) /\
  fst (ForEach_re zimpl (noting cb82) 10 (tt, []) s) = Ok (tt, [1; 3; 4; 5]) /\ (forall o, Q82 o -> ~ removes Z.ltb o 5).
Proof.
  cbn zeta. split; [vm_compute; reflexivity|]. split; [intros st k v; unfold Q82; repeat (constructor; auto)|]. split; [vm_compute; reflexivity|].
  intros o [-> | [-> | ->]] [(k & E & H)|E]; try discriminate. injection E as <-. discriminate.
Qed.

(** *** C83: ForEach ends *)
(** Expected: ForEach ends. *)
Definition C83_expected : Prop := forall K V S0 St (impl : @slimpl K V) lt zk zv h0 l0 (ops : list (xop K V S0)) (cb : St -> K -> V -> xprog K V S0 St) (st : St), kind impl lt ->
  exists fuel, fst (ForEach_re impl cb fuel st (xafter impl ops zk zv h0 l0)) <> NoFuel.
(** False: a callback that inserts the next key. *)
Definition cb83 (_ : unit) (k v : Z) : xprog Z Z unit unit := Do (ins (k + 1)) (fun _ => Done tt).
Lemma cb83_runs fuel : forall e vars c p cvars L i k v, XRel Z.ltb (e, (Some i, None) :: vars) (c, (p, None) :: cvars) -> forward Z.ltb e -> e_live e = L ++ [(i, (k, v))] ->
  fst (each zimpl pass_value (fun st k v => always (cb83 st k v)) fuel p tt (c, cvars)) = NoFuel.
Proof.
  pose proof (proj1 C78_hyp) as Hk. induction fuel as [|fuel IH]; intros e vars c p cvars L i k v R F El; [reflexivity|].
  assert (On : forall st k v, only (fun _ => True) (always (cb83 st k v))) by (intros; repeat (constructor; auto)).
  pose proof (XRel_wf _ _ _ R) as W. cbn [fst] in W. assert (Sk : Forall (fun x => (key x <? k) = true) L). { destruct W as [S _]. rewrite El, map_app in S. apply SS_app_inv in S as (_ & _ & FA). rewrite Forall_map in FA. eapply Forall_imp; [|exact FA]. intros x Hx. now inversion Hx. }
  assert (Ia : In (i, (k, v)) (all e)) by (unfold all; rewrite El; apply in_app_iff; left; apply in_app_iff; right; now left).
  destruct (round zimpl Z.ltb Hk _ _ (pass_value_ok Z.ltb) (fun st k v => always (cb83 st k v)) _ On (Some i) tt e vars c p cvars fuel R F) as (k' & v' & a & vars1 & r & e' & vars' & c' & cvars' & Ep & _ & _ & Ex & _ & F' & Rd).
  apply (nth_pair Z.ltb e i k v _ W Ia) in Ep. injection Ep as -> ->.
  assert (Hn : has Z.ltb (k + 1) (map snd (e_live e)) = false).
  { unfold has. destruct (existsb _ _) eqn:E; auto. apply existsb_exists in E as (q & Iq & Hq). rewrite El, map_app in Iq. unfold eqv in Hq. apply andb_true_iff in Hq as [H1 H2]. apply negb_true_iff, Z.ltb_ge in H1, H2. apply in_app_iff in Iq as [Iq|[<-|[]]]; [|cbn in *; lia]. apply in_map_iff in Iq as (x & <- & Ix). rewrite Forall_forall in Sk. specialize (Sk x Ix). unfold key in Sk. apply Z.ltb_lt in Sk. lia. }
  cbn [always pmap cb83 exec x_spec ins map_spec fst omap snd] in Ex. unfold calls in Ex. rewrite Hn in Ex. injection Ex as <- Ee _. cbn beta iota in Rd. destruct Rd as (q' & p' & En & R' & _ & ->).
  assert (El' : e_live e' = (L ++ [(i, (k, v))]) ++ [(e_made e, (k + 1, 10 * (k + 1)))]).
  { rewrite <- Ee. cbn [e_live]. rewrite El. rewrite filter_all, filter_none; auto.
    - apply Forall_app. split; [|constructor; [apply Z.ltb_ge; cbn; lia|constructor]]. eapply Forall_imp; [|exact Sk]. intros x Hx. unfold key in Hx. apply Z.ltb_lt in Hx. apply Z.ltb_ge. lia.
    - apply Forall_app. split; [|constructor; [apply Z.ltb_lt; cbn; lia|constructor]]. eapply Forall_imp; [|exact Sk]. intros x Hx. unfold key in Hx. apply Z.ltb_lt in Hx. apply Z.ltb_lt. lia. }
  assert (NI : ~ In i (map fst L)). { destruct W as [_ ND]. unfold all in ND. rewrite El, <- app_assoc, map_app in ND. cbn in ND. apply NoDup_remove_2 in ND. intros J. apply ND. apply in_app_iff. now left. }
  unfold next_of in En. rewrite El', <- app_assoc in En. cbn [app] in En. rewrite behind_mid in En by auto. injection En as <-. cbn [first_id fst] in R'. eapply IH; eauto.
Qed.
Theorem C83_refuted : ~ C83_expected.
Proof.
  intros H. pose proof (proj1 C78_hyp) as Hk. destruct (H Z Z unit unit zimpl Z.ltb 0 0 [] (mkSL 0 0 None []) [ins 1] cb83 tt Hk) as (fuel & Hf). apply Hf. clear H Hf.
  destruct (start zimpl Z.ltb Hk 0 0 [] (mkSL 0 0 None []) [ins 1]) as [R F]. set (s := xafter _ _ _ _ _ _) in *. clearbody s. set (sp := snd _) in *. vm_compute in sp. subst sp. destruct s as [c cvars].
  destruct (from_head zimpl Z.ltb pass_value (fun st k v => always (cb83 st k v)) fuel tt _ _ _ _ R) as (p & R1 & E). unfold ForEach_re. rewrite E. cbn [e_live first_id fst] in R1. apply (cb83_runs fuel _ _ _ _ _ [] 0%nat 1 10 R1 F). reflexivity.
Qed.
Print Assumptions C83_refuted.
(** What holds: it ends, with a panic only of the callback, if the callback
    inserts nothing; all other statements are allowed. *)
Theorem C83_ends : forall K V S0 St (impl : @slimpl K V) lt zk zv h0 l0 (ops : list (xop K V S0)) (st : St), kind impl lt ->
  let s := xafter impl ops zk zv h0 l0 in let quiet := fun o : xop K V S0 => forall k, ~ inserts o k in
  exists n, forall fuel, (n <= fuel)%nat ->
  (forall cb : St -> K -> V -> xprog K V S0 St, (forall st k v, only quiet (cb st k v)) -> fst (ForEach_re impl cb fuel st s) <> NoFuel) /\
  (forall cb : St -> K -> nat -> xprog K V S0 St, (forall st k x, only quiet (cb st k x)) -> fst (ForEachMutable_re impl cb fuel st s) <> NoFuel) /\
  (forall cb : St -> K -> V -> xprog K V S0 (bool * St), (forall st k v, only quiet (cb st k v)) -> fst (ForEachIf_re impl cb fuel st s) <> NoFuel) /\
  (forall cb : St -> K -> nat -> xprog K V S0 (bool * St), (forall st k x, only quiet (cb st k x)) -> fst (ForEachMutableIf_re impl cb fuel st s) <> NoFuel).
Proof.
  intros K V S0 St impl lt zk zv h0 l0 ops st Hk. cbn zeta. destruct (start impl lt Hk zk zv h0 l0 ops) as [R F]. set (s := xafter _ _ _ _ _ _) in *. set (sp := snd _) in *. clearbody s sp. destruct sp as [e vars], s as [c cvars]. cbn [fst] in F.
  exists (2 + length (all e))%nat. intros fuel Lf.
  assert (G : forall A give pass (op : St -> K -> A -> xprog K V S0 (bool * St)), passes lt give pass -> (forall st k a, only (fun o => forall k, ~ inserts o k) (op st k a)) -> fst (each_from_head impl pass op fuel st (c, cvars)) <> NoFuel).
  { intros A give pass op Hp HQ. destruct (from_head impl lt pass op fuel st e vars c cvars R) as (p & R1 & ->). eapply (each_ends impl lt Hk give pass Hp op _ HQ fuel); eauto.
    assert (Lc : forall k, (cnt lt e k <= length (all e))%nat) by (intros k; unfold cnt; clear; induction (all e) as [|x l IH]; cbn; [auto|destruct (lt k (key x)); cbn; lia]).
    destruct (first_id (e_live e)); [intros k _; specialize (Lc k)|]; lia. }
  split; [|split; [|split]]; intros cb HQ; eapply G; try apply pass_value_ok; try apply pass_pointer_ok; auto; intros; now apply only_pmap.
Qed.
Print Assumptions C83_ends.
(** The usual case, removing while iterating: every pair is visited once, and
    the pairs the callback does not remove stay. *)
Definition removing {K V S0} (p : K * V -> bool) (st : list (K * V)) (k : K) (v : V) : xprog K V S0 (list (K * V)) :=
  if p (k, v) then Do (XCall (MRemove k)) (fun _ => Done (st ++ [(k, v)])) else Done (st ++ [(k, v)]).
Lemma removing_loop {K V S0} (impl : @slimpl K V) lt (p : K * V -> bool) (Hk : kind impl lt) fuel : forall R L e vars c q cvars seen, XRel lt (e, (first_id R, None) :: vars) (c, (q, None) :: cvars) -> forward lt e -> e_live e = L ++ R -> (length R < fuel)%nat ->
  exists e' vars' s', each impl pass_value (fun st k v => always (removing (S0 := S0) p st k v)) fuel q seen (c, cvars) = (Ok (seen ++ map snd R), s') /\ XRel lt (e', vars') s' /\ e_live e' = L ++ filter (fun x => negb (p (snd x))) R.
Proof.
  pose proof (kind_sw _ _ Hk) as SW. induction fuel as [|fuel IH]; intros R L e vars c q cvars seen X F El Lf; [lia|].
  assert (On : forall st k v, only (fun _ => True) (always (removing (S0 := S0) p st k v))) by (intros; unfold removing; destruct (p (k, v)); repeat (constructor; auto)).
  pose proof (round impl lt Hk _ _ (pass_value_ok lt) (fun st k v => always (removing p st k v)) _ On (first_id R) seen e vars c q cvars fuel X F) as Rd.
  destruct R as [|[i [k v]] R]; cbn [first_id fst] in *.
  - destruct Rd as [_ ->]. exists e, vars, (c, cvars). cbn [map app filter]. rewrite app_nil_r. split; auto. split; auto. eapply XRel_drop; eauto.
  - pose proof (XRel_wf _ _ _ X) as W. cbn [fst] in W. assert (Ia : In (i, (k, v)) (all e)) by (unfold all; rewrite El; apply in_app_iff; left; apply in_app_iff; right; now left).
    assert (Ep0 : pair_of i e = Some (k, v)) by (apply find_id_in; auto; apply W).
    destruct Rd as (k' & v' & a & vars1 & r & e' & vars' & c' & cvars' & Ep & _ & Eg & Ex & _ & F' & Rd). rewrite Ep0 in Ep. injection Ep as <- <-. unfold give_value in Eg. cbn [fst] in Eg. rewrite Ep0 in Eg. cbn [snd] in Eg. injection Eg as <- <-.
    assert (Tail : e_live e' = (L ++ filter (fun x => negb (p (snd x))) [(i, (k, v))]) ++ R -> next_of i e' = Some (first_id R) -> r = Ok (true, seen ++ [(k, v)]) ->
      exists e' vars' s', each impl pass_value (fun st k v => always (removing (S0 := S0) p st k v)) (S fuel) q seen (c, cvars) = (Ok (seen ++ map snd ((i, (k, v)) :: R)), s') /\ XRel lt (e', vars') s' /\ e_live e' = L ++ filter (fun x => negb (p (snd x))) ((i, (k, v)) :: R)).
    { intros El' En ->. destruct Rd as (q' & p' & En' & X' & _ & ->). rewrite En in En'. injection En' as <-. cbn [length] in Lf.
      destruct (IH R _ e' vars' c' p' cvars' (seen ++ [(k, v)]) X' F' El' ltac:(lia)) as (e2 & vars2 & s2 & -> & X2 & El2). exists e2, vars2, s2. split; [now rewrite <- app_assoc|]. split; auto. rewrite El2, <- app_assoc. f_equal. cbn [filter]. destruct (negb (p (snd (i, (k, v))))); reflexivity. }
    assert (Sep : Forall (fun y : nat * (K * V) => eqv lt (fst (snd y)) k = false) L /\ Forall (fun y : nat * (K * V) => eqv lt (fst (snd y)) k = false) R).
    { destruct W as [S _]. rewrite El, map_app in S. apply SS_app_inv in S as (_ & S & FA). cbn in S. inversion S as [|? ? _ FR]; subst. rewrite Forall_map in FA, FR. unfold eqv. split.
      - eapply Forall_imp; [|exact FA]. intros y Hy. inversion Hy as [|? ? Hy1 _]; subst. cbn in Hy1. now rewrite Hy1.
      - eapply Forall_imp; [|exact FR]. intros y Hy. cbn in Hy. rewrite Hy. apply andb_false_r. }
    destruct Sep as [FL FR]. assert (NI : ~ In i (map fst L ++ map fst R ++ map fst (map fst (e_gone e)))). { destruct W as [_ ND]. unfold all in ND. rewrite El, map_app, map_app, <- app_assoc in ND. cbn [map fst] in ND. apply NoDup_remove_2 in ND. now rewrite app_assoc in ND |- *. }
    rewrite !in_app_iff in NI. unfold removing in Ex. destruct (p (k, v)) eqn:Hp; cbn [always pmap exec x_spec map_spec fst snd omap] in Ex; injection Ex as <- <- <-.
    + assert (Rt : calls lt (MRemove k : mop K V S0) e = mkE (L ++ R) (((i, (k, v)), first_id R) :: e_gone e) (e_made e)).
      { unfold calls, retire. rewrite El. assert (Hk0 : eqv lt k k = true) by (unfold eqv; now rewrite (sw_irrefl lt SW)). destruct (leaving_mid (fun q => eqv lt (fst q) k) L (i, (k, v)) R FL Hk0 FR) as [-> ->]. reflexivity. }
      apply Tail; auto.
      * change (e_live (calls lt (MRemove k : mop K V S0) e) = (L ++ filter (fun x => negb (p (snd x))) [(i, (k, v))]) ++ R). rewrite Rt. cbn [e_live filter snd]. rewrite Hp. cbn [negb]. now rewrite app_nil_r.
      * change (next_of i (calls lt (MRemove k : mop K V S0) e) = Some (first_id R)). rewrite Rt. unfold next_of. cbn [e_live e_gone]. rewrite behind_none; [|rewrite map_app, in_app_iff; tauto]. cbn [find fst]. rewrite Nat.eqb_refl. reflexivity.
    + apply Tail; auto.
      * cbn [filter snd]. rewrite Hp. cbn [negb]. rewrite <- app_assoc. exact El.
      * unfold next_of. rewrite El, behind_mid by tauto. reflexivity.
Qed.
Theorem C83_remove_while_iterating : forall K V S0 (impl : @slimpl K V) lt zk zv h0 l0 (ops : list (xop K V S0)) (p : K * V -> bool) m fuel, kind impl lt ->
  let s := xafter impl ops zk zv h0 l0 in fst (walk Iterate (fst s)) = Ok m -> (length m < fuel)%nat ->
  exists s', ForEach_re impl (removing (S0 := S0) p) fuel [] s = (Ok m, s') /\ fst (walk Iterate (fst s')) = Ok (filter (fun x => negb (p x)) m).
Proof.
  intros K V S0 impl lt zk zv h0 l0 ops p m fuel Hk. cbn zeta. intros Em Lf. destruct (start impl lt Hk zk zv h0 l0 ops) as [R F]. rewrite (XRel_iter lt _ _ R) in Em. injection Em as <-. rewrite map_length in Lf.
  set (s := xafter _ _ _ _ _ _) in *. set (sp := snd _) in *. clearbody s sp. destruct sp as [e vars], s as [c cvars]. cbn [fst] in *.
  destruct (from_head impl lt pass_value (fun st k v => always (removing (S0 := S0) p st k v)) fuel [] e vars c cvars R) as (q & R1 & E). destruct (removing_loop (S0 := S0) impl lt p Hk fuel (e_live e) [] e vars c q cvars [] R1 F eq_refl Lf) as (e' & vars' & s' & El & R2 & Ee).
  exists s'. unfold ForEach_re. rewrite E. split; [exact El|]. rewrite (XRel_iter lt _ _ R2). cbn [fst]. rewrite Ee. cbn [app]. f_equal. clear. induction (e_live e) as [|x l IH]; cbn; auto. destruct (p (snd x)); cbn; now rewrite IH.
Qed.
Print Assumptions C83_remove_while_iterating.
Example C83_hyp : let s := xafter (St := unit) zimpl [ins 1; ins 2; ins 3; ins 4] 0 0 [] (mkSL 0 0 None []) in let p := fun x => Z.even (fst x) in
  fst (walk Iterate (fst s)) = Ok [(1, 10); (2, 20); (3, 30); (4, 40)] /\ fst (ForEach_re zimpl (removing (S0 := unit) p) 5 [] s) = Ok [(1, 10); (2, 20); (3, 30); (4, 40)] /\
  fst (walk Iterate (fst (snd (ForEach_re zimpl (removing (S0 := unit) p) 5 [] s)))) = Ok [(1, 10); (3, 30)] /\
  (forall st k v, only (fun o : xop Z Z unit => forall k, ~ inserts o k) (removing p st k v)).
Proof.
  cbn zeta. split; [vm_compute; reflexivity|]. split; [vm_compute; reflexivity|]. split; [vm_compute; reflexivity|].
  intros st k v. unfold removing. destruct (Z.even _); repeat constructor. intros k' (v' & r & E). discriminate.
Qed.
