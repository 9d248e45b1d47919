(** Property C110: clients of SkipListSet (skiplist_set.go) that keep iterators
    while the set changes, and that use the set in the callbacks of ForEach and
    ForEachIf.  Spec_SetClient.v has the client statements and the set with
    element identities they are compared with. *)
From Coq Require Import Sorted.
From Verif Require Import BaseLemmas Spec Trace Spec_List Spec_Map Spec_Set Nodes Proof_Nodes Model_SkipList Proof_SkipList Proof_Map Proof_SkipListAny Model_SkipListSet Spec_Client Spec_SkipIter Model_SkipIter Proof_SkipIter Proof_SkipStale Props_SkipList Props_SkipListSet Props_SkipIter Spec_SkipReenter Model_SkipReenter Proof_SkipReenter Props_SkipReenter Spec_SetClient Model_SetClient Proof_SetClient.
Set Default Proof Using "Type".
Local Arguments zlen : simpl never. Local Arguments pload : simpl never.

(** The state of a client after the statements ops, from a new set and no
    variables. *)
Definition tafter {K S0} (impl : @slimpl K unit) (ops : list (top K S0)) zk h0 l0 := snd (run (t_step impl) ops (new_set zk h0 l0, [])).
(** Same result, and the same for all statements afterwards. *)
Definition t_agree {K S0 R} (impl : @slimpl K unit) (lt : K -> K -> bool) (a : outcome R * ((list (slnode K unit) * sklist) * list iter)) (b : outcome R * (estate K unit * list xvar)) : Prop :=
  fst a = fst b /\ forall rest : list (top K S0), fst (run (t_step impl) rest (snd a)) = fst (run (t_spec lt) rest (snd b)).

Section Use.
Context {K S0 : Type}.
Variables (impl : @slimpl K unit) (lt : K -> K -> bool).
Hypothesis Hk : kind impl lt.
Lemma t_start zk h0 l0 (ops : list (top K S0)) : let sp := snd (run (t_spec lt) ops (e_empty, [])) in
  XRel lt sp (tafter impl ops zk h0 l0) /\ forward lt (fst sp) /\ tafter impl ops zk h0 l0 = xafter impl (flat_map flat ops) zk tt h0 l0.
Proof using Hk.
  cbn zeta. destruct (run_flat impl lt Hk ops _ _ (fresh_XRel lt zk tt h0 l0)) as (_ & E & Es). change (fresh zk tt h0 l0) with (new_set zk h0 l0) in E. unfold tafter. rewrite E, Es.
  destruct (start impl lt Hk zk tt h0 l0 (flat_map flat ops)) as [R F]. auto.
Qed.
Lemma keys_eq sp (s : (list (slnode K unit) * sklist) * list iter) : XRel lt sp s -> fst (set_Keys (fst s)) = Ok (elems (fst sp)).
Proof using Hk.
  intros R. destruct (XRel_SRel lt _ _ R) as (h0 & Rs). pose proof (proj1 (set_call (St := unit) impl lt Hk h0 SKeys _ _ Rs)) as E. cbn [set_step set_spec fst] in E. rewrite show_fst in E. destruct (fst (set_Keys (fst s))); cbn in E; congruence.
Qed.
Lemma t_for_each {St} (op : St -> K -> tprog K S0 (bool * St)) fuel st sp s : XRel lt sp s -> forward lt (fst sp) ->
  t_for_each_spec lt op fuel st sp = for_each_spec lt give_value (fun st k _ => trans (op st k)) fuel st sp /\
  t_from_head impl op fuel st s = each_from_head impl pass_value (fun st k _ => trans (op st k)) fuel st s.
Proof using Hk.
  destruct sp as [e vars], s as [c cvars]. intros R F. destruct (cursor_first lt _ _ _ _ R) as (hd & p & Hd & Ln & R1).
  destruct (t_each_trans impl lt Hk op fuel _ st _ _ _ _ _ R1 F) as [E1 E2]. split; [exact E1|].
  unfold t_from_head, each_from_head, bind, t_lift, lift, hget. cbn [fst snd]. rewrite Hd, Ln. exact E2.
Qed.
Lemma t_loop {St} (op : St -> K -> tprog K S0 (bool * St)) fuel st sp s : XRel lt sp s -> forward lt (fst sp) -> t_agree (S0 := S0) impl lt (t_from_head impl op fuel st s) (t_for_each_spec lt op fuel st sp).
Proof using Hk.
  intros R F. destruct (t_for_each op fuel st _ _ R F) as [-> ->]. destruct sp as [e vars], s as [c cvars]. destruct (from_head impl lt pass_value (fun st k _ => trans (op st k)) fuel st e vars c cvars R) as (p & R1 & E). rewrite E.
  assert (On : forall st k (a : unit), only (fun _ => True) (trans (op st k))). { intros st0 k a. clear. induction (trans (op st0 k)); constructor; auto. }
  destruct (each_ok impl lt Hk give_value pass_value (pass_value_ok lt) (fun st k _ => trans (op st k)) _ On fuel _ st _ _ _ _ _ R1 F) as (r & e' & vars' & c' & cvars' & Es & Ec & R2).
  assert (Es' : for_each_spec lt give_value (fun st k _ => trans (op st k)) fuel st (e, vars) = (r, (e', vars'))) by exact Es. unfold t_agree. assert (Ec' : each impl pass_value (fun st k _ => trans (op st k)) fuel p st (c, cvars) = (r, (c', cvars'))) by exact Ec. rewrite Es', Ec'. cbn [fst snd]. split; auto. intros rest. now apply (run_flat impl lt Hk rest).
Qed.
End Use.

(** *** C110: clients of SkipListSet *)
(** Expected: while nothing is inserted, a kept range iterator shows elements of
    its range and ends. *)
Definition C110_expected : Prop := forall K S0 (impl : @slimpl K unit) lt zk h0 l0 (ops1 ops2 : list (top K S0)) a b it, kind impl lt -> lt b a = false ->
  (forall o k, In o ops2 -> ~ t_inserts o k) ->
  let st1 := tafter impl ops1 zk h0 l0 in let st2 := snd (run (t_step impl) (TRange a b :: ops2) st1) in
  nth_error (snd st2) (length (snd st1)) = Some it ->
  exists l, fst (si_walk (ret it) (fst st2)) = Ok l /\ forall k, In k l -> lt k a = false /\ lt b k = false.
(** False: remove the first element behind the range; the walk runs past its end
    and panics at the end of the set. *)
Notation timpl := (implOrdered (K := Z) (V := unit) Z.ltb Z.eqb).
Definition tin (k : Z) : top Z unit := TCall (SInsert k 7).
Definition tdel (k : Z) : top Z unit := TCall (SRemove k).
Lemma timpl_kind : kind timpl Z.ltb.
Proof. left. exists Z.eqb. split; [reflexivity|]. exact Z_ordered. Qed.
Theorem C110_refuted : ~ C110_expected.
Proof.
  intros H. destruct (H Z unit timpl Z.ltb 0 [] (mkSL 0 0 None []) [tin 1; tin 3; tin 5; tin 7] [tdel 5] 1 3 (Some 1%nat, Some 3%nat) timpl_kind eq_refl) as (l & E & _).
  - intros o k [<-|[]] [(r & E)|(ks & E & _)]; discriminate.
  - vm_compute. reflexivity.
  - vm_compute in E. discriminate.
Qed.
Print Assumptions C110_refuted.
(** What holds.  Every statement shows what it shows on the set with element
    identities: an iterator on a removed element still has its value, and goes on
    to the element that stood behind it when it was removed. *)
Theorem C110_kept_iterators : forall K S0 (impl : @slimpl K unit) lt zk h0 l0 (ops : list (top K S0)), kind impl lt ->
  fst (run (t_step impl) ops (new_set zk h0 l0, [])) = fst (run (t_spec lt) ops (e_empty, [])).
Proof. intros K S0 impl lt zk h0 l0 ops Hk. apply (run_flat impl lt Hk). apply (fresh_XRel lt zk tt). Qed.
Print Assumptions C110_kept_iterators.
(** The walk of a kept LowerBound or UpperBound iterator ends without a panic, is
    strictly ascending, and shows removed elements first, then the stored ones
    behind them to the last. *)
Theorem C110_stale_iterators : forall K S0 (impl : @slimpl K unit) lt zk h0 l0 (ops : list (top K S0)) x p, kind impl lt ->
  let st := tafter impl ops zk h0 l0 in nth_error (snd st) x = Some (p, None) ->
  exists m D L, fst (set_Keys (fst st)) = Ok m /\ si_walk (ret (p, None)) (fst st) = (Ok (D ++ L), fst st) /\
    (exists P, m = P ++ L) /\ strictly_sorted_by lt (D ++ L) /\
    (forall k, In k (D ++ L) -> exists o, In o ops /\ t_inserts o k) /\
    (forall k, In k D -> exists o, In o ops /\ t_removes lt o k).
Proof.
  intros K S0 impl lt zk h0 l0 ops x p Hk. cbn zeta. intros Hx. destruct (t_start impl lt Hk zk h0 l0 ops) as (R & F & E). rewrite (keys_eq impl lt Hk _ _ R). pose proof (XRel_iter lt _ _ R) as It. rewrite E in *.
  destruct (C79_stale_iterators K unit S0 impl lt zk tt h0 l0 (flat_map flat ops) x p Hk Hx) as (m & D & L & Em & Ew & (P0 & Ep) & St & Hi & Hr). fold (xafter impl (flat_map flat ops) zk tt h0 l0) in *. rewrite It in Em. injection Em as <-.
  exists (elems (fst (snd (run (t_spec lt) ops (e_empty, []))))), (map fst D), (map fst L). rewrite <- map_app. split; auto. split; [rewrite si_walk_walk, Ew; reflexivity|]. split; [exists (map fst P0); rewrite elems_fst, Ep, map_app; reflexivity|]. split; auto. split.
  - intros k I. destruct (Hi k I) as (o & Io & Ho). apply in_flat_map in Io as (o' & Io' & Io). exists o'. split; auto. eapply flat_inserts; eauto.
  - intros k I. destruct (Hr k I) as (o & Io & Ho). apply in_flat_map in Io as (o' & Io' & Io). exists o'. split; auto. eapply flat_removes; eauto.
Qed.
Print Assumptions C110_stale_iterators.
(** A range iterator whose first element lo and end hi are never removed shows
    the elements now stored from lo up to, not including, hi. *)
Theorem C110_range_kept : forall K S0 (impl : @slimpl K unit) lt zk h0 l0 (ops1 ops2 : list (top K S0)) a b m, kind impl lt -> lt b a = false ->
  let st1 := tafter impl ops1 zk h0 l0 in let x := length (snd st1) in let st2 := snd (run (t_step impl) (TRange a b :: ops2) st1) in
  fst (set_Keys (fst st1)) = Ok m ->
  let lo := hd_error (filter (fun k => negb (lt k a)) m) in let hi := hd_error (filter (fun k => lt b k) m) in
  (forall o, In o ops2 -> o <> TMoveToNext x) -> (forall o k, In o ops2 -> lo = Some k \/ hi = Some k -> ~ t_removes lt o k) ->
  exists it m2, nth_error (snd st2) x = Some it /\ fst (set_Keys (fst st2)) = Ok m2 /\ fst (si_walk (ret it) (fst st2)) = Ok (filter (within lt lo hi) m2).
Proof.
  intros K S0 impl lt zk h0 l0 ops1 ops2 a b m Hk Hab. cbn zeta. intros Em Nm Nr. destruct (t_start impl lt Hk zk h0 l0 ops1) as (R & F & E). rewrite (keys_eq impl lt Hk _ _ R) in Em. injection Em as <-.
  pose proof (XRel_iter lt _ _ R) as It. destruct (run_flat impl lt Hk (TRange a b :: ops2) _ _ R) as (_ & E2 & E3). pose proof (proj2 (xrun impl lt Hk (flat_map flat (TRange a b :: ops2)) _ _ R)) as R2. rewrite <- E2, <- E3 in R2. cbn [flat_map flat app] in E2.
  rewrite (keys_eq impl lt Hk _ _ R2). pose proof (XRel_iter lt _ _ R2) as It2. clear E3. rewrite E in *.
  destruct (C80_range_kept K unit S0 impl lt zk tt h0 l0 (flat_map flat ops1) (flat_map flat ops2) a b _ Hk Hab It) as (it & m2 & Ei & Em2 & Ew & _).
  - intros o Io ->. apply in_flat_map in Io as (o' & Io' & Io). destruct o' as [c| | | | | |]; cbn in Io; try (destruct Io as [Eo|[]]; discriminate).
    + destruct c; cbn in Io; repeat (destruct Io as [Io|Io]; [discriminate|]); auto; apply in_app_iff in Io as [Io|[Io|[]]]; try discriminate; apply in_map_iff in Io as (? & ? & _); discriminate.
    + destruct Io as [Eo|[]]. injection Eo as ->. apply (Nm _ Io'). reflexivity.
  - intros o k Io Hlo Hr. apply in_flat_map in Io as (o' & Io' & Io). apply (Nr o' k Io'); [|eapply flat_removes; eauto]. now rewrite elems_fst.
  - exists it, (elems (fst (snd (run (t_spec lt) (TRange a b :: ops2) (snd (run (t_spec lt) ops1 (e_empty, []))))))). rewrite E2 in *. split; [exact Ei|]. split; auto. rewrite si_walk_walk. cbn [fst]. rewrite Ew. rewrite It2 in Em2. injection Em2 as <-. cbn [omap]. rewrite !elems_fst. f_equal. symmetry. apply filter_fst.
Qed.
Print Assumptions C110_range_kept.
(** Callbacks that use the set. *)
Theorem C110_callbacks : forall K S0 St (impl : @slimpl K unit) lt zk h0 l0 (ops : list (top K S0)) fuel (st : St), kind impl lt ->
  let s := tafter impl ops zk h0 l0 in let sp := snd (run (t_spec lt) ops (e_empty, [])) in
  (forall cb : St -> K -> tprog K S0 St, t_agree (S0 := S0) impl lt (set_ForEach_re impl cb fuel st s) (t_for_each_spec lt (fun st k => always (cb st k)) fuel st sp)) /\
  (forall cb : St -> K -> tprog K S0 (bool * St), t_agree (S0 := S0) impl lt (set_ForEachIf_re impl cb fuel st s) (t_for_each_spec lt cb fuel st sp)).
Proof. intros K S0 St impl lt zk h0 l0 ops fuel st Hk. cbn zeta. destruct (t_start impl lt Hk zk h0 l0 ops) as (R & F & _). split; intros cb; now apply t_loop. Qed.
Print Assumptions C110_callbacks.
(** Ascending elements, stored at the start or inserted by the callback, whose
    statements are all in Q; with ForEach every element stored at the start that
    the callback never removes. *)
Definition t_visits_ok {K S0} (lt : K -> K -> bool) (Q : top K S0 -> Prop) (m log : list K) : Prop :=
  strictly_sorted_by lt log /\ forall k, In k log -> In k m \/ exists o, Q o /\ t_inserts o k.
Definition t_visits_all {K S0} (lt : K -> K -> bool) (Q : top K S0 -> Prop) (m log : list K) : Prop :=
  forall k, In k m -> (forall o, Q o -> ~ t_removes lt o k) -> exists k', In k' log /\ eqv lt k' k = true.
Lemma visits_flat {K S0} (lt : K -> K -> bool) (Q : top K S0 -> Prop) (e : estate K unit) log : visits_ok lt (fun x => exists o, Q o /\ In x (flat o)) (map snd (e_live e)) log -> t_visits_ok lt Q (elems e) log.
Proof. intros [S H]. split; auto. intros k I. rewrite elems_fst. destruct (H k I) as [?|(x & (o & Qo & Ix) & Hx)]; auto. right. exists o. split; auto. eapply flat_inserts; eauto. Qed.
Lemma all_flat {K S0} (lt : K -> K -> bool) (Q : top K S0 -> Prop) (e : estate K unit) log : visits_all lt (fun x => exists o, Q o /\ In x (flat o)) (map snd (e_live e)) log -> t_visits_all lt Q (elems e) log.
Proof. intros H k I Nr. apply (H k); [now rewrite <- elems_fst|]. intros x (o & Qo & Ix) Hx. apply (Nr o Qo). eapply flat_removes; eauto. Qed.
Lemma t_noting_log {K S0 St} (lt : K -> K -> bool) (cb : St -> K -> tprog K S0 St) st k (s : estate K unit * list xvar) r s' : exec (x_spec lt) (trans (always (t_noting cb st k))) s = (Ok r, s') -> snd (snd r) = snd st ++ [k] /\ fst r = true.
Proof.
  unfold t_noting, always. rewrite trans_pmap, exec_pmap, trans_pmap, exec_pmap. destruct (exec _ _ s) as [[r0| |] s0]; cbn; intros E; try discriminate. injection E as <- _. auto.
Qed.
Lemma t_noting_if_log {K S0 St} (lt : K -> K -> bool) (cb : St -> K -> tprog K S0 (bool * St)) st k (s : estate K unit * list xvar) r s' : exec (x_spec lt) (trans (t_noting_if cb st k)) s = (Ok r, s') -> snd (snd r) = snd st ++ [k].
Proof. unfold t_noting_if. rewrite trans_pmap, exec_pmap. destruct (exec _ _ s) as [[r0| |] s0]; cbn; intros E; try discriminate. injection E as <- _. reflexivity. Qed.
Lemma t_only_pmap {K S0 A B} Q (f : A -> B) (p : tprog K S0 A) : only Q p -> only Q (pmap f p).
Proof. intros O. induction O; cbn; constructor; auto. Qed.
Theorem C110_visits : forall K S0 St (impl : @slimpl K unit) lt zk h0 l0 (ops : list (top K S0)) fuel (st st' : St) (Q : top K S0 -> Prop) m log s', kind impl lt ->
  let s := tafter impl ops zk h0 l0 in fst (set_Keys (fst s)) = Ok m ->
  (forall cb : St -> K -> tprog K S0 St, (forall st k, only Q (cb st k)) -> set_ForEach_re impl (t_noting cb) fuel (st, []) s = (Ok (st', log), s') -> t_visits_ok lt Q m log /\ t_visits_all lt Q m log) /\
  (forall cb : St -> K -> tprog K S0 (bool * St), (forall st k, only Q (cb st k)) -> set_ForEachIf_re impl (t_noting_if cb) fuel (st, []) s = (Ok (st', log), s') -> t_visits_ok lt Q m log).
Proof.
  intros K S0 St impl lt zk h0 l0 ops fuel st st' Q m log s' Hk. cbn zeta. intros Em. destruct (t_start impl lt Hk zk h0 l0 ops) as (R & F & _). rewrite (keys_eq impl lt Hk _ _ R) in Em. injection Em as <-. set (sp := snd (run (t_spec lt) _ _)) in *. set (s := tafter _ _ _ _ _) in *. clearbody sp s.
  assert (Pv := pass_value_ok (K := K) (V := unit) lt). split; intros cb HQ E.
  - unfold set_ForEach_re in E. rewrite (proj2 (t_for_each impl lt Hk _ _ _ _ _ R F)) in E.
    destruct (loop_visits impl lt Hk give_value pass_value Pv (fun st k (_ : unit) => trans (always (t_noting cb st k))) (fun x => exists o, Q o /\ In x (flat o)) (fun st k a => only_trans Q _ (t_only_pmap Q _ _ (t_only_pmap Q _ _ (HQ (fst st) k)))) (fun st k a s r s' E => proj1 (t_noting_log lt cb st k s r s' E)) false fuel st _ _ st' log s' (fun _ st k a s r s' E => proj2 (t_noting_log lt cb st k s r s' E)) R F E) as [H1 H2].
    split; [now apply visits_flat|]. apply all_flat. auto.
  - unfold set_ForEachIf_re in E. rewrite (proj2 (t_for_each impl lt Hk _ _ _ _ _ R F)) in E. apply visits_flat.
    apply (loop_visits impl lt Hk give_value pass_value Pv (fun st k (_ : unit) => trans (t_noting_if cb st k)) (fun x => exists o, Q o /\ In x (flat o)) (fun st k a => only_trans Q _ (t_only_pmap Q _ _ (HQ (fst st) k))) (fun st k a s r s' E => t_noting_if_log lt cb st k s r s' E) true fuel st _ _ st' log s' (fun H => match diff_true_false H with end) R F E).
Qed.
Print Assumptions C110_visits.
(** ForEach and ForEachIf end, with a panic only of the callback, if the callback
    inserts nothing. *)
Theorem C110_ends : forall K S0 St (impl : @slimpl K unit) lt zk h0 l0 (ops : list (top K S0)) (st : St), kind impl lt ->
  let s := tafter impl ops zk h0 l0 in let quiet := fun o : top K S0 => forall k, ~ t_inserts o k in
  exists n, forall fuel, (n <= fuel)%nat ->
  (forall cb : St -> K -> tprog K S0 St, (forall st k, only quiet (cb st k)) -> fst (set_ForEach_re impl cb fuel st s) <> NoFuel) /\
  (forall cb : St -> K -> tprog K S0 (bool * St), (forall st k, only quiet (cb st k)) -> fst (set_ForEachIf_re impl cb fuel st s) <> NoFuel).
Proof.
  intros K S0 St impl lt zk h0 l0 ops st Hk. cbn zeta. destruct (t_start impl lt Hk zk h0 l0 ops) as (R & F & E). rewrite E in *. set (Q := fun o : top K S0 => forall k, ~ t_inserts o k).
  destruct (C83_ends K unit S0 St impl lt zk tt h0 l0 (flat_map flat ops) st Hk) as (n & Hn). exists n. intros fuel Lf. destruct (Hn fuel Lf) as (_ & _ & H & _). clear Hn.
  assert (HQ : forall A (p : tprog K S0 A), only Q p -> only (fun o => forall k, ~ inserts o k) (trans p)).
  { intros A p O. apply only_trans in O. induction O as [a|o rest (t & Qt & It) _ IH]; constructor; auto. intros k Hi. apply (Qt k). eapply flat_inserts; eauto. }
  split; intros cb Hc.
  - unfold set_ForEach_re. rewrite (proj2 (t_for_each impl lt Hk _ _ _ _ _ R F)). apply (H (fun st k _ => trans (always (cb st k)))). intros st0 k v. apply HQ. now apply t_only_pmap.
  - unfold set_ForEachIf_re. rewrite (proj2 (t_for_each impl lt Hk _ _ _ _ _ R F)). apply (H (fun st k _ => trans (cb st k))). intros st0 k v. now apply HQ.
Qed.
Print Assumptions C110_ends.
(** Removing while iterating: every element is visited once, and the elements the
    callback does not remove stay. *)
Definition t_removing {K S0} (p : K -> bool) (st : list K) (k : K) : tprog K S0 (list K) :=
  if p k then Do (TCall (SRemove k)) (fun _ => Done (st ++ [k])) else Done (st ++ [k]).
Lemma each_map {K V S0 A St1 St2} (impl : @slimpl K V) pass (f : St1 -> St2) (op1 : St1 -> K -> A -> xprog K V S0 (bool * St1)) (op2 : St2 -> K -> A -> xprog K V S0 (bool * St2)) :
  (forall st k a s, exec (x_step impl) (op2 (f st) k a) s = exec (x_step impl) (pmap (fun r => (fst r, f (snd r))) (op1 st k a)) s) ->
  forall fuel p st s, each impl pass op2 fuel p (f st) s = (omap f (fst (each impl pass op1 fuel p st s)), snd (each impl pass op1 fuel p st s)).
Proof.
  intros H. induction fuel as [|fuel IH]; intros p st s; [reflexivity|]. cbn [each]. destruct (is_nil p); [reflexivity|]. unfold bind. destruct (lift (ld_key p) s) as [[k| |] s1]; auto. destruct (pass p s1) as [[a| |] s2]; auto. rewrite H.
  assert (E : forall B C (g : B -> C) (q : xprog K V S0 B) s, exec (x_step impl) (pmap g q) s = let '(r, s') := exec (x_step impl) q s in (omap g r, s')). { clear. intros B C g q. induction q as [b|o rest IH]; intros s; cbn; auto. destruct (x_step impl o s) as [[r| |] s1]; auto. }
  rewrite E. destruct (exec (x_step impl) (op1 st k a) s2) as [[[go st']| |] s3]; cbn [omap fst snd]; auto. destruct go; auto. destruct (lift (ld_next p 0) s3) as [[p'| |] s4]; auto.
Qed.
Theorem C110_remove_while_iterating : forall K S0 (impl : @slimpl K unit) lt zk h0 l0 (ops : list (top K S0)) (p : K -> bool) m fuel, kind impl lt ->
  let s := tafter impl ops zk h0 l0 in fst (set_Keys (fst s)) = Ok m -> (length m < fuel)%nat ->
  exists s', set_ForEach_re impl (t_removing (S0 := S0) p) fuel [] s = (Ok m, s') /\ fst (set_Keys (fst s')) = Ok (filter (fun x => negb (p x)) m).
Proof.
  intros K S0 impl lt zk h0 l0 ops p m fuel Hk. cbn zeta. intros Em Lf. destruct (t_start impl lt Hk zk h0 l0 ops) as (R & F & E). rewrite (keys_eq impl lt Hk _ _ R) in Em. injection Em as <-. unfold set_ForEach_re. rewrite (proj2 (t_for_each impl lt Hk _ _ _ _ _ R F)).
  set (sp := snd (run (t_spec lt) _ _)) in *. clear E. set (s := tafter _ _ _ _ _) in *. clearbody sp s. destruct sp as [e vars], s as [c cvars]. cbn [fst] in *.
  destruct (from_head impl lt pass_value (fun st k (_ : unit) => trans (always (t_removing (S0 := S0) p st k))) fuel [] e vars c cvars R) as (q & R1 & E). rewrite E.
  unfold elems in Lf. rewrite map_length in Lf. destruct (removing_loop (S0 := S0) impl lt (fun x => p (fst x)) Hk fuel (e_live e) [] e vars c q cvars [] R1 F eq_refl Lf) as (e' & vars' & s' & El & R2 & Ee).
  exists s'. rewrite (keys_eq impl lt Hk _ _ R2). cbn [fst]. split.
  - change (@nil K) with (map fst (@nil (K * unit))). rewrite (each_map impl pass_value (map fst) (fun st k v => always (removing (S0 := S0) (fun x => p (fst x)) st k v))).
    + match goal with |- (omap _ (fst ?t), _) = _ => assert (El' : t = (Ok (map snd (e_live e)), s')) by exact El; rewrite El' end. cbn [fst snd omap]. now rewrite elems_fst.
    + intros st k [] s. unfold t_removing, removing. cbn [fst]. destruct (p k); cbn; rewrite map_app; [|reflexivity]. destruct (show _ _ _) as [[?| |] ?]; reflexivity.
  - rewrite !elems_fst, Ee. cbn [app]. f_equal. clear. induction (e_live e) as [|x l IH]; cbn; auto. destruct (p (fst (snd x))); cbn; now rewrite IH.
Qed.
Print Assumptions C110_remove_while_iterating.

(** At every element the callback removes 2 and 9, inserts 0 and 4, and looks. *)
Definition cb110 (st : list Z) (k : Z) : tprog Z unit (list Z) :=
  Do (TCall (SRemoveN [2; 9])) (fun r => Do (TCall (SInsertN [(0, 7); (4, 7)])) (fun _ => Done (st ++ [match r with TSet (SInt n) => n | _ => 0 end]))).
Definition Q110 (o : top Z unit) : Prop := o = TCall (SRemoveN [2; 9]) \/ o = TCall (SInsertN [(0, 7); (4, 7)]).
Example C110_hyp : kind timpl Z.ltb /\
  fst (run (t_step timpl) [tin 1; tin 2; tin 3; TLower 2; TRange 1 2; tdel 2; tin 2; TValue 0; TMoveToNext 0; TValue 0; TIsNotEnd 1; TMoveToNext 0; TIsNotEnd 0; TMoveToNext 0; TCall SKeys] (new_set 0 [] (mkSL 0 0 None []), [])) =
    [Ok (TSet (SBool true)); Ok (TSet (SBool true)); Ok (TSet (SBool true)); Ok TDone; Ok TDone; Ok (TSet (SBool true)); Ok (TSet (SBool true)); Ok (TValueIs 2); Ok TDone; Ok (TValueIs 3); Ok (TBool true); Ok TDone; Ok (TBool false); Panic; Ok (TSet (SSeq [1; 2; 3]))] /\
  (let s := tafter timpl [tin 1; tin 2; tin 3; tin 5; TLower 2; tdel 2] 0 [] (mkSL 0 0 None []) in
   nth_error (snd s) 0 = Some (Some 2%nat, None) /\ fst (si_walk (ret (Some 2%nat, None)) (fst s)) = Ok [2; 3; 5]) /\
  (let s := tafter timpl [tin 1; tin 2; tin 3; tin 5] 0 [] (mkSL 0 0 None []) in
   fst (set_Keys (fst s)) = Ok [1; 2; 3; 5] /\ (forall st k, only Q110 (cb110 st k)) /\ (forall o, Q110 o -> ~ t_removes Z.ltb o 5) /\
   fst (set_ForEach_re timpl (t_noting cb110) 10 ([], []) s) = Ok ([1; 0; 0; 0], [1; 3; 4; 5]) /\
   fst (set_ForEach_re timpl (t_removing (S0 := unit) Z.odd) 5 [] s) = Ok [1; 2; 3; 5] /\
   fst (set_Keys (fst (snd (set_ForEach_re timpl (t_removing (S0 := unit) Z.odd) 5 [] s)))) = Ok [2]) /\
  (let st1 := tafter timpl [tin 1; tin 3; tin 5; tin 7] 0 [] (mkSL 0 0 None []) in let st2 := snd (run (t_step timpl) [TRange 2 5; tin 4; tin 6; tdel 1] st1) in
   fst (set_Keys (fst st1)) = Ok [1; 3; 5; 7] /\ fst (si_walk (ret (Some 2%nat, Some 4%nat)) (fst st2)) = Ok [3; 4; 5; 6]).
Proof.
  split; [exact timpl_kind|]. split; [vm_compute; reflexivity|]. split; [split; vm_compute; reflexivity|]. split; [|split; vm_compute; reflexivity]. split; [vm_compute; reflexivity|]. split.
  { intros st k. unfold cb110, Q110. constructor; [auto|]. intros r. constructor; [auto|]. intros r'. constructor. }
  split. { intros o [-> | ->] [(k & E & _)|[(ks & k & E & I & H)|E]]; try discriminate. injection E as <-. destruct I as [<-|[<-|[]]]; discriminate. }
  split; [|split]; vm_compute; reflexivity.
Qed.
