(** Properties of SkipList iterators and value pointers that are kept while the
    list changes (skiplist.go): C78-C80.  Spec_SkipIter.v has the client
    statements and the map with element identities they are compared with. *)
From Coq Require Import Sorted.
From Verif Require Import BaseLemmas Spec Trace Spec_List Spec_Map Nodes Proof_Nodes Model_SkipList Proof_SkipList Proof_Map Proof_SkipListAny Spec_SkipIter Model_SkipIter Proof_SkipIter Proof_SkipStale Props_SkipList.
Set Default Proof Using "Type".
Local Arguments zlen : simpl never. Local Arguments pload : simpl never.

(** The state of a client after the statements ops, from a new list and no
    variables. *)
Definition xafter {K V St} (impl : @slimpl K V) (ops : list (xop K V St)) zk zv h0 l0 := snd (run (x_step impl) ops (fresh zk zv h0 l0, [])).

Section Use.
Context {K V St : Type}.
Variables (impl : @slimpl K V) (lt : K -> K -> bool).
Hypothesis Hk : kind impl lt.
Lemma fresh_XRel (zk : K) (zv : V) h0 l0 : XRel lt (e_empty, []) (fresh zk zv h0 l0, []).
Proof.
  destruct (fresh_Rel lt zk zv h0 l0) as (hd & ps & Ek & R & _). destruct ps; [|discriminate]. exists (fun i => i), (nth_error h0), hd, []. split; [|split; [reflexivity|constructor]].
  constructor; cbn; auto; try constructor; try lia; try contradiction.
Qed.
Lemma xrun (ops : list (xop K V St)) st cst : XRel lt st cst -> fst (run (x_step impl) ops cst) = fst (run (x_spec lt) ops st) /\ XRel lt (snd (run (x_spec lt) ops st)) (snd (run (x_step impl) ops cst)).
Proof using Hk. destruct (kind_spec _ _ Hk) as (eqk & gtk & SP & SW & Eq & Gt). apply (x_run_ok eqk gtk impl SP lt SW Eq Gt). Qed.
Lemma xstep (o : xop K V St) st cst : XRel lt st cst -> fst (x_step impl o cst) = fst (x_spec lt o st) /\ XRel lt (snd (x_spec lt o st)) (snd (x_step impl o cst)).
Proof using Hk. destruct (kind_spec _ _ Hk) as (eqk & gtk & SP & SW & Eq & Gt). apply (x_step_ok eqk gtk impl SP lt SW Eq Gt). Qed.
Lemma XRel_wf st cst : XRel (V := V) lt st cst -> wf lt (fst st).
Proof. intros (f & fr & hd & ps & X & _). eapply XR_wf; eauto. Qed.
(** A property of states kept by every statement of the run. *)
Lemma run_inv (P : estate K V -> Prop) (ops : list (xop K V St)) : forall st cst, XRel lt st cst -> forward lt (fst st) -> P (fst st) ->
  (forall o e e', In o ops -> wf lt e -> P e -> grows lt o e e' -> P e') -> forward lt (fst (snd (run (x_spec lt) ops st))) /\ P (fst (snd (run (x_spec lt) ops st))).
Proof using Hk.
  induction ops as [|o ops IH]; intros st cst R F HP Hs; cbn; auto. destruct (xstep o st cst R) as [_ R1]. destruct (spec_forward lt (kind_sw _ _ Hk) o st (XRel_wf _ _ R) F) as [G F1].
  destruct (x_spec lt o st) as [r st1]. cbn [fst snd] in *. specialize (IH st1 _ R1 F1 (Hs o _ _ (or_introl eq_refl) (XRel_wf _ _ R) HP G) (fun o' e e' I => Hs o' e e' (or_intror I))).
  destruct (run (x_spec lt) ops st1) as [rs st2]. exact IH.
Qed.
Lemma XRel_iter st cst : XRel (V := V) lt st cst -> fst (walk Iterate (fst cst)) = Ok (map snd (e_live (fst st))).
Proof.
  destruct cst as [[h l] cv]. intros (f & fr & hd & ps & X & _). cbn [fst snd] in *. pose proof (x_rep _ _ _ _ _ _ _ X) as R. rewrite (walk_all fr hd [] ps h l); auto; [cbn; f_equal; eapply x_kvs, X|]. apply (iterate_ok fr hd ps h l R).
Qed.
End Use.
Lemma empty_forward {K V} (lt : K -> K -> bool) : forward lt (e_empty (V := V)).
Proof. intros g j []. Qed.


Lemma combine_fst_snd {A B} (l : list (A * B)) : combine (map fst l) (map snd l) = l.
Proof. induction l as [|[a b] l IH]; cbn; auto. now rewrite IH. Qed.

Lemma find_app_none {A} (P : A -> bool) l r : (forall x, In x l -> P x = false) -> find P (l ++ r) = find P r.
Proof. induction l as [|x l IH]; intros H; cbn; auto. rewrite (H x (or_introl eq_refl)). apply IH. intros y I. apply H. now right. Qed.

(** *** C78: iterators and pointers kept over any calls *)
Theorem C78_kept_iterators : forall K V St (impl : @slimpl K V) lt zk zv h0 l0 (ops : list (xop K V St)), kind impl lt ->
  fst (run (x_step impl) ops (fresh zk zv h0 l0, [])) = fst (run (x_spec lt) ops (e_empty, [])).
Proof. intros K V St impl lt zk zv h0 l0 ops Hk. apply (xrun impl lt Hk). apply fresh_XRel. Qed.
Print Assumptions C78_kept_iterators.
(** A pointer to the value of a removed key is detached: writing through it
    changes nothing in the list, also not after the key is inserted again. *)
Theorem C78_detached : forall K V St (impl : @slimpl K V) lt zk zv h0 l0 (ops : list (xop K V St)) k v w r, kind impl lt ->
  let st := xafter impl ops zk zv h0 l0 in let x := length (snd st) in fst (Has impl k (fst st)) = Ok true ->
  fst (run (x_step (St := St) impl) [XFind k; XCall (MRemove k); XStore x w; XCall (MHas k); XCall (MInsert k v r); XStore x w; XCall (MFind k); XValue x] st) =
    [Ok XDone; Ok (XMap (MBool true)); Ok XDone; Ok (XMap (MBool false)); Ok (XMap MNone); Ok XDone; Ok (XMap (MOpt (Some v))); Ok (XValueIs w)].
Proof.
  intros K V St impl lt zk zv h0 l0 ops k v w r Hk. cbn zeta. intros Hh. pose proof (kind_sw _ _ Hk) as SW. destruct (xrun impl lt Hk ops _ _ (fresh_XRel lt zk zv h0 l0)) as [_ R]. change (snd (run (x_step impl) ops (fresh zk zv h0 l0, []))) with (xafter impl ops zk zv h0 l0) in R.
  set (st := xafter _ _ _ _ _ _) in *. destruct (snd (run (x_spec lt) ops (e_empty, []))) as [e vars]. rewrite (proj1 (xrun impl lt Hk _ _ _ R)).
  pose proof (proj1 (xstep impl lt Hk (XCall (MHas k) : xop K V St) _ _ R)) as Eh. cbn [x_step x_spec fst map_step] in Eh. unfold show in Eh. destruct (Has impl k (fst st)) as [o s']. cbn [fst] in Hh. subst o. cbn in Eh. injection Eh as Eh. symmetry in Eh.
  destruct (XRel_wf _ _ _ R) as [S ND]. destruct R as (f & fr & hd & ps & X & Ev & _). cbn [fst snd] in *. assert (Lx : length (snd st) = length vars) by (now rewrite Ev, map_length). rewrite Lx. pose proof (x_ids _ _ _ _ _ _ _ X) as Id. clear X Ev Lx ps hd fr f. clearbody st. clear st.
  unfold has in Eh. apply existsb_exists in Eh as (p & Ip & Hp). apply in_map_iff in Ip as ([i p'] & <- & Ip). cbn [snd] in Hp. apply in_split in Ip as (L & Rr & El).
  assert (Sep : Forall (fun y : nat * (K * V) => eqv lt (fst (snd y)) k = false) L /\ Forall (fun y : nat * (K * V) => eqv lt (fst (snd y)) k = false) Rr).
  { rewrite El, map_app in S. apply SS_app_inv in S as (_ & S & FA). cbn in S. inversion S as [|? ? _ FR]; subst. apply andb_true_iff in Hp as [H1 H2]. apply negb_true_iff in H1, H2. rewrite Forall_map in FA, FR. split.
    - eapply Forall_imp; [|exact FA]. intros y Hy. inversion Hy as [|? ? Hy1 _]; subst. cbn in Hy1. unfold eqv. destruct (lt (fst (snd y)) k) eqn:Ek; auto. pose proof (sw_negtrans lt SW _ _ _ Ek H2). congruence.
    - eapply Forall_imp; [|exact FR]. intros y Hy. cbn in Hy. unfold eqv. destruct (lt k (fst (snd y))) eqn:Ek; [apply andb_false_r|]. pose proof (sw_negtrans lt SW _ _ _ H1 Ek). congruence. }
  destruct Sep as [FL FR]. unfold all in ND. rewrite El, map_app, map_app, <- app_assoc in ND. cbn [map fst] in ND. pose proof (NoDup_remove_2 _ _ _ ND) as NI. rewrite !in_app_iff in NI.
  assert (Ef : first_id (filter (fun y => eqv lt (fst (snd y)) k) (e_live e)) = Some i) by (rewrite El; apply (first_filter (fun q => eqv lt (fst q) k)); auto).
  assert (Hn : has lt k (map snd (L ++ Rr)) = false). { unfold has. destruct (existsb _ _) eqn:E; auto. apply existsb_exists in E as (q & Iq & Hq). apply in_map_iff in Iq as (y & <- & Iy). apply in_app_iff in Iy. rewrite Forall_forall in FL, FR. destruct Iy as [Iy|Iy]; [rewrite (FL y Iy) in Hq|rewrite (FR y Iy) in Hq]; discriminate. }
  assert (Rt : calls lt (MRemove k : mop K V St) e = mkE (L ++ Rr) (((i, p'), first_id Rr) :: e_gone e) (e_made e)). { unfold calls, retire. rewrite El. destruct (leaving_mid (fun q => eqv lt (fst q) k) L (i, p') Rr FL Hp FR) as [-> ->]. reflexivity. }
  assert (Hx : nth_error (vars ++ [(Some i, None)]) (length vars) = Some (Some i, None)) by (rewrite nth_error_app2, Nat.sub_diag; auto).
  assert (WL : map (write i w) (L ++ Rr) = L ++ Rr). { apply write_other. rewrite map_app, in_app_iff. tauto. }
  assert (WG : forall g, In g (e_gone e) -> fst (fst g) <> i). { intros g Ig E. apply NI. right. right. rewrite <- E. now apply in_map, in_map. }
  assert (WG' : map (fun g => (write i w (fst g), snd g)) (e_gone e) = e_gone e). { rewrite <- (map_id (e_gone e)) at 2. apply map_ext_in. intros g Ig. unfold write. destruct (Nat.eqb_spec (fst (fst g)) i) as [E|]; [now apply WG in E|]. now destruct g. }
  assert (Step : forall (o : xop K V St) os s0 q s1 qs, x_spec lt o s0 = (q, s1) -> fst (run (x_spec lt) os s1) = qs -> fst (run (x_spec lt) (o :: os) s0) = q :: qs).
  { intros o os s0 q s1 qs E1 E2. cbn [run]. rewrite E1. destruct (run (x_spec lt) os s1). cbn in *. now rewrite E2. }
  set (g1 := fun y => ((i, (fst p', y)), first_id Rr) :: e_gone e). assert (G1 : forall y, map (fun g => (write i w (fst g), snd g)) (g1 y) = g1 w).
  { intros y. unfold g1. cbn [map]. rewrite WG'. f_equal. unfold write. cbn [fst snd]. now rewrite Nat.eqb_refl. }
  set (l2 := filter (fun y => lt (fst (snd y)) k) (L ++ Rr) ++ (e_made e, (k, v)) :: filter (fun y => lt k (fst (snd y))) (L ++ Rr)).
  eapply Step; [reflexivity|]. cbn [fst snd]. rewrite Ef.
  eapply Step; [cbn [x_spec]; rewrite Rt; cbn [map_spec fst omap]; unfold has; rewrite (proj2 (existsb_exists _ _)); [reflexivity|exists p'; split; auto; rewrite El, map_app; apply in_app_iff; right; now left]|].
  eapply Step; [cbn [x_spec]; unfold xvar in *; rewrite Hx; cbn [at_element fst]; unfold store; cbn [e_live e_gone e_made]; rewrite WL; replace p' with (fst p', snd p') at 1 by (now destruct p'); change (((i, (fst p', snd p')), first_id Rr) :: e_gone e) with (g1 (snd p')); rewrite G1; reflexivity|].
  eapply Step; [cbn [x_spec map_spec fst omap e_live]; rewrite Hn; cbn [calls map_spec snd]; unfold repair; cbn [e_live e_gone e_made]; rewrite combine_fst_snd; reflexivity|].
  eapply Step; [cbn [x_spec map_spec fst omap e_live calls]; rewrite Hn; reflexivity|]. cbn [e_live e_gone e_made]. fold l2.
  assert (Li : (i < e_made e)%nat) by (apply Id; unfold ids; rewrite El, map_app, !in_app_iff; left; right; now left).
  assert (N2 : ~ In i (map fst l2)).
  { unfold l2. rewrite map_app, in_app_iff. cbn [map fst In]. intros I. assert (Fi : forall P, In i (map fst (filter P (L ++ Rr))) -> False). { intros P J. apply in_map_iff in J as (y & Ey & J). apply filter_In in J as [J _]. apply NI. apply (in_map fst) in J. rewrite Ey, map_app, in_app_iff in J. tauto. }
    destruct I as [I|[I|I]]; eauto. lia. }
  assert (W2 : map (write i w) l2 = l2) by (now apply write_other).
  eapply Step; [cbn [x_spec]; unfold xvar in *; rewrite Hx; cbn [at_element fst]; unfold store; cbn [e_live e_gone e_made]; rewrite W2, G1; reflexivity|].
  assert (F2 : lookup lt k (map snd l2) = Some v).
  { unfold l2, lookup. rewrite map_app. rewrite find_app_none; [cbn; unfold eqv; now rewrite (sw_irrefl lt SW)|]. intros q Iq. apply in_map_iff in Iq as (y & <- & Iy). apply filter_In in Iy as [_ Hy]. unfold eqv. now rewrite Hy. }
  eapply Step; [cbn [x_spec map_spec fst omap e_live]; rewrite F2; cbn [calls map_spec snd]; unfold repair; cbn [e_live e_gone e_made]; rewrite combine_fst_snd; reflexivity|].
  eapply Step; [cbn [x_spec]; unfold xvar in *; rewrite Hx; cbn [at_element fst]|reflexivity]. unfold pair_of, find_id. cbn [e_live e_gone]. rewrite find_app_none.
  - unfold g1. cbn [map fst find]. rewrite Nat.eqb_refl. reflexivity.
  - intros y Iy. apply Nat.eqb_neq. intros E. apply N2. rewrite <- E. now apply in_map.
Qed.
Print Assumptions C78_detached.
(** Iterators and pointers that meet changes: the iterator on 2 outlives the
    removal of 2; the pointer keeps the value of the removed element. *)
Notation zimpl := (implOrdered (V := Z) Z.ltb Z.eqb).
Notation zfresh := (fresh 0 0 [] (mkSL 0 0 None [])).
Definition ins (k : Z) : xop Z Z unit := XCall (MInsert k (10 * k) 7).
Definition del (k : Z) : xop Z Z unit := XCall (MRemove k).
Example C78_hyp : kind (V := Z) zimpl Z.ltb /\
  fst (run (x_step (St := unit) zimpl) [ins 1; ins 2; ins 3; XLower 2; XPointer 0; del 2; ins 2; XKey 0; XStore 1 5; XValue 0; XCall (MFind 2); XMoveToNext 0; XKey 0; XMoveToNext 0; XIsNotEnd 0; XMoveToNext 0] (zfresh, [])) =
  [Ok (XMap MNone); Ok (XMap MNone); Ok (XMap MNone); Ok XDone; Ok XDone; Ok (XMap (MBool true)); Ok (XMap MNone); Ok (XKeyIs 2); Ok XDone; Ok (XValueIs 5); Ok (XMap (MOpt (Some 20)));
   Ok XDone; Ok (XKeyIs 3); Ok XDone; Ok (XBool false); Panic] /\
  fst (Has zimpl 2 (fst (xafter (St := unit) zimpl [ins 1; ins 2; XIterate] 0 0 [] (mkSL 0 0 None [])))) = Ok true.
Proof. split; [left; exists Z.eqb; split; [reflexivity|exact Z_ordered]|]. split; vm_compute; reflexivity. Qed.

(** *** C79: an iterator visits the stored elements *)
(** Expected: walking on, an iterator visits stored keys only. *)
Definition C79_expected : Prop := forall K V St (impl : @slimpl K V) lt zk zv h0 l0 (ops : list (xop K V St)) x it, kind impl lt ->
  let st := xafter impl ops zk zv h0 l0 in nth_error (snd st) x = Some it -> IsNotEnd it = true ->
  exists it' k, fst (MoveToNext it (fst st)) = Ok it' /\ (IsNotEnd it' = true -> fst (Key it' (fst st)) = Ok k /\ fst (Has impl k (fst st)) = Ok true).
(** False: remove the element an iterator stands on, then the one behind it. *)
Theorem C79_refuted : ~ C79_expected.
Proof.
  intros H. destruct (H Z Z unit zimpl Z.ltb 0 0 [] (mkSL 0 0 None []) [ins 1; ins 2; ins 3; XIterate; del 1; del 2] 0%nat (Some 1%nat, None) (proj1 C78_hyp)) as (it' & k & E & F); [vm_compute; reflexivity|reflexivity|].
  vm_compute in E. injection E as <-. destruct (F eq_refl) as [E1 E2]. vm_compute in E1. injection E1 as <-. vm_compute in E2. discriminate.
Qed.
Print Assumptions C79_refuted.
(** What holds: the walk ends without a panic; it is strictly ascending; first
    come elements that were removed, then the stored ones behind them to the
    last; every key was inserted before. *)
Theorem C79_stale_iterators : forall K V St (impl : @slimpl K V) lt zk zv h0 l0 (ops : list (xop K V St)) x p, kind impl lt ->
  let st := xafter impl ops zk zv h0 l0 in nth_error (snd st) x = Some (p, None) ->
  exists m D L, fst (walk Iterate (fst st)) = Ok m /\ walk (ret (p, None)) (fst st) = (Ok (D ++ L), fst st) /\
    (exists P, m = P ++ L) /\ strictly_sorted_by lt (map fst (D ++ L)) /\
    (forall k, In k (map fst (D ++ L)) -> exists o, In o ops /\ inserts o k) /\
    (forall k, In k (map fst D) -> exists o, In o ops /\ removes lt o k).
Proof.
  intros K V St impl lt zk zv h0 l0 ops x p Hk. cbn zeta. intros Hx. pose proof (kind_sw _ _ Hk) as SW.
  destruct (xrun impl lt Hk ops _ _ (fresh_XRel lt zk zv h0 l0)) as [_ R]. fold (xafter impl ops zk zv h0 l0) in R.
  destruct (run_inv impl lt Hk (fun e => (forall j k, In (j, k) (keyed e) -> exists o, In o ops /\ inserts o k) /\ (forall j k, In (j, k) (map (fun y => (fst y, key y)) (map fst (e_gone e))) -> exists o, In o ops /\ removes lt o k)) ops _ _ (fresh_XRel lt zk zv h0 l0) (empty_forward lt)) as [F [Hi Hr]].
  { split; intros j k []. }
  { intros o e e' Io _ [P1 P2] G. split; intros j k I.
    - destruct (g_new _ _ _ _ G j k I) as [I'|I']; eauto.
    - destruct (g_gone _ _ _ _ G j k I) as [I'|I']; eauto. }
  set (st := xafter _ _ _ _ _ _) in *. set (sp := snd (run (x_spec lt) ops (e_empty, []))) in *. pose proof (XRel_iter lt _ _ R) as Em. destruct sp as [e vars], st as [[h l] cvars]. destruct R as (f & fr & hd & ps & X & Ev & Fv). cbn [fst snd] in *.
  exists (map snd (e_live e)). rewrite Ev, nth_error_map in Hx. destruct (nth_error vars x) as [[q q']|] eqn:Eq; [|discriminate]. cbn in Hx. injection Hx as <- Eq'. destruct q' as [|]; [discriminate|].
  destruct q as [i|]; cbn [option_map].
  - rewrite Forall_forall in Fv. destruct (Fv _ (nth_error_In _ _ Eq)) as [Oi _]. specialize (Oi i eq_refl). apply (x_ids _ _ _ _ _ _ _ X) in Oi. rewrite ids_all in Oi. apply in_map_iff in Oi as ([i' [k v]] & Ei & Ii). cbn in Ei. subst i'.
    assert (Lc : (S (cnt lt e k) < S (length h))%nat). { pose proof (made_heap lt _ _ _ _ _ _ _ X) as Lh. enough (cnt lt e k < length (all e))%nat by lia. unfold cnt. rewrite <- (filter_all (fun _ => true) (all e)) at 2 by (apply Forall_forall; auto). apply (filter_lt _ _ _ (i, (k, v))); auto. apply (sw_irrefl lt SW). }
    destruct (walk_stale lt SW f fr hd ps e h l X F (cnt lt e k) i k v (S (length h)) [] Ii eq_refl Lc) as (D & L & W & ID & (P & EP) & S & _ & _).
    exists (map snd D), (map snd L). split; auto. split; [unfold walk; rewrite bind_fuel; cbn [bind ret]; unfold bind, ret; etransitivity; [exact W|]; now rewrite map_app|]. split; [exists (map snd P); now rewrite EP, map_app|].
    rewrite <- map_app. split; [now apply ksorted_nth|]. split.
    + intros k' I. rewrite map_map in I. apply in_map_iff in I as ([j [k2 v2]] & <- & I). cbn. apply (Hi j). apply in_keyed. exists v2. unfold all. apply in_app_iff in I as [I|I]; apply in_app_iff; [right; now apply ID|left; rewrite EP; apply in_app_iff; now right].
    + intros k' I. rewrite map_map in I. apply in_map_iff in I as ([j [k2 v2]] & <- & I). cbn. apply (Hr j). apply ID in I. apply in_map_iff. exists (j, (k2, v2)). auto.
  - exists [], []. split; auto. split; [reflexivity|]. split; [exists (map snd (e_live e)); now rewrite app_nil_r|]. split; [apply (ksorted_nth lt []); constructor|]. split; intros k [].
Qed.
Print Assumptions C79_stale_iterators.
(** Three removed elements and one stored one; the stored 2 is not visited. *)
Example C79_hyp : let st := xafter (St := unit) zimpl [ins 1; ins 3; ins 5; ins 7; XIterate; del 1; ins 2; del 3; del 5] 0 0 [] (mkSL 0 0 None []) in
  nth_error (snd st) 0 = Some (Some 1%nat, None) /\ fst (walk (ret (Some 1%nat, None)) (fst st)) = Ok [(1, 10); (3, 30); (5, 50); (7, 70)] /\ fst (walk Iterate (fst st)) = Ok [(2, 20); (7, 70)].
Proof. cbn zeta. repeat split; vm_compute; reflexivity. Qed.

(** *** C80: an iterator of FindRange stays within its range *)
(** Expected (README.md:136): whatever happens to the list, the walk yields only
    keys between first and last. *)
Definition C80_expected : Prop := forall K V St (impl : @slimpl K V) lt zk zv h0 l0 (ops1 ops2 : list (xop K V St)) a b it, kind impl lt -> lt b a = false ->
  let st1 := xafter impl ops1 zk zv h0 l0 in let st2 := snd (run (x_step impl) (XRange a b :: ops2) st1) in
  nth_error (snd st2) (length (snd st1)) = Some it ->
  exists l, fst (walk (ret it) (fst st2)) = Ok l /\ forall k, In k (map fst l) -> lt k a = false /\ lt b k = false.
(** False: a key inserted behind the range is visited ... *)
Theorem C80_refuted : ~ C80_expected.
Proof.
  intros H. destruct (H Z Z unit zimpl Z.ltb 0 0 [] (mkSL 0 0 None []) [ins 1; ins 3] [ins 4] 1 3 (Some 1%nat, None) (proj1 C78_hyp) eq_refl) as (l & E & F); [vm_compute; reflexivity|].
  vm_compute in E. injection E as <-. destruct (F 4 ltac:(cbn; auto)) as [_ E]. discriminate.
Qed.
Print Assumptions C80_refuted.
(** ... and when the first key behind the range is removed, the walk runs past
    its end and panics at the end of the list. *)
Theorem C80_refuted_panic : exists (ops1 ops2 : list (xop Z Z unit)) a b it, (b <? a) = false /\
  let st1 := xafter zimpl ops1 0 0 [] (mkSL 0 0 None []) in let st2 := snd (run (x_step zimpl) (XRange a b :: ops2) st1) in
  nth_error (snd st2) (length (snd st1)) = Some it /\ fst (walk (ret it) (fst st2)) = Panic.
Proof. exists [ins 1; ins 3; ins 5; ins 7], [del 5], 1, 3, (Some 1%nat, Some 3%nat). split; [reflexivity|]. cbn zeta. split; vm_compute; reflexivity. Qed.
Print Assumptions C80_refuted_panic.

Lemma filter_entries {K V} (lt : K -> K -> bool) P (l : list (nat * (K * V))) : ksorted lt (map snd l) -> ksorted lt (map snd (filter P l)).
Proof.
  induction l as [|y l IH]; cbn; intros S; [exact S|]. inversion S as [|? ? S2 FF]; subst. destruct (P y); cbn; [|auto]. constructor; [now apply IH|]. rewrite Forall_map in *. rewrite Forall_forall in *. intros z I. apply filter_In in I as [I _]. auto.
Qed.
Section Vars.
Context {K V St : Type}.
Variable lt : K -> K -> bool.
Lemma upd_other {A} x y (z : A) l : x <> y -> nth_error (upd y z l) x = nth_error l x.
Proof. revert x y. induction l as [|w l IH]; intros [|x] [|y] N; cbn; auto; try congruence. Qed.
Lemma step_var (o : xop K V St) st x it : o <> XMoveToNext x -> nth_error (snd st) x = Some it -> nth_error (snd (snd (x_spec lt o st))) x = Some it.
Proof.
  destruct st as [e vars]. cbn [snd]. intros N E. assert (Ap : forall y, nth_error (vars ++ [y]) x = Some it) by (intros y; rewrite nth_error_app1; auto; apply nth_error_Some; congruence).
  destruct o; cbn [x_spec snd declare]; auto; destruct (nth_error vars x0) as [[[i|] en]|]; cbn [fst snd at_element declare]; auto.
  - destruct (next_of i e); auto. cbn [snd]. rewrite upd_other; [auto|congruence].
  - destruct (pair_of i e); auto.
  - destruct (pair_of i e); auto.
Qed.
Lemma run_var (ops : list (xop K V St)) x it : forall st, (forall o, In o ops -> o <> XMoveToNext x) -> nth_error (snd st) x = Some it -> nth_error (snd (snd (run (x_spec lt) ops st))) x = Some it.
Proof.
  induction ops as [|o ops IH]; intros st N E; cbn; auto. pose proof (step_var o st x it (N o (or_introl eq_refl)) E) as E1. destruct (x_spec lt o st) as [r st1]. specialize (IH st1 (fun o' I => N o' (or_intror I)) E1). destruct (run _ ops st1). exact IH.
Qed.
End Vars.
(** What holds: let lo be the first key not less than first and hi the first one
    greater than last.  As long as neither of them is removed, the iterator
    visits exactly the keys then stored that are not less than lo and less than
    hi. *)
Definition within {K} (lt : K -> K -> bool) (lo hi : option K) (k : K) : bool :=
  match lo with Some a => negb (lt k a) | None => false end && match hi with Some b => lt k b | None => true end.
Theorem C80_range_kept : forall K V St (impl : @slimpl K V) lt zk zv h0 l0 (ops1 ops2 : list (xop K V St)) a b m, kind impl lt -> lt b a = false ->
  let st1 := xafter impl ops1 zk zv h0 l0 in let x := length (snd st1) in let st2 := snd (run (x_step impl) (XRange a b :: ops2) st1) in
  fst (walk Iterate (fst st1)) = Ok m ->
  let lo := hd_error (filter (fun k => negb (lt k a)) (map fst m)) in let hi := hd_error (filter (fun k => lt b k) (map fst m)) in
  (forall o, In o ops2 -> o <> XMoveToNext x) -> (forall o k, In o ops2 -> lo = Some k \/ hi = Some k -> ~ removes lt o k) ->
  exists it m2, nth_error (snd st2) x = Some it /\ fst (walk Iterate (fst st2)) = Ok m2 /\ fst (walk (ret it) (fst st2)) = Ok (filter (fun p => within lt lo hi (fst p)) m2) /\
    ((forall o k, In o ops2 -> inserts o k -> lt b k = true -> exists h, hi = Some h /\ lt k h = false) ->
     forall k, In k (map fst (filter (fun p => within lt lo hi (fst p)) m2)) -> lt k a = false /\ lt b k = false).
Proof.
  intros K V St impl lt zk zv h0 l0 ops1 ops2 a b m Hk Hab. cbn zeta. intros Em Nm Nr. pose proof (kind_sw _ _ Hk) as SW.
  destruct (xrun impl lt Hk ops1 _ _ (fresh_XRel lt zk zv h0 l0)) as [_ R1]. fold (xafter impl ops1 zk zv h0 l0) in R1.
  destruct (run_inv impl lt Hk (fun _ => True) ops1 _ _ (fresh_XRel lt zk zv h0 l0) (empty_forward lt) I (fun _ _ _ _ _ _ _ => I)) as [F1 _].
  rewrite (XRel_iter lt _ _ R1) in Em. injection Em as <-. destruct (xrun impl lt Hk (XRange a b :: ops2) _ _ R1) as [_ R2].
  set (st1 := xafter _ _ _ _ _ _) in *. set (st2 := snd (run _ (_ :: ops2) st1)) in *. set (sp1 := snd (run (x_spec lt) ops1 (e_empty, []))) in *. set (sp2 := snd (run _ (_ :: ops2) sp1)) in *.
  assert (Lv : length (snd st1) = length (snd sp1)) by (destruct R1 as (? & ? & ? & ? & _ & -> & _); apply map_length). rewrite Lv in *. clear Lv.
  pose proof (XRel_wf _ _ _ R1) as [S1 ND1]. destruct sp1 as [e1 vars1] eqn:E1. cbn [fst snd] in *.
  set (Fa := filter (fun y => negb (lt (fst (snd y)) a)) (e_live e1)). set (Fb := filter (fun y => lt b (fst (snd y))) (e_live e1)).
  assert (Efm : forall P l, filter P (map fst (map (snd (A := nat) (B := K * V)) l)) = map key (filter (fun y => P (key y)) l)). { intros P l. induction l as [|y l IH]; cbn; auto. unfold key at 2. destruct (P (fst (snd y))); cbn; now rewrite IH. }
  rewrite !Efm in *. change (filter (fun y => negb (lt (key y) a)) (e_live e1)) with Fa in *. change (filter (fun y => lt b (key y)) (e_live e1)) with Fb in *.
  (* the declared variable *)
  assert (Esp : sp2 = snd (run (x_spec lt) ops2 (e1, vars1 ++ [(first_id Fa, first_id Fb)]))). { unfold sp2. cbn [run x_spec declare fst snd]. now destruct (run (x_spec lt) ops2 _). }
  assert (Ex : nth_error (snd sp2) (length vars1) = Some (first_id Fa, first_id Fb)). { rewrite Esp. apply run_var; auto. cbn [snd]. rewrite nth_error_app2, Nat.sub_diag; auto. }
  assert (R1' : XRel lt (e1, vars1 ++ [(first_id Fa, first_id Fb)]) (snd (x_step (St := St) impl (XRange a b) st1))) by (destruct (xstep impl lt Hk (XRange a b : xop K V St) _ _ R1) as [_ H]; exact H).
  pose proof (XRel_iter lt _ _ R2) as Em2. destruct st2 as [[h l] cvars]. destruct R2 as (f & fr & hd & ps & X & Ev & _). cbn [fst snd] in *.
  exists (tr f (first_id Fa, first_id Fb)), (map snd (e_live (fst sp2))). split; [rewrite Ev, nth_error_map, Ex; reflexivity|]. split; auto.
  assert (Ia : forall y, In y Fa -> In y (e_live e1) /\ lt (key y) a = false) by (intros y I; apply filter_In in I as [I H]; apply negb_true_iff in H; auto).
  assert (Ib : forall y, In y Fb -> In y (e_live e1) /\ lt b (key y) = true) by (intros y I; apply filter_In in I; auto).
  assert (Iba : forall y, In y Fb -> In y Fa). { intros y I. apply Ib in I as [I H]. apply filter_In. split; auto. apply negb_true_iff. destruct (lt (fst (snd y)) a) eqn:E; auto. pose proof (sw_trans lt SW _ _ _ H E). congruence. }
  assert (Sf : forall P, ksorted lt (map snd (filter P (e_live e1)))) by (intros P; now apply filter_entries).
  assert (Keep : forall y, In y (e_live e1) -> hd_error (map key Fa) = Some (key y) \/ hd_error (map key Fb) = Some (key y) -> exists v, In (fst y, (key y, v)) (e_live (fst sp2))).
  { intros y Iy Hy. rewrite Esp.
    destruct (run_inv impl lt Hk (fun e => In (fst y, key y) (map (fun y => (fst y, key y)) (e_live e))) ops2 _ _ R1' F1) as [_ H].
    - cbn [fst]. apply (in_map (fun y => (fst y, key y))). exact Iy.
    - intros o e e' Io _ HP G. apply (g_live _ _ _ _ G); eauto.
    - apply in_map_iff in H as ([j [k v]] & E & I). unfold key at 1 in E. cbn [fst snd] in E. injection E as -> ->. exists v. exact I. }
  split.
  - destruct Fa as [|ya Fa'] eqn:EFa.
    + assert (Fb = []) as -> by (destruct Fb as [|yb Fb']; auto; destruct (Iba yb ltac:(now left))). cbn. unfold ret. rewrite filter_none; auto. apply Forall_forall. auto.
    + destruct (Keep ya) as (va & Iva); [apply Ia; now left|now left|]. cbn [first_id map hd_error]. unfold tr. cbn [fst snd option_map].
      etransitivity; [apply f_equal; apply (range_walk lt SW f fr hd ps (fst sp2) h l (fst ya) (key ya) va (first_id Fb) (hd_error (map key Fb)) X Iva)|reflexivity].
      destruct Fb as [|yb Fb'] eqn:EFb; cbn [first_id map hd_error]; auto. split.
      * apply (Keep yb); [apply Ib; now left|now right].
      * pose proof (Iba yb ltac:(now left)) as Iy. destruct Iy as [->|Iy]; [apply (sw_irrefl lt SW)|]. pose proof (Sf (fun y => negb (lt (fst (snd y)) a))) as S. fold Fa in S. rewrite EFa in S. cbn in S. inversion S as [|? ? _ FF]; subst. rewrite Forall_map, Forall_forall in FF. apply (lt_asym lt SW). now apply FF.
  - intros Hins k Ik. apply in_map_iff in Ik as (p & <- & Ip). apply filter_In in Ip as [Ip Hw]. unfold within in Hw. apply andb_true_iff in Hw as [Hl Hh]. split.
    + destruct Fa as [|ya Fa'] eqn:EFa; [discriminate|]. cbn [map hd_error] in Hl. apply negb_true_iff in Hl. apply (sw_negtrans lt SW _ _ _ Hl). apply Ia. now left.
    + destruct (lt b (fst p)) eqn:Eb; auto. exfalso.
      destruct (run_inv impl lt Hk (fun e => forall j k, In (j, k) (map (fun y => (fst y, key y)) (e_live e)) -> lt b k = true -> exists h, hd_error (map key Fb) = Some h /\ lt k h = false) ops2 _ _ R1' F1) as [_ H].
      * cbn [fst]. intros j k I Hb. apply in_map_iff in I as (y & E & I). injection E as <- <-. assert (Iy : In y Fb) by (apply filter_In; auto). pose proof (Sf (fun y => lt b (fst (snd y)))) as S. fold Fb in S. destruct Fb as [|yb Fb']; [destruct Iy|]. exists (key yb). split; auto.
        destruct Iy as [->|Iy]; [apply (sw_irrefl lt SW)|]. cbn in S. inversion S as [|? ? _ FF]; subst. rewrite Forall_map, Forall_forall in FF. apply (lt_asym lt SW). now apply FF.
      * intros o e e' Io _ HP G j k I Hb. destruct (g_fresh _ _ _ _ G j k I) as [I'|I']; eauto.
      * rewrite <- Esp in H. apply in_map_iff in Ip as ([j [k v]] & <- & Ip). cbn [snd fst] in *. destruct (H j k) as (h' & Eh & Hlt); auto; [apply (in_map (fun y => (fst y, key y))) in Ip; exact Ip|]. rewrite Eh in Hh. congruence.
Qed.
Print Assumptions C80_range_kept.
Example C80_hyp : let st1 := xafter (St := unit) zimpl [ins 1; ins 3; ins 5; ins 9] 0 0 [] (mkSL 0 0 None []) in
  let ops2 := [ins 4; ins 2; del 5; ins 10; ins 0] in let st2 := snd (run (x_step zimpl) (XRange 2 6 :: ops2) st1) in
  fst (walk Iterate (fst st1)) = Ok [(1, 10); (3, 30); (5, 50); (9, 90)] /\ (forall o, In o ops2 -> o <> XMoveToNext 0) /\
  (forall o k, In o ops2 -> Some 3 = Some k \/ Some 9 = Some k -> ~ removes Z.ltb o k) /\ (forall o k, In o ops2 -> inserts o k -> (6 <? k) = true -> exists h, Some 9 = Some h /\ (k <? h) = false) /\
  nth_error (snd st2) 0 = Some (Some 2%nat, Some 4%nat) /\ fst (walk (ret (Some 2%nat, Some 4%nat)) (fst st2)) = Ok [(3, 30); (4, 40)].
Proof.
  cbn zeta. split; [vm_compute; reflexivity|]. split; [|split; [|split; [|split; vm_compute; reflexivity]]].
  - intros o [<-|[<-|[<-|[<-|[<-|[]]]]]]; discriminate.
  - intros o k Io [E|E]; injection E as <-; intros [(k' & Eo & Hv)|Eo]; subst; cbn in Io; repeat (destruct Io as [Io|Io]; [try discriminate; injection Io as <-; discriminate|]); destruct Io.
  - intros o k Io (v & r & ->) Hb. exists 9. split; auto. cbn in Io. repeat (destruct Io as [Io|Io]; [try discriminate; injection Io as <- <- <-; try discriminate Hb; reflexivity|]). destruct Io.
Qed.
