(** C132: comparison functions that use the list or the set they order, and may
    panic (NewSkipListFunc, NewSkipListSetFunc).  [looks_or_panics]:
    Spec_SelfPanic.v; [may_panic], [set_may_panic]: Spec_SkipFx.v, Spec_SetFx.v. *)
From Verif Require Import BaseLemmas Spec Trace Spec_List Spec_Map Spec_Set Spec_Fx Spec_SkipFx Spec_SetFx Spec_SkipSelf Spec_SelfPanic Nodes Model_SkipList Proof_SkipList Model_SkipListSet Model_SkipFx Proof_SkipFx Model_SkipSelf Proof_SkipSelf Model_SetSelf Props_SkipList Props_SkipListSet Model_SelfPanic Proof_SelfPanic.
From Verif Require Proof_SetSelf Props_Reads Props_SkipSelf Props_SetSelf.

(** *** C132 A comparison function that uses the container it orders, and panics *)
(** The lists a client with this keyCmp can get to. *)
Definition got_to {K V St X} (compare : K -> K -> @FP K V X Z) zk zv h0 l0 x (t : (list (slnode K V) * sklist) * X) : Prop :=
  exists ops : list (mop K V St), snd (run (map_step_self compare) ops (fresh zk zv h0 l0, x)) = t.
Definition set_got_to {K St X} (compare : K -> K -> @FP K unit X Z) zk h0 l0 x (t : (list (slnode K unit) * sklist) * X) : Prop :=
  exists ops : list (sop K St), snd (run (set_step_self compare) ops (new_set zk h0 l0, x)) = t.
Lemma run_snoc {S Op R} (step : Op -> S -> R * S) ops o s : snd (run step (ops ++ [o]) s) = snd (step o (snd (run step ops s))).
Proof. rewrite run_app. cbn [snd run]. destruct (step o _). reflexivity. Qed.

Section MapUse.
Context {K V St X : Type}.
Variables (compare : K -> K -> @FP K V X Z) (P Q : X -> Prop) (cmp : K -> K -> Z).
Hypothesis QP : forall x, Q x -> P x.
Hypothesis TW : three_way cmp.
Notation lt := (fun a b => cmp a b <? 0).
Lemma panic_step fr (a : list (K * V) * X) s (o : mop K V St) : looks_or_panics P Q cmp compare (fst s) ->
  (Rel lt fr (fst a) (fst s) /\ snd a = snd s /\ P (snd s)) ->
  exists a', may_panic lt P Q a o (fst (map_step_self compare o s)) a' /\
    (Rel lt fr (fst a') (fst (snd (map_step_self compare o s))) /\ snd a' = snd (snd (map_step_self compare o s)) /\ P (snd (snd (map_step_self compare o s)))).
Proof using QP TW.
  destruct a as [m xa], s as [s x]. cbn [fst snd]. intros A (R & -> & Px).
  assert (Hk : kind (V := V) (implFunc cmp) lt) by (right; eauto).
  destruct (use_call (St := St) (implFunc cmp) lt Hk fr o m s R) as [E R1].
  destruct (compares o) eqn:Eo.
  - destruct (step_trk compare P Q cmp s A o x Px) as (r & s' & x' & Er & [[Eq Px']|(-> & Kp & Qx')]); rewrite Er; cbn [fst snd].
    + rewrite Eq in *. cbn [fst snd] in *. exists (snd (map_spec lt o m), x'). cbn [fst snd]. split; auto. left.
      cbn [fst snd]. split; [rewrite E; now destruct (map_spec lt o m)|]. split; auto. intros F. rewrite Eo in F. discriminate F.
    + exists (m, x'). cbn [fst snd]. split; [right; auto|]. split; [eapply Rel_kept; eauto|]. split; auto.
  - rewrite (step_self_quiet compare cmp o s x Eo). cbn [fst snd]. exists (snd (map_spec lt o m), x). cbn [fst snd]. split; auto. left. cbn [fst snd].
    rewrite E. split; [now destruct (map_spec lt o m)|]. auto.
Qed.
End MapUse.

(** What a sequence of calls leads to, and the relation to the sorted map. *)
Lemma panic_run K V St X (compare : K -> K -> @FP K V X Z) (P Q : X -> Prop) cmp (zk : K) (zv : V) h0 l0 (ops : list (mop K V St)) x :
  (forall y, Q y -> P y) -> three_way cmp -> P x ->
  (forall t, got_to (St := St) compare zk zv h0 l0 x t -> looks_or_panics P Q cmp compare (fst t)) ->
  exists m', accepts (may_panic (fun a b => cmp a b <? 0) P Q) ([], x) ops
    (fst (run (map_step_self compare) ops (fresh zk zv h0 l0, x))) (m', snd (snd (run (map_step_self compare) ops (fresh zk zv h0 l0, x)))) /\
  Rel (fun a b => cmp a b <? 0) (nth_error h0) m' (fst (snd (run (map_step_self compare) ops (fresh zk zv h0 l0, x)))) /\
  P (snd (snd (run (map_step_self compare) ops (fresh zk zv h0 l0, x)))).
Proof.
  intros QP TW Px A.
  destruct (run_accepts (map_step_self (St := St) compare) (may_panic (St := St) (fun a b => cmp a b <? 0) P Q)
    (fun a s => got_to (St := St) compare zk zv h0 l0 x s /\ Rel (fun a b => cmp a b <? 0) (nth_error h0) (fst a) (fst s) /\ snd a = snd s /\ P (snd s))) with (ops := ops) (a := ([] : list (K * V), x)) (s := (fresh zk zv h0 l0, x)) as ([m' x'] & Ha & _ & R & E & Pe).
  - intros a s o [G R]. destruct (panic_step compare P Q cmp QP TW (nth_error h0) a s o (A s G) R) as (a' & H1 & H2). exists a'. split; auto. split; auto.
    destruct G as (done & <-). exists (done ++ [o]). apply run_snoc.
  - cbn [fst snd]. split; [exists []; reflexivity|]. split; auto. apply fresh_Rel.
  - cbn [fst snd] in *. subst x'. eauto.
Qed.
(** SkipList: through any sequence of calls, some of which panic in keyCmp and are
    recovered, the list is the sorted map of the calls that did not panic. *)
Theorem C132_sorted_map : forall K V St X (compare : K -> K -> @FP K V X Z) (P Q : X -> Prop) cmp (zk : K) (zv : V) h0 l0 (ops : list (mop K V St)) x,
  (forall y, Q y -> P y) -> three_way cmp -> P x ->
  (forall t, got_to (St := St) compare zk zv h0 l0 x t -> looks_or_panics P Q cmp compare (fst t)) ->
  exists m', accepts (may_panic (fun a b => cmp a b <? 0) P Q) ([], x) ops
    (fst (run (map_step_self compare) ops (fresh zk zv h0 l0, x))) (m', snd (snd (run (map_step_self compare) ops (fresh zk zv h0 l0, x)))) /\
  fst (walk Iterate (fst (snd (run (map_step_self compare) ops (fresh zk zv h0 l0, x))))) = Ok m'.
Proof.
  intros K V St X compare P Q cmp zk zv h0 l0 ops x QP TW Px A.
  destruct (panic_run K V St X compare P Q cmp zk zv h0 l0 ops x QP TW Px A) as (m' & Ha & R & _). exists m'. split; auto.
  eapply call_iter; [|exact R]. right. eauto.
Qed.
Print Assumptions C132_sorted_map.
(** A call that panics has changed no node, no link, not the length and not the
    level; only prevsCache. *)
Theorem C132_panic_changes_nothing : forall K V St X (compare : K -> K -> @FP K V X Z) (P Q : X -> Prop) cmp (zk : K) (zv : V) h0 l0 (o : mop K V St) x s1 x1 s2 x2,
  (forall y, Q y -> P y) -> three_way cmp -> P x ->
  (forall t, got_to (St := St) compare zk zv h0 l0 x t -> looks_or_panics P Q cmp compare (fst t)) ->
  got_to (St := St) compare zk zv h0 l0 x (s1, x1) -> map_step_self compare o (s1, x1) = (Panic, (s2, x2)) -> kept s1 s2.
Proof.
  intros K V St X compare P Q cmp zk zv h0 l0 o x s1 x1 s2 x2 QP TW Px A G E2. pose proof (A _ G) as A1. cbn [fst] in A1. destruct G as (ops & E1).
  destruct (panic_run K V St X compare P Q cmp zk zv h0 l0 ops x QP TW Px A) as (m' & _ & R & Px1). rewrite E1 in *. cbn [fst snd] in *.
  assert (Hk : kind (V := V) (implFunc cmp) (fun a b => cmp a b <? 0)) by (right; eauto).
  destruct (use_call (St := St) (implFunc cmp) _ Hk _ o m' s1 R) as [Er _].
  assert (Pure : map_step (implFunc cmp) o s1 = (Panic, s2) -> kept s1 s2).
  { intros Ep. rewrite Ep in Er. cbn [fst] in Er. destruct o; cbn [map_spec fst] in Er; try discriminate Er.
    - cbn [map_step] in Ep. pose proof (range_inert (V := V) cmp first last s1) as I. unfold show in Ep.
      destruct (walk (FindRange (implFunc cmp) first last) s1). cbn [snd] in I. now injection Ep as _ <-.
    - match type of Er with context [map_st ?f ?a ?b] => destruct (map_st f a b) end. discriminate Er.
    - match type of Er with context [map_while ?f ?a ?b] => destruct (map_while f a b) end. discriminate Er. }
  destruct (step_trk compare P Q cmp s1 A1 o x1 Px1) as (r & s' & x'' & E3 & H). rewrite E2 in E3. injection E3 as <- <- <-.
  destruct H as [[Ep _]|(_ & Kp & _)]; auto.
Qed.
Print Assumptions C132_panic_changes_nothing.

(** SkipListSet: the same; an InsertN or RemoveN that panics has done a part of its
    keys (C111). *)
Theorem C132_sorted_set : forall K St X (compare : K -> K -> @FP K unit X Z) (P Q : X -> Prop) cmp (zk : K) h0 l0 (ops : list (sop K St)) x,
  (forall y, Q y -> P y) -> three_way cmp -> P x ->
  (forall t, set_got_to (St := St) compare zk h0 l0 x t -> looks_or_panics P Q cmp compare (fst t)) ->
  exists m', accepts (set_may_panic (fun a b => cmp a b <? 0) P Q) ([], x) ops
    (fst (run (set_step_self compare) ops (new_set zk h0 l0, x))) (m', snd (snd (run (set_step_self compare) ops (new_set zk h0 l0, x)))) /\
  fst (set_Keys (fst (snd (run (set_step_self compare) ops (new_set zk h0 l0, x))))) = Ok m'.
Proof.
  intros K St X compare P Q cmp zk h0 l0 ops x QP TW Px A.
  set (G := set_got_to (St := St) compare zk h0 l0 x) in *.
  assert (Gs : forall t (o : sop K St), G t -> G (snd (set_step_self compare o t))) by (intros t o (done & <-); exists (done ++ [o]); apply run_snoc).
  assert (Gi : forall t k r, G t -> G (snd (set_Insert_self compare k r t))).
  { intros t k r H. specialize (Gs t (SInsert k r) H). cbn [set_step_self] in Gs. unfold show in Gs. destruct (set_Insert_self compare k r t). exact Gs. }
  assert (Gr : forall t k, G t -> G (snd (set_Remove_self compare k t))).
  { intros t k H. specialize (Gs t (SRemove k) H). cbn [set_step_self] in Gs. unfold show in Gs. destruct (set_Remove_self compare k t). exact Gs. }
  assert (G0 : G (new_set zk h0 l0, x)) by (exists []; reflexivity). clearbody G.
  destruct (run_accepts (set_step_self (St := St) compare) (set_may_panic (St := St) (fun a b => cmp a b <? 0) P Q)
    (fun a s => G s /\ SRel (fun a b => cmp a b <? 0) (nth_error h0) (fst a) (fst s) /\ snd a = snd s /\ P (snd s))) with (ops := ops) (a := ([] : list K, x)) (s := (new_set zk h0 l0, x)) as ([m' x'] & Ha & _ & R & E & Pe).
  - intros a s o [Gx R]. destruct (set_self_step compare P Q cmp G (fun s x H => A (s, x) H) Gi Gr TW (nth_error h0) a s o QP R Gx) as (a' & H1 & H2). exists a'. split; auto.
  - cbn [fst snd]. split; auto. split; auto. eapply new_SRel. right. eauto.
  - cbn [fst snd] in *. subst x'. exists m'. split; auto. eapply Props_SetSelf.SRel_keys; eauto.
Qed.
Print Assumptions C132_sorted_set.

(** Functions that make any looking calls before they answer, nested to any depth,
    and panic whenever they like, and when a call they made panicked. *)
Theorem C132_nested : forall K V St (plan : list (outcome (mres K V St)) -> K -> K -> list (mop K V St)) bad (cmp : K -> K -> Z),
  (forall x a b o, In o (plan x a b) -> Props_Reads.map_looks o) -> forall n s,
  looks_or_panics (fun _ => True) (fun _ => True) cmp (nest_p plan bad cmp n) s.
Proof.
  intros K V St plan bad cmp L. induction n as [|n IH]; intros s s1 x a b Kp _; cbn [nest_p snd]; [destruct (bad x a b); auto|].
  assert (H : forall ops : list (mop K V St), (forall o, In o ops -> Props_Reads.map_looks o) -> forall s1 (x : list (outcome (mres K V St))), kept s s1 ->
    exists rs s2 x', run (map_step_self (nest_p plan bad cmp n)) ops (s1, x) = (rs, (s2, x')) /\ kept s s2 /\ (stopped rs = false -> s2 = s1)).
  { clear x a b s1 Kp. induction ops as [|o ops IHo]; intros Lo s1 x Kp; [exists [], s1, x; auto|]. cbn [run].
    pose proof (Props_SkipSelf.looks_state cmp o s1 (Lo o (or_introl eq_refl))) as Ls.
    destruct (step_trk (nest_p plan bad cmp n) _ _ cmp s1 (IH s1) o x Logic.I) as (r & s' & x1 & E & Hc). rewrite E.
    assert (K1 : kept s s' /\ (match r with Ok _ => s' = s1 | _ => True end)).
    { destruct Hc as [[Eq _]|(-> & Kp' & _)]; [|split; auto; eapply kept_trans; eauto]. rewrite Eq in Ls. cbn [snd] in Ls. subst s'. destruct r; auto. }
    destruct K1 as [K1 D]. destruct (IHo (fun o' Ho => Lo o' (or_intror Ho)) s' x1 K1) as (rs & s2 & x2 & E2 & K2 & D2). rewrite E2.
    exists (r :: rs), s2, x2. split; auto. split; auto. unfold stopped in *. cbn [existsb]. destruct r; cbn; try discriminate. intros F. rewrite (D2 F). exact D. }
  destruct (H (plan x a b) (L x a b) s1 x Kp) as (rs & s2 & x' & E & K2 & D). rewrite E.
  destruct (stopped rs); [cbn; auto|]. cbn [orb]. destruct (bad x' a b); auto.
Qed.
Print Assumptions C132_nested.
Theorem C132_nested_set : forall K St (plan : list (outcome (sres K St)) -> K -> K -> list (sop K St)) bad (cmp : K -> K -> Z),
  three_way cmp -> (forall x a b o, In o (plan x a b) -> Props_Reads.set_looks o) -> forall n s,
  looks_or_panics (fun _ => True) (fun _ => True) cmp (set_nest_p plan bad cmp n) s.
Proof.
  intros K St plan bad cmp TW L. induction n as [|n IH]; intros s s1 x a b Kp _; cbn [set_nest_p snd]; [destruct (bad x a b); auto|].
  assert (H : forall ops : list (sop K St), (forall o, In o ops -> Props_Reads.set_looks o) -> forall s1 (x : list (outcome (sres K St))), kept s s1 ->
    exists rs s2 x', run (set_step_self (set_nest_p plan bad cmp n)) ops (s1, x) = (rs, (s2, x')) /\ kept s s2 /\ (stopped rs = false -> s2 = s1)).
  { clear x a b s1 Kp. induction ops as [|o ops IHo]; intros Lo s1 x Kp; [exists [], s1, x; auto|]. cbn [run].
    pose proof (Props_SetSelf.set_looks_state cmp o s1 (Lo o (or_introl eq_refl))) as Ls.
    assert (So : single o = true) by (specialize (Lo o (or_introl eq_refl)); destruct o; try reflexivity; contradiction Lo).
    destruct (set_step_call (set_nest_p plan bad cmp n) (fun _ => True) (fun _ => True) cmp (fun _ => True) (fun s _ _ => IH s) o s1 x Logic.I So x Logic.I) as (r & s' & x1 & E & Hc). rewrite E.
    assert (K1 : kept s s' /\ (match r with Ok _ => s' = s1 | _ => True end)).
    { destruct Hc as [[Eq _]|(-> & Kp' & _)]; [|split; auto; eapply kept_trans; eauto]. rewrite Eq in Ls. cbn [snd] in Ls. subst s'. destruct r; auto. }
    destruct K1 as [K1 D]. destruct (IHo (fun o' Ho => Lo o' (or_intror Ho)) s' x1 K1) as (rs & s2 & x2 & E2 & K2 & D2). rewrite E2.
    exists (r :: rs), s2, x2. split; auto. split; auto. unfold stopped in *. cbn [existsb]. destruct r; cbn; try discriminate. intros F. rewrite (D2 F). exact D. }
  destruct (H (plan x a b) (L x a b) s1 x Kp) as (rs & s2 & x' & E & K2 & D). rewrite E.
  destruct (stopped rs); [cbn; auto|]. cbn [orb]. destruct (bad x' a b); auto.
Qed.
Print Assumptions C132_nested_set.

(** The case meant: Find and Len of the list itself inside keyCmp, which calls
    itself, two deep; it panics when its client has seen [k] results so far. *)
Definition c132_plan : list (outcome (mres Z Z unit)) -> Z -> Z -> list (mop Z Z unit) := fun _ a _ => [MLen; MFind a].
Definition c132_bad (k : Z) : list (outcome (mres Z Z unit)) -> Z -> Z -> bool := fun x _ _ => zlen x =? k.
Definition c132_set_plan : list (outcome (sres Z unit)) -> Z -> Z -> list (sop Z unit) := fun _ a _ => [SLen; SHas a].
Definition c132_set_bad (k : Z) : list (outcome (sres Z unit)) -> Z -> Z -> bool := fun x _ _ => zlen x =? k.
Example C132_hyp : three_way Z.sub /\
  (forall t, got_to (St := unit) (nest_p c132_plan (c132_bad 8) Z.sub 2) 0 0 [] (mkSL 0 0 None []) [] t ->
    looks_or_panics (fun _ => True) (fun _ => True) Z.sub (nest_p c132_plan (c132_bad 8) Z.sub 2) (fst t)) /\
  (forall t, set_got_to (St := unit) (set_nest_p c132_set_plan (c132_set_bad 8) Z.sub 2) 0 [] (mkSL 0 0 None []) [] t ->
    looks_or_panics (fun _ => True) (fun _ => True) Z.sub (set_nest_p c132_set_plan (c132_set_bad 8) Z.sub 2) (fst t)).
Proof.
  split; [exact Z_three_way|]. split; intros t _.
  - apply C132_nested. intros x a b o [<-|[<-|[]]]; exact Logic.I.
  - apply C132_nested_set; [exact Z_three_way|]. intros x a b o [<-|[<-|[]]]; exact Logic.I.
Qed.
Example C132_runs :
  fst (run (map_step_self (nest_p c132_plan (c132_bad 8) Z.sub 2))
    [MInsert 2 20 (2^40 - 1); MInsert 1 10 (2^40 - 1); MInsert 3 30 (2^40 - 1); MInsert 3 30 (2^40 - 1); MLen; MIter : mop Z Z unit] (fresh 0 0 [] (mkSL 0 0 None []), [])) =
  [Ok MNone; Ok MNone; Panic; Ok MNone; Ok (MInt 3); Ok (MSeq [(1, 10); (2, 20); (3, 30)])] /\
  fst (run (set_step_self (set_nest_p c132_set_plan (c132_set_bad 8) Z.sub 2))
    [SInsert 2 (2^40 - 1); SInsertN [(1, 2^40 - 1); (3, 2^40 - 1)]; SKeys; SInsert 1 (2^40 - 1); SKeys : sop Z unit] (new_set 0 [] (mkSL 0 0 None []), [])) =
  [Ok (SBool true); Panic; Ok (SSeq [1; 2]); Ok (SBool false); Ok (SSeq [1; 2])].
Proof. split; vm_compute; reflexivity. Qed.
