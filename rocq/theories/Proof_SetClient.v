(** Proofs about SkipListSet clients: every statement of a set client is a short
    program of a client of the SkipList[K, struct{}] below. *)
From Coq Require Import Sorted.
From Verif Require Import BaseLemmas Spec Trace Spec_List Spec_Map Spec_Set Nodes Proof_Nodes Model_SkipList Proof_SkipList Proof_Map Proof_SkipListAny Model_SkipListSet Spec_Client Spec_SkipIter Model_SkipIter Proof_SkipIter Proof_SkipStale Props_SkipList Props_SkipListSet Props_SkipIter Spec_SkipReenter Model_SkipReenter Proof_SkipReenter Props_SkipReenter Spec_SetClient Model_SetClient.
Set Default Proof Using "Type".
Local Arguments zlen : simpl never. Local Arguments pload : simpl never.

(** ** Programs *)
(** The statements ops, then a result from what they showed. *)
Fixpoint seqp {O R A} (ops : list O) (f : list R -> A) : prog O R A :=
  match ops with [] => Done (f []) | o :: r => Do o (fun x => seqp r (fun l => f (x :: l))) end.
Lemma exec_seqp {O R A St} (step : O -> St -> outcome R * St) ops : forall (f : list R -> A) s rs s', run step ops s = (map Ok rs, s') -> exec step (seqp ops f) s = (Ok (f rs), s').
Proof.
  induction ops as [|o ops IH]; intros f s rs s' E; cbn in *.
  - destruct rs; [|discriminate]. now injection E as <-.
  - destruct (step o s) as [r s1]. destruct (run step ops s1) as [rs1 s2] eqn:E1. destruct rs as [|x rs]; [discriminate|]. cbn in E. injection E as -> -> ->. now apply (IH (fun l => f (x :: l))).
Qed.
Lemma exec_pbind {O R A B St} (step : O -> St -> outcome R * St) (p : prog O R A) (k : A -> prog O R B) : forall s, exec step (pbind p k) s = bind (exec step p) (fun a => exec step (k a)) s.
Proof. unfold bind. induction p as [a|o rest IH]; intros s; cbn; auto. destruct (step o s) as [[r| |] s1]; auto. Qed.
Lemma only_seqp {O R A} (Q : O -> Prop) ops : forall (f : list R -> A), (forall o, In o ops -> Q o) -> only Q (seqp ops f).
Proof. induction ops as [|o ops IH]; intros f H; cbn; constructor; [apply H; now left|]. intros r. apply IH. intros o' I. apply H. now right. Qed.
Lemma only_pbind {O R A B} (Q : O -> Prop) (p : prog O R A) (k : A -> prog O R B) : only Q p -> (forall a, only Q (k a)) -> only Q (pbind p k).
Proof. intros H Hk. induction H; cbn; auto. now constructor. Qed.
Lemma pmap_pbind {O R A B C} (f : B -> C) (p : prog O R A) (k : A -> prog O R B) {St : Type} (step : O -> St -> outcome R * St) s : exec step (pmap f (pbind p k)) s = exec step (pbind p (fun a => pmap f (k a))) s.
Proof. revert s. induction p as [a|o rest IH]; intros s; cbn; auto. destruct (step o s) as [[r| |] s1]; auto. Qed.

Section Flat.
Context {K S0 : Type}.
Notation xop := (xop K unit S0).
(** The statements of the client below. *)
Definition flat (o : top K S0) : list xop :=
  match o with
  | TCall (SInsert k r) => [XCall MLen; XCall (MInsert k tt r); XCall MLen]
  | TCall (SInsertN ks) => XCall MLen :: map (fun p => XCall (MInsert (fst p) tt (snd p))) ks ++ [XCall MLen]
  | TCall (SRemove k) => [XCall (MRemove k)]
  | TCall (SRemoveN ks) => XCall MLen :: map (fun k => XCall (MRemove k)) ks ++ [XCall MLen]
  | TCall SClear => [XCall MClear]
  | TCall SLen => [XCall MLen]
  | TCall SIsEmpty => [XCall MIsEmpty]
  | TCall (SHas k) => [XCall (MHas k)]
  | TCall SKeys => [XCall MIter]
  | TCall (SLower k) => [XCall (MLower k)]
  | TCall (SUpper k) => [XCall (MUpper k)]
  | TCall (SRange a b) => [XCall (MRange a b)]
  | TCall (SForEach cb st) => [XCall (MForEach (fun st p => cb st (fst p)) st)]
  | TCall (SForEachIf cb st) => [XCall (MForEachIf (fun st p => cb st (fst p)) st)]
  | TLower k => [XLower k]
  | TUpper k => [XUpper k]
  | TRange a b => [XRange a b]
  | TIsNotEnd x => [XIsNotEnd x]
  | TMoveToNext x => [XMoveToNext x]
  | TValue x => [XKey x]
  end.
Definition conv (r : mres K unit S0) : sres K S0 :=
  match r with MBool b => SBool b | MInt n => SInt n | MSeq l => SSeq (map fst l) | MSt st => SSt st | _ => SNone end.
Definition num (r : xres K unit S0) : Z := match r with XMap (MInt n) => n | _ => 0 end.
Definition fin (o : top K S0) (l : list (xres K unit S0)) : tres K S0 :=
  let a := num (hd XDone l) in let b := num (last l XDone) in
  match o with
  | TCall (SInsert _ _) => TSet (SBool (a <? b))
  | TCall (SInsertN _) => TSet (SInt (b - a))
  | TCall (SRemoveN _) => TSet (SInt (a - b))
  | _ => match l with [XMap r] => TSet (conv r) | [XBool b] => TBool b | [XKeyIs k] => TValueIs k | _ => TDone end
  end.
Definition tr1 (o : top K S0) : xprog K unit S0 (tres K S0) := seqp (flat o) (fin o).
Fixpoint trans {A} (p : tprog K S0 A) : xprog K unit S0 A := match p with Done a => Done a | Do o rest => pbind (tr1 o) (fun r => trans (rest r)) end.

(** What the statements insert and remove. *)
Lemma flat_inserts (o : top K S0) x k : In x (flat o) -> inserts x k -> t_inserts o k.
Proof.
  intros I (v & r & ->). destruct o as [c| | | | | |]; cbn in I; try (destruct I as [E|[]]; discriminate). destruct c; cbn in I; try (destruct I as [E|[]]; discriminate).
  - destruct I as [E|[E|[E|[]]]]; try discriminate. injection E as <- _ _. left. eauto.
  - destruct I as [E|I]; [discriminate|]. apply in_app_iff in I as [I|[E|[]]]; [|discriminate]. apply in_map_iff in I as (p & E & I). injection E as <- _ _. right. exists ks. split; auto. now apply in_map.
  - destruct I as [E|I]; [discriminate|]. apply in_app_iff in I as [I|[E|[]]]; [|discriminate]. apply in_map_iff in I as (p & E & I). discriminate.
Qed.
Lemma flat_removes lt (o : top K S0) x k : In x (flat o) -> removes lt x k -> t_removes lt o k.
Proof.
  intros I R. destruct R as [(k' & -> & H)| ->]; (destruct o as [c| | | | | |]; cbn in I; try (destruct I as [E|[]]; discriminate)); destruct c; cbn in I; try (destruct I as [E|[]]; discriminate).
  - destruct I as [E|[E|[E|[]]]]; discriminate.
  - destruct I as [E|I]; [discriminate|]. apply in_app_iff in I as [I|[E|[]]]; [|discriminate]. apply in_map_iff in I as (p & E & I). discriminate.
  - destruct I as [E|[]]. injection E as <-. left. eauto.
  - destruct I as [E|I]; [discriminate|]. apply in_app_iff in I as [I|[E|[]]]; [|discriminate]. apply in_map_iff in I as (p & E & I). injection E as <-. right. left. eauto.
  - destruct I as [E|[E|[E|[]]]]; discriminate.
  - destruct I as [E|I]; [discriminate|]. apply in_app_iff in I as [I|[E|[]]]; [|discriminate]. apply in_map_iff in I as (p & E & I). discriminate.
  - destruct I as [E|I]; [discriminate|]. apply in_app_iff in I as [I|[E|[]]]; [|discriminate]. apply in_map_iff in I as (p & E & I). discriminate.
  - right. now right.
Qed.
Lemma only_trans {A} (Q : top K S0 -> Prop) (p : tprog K S0 A) : only Q p -> only (fun x => exists o, Q o /\ In x (flat o)) (trans p).
Proof. intros O. induction O as [a|o rest Qo _ IH]; cbn; [constructor|]. apply only_pbind; auto. apply only_seqp. eauto. Qed.
Lemma trans_pmap {A B} (f : A -> B) (p : tprog K S0 A) St (step : xop -> St -> outcome (xres K unit S0) * St) : forall s, exec step (trans (pmap f p)) s = exec step (pmap f (trans p)) s.
Proof.
  induction p as [a|o rest IH]; intros s; cbn; auto. rewrite pmap_pbind, !exec_pbind. unfold bind. destruct (exec step (tr1 o) s) as [[r| |] s1]; auto.
Qed.
End Flat.

Section Sim.
Context {K S0 : Type}.
Variables (impl : @slimpl K unit) (lt : K -> K -> bool).
Hypothesis Hk : kind impl lt.
Notation estate := (estate K unit).
Notation CS := ((list (slnode K unit) * sklist) * list iter)%type.
Notation SS := (estate * list xvar)%type.
Notation xop := (xop K unit S0).
Implicit Types (e : estate) (o : top K S0) (sp : SS) (s : CS).

Lemma elems_fst e : elems e = map fst (map snd (e_live e)).
Proof. unfold elems. now rewrite map_map. Qed.
Lemma repair_id e : repair (map snd (e_live e)) e = e.
Proof. unfold repair. rewrite combine_fst_snd. now destruct e. Qed.
Lemma calls_insert e k r : calls lt (MInsert k tt r : mop K unit S0) e = enter lt k e.
Proof.
  unfold calls, enter. rewrite elems_fst, mem_has. unfold insert. destruct (has lt k _) eqn:E; auto. rewrite set_value_tt. apply repair_id.
Qed.
Lemma XRel_SRel sp s : XRel lt sp s -> exists h0, SRel lt h0 (elems (fst sp)) (fst s).
Proof.
  intros (f & fr & hd & ps & X & _). exists fr. exists (map snd (e_live (fst sp))). split; [now rewrite elems_fst|]. exists hd, ps. split; [eapply x_kvs, X|]. split; apply X.
Qed.

(** Reading leaves the state alone. *)
Lemma fe_loop_same {St} (cb : St -> K * unit -> St) fuel : forall p st (c : list (slnode K unit) * sklist), snd (ForEach_loop cb fuel p st c) = c.
Proof.
  induction fuel as [|fuel IH]; intros p st c; cbn [ForEach_loop]; auto. destruct (is_nil p); auto. unfold ld_key, ld_value, ld_next, bind, pload, ret, panic. destruct c as [h l]. destruct p as [a|]; [|reflexivity]. cbn [fst snd].
  destruct (nth_error h a) as [n|] eqn:En; [|reflexivity]. do 3 (cbn [fst snd]; rewrite ?En). destruct (nth_error (n_next n) 0) as [q|]; [|reflexivity]. apply IH.
Qed.
Lemma iter_loop_same fuel : forall it (seen : list (K * unit)) (c : list (slnode K unit) * sklist), snd (iter_loop fuel it seen c) = c.
Proof.
  induction fuel as [|fuel IH]; intros it seen c; cbn [iter_loop]; auto. destruct (IsNotEnd it); auto. unfold Key, Value, MoveToNext, ld_key, ld_value, ld_next, bind, pload, ret, panic. destruct c as [h l]. destruct (fst it) as [a|]; [|reflexivity]. cbn [fst snd].
  destruct (nth_error h a) as [n|] eqn:En; [|reflexivity]. do 3 (cbn [fst snd]; rewrite ?En). destruct (nth_error (n_next n) 0) as [q|]; [|reflexivity]. apply IH.
Qed.
Lemma ld_same (p : ptr) i (c : list (slnode K unit) * sklist) : snd (ld_next p i c) = c.
Proof. unfold ld_next, bind, pload, ret, panic. destruct c as [h l]. destruct p as [a|]; [|reflexivity]. cbn [fst]. destruct (nth_error h a) as [n|]; [|reflexivity]. destruct (nth_error (n_next n) i); reflexivity. Qed.
Lemma ForEach_same {St} (cb : St -> K * unit -> St) st (c : list (slnode K unit) * sklist) : snd (ForEach cb st c) = c.
Proof.
  unfold ForEach, heap_fuel, hget, bind. cbn [fst snd]. pose proof (ld_same (sl_head (snd c)) 0 c) as E. destruct (ld_next (sl_head (snd c)) 0 c) as [[q| |] c']; cbn in E; subst c'; auto. apply fe_loop_same.
Qed.
Lemma iter_same (c : list (slnode K unit) * sklist) : snd (walk Iterate c) = c.
Proof.
  unfold walk, Iterate, heap_fuel, hget, bind, ret. cbn [fst snd]. pose proof (ld_same (sl_head (snd c)) 0 c) as E. destruct (ld_next (sl_head (snd c)) 0 c) as [[q| |] c']; cbn in E; subst c'; auto. apply iter_loop_same.
Qed.

(** *** InsertN and RemoveN *)
Notation inss ks := (map (fun p : K * Z => XCall (MInsert (fst p) tt (snd p)) : xop) ks).
Notation rems ks := (map (fun k : K => XCall (MRemove k) : xop) ks).
Lemma Insert_one sp s k r : XRel lt sp s -> Insert impl k tt r (fst s) = (Ok tt, fst (snd (x_step impl (XCall (MInsert k tt r) : xop) s))).
Proof using Hk.
  intros R. pose proof (proj1 (xstep impl lt Hk (XCall (MInsert k tt r) : xop) _ _ R)) as E. destruct sp as [e vars]. cbn [x_step x_spec map_step map_spec fst snd] in *. unfold show in *. destruct (Insert impl k tt r (fst s)) as [[[]| |] c]; cbn in *; congruence.
Qed.
Lemma Remove_one sp s k : XRel lt sp s -> exists b, Remove impl k (fst s) = (Ok b, fst (snd (x_step impl (XCall (MRemove k) : xop) s))).
Proof using Hk.
  intros R. pose proof (proj1 (xstep impl lt Hk (XCall (MRemove k) : xop) _ _ R)) as E. destruct sp as [e vars]. cbn [x_step x_spec map_step map_spec fst snd] in *. unfold show in *. destruct (Remove impl k (fst s)) as [[b| |] c]; cbn in *; try congruence. now exists b.
Qed.
Lemma Len_eq (c : list (slnode K unit) * sklist) : set_Len c = (Ok (sl_len (snd c)), c).
Proof. reflexivity. Qed.
Lemma vars_call (c : mop K unit S0) s : snd (snd (x_step impl (XCall c) s)) = snd s.
Proof. cbn. destruct (map_step impl c (fst s)). reflexivity. Qed.
Lemma loop_ins ks : forall sp s, XRel lt sp s ->
  insert_loop impl ks (fst s) = (Ok tt, fst (snd (run (x_step impl) (inss ks) s))) /\ snd (snd (run (x_step impl) (inss ks) s)) = snd s /\
  fst (run (x_step impl) (inss ks) s) = map (fun _ => Ok (XMap MNone)) ks /\
  run (x_spec lt) (inss ks) sp = (map (fun _ => Ok (XMap MNone)) ks, (fold_left (fun e p => enter lt (fst p) e) ks (fst sp), snd sp)).
Proof using Hk.
  induction ks as [|[k r] ks IH]; intros sp s R; [destruct sp; cbn; auto|]. destruct (xstep impl lt Hk (XCall (MInsert k tt r) : xop) _ _ R) as [E1 R1].
  pose proof (Insert_one _ _ k r R) as Ei. pose proof (vars_call (MInsert k tt r) s) as Ev. assert (Es : x_spec lt (XCall (MInsert k tt r) : xop) sp = (Ok (XMap MNone), (enter lt k (fst sp), snd sp))). { destruct sp as [e vars]. cbn [x_spec]. now rewrite calls_insert. }
  rewrite Es in *. cbn [map run fst snd insert_loop]. rewrite Es. destruct (x_step impl (XCall (MInsert k tt r) : xop) s) as [r1 s1]. cbn [fst snd] in *. subst r1. destruct (IH _ _ R1) as (L & Lv & Lf & Ls). rewrite Ls. destruct (run (x_step impl) (inss ks) s1) as [rs s2]. cbn [fst snd] in *.
  split; [|split; [congruence|split; [congruence|reflexivity]]]. unfold set_Insert. erewrite bind_eq; [exact L|]. erewrite bind_eq; [|apply Len_eq]. erewrite bind_eq; [|exact Ei]. erewrite bind_eq; [|apply Len_eq]. reflexivity.
Qed.
Lemma loop_rem ks : forall sp s, XRel lt sp s ->
  remove_loop impl ks (fst s) = (Ok tt, fst (snd (run (x_step impl) (rems ks) s))) /\ snd (snd (run (x_step impl) (rems ks) s)) = snd s /\
  exists rs, fst (run (x_step impl) (rems ks) s) = map Ok rs /\
  run (x_spec lt) (rems ks) sp = (map Ok rs, (fold_left (fun e k => leave lt k e) ks (fst sp), snd sp)).
Proof using Hk.
  induction ks as [|k ks IH]; intros sp s R; [destruct sp; cbn; split; auto; split; auto; exists []; auto|]. destruct (xstep impl lt Hk (XCall (MRemove k) : xop) _ _ R) as [E1 R1].
  destruct (Remove_one _ _ k R) as (b & Ei). pose proof (vars_call (MRemove k) s) as Ev. assert (Es : exists b, x_spec lt (XCall (MRemove k) : xop) sp = (Ok (XMap (MBool b)), (leave lt k (fst sp), snd sp))). { destruct sp as [e vars]. cbn. eauto. } destruct Es as (b' & Es).
  rewrite Es in *. cbn [map run fst snd remove_loop]. rewrite Es. destruct (x_step impl (XCall (MRemove k) : xop) s) as [r1 s1]. cbn [fst snd] in *. subst r1. destruct (IH _ _ R1) as (L & Lv & rs & Lf & Ls). rewrite Ls. destruct (run (x_step impl) (rems ks) s1) as [rs' s2]. cbn [fst snd] in *. subst rs'.
  split; [|split; [congruence|]]. { unfold set_Remove. erewrite bind_eq; [exact L|]. exact Ei. } exists (XMap (MBool b') :: rs). auto.
Qed.
(** *** One statement *)
Lemma elems_enter k e : elems (enter lt k e) = add lt k (elems e).
Proof.
  unfold enter, add. destruct (mem lt k (elems e)); auto. unfold elems. cbn [e_live]. rewrite map_app. cbn [map fst snd]. f_equal; [|f_equal]; induction (e_live e) as [|x l IH]; cbn; auto.
  - destruct (lt (fst (snd x)) k); cbn; now rewrite IH.
  - destruct (lt k (fst (snd x))); cbn; now rewrite IH.
Qed.
Lemma elems_leave k e : elems (leave lt k e) = drop lt k (elems e).
Proof. unfold leave, retire, drop, elems. cbn [e_live]. induction (e_live e) as [|x l IH]; cbn; auto. destruct (eqv lt (fst (snd x)) k); cbn; now rewrite IH. Qed.
Lemma elems_enters ks : forall e, elems (fold_left (fun e (p : K * Z) => enter lt (fst p) e) ks e) = fold_left (fun m p => add lt (fst p) m) ks (elems e).
Proof. induction ks as [|p ks IH]; intros e; cbn; auto. now rewrite IH, elems_enter. Qed.
Lemma elems_leaves ks : forall e, elems (fold_left (fun e k => leave lt k e) ks e) = fold_left (fun m k => drop lt k m) ks (elems e).
Proof. induction ks as [|p ks IH]; intros e; cbn; auto. now rewrite IH, elems_leave. Qed.
Lemma zlen_elems e : zlen (map snd (e_live e)) = zlen (elems e).
Proof. unfold zlen, elems. now rewrite !map_length. Qed.
Lemma new_count h0 ks m (c : list (slnode K unit) * sklist) : SRel lt h0 m c -> count_new lt (map fst ks) m = zlen (fold_left (fun m (p : K * Z) => add lt (fst p) m) ks m) - zlen m.
Proof using Hk.
  intros R. destruct (InsertN_set impl lt Hk h0 ks m c R) as (c1 & E & _). destruct (insert_loop_ok impl lt Hk h0 ks m c R) as (c2 & L & R2). unfold set_InsertN in E. rewrite (bind_eq _ _ _ _ _ (SRel_len impl lt Hk h0 m c R)) in E. rewrite (bind_eq _ _ _ _ _ L) in E. rewrite (bind_eq _ _ _ _ _ (SRel_len impl lt Hk h0 _ c2 R2)) in E. cbn in E. now injection E.
Qed.
Lemma old_count h0 ks m (c : list (slnode K unit) * sklist) : SRel lt h0 m c -> count_old lt ks m = zlen m - zlen (fold_left (fun m k => drop lt k m) ks m).
Proof using Hk.
  intros R. destruct (RemoveN_set impl lt Hk h0 ks m c R) as (c1 & E & _). destruct (remove_loop_ok impl lt Hk h0 ks m c R) as (c2 & L & R2). unfold set_RemoveN in E. rewrite (bind_eq _ _ _ _ _ (SRel_len impl lt Hk h0 m c R)) in E. rewrite (bind_eq _ _ _ _ _ L) in E. rewrite (bind_eq _ _ _ _ _ (SRel_len impl lt Hk h0 _ c2 R2)) in E. cbn in E. now injection E.
Qed.
Lemma ins_count h0 k m (c : list (slnode K unit) * sklist) : SRel lt h0 m c -> (zlen m <? zlen (add lt k m)) = negb (mem lt k m).
Proof using Hk. intros R. rewrite (add_len impl lt Hk); [|eapply (SRel_sorted impl lt Hk); eauto]. destruct (mem lt k m); cbn; lia. Qed.
(** What the statements below show, all of them. *)
Definition shows o sp : Prop := (exists rs, fst (run (x_spec lt) (flat o) sp) = map Ok rs) \/ exists x, flat o = [x].
Lemma exec_run o sp s : XRel lt sp s -> shows o sp -> exec (x_step impl) (tr1 o) s = (fst (exec (x_spec lt) (tr1 o) sp), snd (run (x_step impl) (flat o) s)) /\ snd (exec (x_spec lt) (tr1 o) sp) = snd (run (x_spec lt) (flat o) sp).
Proof using Hk.
  intros R [(rs & E)|(x & E)].
  - pose proof (proj1 (xrun impl lt Hk (flat o) _ _ R)) as E1. rewrite E in E1. unfold tr1. rewrite (exec_seqp (x_step impl) (flat o) (fin o) s rs (snd (run (x_step impl) (flat o) s))), (exec_seqp (x_spec lt) (flat o) (fin o) sp rs (snd (run (x_spec lt) (flat o) sp))); auto.
    + rewrite <- E. apply surjective_pairing.
    + rewrite <- E1. apply surjective_pairing.
  - unfold tr1. rewrite E. pose proof (proj1 (xstep impl lt Hk x _ _ R)) as E1. cbn. destruct (x_step impl x s) as [[r| |] s1], (x_spec lt x sp) as [[r'| |] sp1]; cbn in *; try discriminate; try (injection E1 as ->); auto.
Qed.
Lemma run_snoc {A B C} (step : A -> C -> B * C) l x (c : C) : run step (l ++ [x]) c = (fst (run step l c) ++ [fst (step x (snd (run step l c)))], snd (step x (snd (run step l c)))).
Proof. revert c. induction l as [|y l IH]; intros c; cbn; [destruct (step x c); auto|]. destruct (step y c) as [b c1]. rewrite IH. destruct (run step l c1). reflexivity. Qed.
Lemma spec_len e vars : x_spec lt (XCall MLen : xop) (e, vars) = (Ok (XMap (MInt (zlen (elems e)))), (e, vars)).
Proof. cbn [x_spec map_spec fst omap calls snd]. now rewrite zlen_elems, repair_id. Qed.
Lemma spec_ins k r e vars : x_spec lt (XCall (MInsert k tt r) : xop) (e, vars) = (Ok (XMap MNone), (enter lt k e, vars)).
Proof. cbn [x_spec]. now rewrite calls_insert. Qed.
Lemma step_len s : snd (x_step impl (XCall MLen : xop) s) = s.
Proof. destruct s as [c v]. reflexivity. Qed.
Lemma call_spec (c : sop K S0) sp s : XRel lt sp s -> shows (TCall c) sp /\ exec (x_spec lt) (tr1 (TCall c)) sp = t_spec lt (TCall c) sp.
Proof using Hk.
  intros R. destruct (XRel_SRel _ _ R) as (h0 & Rs). destruct sp as [e vars]. cbn [fst] in Rs.
  destruct c; try (split; [right; eexists; reflexivity|]; cbn [tr1 flat seqp exec x_spec map_spec t_spec set_spec set_calls calls fst snd omap]; rewrite ?elems_fst, ?mem_has, ?filter_fst, ?existsb_fst, ?fold_fst, ?fold_while_fst, ?repair_id; try reflexivity).
  - (* Insert *) assert (E : run (x_spec lt) (flat (TCall (SInsert k r) : top K S0)) (e, vars) = (map Ok [XMap (MInt (zlen (elems e))); XMap MNone; XMap (MInt (zlen (elems (enter lt k e))))], (enter lt k e, vars))).
    { cbn [flat run]. rewrite spec_len, spec_ins, spec_len. reflexivity. }
    split; [left; rewrite E; cbn [fst]; eauto|]. unfold tr1. rewrite (exec_seqp _ _ (fin (TCall (SInsert k r))) _ _ _ E). unfold t_spec. cbn [fin hd last num set_spec fst omap set_calls]. rewrite elems_enter, (ins_count _ _ _ _ Rs). reflexivity.
  - (* InsertN *) destruct (loop_ins ks _ _ R) as (_ & _ & _ & Ls). cbn [fst snd] in Ls. set (e' := fold_left (fun e p => enter lt (fst p) e) ks e) in *.
    assert (E : run (x_spec lt) (flat (TCall (SInsertN ks) : top K S0)) (e, vars) = (map Ok (XMap (MInt (zlen (elems e))) :: map (fun _ => XMap MNone) ks ++ [XMap (MInt (zlen (elems e')))]), (e', vars))).
    { cbn [flat run]. rewrite spec_len, run_snoc, Ls. cbn [fst snd]. rewrite spec_len. cbn [fst snd map]. now rewrite map_app, map_map. }
    split; [left; rewrite E; cbn [fst]; eauto|]. unfold tr1. rewrite (exec_seqp _ _ (fin (TCall (SInsertN ks))) _ _ _ E). unfold t_spec. unfold fin. rewrite app_comm_cons, last_last. cbn [hd app num set_spec fst omap set_calls]. rewrite (new_count _ _ _ _ Rs). unfold e'. rewrite elems_enters. reflexivity.
  - (* RemoveN *) destruct (loop_rem ks _ _ R) as (_ & _ & rs & _ & Ls). cbn [fst snd] in Ls. set (e' := fold_left (fun e k => leave lt k e) ks e) in *.
    assert (E : run (x_spec lt) (flat (TCall (SRemoveN ks) : top K S0)) (e, vars) = (map Ok (XMap (MInt (zlen (elems e))) :: rs ++ [XMap (MInt (zlen (elems e')))]), (e', vars))).
    { cbn [flat run]. rewrite spec_len, run_snoc, Ls. cbn [fst snd]. rewrite spec_len. cbn [fst snd map]. now rewrite map_app. }
    split; [left; rewrite E; cbn [fst]; eauto|]. unfold tr1. rewrite (exec_seqp _ _ (fin (TCall (SRemoveN ks))) _ _ _ E). unfold t_spec. unfold fin. rewrite app_comm_cons, last_last. cbn [hd app num set_spec fst omap set_calls]. rewrite (old_count _ _ _ _ Rs). unfold e'. rewrite elems_leaves. reflexivity.
  - (* Len *) unfold fin, conv, zlen. now rewrite !map_length.
  - (* IsEmpty *) now destruct (e_live e).
  - (* FindRange *) destruct (existsb _ _); reflexivity.
Qed.
Lemma call_step (c : sop K S0) sp s : XRel lt sp s -> t_step impl (TCall c) s = (fst (t_spec lt (TCall c) sp), snd (run (x_step impl) (flat (TCall c)) s)).
Proof using Hk.
  intros R. destruct (XRel_SRel _ _ R) as (h0 & Rs). destruct (set_call impl lt Hk h0 c _ _ Rs) as [Er _]. destruct sp as [e vars]. cbn [fst] in *.
  assert (Es : (snd (set_step impl c (fst s)), snd s) = snd (run (x_step impl) (flat (TCall c)) s)).
  { destruct c; try (cbn [flat run x_step set_step map_step snd]; unfold show, set_Remove, set_Clear, set_Len, set_IsEmpty, set_Has, set_ForEach, set_ForEachIf;
      match goal with |- (snd (let '(_, _) := ?p in _), _) = _ => destruct p as [[| |] ?]; reflexivity end).
    - (* Insert *) cbn [flat run]. pose proof (Insert_one _ _ k r R) as Ei. pose proof (vars_call (MInsert k tt r) s) as Ev. pose proof (step_len s) as L1. destruct (x_step impl (XCall MLen : xop) s) as [r1 s1]. cbn [snd] in L1. subst s1.
      destruct (x_step impl (XCall (MInsert k tt r) : xop) s) as [r2 s2]. cbn [fst snd] in *. pose proof (step_len s2) as L2. destruct (x_step impl (XCall MLen : xop) s2) as [r3 s3]. cbn [snd] in L2 |- *. subst s3.
      cbn [set_step]. unfold show, set_Insert. rewrite (bind_eq _ _ _ _ _ (Len_eq _)), (bind_eq _ _ _ _ _ Ei), (bind_eq _ _ _ _ _ (Len_eq _)). cbn. rewrite <- Ev. now destruct s2.
    - (* InsertN *) cbn [flat run]. pose proof (step_len s) as L1. destruct (x_step impl (XCall MLen : xop) s) as [r1 s1]. cbn [snd] in L1. subst s1. rewrite run_snoc. cbn [snd]. rewrite step_len. destruct (loop_ins ks _ _ R) as (L & Lv & _).
      cbn [set_step]. unfold show, set_InsertN. rewrite (bind_eq _ _ _ _ _ (Len_eq _)), (bind_eq _ _ _ _ _ L), (bind_eq _ _ _ _ _ (Len_eq _)). cbn. rewrite <- Lv. now destruct (snd (run _ _ _)).
    - (* RemoveN *) cbn [flat run]. pose proof (step_len s) as L1. destruct (x_step impl (XCall MLen : xop) s) as [r1 s1]. cbn [snd] in L1. subst s1. rewrite run_snoc. cbn [snd]. rewrite step_len. destruct (loop_rem ks _ _ R) as (L & Lv & _).
      cbn [set_step]. unfold show, set_RemoveN. rewrite (bind_eq _ _ _ _ _ (Len_eq _)), (bind_eq _ _ _ _ _ L), (bind_eq _ _ _ _ _ (Len_eq _)). cbn. rewrite <- Lv. now destruct (snd (run _ _ _)).
    - (* Keys *) cbn [flat run x_step map_step set_step]. unfold set_Keys. rewrite show_snd. pose proof (iter_same (fst s)) as Ei. unfold show. destruct (walk Iterate (fst s)) as [ri ci]. cbn [snd] in Ei. subst ci. rewrite (bind_eq _ _ _ _ _ (SRel_len impl lt Hk h0 _ _ Rs)). assert (zlen (elems e) <? 0 = false) as -> by (unfold zlen; lia). unfold set_ForEach. rewrite ForEach_same. destruct ri; reflexivity.
    - cbn [flat run x_step map_step set_step]. rewrite show_snd, si_walk_walk. change (set_LowerBound impl k) with (LowerBound impl k). unfold show. destruct (walk _ (fst s)) as [[| |] ?]; reflexivity.
    - cbn [flat run x_step map_step set_step]. rewrite show_snd, si_walk_walk. change (set_UpperBound impl k) with (UpperBound impl k). unfold show. destruct (walk _ (fst s)) as [[| |] ?]; reflexivity.
    - cbn [flat run x_step map_step set_step]. rewrite show_snd, si_walk_walk. change (set_FindRange impl first last) with (FindRange impl first last). unfold show. destruct (walk _ (fst s)) as [[| |] ?]; reflexivity. }
  rewrite <- Es. cbn [t_step t_spec fst]. rewrite <- Er. unfold bind, t_lift, ret. destruct (set_step impl c (fst s)) as [[r| |] c']; reflexivity.
Qed.
Lemma single o sp s : XRel lt sp s -> (exists x, flat o = [x]) -> t_spec lt o sp = exec (x_spec lt) (tr1 o) sp -> t_step impl o s = exec (x_step impl) (tr1 o) s ->
  t_spec lt o sp = exec (x_spec lt) (tr1 o) sp /\ t_step impl o s = exec (x_step impl) (tr1 o) s /\
  snd (t_step impl o s) = snd (run (x_step impl) (flat o) s) /\ snd (t_spec lt o sp) = snd (run (x_spec lt) (flat o) sp).
Proof using Hk. intros R Hf E1 E2. rewrite E1, E2. destruct (exec_run o _ _ R) as [E3 E4]; [right; auto|]. rewrite E3, E4. auto. Qed.
Lemma op_ok o sp s : XRel lt sp s ->
  t_spec lt o sp = exec (x_spec lt) (tr1 o) sp /\ t_step impl o s = exec (x_step impl) (tr1 o) s /\
  snd (t_step impl o s) = snd (run (x_step impl) (flat o) s) /\ snd (t_spec lt o sp) = snd (run (x_spec lt) (flat o) sp).
Proof using Hk.
  intros R. destruct o as [c| | | | | |].
  - destruct (call_spec c _ _ R) as [Sh E]. destruct (exec_run _ _ _ R Sh) as [E1 E2]. rewrite (call_step c _ _ R), E1, <- E2, E. auto.
  - apply (single _ _ _ R); [eexists; reflexivity|destruct sp; reflexivity|]. cbn. unfold t_bind, bind_var, bind, t_lift. change (set_LowerBound impl k) with (LowerBound impl k). destruct (LowerBound impl k (fst s)) as [[| |] ?]; reflexivity.
  - apply (single _ _ _ R); [eexists; reflexivity|destruct sp; reflexivity|]. cbn. unfold t_bind, bind_var, bind, t_lift. change (set_UpperBound impl k) with (UpperBound impl k). destruct (UpperBound impl k (fst s)) as [[| |] ?]; reflexivity.
  - apply (single _ _ _ R); [eexists; reflexivity|destruct sp; reflexivity|]. cbn. unfold t_bind, bind_var, bind, t_lift. change (set_FindRange impl first last) with (FindRange impl first last). destruct (FindRange impl first last (fst s)) as [[| |] ?]; reflexivity.
  - apply (single _ _ _ R); [eexists; reflexivity| |].
    + destruct sp as [e vars]; cbn; destruct (nth_error vars x); reflexivity.
    + cbn. unfold t_use. destruct (nth_error (snd s) x); reflexivity.
  - apply (single _ _ _ R); [eexists; reflexivity| |].
    + destruct sp as [e vars]; cbn; destruct (nth_error vars x) as [[[i|] en]|]; cbn; auto. destruct (next_of i e); reflexivity.
    + cbn. unfold t_use. destruct (nth_error (snd s) x) as [it|]; [|reflexivity]. unfold move_var, bind, t_lift. change (si_MoveToNext it) with (MoveToNext (K := K) (V := unit) it). destruct (MoveToNext it (fst s)) as [[| |] ?]; reflexivity.
  - apply (single _ _ _ R); [eexists; reflexivity| |].
    + destruct sp as [e vars]; cbn; destruct (nth_error vars x) as [[[i|] en]|]; cbn; auto. destruct (pair_of i e); reflexivity.
    + cbn. unfold t_use. destruct (nth_error (snd s) x) as [it|]; [|reflexivity]. unfold with_vars, bind, t_lift. change (si_Value it) with (Key (K := K) (V := unit) it). destruct (Key it (fst s)) as [[| |] ?]; reflexivity.
Qed.
(** *** Histories *)
Lemma run_flat (ops : list (top K S0)) : forall sp s, XRel lt sp s ->
  fst (run (t_step impl) ops s) = fst (run (t_spec lt) ops sp) /\ snd (run (t_step impl) ops s) = snd (run (x_step impl) (flat_map flat ops) s) /\ snd (run (t_spec lt) ops sp) = snd (run (x_spec lt) (flat_map flat ops) sp).
Proof using Hk.
  induction ops as [|o ops IH]; intros sp s R; cbn [run flat_map]; auto. destruct (op_ok o _ _ R) as (E1 & E2 & E3 & E4). destruct (xrun impl lt Hk (flat o) _ _ R) as [_ R1]. rewrite <- E3, <- E4 in R1. rewrite !run_app. rewrite <- E3, <- E4.
  assert (Ef : fst (t_step impl o s) = fst (t_spec lt o sp)).
  { destruct o as [c| | | | | |]; [rewrite (call_step c _ _ R); reflexivity|..]; rewrite E1, E2; match goal with |- fst (exec _ (tr1 ?oo) _) = _ => rewrite (proj1 (exec_run oo _ _ R (or_intror (ex_intro _ _ eq_refl)))); reflexivity end. }
  destruct (t_step impl o s) as [r1 s1], (t_spec lt o sp) as [r2 sp1]. cbn [fst snd] in *. subst r2. destruct (IH _ _ R1) as (F1 & F2 & F3). destruct (run (t_step impl) ops s1), (run (t_spec lt) ops sp1). cbn [fst snd] in *. split; [congruence|]. auto.
Qed.
(** *** Callbacks *)
Lemma exec_trans {A} Q (p : tprog K S0 A) : forall e h (vars : list xvar) (c : list (slnode K unit) * sklist) ch (cvars : list iter), only Q p -> XRel lt (e, h :: vars) (c, ch :: cvars) -> forward lt e ->
  exec (t_spec lt) p (e, vars) = exec (x_spec lt) (trans p) (e, vars) /\ exec (t_step impl) p (c, cvars) = exec (x_step impl) (trans p) (c, cvars).
Proof using Hk.
  induction p as [a|o rest IH]; intros e h vars c ch cvars On R F; cbn [exec trans]; auto. inversion On as [|? ? Qo On']; subst. destruct (op_ok o _ _ (XRel_drop _ _ _ _ _ _ _ R)) as (E1 & E2 & _). rewrite !exec_pbind. unfold bind. rewrite E1, E2.
  destruct (exec_ok impl lt Hk (fun _ => True) (tr1 o) e h vars c ch cvars) as (r & e' & vars' & c' & cvars' & Es & Ec & R' & F' & _); auto. { apply only_seqp. auto. }
  rewrite Es, Ec. destruct r as [r| |]; auto. now apply (IH r _ h _ _ ch).
Qed.
Lemma t_each_trans {St} (op : St -> K -> tprog K S0 (bool * St)) fuel : forall q st e (vars : list xvar) (c : list (slnode K unit) * sklist) (p : ptr) (cvars : list iter), XRel lt (e, (q, None) :: vars) (c, (p, None) :: cvars) -> forward lt e ->
  t_each_spec lt op fuel q st (e, vars) = each_spec lt give_value (fun st k _ => trans (op st k)) fuel q st (e, vars) /\ t_each impl op fuel p st (c, cvars) = each impl pass_value (fun st k _ => trans (op st k)) fuel p st (c, cvars).
Proof using Hk.
  induction fuel as [|fuel IH]; intros q st e vars c p cvars R F; [auto|]. pose proof (XRel_nil lt _ _ _ _ _ _ _ _ R) as En. cbn [t_each_spec each_spec t_each each]. rewrite En. destruct q as [i|]; [|auto].
  destruct (cursor_key lt _ _ _ _ _ _ R) as (k & v & Ep & Ik & Lk & Lv). destruct (exec_trans (fun _ => True) (op st k) _ _ _ _ _ _ ltac:(clear; induction (op st k); constructor; auto) R F) as [X1 X2].
  destruct (exec_ok impl lt Hk (fun _ => True) (trans (op st k)) _ _ _ _ _ _ ltac:(clear; induction (trans (op st k)); constructor; auto) R F) as (r & e' & vars' & c' & cvars' & Es & Ec & R' & F' & _).
  assert (B1 : t_lift (ld_key p) (c, cvars) = (Ok k, (c, cvars))) by (unfold t_lift; cbn [fst snd]; now rewrite Lk). assert (B2 : t_lift (ld_value p) (c, cvars) = (Ok v, (c, cvars))) by (unfold t_lift; cbn [fst snd]; now rewrite Lv).
  assert (B3 : forall B (g : K -> M SS B), bind (fun s : SS => (match pair_of i (fst s) with Some p => Ok (fst p) | None => Panic end, s)) g (e, vars) = g k (e, vars)). { intros B g. unfold bind. cbn [fst]. rewrite Ep. reflexivity. }
  assert (B4 : give_value i (e, vars) = (Ok v, (e, vars))) by (unfold give_value; cbn [fst]; now rewrite Ep).
  split.
  - etransitivity; [apply B3|]. etransitivity; [|symmetry; apply B3]. etransitivity; [|symmetry; apply (bind_eq _ _ _ _ _ B4)]. unfold bind. rewrite X1, Es. destruct r as [[[|] st']| |]; cbn [fst snd]; auto.
    destruct (cursor_next lt _ _ _ _ _ _ R') as (q' & p' & En' & Ln & R3). rewrite En'. now apply (IH q' st' e' vars' c' p' cvars').
  - etransitivity; [apply (bind_eq _ _ _ _ _ B1)|]. etransitivity; [apply (bind_eq _ _ _ _ _ B2)|]. etransitivity; [|symmetry; apply (bind_eq _ _ _ _ _ B1)]. etransitivity; [|symmetry; apply (bind_eq _ _ _ _ _ B2)]. unfold bind. rewrite X2, Ec. destruct r as [[[|] st']| |]; cbn [fst snd]; auto.
    destruct (cursor_next lt _ _ _ _ _ _ R') as (q' & p' & En' & Ln & R3). unfold t_lift, lift. cbn [fst snd]. rewrite Ln. now apply (IH q' st' e' vars' c' p' cvars').
Qed.
End Sim.
