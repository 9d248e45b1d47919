(** Property C95 (skiplist.go, NewSkipListFunc with a comparison function that
    panics or has side effects).  [contract_of P Q keyCmp]: called in a state of
    its own satisfying P it returns with P or panics with Q; [answers_sign]: what
    it returns has the sign of the three-way order cmp (Spec_Fx.v). *)
From Verif Require Import BaseLemmas Spec Trace Spec_List Spec_Map Spec_Fx Spec_SkipFx Nodes Model_SkipList Proof_SkipList
  Model_SkipFx Proof_SkipFx Props_SkipList.

Section Use.
Context {K V St X : Type}.
Variables (keyCmp : K -> K -> M X Z) (P Q : X -> Prop) (cmp : K -> K -> Z).
Hypothesis C : contract_of P Q keyCmp.
Hypothesis QP : forall x, Q x -> P x.
Hypothesis A : answers_sign P cmp keyCmp.
Hypothesis TW : three_way cmp.
Notation lt := (fun a b => cmp a b <? 0).

Lemma fx_kind : kind (V := V) (implFunc cmp) lt.
Proof using TW. right. exists cmp. auto. Qed.
Lemma fx_step fr (a : list (K * V) * X) s (o : mop K V St) :
  (Rel lt fr (fst a) (fst s) /\ snd a = snd s /\ P (snd s)) ->
  exists a', may_panic lt P Q a o (fst (map_step_fx keyCmp o s)) a' /\
    (Rel lt fr (fst a') (fst (snd (map_step_fx keyCmp o s))) /\ snd a' = snd (snd (map_step_fx keyCmp o s)) /\ P (snd (snd (map_step_fx keyCmp o s)))).
Proof using C QP A TW.
  destruct a as [m xa], s as [s x]. cbn [fst snd]. intros (R & -> & Px).
  destruct (use_call (St := St) (implFunc cmp) lt fx_kind fr o m s R) as [E R1].
  destruct (compares o) eqn:Eo.
  - destruct (step_fx keyCmp P Q cmp C A o s x Px) as (r & s' & x' & Er & [[Eq Px']|(-> & Kp & Qx')]); rewrite Er; cbn [fst snd].
    + rewrite Eq in *. cbn [fst snd] in *. exists (snd (map_spec lt o m), x'). cbn [fst snd]. split; auto. left.
      cbn [fst snd]. split; [rewrite E; now destruct (map_spec lt o m)|]. split; auto. cbn [fst snd]. intros F. rewrite Eo in F. discriminate F.
    + exists (m, x'). cbn [fst snd]. split; [right; auto|]. split; [eapply Rel_kept; eauto|]. split; auto.
  - rewrite (step_fx_quiet keyCmp cmp o s x Eo). cbn [fst snd]. exists (snd (map_spec lt o m), x). cbn [fst snd]. split; auto. left. cbn [fst snd].
    rewrite E. split; [now destruct (map_spec lt o m)|]. auto.
Qed.
End Use.

(** C95: through any sequence of calls, some of which panic in keyCmp and are
    recovered, the list is the sorted map of the calls that did not panic: a call
    that panics leaves the map as it was, every other call shows and does exactly
    what it does on that map. *)
Theorem C95_sorted_map : forall K V St X (keyCmp : K -> K -> M X Z) (P Q : X -> Prop) cmp
  (zk : K) (zv : V) h0 l0 (ops : list (mop K V St)) x,
  contract_of P Q keyCmp -> (forall y, Q y -> P y) -> answers_sign P cmp keyCmp -> three_way cmp -> P x ->
  exists m', accepts (may_panic (fun a b => cmp a b <? 0) P Q) ([], x) ops
    (fst (run (map_step_fx keyCmp) ops (fresh zk zv h0 l0, x)))
    (m', snd (snd (run (map_step_fx keyCmp) ops (fresh zk zv h0 l0, x)))).
Proof.
  intros K V St X keyCmp P Q cmp zk zv h0 l0 ops x C QP A TW Px.
  destruct (run_accepts (map_step_fx keyCmp) (may_panic (fun a b => cmp a b <? 0) P Q)
    (fun a s => Rel (fun a b => cmp a b <? 0) (nth_error h0) (fst a) (fst s) /\ snd a = snd s /\ P (snd s))
    (fx_step keyCmp P Q cmp C QP A TW (nth_error h0)) ops ([], x) (fresh zk zv h0 l0, x)) as ([m' x'] & Ha & _ & E & _).
  - cbn [fst snd]. split; auto. apply fresh_Rel.
  - cbn [fst snd] in *. subst x'. eauto.
Qed.
Print Assumptions C95_sorted_map.

(** C95: a call that panics has changed no node, no link, not the length and not
    the level; only the scratch array prevsCache.  (FindRange also panics when the
    range is reversed, C07.) *)
Theorem C95_panic_changes_nothing : forall K V St X (keyCmp : K -> K -> M X Z) (P Q : X -> Prop) cmp
  (zk : K) (zv : V) h0 l0 (ops : list (mop K V St)) x (o : mop K V St) s1 x1 s2 x2,
  contract_of P Q keyCmp -> (forall y, Q y -> P y) -> answers_sign P cmp keyCmp -> three_way cmp -> P x ->
  snd (run (map_step_fx keyCmp) ops (fresh zk zv h0 l0, x)) = (s1, x1) ->
  map_step_fx keyCmp o (s1, x1) = (Panic, (s2, x2)) -> kept s1 s2.
Proof.
  intros K V St X keyCmp P Q cmp zk zv h0 l0 ops x o s1 x1 s2 x2 C QP A TW Px E1 E2.
  destruct (run_accepts (map_step_fx keyCmp) (may_panic (fun a b => cmp a b <? 0) P Q)
    (fun a s => Rel (fun a b => cmp a b <? 0) (nth_error h0) (fst a) (fst s) /\ snd a = snd s /\ P (snd s))
    (fx_step keyCmp P Q cmp C QP A TW (nth_error h0)) ops ([], x) (fresh zk zv h0 l0, x)) as ([m' x'] & _ & R & E & Px1).
  { cbn [fst snd]. split; auto. apply fresh_Rel. }
  rewrite E1 in *. cbn [fst snd] in *.
  destruct (use_call (St := St) (implFunc cmp) _ (fx_kind cmp TW) _ o m' s1 R) as [Er _].
  assert (Pure : map_step (implFunc cmp) o s1 = (Panic, s2) -> kept s1 s2).
  { intros Ep. rewrite Ep in Er. cbn [fst] in Er. destruct o; cbn [map_spec fst] in Er; try discriminate Er.
    - cbn [map_step] in Ep. pose proof (range_inert (V := V) cmp first last s1) as I. unfold show in Ep.
      destruct (walk (FindRange (implFunc cmp) first last) s1). cbn [snd] in I. now injection Ep as _ <-.
    - match type of Er with context [map_st ?f ?a ?b] => destruct (map_st f a b) end. discriminate Er.
    - match type of Er with context [map_while ?f ?a ?b] => destruct (map_while f a b) end. discriminate Er. }
  destruct (step_fx keyCmp P Q cmp C A o s1 x1 Px1) as (r & s' & x'' & E3 & H). rewrite E2 in E3. injection E3 as <- <- <-.
  destruct H as [[Ep _]|(_ & Kp & _)]; auto.
Qed.
Print Assumptions C95_panic_changes_nothing.

(** C95: with a function that neither panics nor keeps state, every call is the
    call of Model_SkipList.v. *)
Theorem C95_pure : forall K V St X (cmp : K -> K -> Z) (o : mop K V St) s (x : X),
  map_step_fx (fun a b => ret (cmp a b)) o (s, x) =
  (fst (map_step (implFunc cmp) o s), (snd (map_step (implFunc cmp) o s), x)).
Proof.
  intros K V St X cmp o s x.
  assert (C : contract_of (fun y => y = x) (fun _ => False) (fun a b : K => ret (S := X) (cmp a b))) by (intros a b st H; exact H).
  assert (A : answers_sign (fun y => y = x) cmp (fun a b : K => ret (S := X) (cmp a b))).
  { intros a b st r st' H E. injection E as <- _. reflexivity. }
  destruct (step_fx (V := V) _ _ _ cmp C A o s x eq_refl) as (r & s' & x' & E & [[Eq ->]|(_ & _ & [])]).
  rewrite E, Eq. reflexivity.
Qed.
Print Assumptions C95_pure.

(** Concrete case: a comparison function that counts its calls, panics in call
    number k and returns differences of varying size. *)
Definition cmp_panics_at (k : Z) (a b : Z) : M Z Z :=
  fun n => if n =? k then (Panic, n + 1) else (Ok ((n + 1) * (a - b)), n + 1).
Example C95_hyp :
  contract_of (fun n => 0 <= n) (fun n => 0 <= n) (cmp_panics_at 3) /\
  answers_sign (fun n => 0 <= n) Z.sub (cmp_panics_at 3) /\ three_way Z.sub /\
  fst (run (map_step_fx (St := unit) (cmp_panics_at 3))
    [MInsert 2 20 5; MInsert 1 10 7; MInsert 3 30 9; MInsert 4 40 1; MIter; MInsert 4 40 1; MLen; MIter; MFind 3]
    (fresh 0 0 [] (mkSL 0 0 None []), 0)) =
  [Ok MNone; Ok MNone; Panic; Ok MNone; Ok (MSeq [(1, 10); (2, 20); (4, 40)]); Ok MNone; Ok (MInt 3);
   Ok (MSeq [(1, 10); (2, 20); (4, 40)]); Ok (MOpt None)].
Proof.
  split; [|split; [|split]].
  - intros a b n H. unfold cmp_panics_at. destruct (n =? 3); lia.
  - intros a b n r n' H. unfold cmp_panics_at. destruct (n =? 3); [discriminate|]. intros E. injection E as <- _.
    rewrite Z.sgn_mul. rewrite (Z.sgn_pos (n + 1)) by lia. lia.
  - exact Z_three_way.
  - vm_compute. reflexivity.
Qed.
