(** The ForEach methods of /repo/skiplist.go with callbacks that use the list
    themselves.  A callback body is a [prog] over the statements of
    Model_SkipIter.v.  Such a loop may run forever, so the number of iterations
    is bounded by the argument [fuel]. *)
From Verif Require Import Base Nodes Spec Trace Spec_List Spec_Map Model_SkipList Spec_Client Spec_SkipIter Model_SkipIter Spec_SkipReenter.
Section Reenter.
Context {K V S0 St : Type}.
Variable impl : @slimpl K V.
Notation CS := ((list (slnode K V) * sklist) * list iter)%type.
Definition lift {A} (p : P (slnode K V) sklist A) : M CS A := fun s => let '(r, h) := p (fst s) in (r, (h, snd s)).
(** The second argument of the callback: e.value, or &e.value in a new variable. *)
Definition pass_value (e : ptr) : M CS V := lift (ld_value e).
Definition pass_pointer (e : ptr) : M CS nat := fun s => (Ok (length (snd s)), (fst s, snd s ++ [(e, None)])).
(** for ; e != nil; e = e.next[0] { if !op(e.key, ...) { return } } *)
Fixpoint each {A} (pass : ptr -> M CS A) (op : St -> K -> A -> xprog K V S0 (bool * St)) (fuel : nat) (e : ptr) (st : St) : M CS St :=
  match fuel with
  | O => nofuel
  | S fuel' =>
    if is_nil e then ret st else
    k <- lift (ld_key e) ;; a <- pass e ;; r <- exec (x_step impl) (op st k a) ;;
    if fst r then e' <- lift (ld_next e 0) ;; each pass op fuel' e' (snd r) else ret (snd r)
  end.
Definition each_from_head {A} (pass : ptr -> M CS A) (op : St -> K -> A -> xprog K V S0 (bool * St)) (fuel : nat) (st : St) : M CS St :=
  h <- lift (hget sl_head) ;; e <- lift (ld_next h 0) ;; each pass op fuel e st.
(** skiplist.go:173-177 ForEach, 180-184 ForEachMutable, 187-193 ForEachIf,
    196-202 ForEachMutableIf. *)
Definition ForEach_re (cb : St -> K -> V -> xprog K V S0 St) := each_from_head pass_value (fun st k v => always (cb st k v)).
Definition ForEachMutable_re (cb : St -> K -> nat -> xprog K V S0 St) := each_from_head pass_pointer (fun st k x => always (cb st k x)).
Definition ForEachIf_re (cb : St -> K -> V -> xprog K V S0 (bool * St)) := each_from_head pass_value cb.
Definition ForEachMutableIf_re (cb : St -> K -> nat -> xprog K V S0 (bool * St)) := each_from_head pass_pointer cb.
End Reenter.
