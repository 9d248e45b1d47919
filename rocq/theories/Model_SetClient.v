(** A client of /repo/skiplist_set.go that keeps iterators in variables, and the
    ForEach methods with callbacks that use the set themselves. *)
From Verif Require Import Base Nodes Spec Trace Spec_List Spec_Map Spec_Set Model_SkipList Model_SkipListSet Spec_Client Spec_SkipIter Spec_SetClient.

Section Client.
Context {K S0 : Type}.
Variable impl : @slimpl K unit.
Notation SP := (P (slnode K unit) sklist).
Notation CS := ((list (slnode K unit) * sklist) * list iter)%type.
Definition t_lift {A} (p : SP A) : M CS A := fun s => let '(r, h) := p (fst s) in (r, (h, snd s)).

(** Client code, not in /repo: the variables hold iterators (node, end). *)
Definition t_bind (p : SP iter) : M CS (tres K S0) := it <- t_lift p ;; (fun s => (Ok TDone, (fst s, snd s ++ [it]))).
Definition t_use (x : nat) (f : iter -> M CS (tres K S0)) : M CS (tres K S0) :=
  fun s => match nth_error (snd s) x with Some it => f it s | None => (Ok TDone, s) end.
Definition t_step (o : top K S0) : M CS (tres K S0) :=
  match o with
  | TCall c => r <- t_lift (set_step impl c) ;; ret (TSet r)
  | TLower k => t_bind (set_LowerBound impl k)
  | TUpper k => t_bind (set_UpperBound impl k)
  | TRange a b => t_bind (set_FindRange impl a b)
  | TIsNotEnd x => t_use x (fun it => ret (TBool (si_IsNotEnd it)))
  | TMoveToNext x => t_use x (fun it => it' <- t_lift (si_MoveToNext it) ;; (fun s => (Ok TDone, (fst s, upd x it' (snd s)))))
  | TValue x => t_use x (fun it => k <- t_lift (si_Value it) ;; ret (TValueIs k))
  end.

(** skiplist_set.go:83-90 ForEach and ForEachIf: s.asMap().ForEach(func(k K, s
    struct{}) { f(k) }), with the loop of skiplist.go:173-177 and 187-193; the
    number of iterations is bounded by [fuel]. *)
Fixpoint t_each {St} (op : St -> K -> tprog K S0 (bool * St)) (fuel : nat) (e : ptr) (st : St) : M CS St :=
  match fuel with
  | O => nofuel
  | S fuel' =>
    if is_nil e then ret st else
    k <- t_lift (ld_key e) ;; _ <- t_lift (ld_value e) ;; r <- exec t_step (op st k) ;;
    if fst r then e' <- t_lift (ld_next e 0) ;; t_each op fuel' e' (snd r) else ret (snd r)
  end.
Definition t_from_head {St} (op : St -> K -> tprog K S0 (bool * St)) (fuel : nat) (st : St) : M CS St :=
  h <- t_lift (hget sl_head) ;; e <- t_lift (ld_next h 0) ;; t_each op fuel e st.
Definition set_ForEach_re {St} (f : St -> K -> tprog K S0 St) := t_from_head (fun st k => always (f st k)).
Definition set_ForEachIf_re {St} (f : St -> K -> tprog K S0 (bool * St)) := t_from_head f.
End Client.
