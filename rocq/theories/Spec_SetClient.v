(** Clients of a sorted set: they keep iterators in variables over any calls, and
    give the ForEach methods callbacks that use the set themselves.  The set is a
    list of elements with identities, as in Spec_SkipIter.v; the values are unit. *)
From Verif Require Import Base Spec Spec_Map Spec_Set Spec_Client Spec_SkipIter.

(** Statements of a client.  Variables are numbered in the order of their
    declaration. *)
Inductive top (K St : Type) :=
| TCall (o : sop K St)                                    (* any method call *)
| TLower (k : K) | TUpper (k : K) | TRange (first last : K)   (* it := s.LowerBound(k) ... *)
| TIsNotEnd (x : nat) | TMoveToNext (x : nat) | TValue (x : nat).
Arguments TCall {K St}. Arguments TLower {K St}. Arguments TUpper {K St}. Arguments TRange {K St}.
Arguments TIsNotEnd {K St}. Arguments TMoveToNext {K St}. Arguments TValue {K St}.
(** What a statement shows. *)
Inductive tres (K St : Type) := TSet (r : sres K St) | TDone | TBool (b : bool) | TValueIs (k : K).
Arguments TSet {K St}. Arguments TDone {K St}. Arguments TBool {K St}. Arguments TValueIs {K St}.
(** A callback body. *)
Notation tprog K S0 A := (prog (top K S0) (tres K S0) A).

Section Spec.
Context {K S0 : Type}.
Variable lt : K -> K -> bool.
Notation estate := (estate K unit).
Notation SS := (estate * list xvar)%type.
(** The elements in order. *)
Definition elems (s : estate) : list K := map (fun e => fst (snd e)) (e_live s).
(** k enters as a new element unless it is there; what is equivalent to k leaves. *)
Definition enter (k : K) (s : estate) : estate :=
  if mem lt k (elems s) then s
  else mkE (filter (fun e => lt (fst (snd e)) k) (e_live s) ++ (e_made s, (k, tt)) :: filter (fun e => lt k (fst (snd e))) (e_live s)) (e_gone s) (S (e_made s)).
Definition leave (k : K) (s : estate) : estate := retire (fun p => eqv lt (fst p) k) s.
Definition set_calls (o : sop K S0) (s : estate) : estate :=
  match o with
  | SInsert k _ => enter k s
  | SInsertN ks => fold_left (fun s p => enter (fst p) s) ks s
  | SRemove k => leave k s
  | SRemoveN ks => fold_left (fun s k => leave k s) ks s
  | SClear => retire (fun _ => true) s
  | _ => s
  end.
Definition t_declare (it : xvar) (st : SS) : outcome (tres K S0) * SS := (Ok TDone, (fst st, snd st ++ [it])).
Definition t_spec (o : top K S0) (st : SS) : outcome (tres K S0) * SS :=
  let '(s, vars) := st in
  (* using an undeclared variable does nothing; a nil iterator panics *)
  let use x f := match nth_error vars x with Some it => f it | None => (Ok TDone, st) end in
  let at_ it f := match fst it with Some i => f i | None => (Panic, st) end in
  match o with
  | TCall c => (omap TSet (fst (set_spec lt c (elems s))), (set_calls c s, vars))
  | TLower k => t_declare (first_id (filter (fun e => negb (lt (fst (snd e)) k)) (e_live s)), None) st
  | TUpper k => t_declare (first_id (filter (fun e => lt k (fst (snd e))) (e_live s)), None) st
  | TRange a b => t_declare (first_id (filter (fun e => negb (lt (fst (snd e)) a)) (e_live s)), first_id (filter (fun e => lt b (fst (snd e))) (e_live s))) st
  | TIsNotEnd x => use x (fun it : xvar => (Ok (TBool (negb (same_id (fst it) (snd it)))), st))
  | TMoveToNext x => use x (fun it : xvar => at_ it (fun i => match next_of i s with Some n => (Ok TDone, (s, upd x (n, snd it) vars)) | None => (Panic, st) end))
  | TValue x => use x (fun it : xvar => at_ it (fun i => match pair_of i s with Some p => (Ok (TValueIs (fst p)), st) | None => (Panic, st) end))
  end.
(** ForEach: from the element q on, call op with the key, until it returns false
    or there is no element behind the current one. *)
Fixpoint t_each_spec {St} (op : St -> K -> tprog K S0 (bool * St)) (fuel : nat) (q : option nat) (st : St) : M SS St :=
  match fuel with
  | O => nofuel
  | S fuel' =>
    match q with
    | None => ret st
    | Some i =>
      k <- (fun s => (match pair_of i (fst s) with Some p => Ok (fst p) | None => Panic end, s)) ;;
      r <- exec t_spec (op st k) ;;
      if fst r then q' <- (fun s => (match next_of i (fst s) with Some n => Ok n | None => Panic end, s)) ;; t_each_spec op fuel' q' (snd r)
      else ret (snd r)
    end
  end.
Definition t_for_each_spec {St} (op : St -> K -> tprog K S0 (bool * St)) (fuel : nat) (st : St) : M SS St :=
  fun s => t_each_spec op fuel (first_id (e_live (fst s))) st s.
(** The statement inserts k; it removes every key equivalent to k. *)
Definition t_inserts (o : top K S0) (k : K) : Prop :=
  (exists r, o = TCall (SInsert k r)) \/ exists ks, o = TCall (SInsertN ks) /\ In k (map fst ks).
Definition t_removes (o : top K S0) (k : K) : Prop :=
  (exists k', o = TCall (SRemove k') /\ eqv lt k k' = true) \/ (exists ks k', o = TCall (SRemoveN ks) /\ In k' ks /\ eqv lt k k' = true) \/ o = TCall SClear.
End Spec.
(** The same callback, noting the keys it is given. *)
Definition t_noting {K S0 St} (op : St -> K -> tprog K S0 St) (st : St * list K) (k : K) : tprog K S0 (St * list K) :=
  pmap (fun r => (r, snd st ++ [k])) (op (fst st) k).
Definition t_noting_if {K S0 St} (op : St -> K -> tprog K S0 (bool * St)) (st : St * list K) (k : K) : tprog K S0 (bool * (St * list K)) :=
  pmap (fun r => (fst r, (snd r, snd st ++ [k]))) (op (fst st) k).
