(** Sorted maps whose elements have identities, and client variables that hold
    iterators and pointers over any calls, also over the removal of the element
    they stand on. *)
From Verif Require Import Base Spec Spec_Map.

(** Statements of a client.  Variables are numbered in the order of their
    declaration. *)
Inductive xop (K V St : Type) :=
| XCall (o : mop K V St)                                  (* any method call *)
| XIterate | XLower (k : K) | XUpper (k : K) | XRange (first last : K)   (* it := sl.Iterate() ... *)
| XFind (k : K)                                           (* p := sl.Find(k) *)
| XPointer (x : nat)                                      (* p := it.Pointer() *)
| XIsNotEnd (x : nat)                                     (* it.IsNotEnd(); p != nil *)
| XMoveToNext (x : nat) | XKey (x : nat) | XValue (x : nat)   (* it.Value(); *p *)
| XStore (x : nat) (v : V).                               (* *it.Pointer() = v; *p = v *)
Arguments XCall {K V St}. Arguments XIterate {K V St}. Arguments XLower {K V St}. Arguments XUpper {K V St}. Arguments XRange {K V St}.
Arguments XFind {K V St}. Arguments XPointer {K V St}. Arguments XIsNotEnd {K V St}. Arguments XMoveToNext {K V St}. Arguments XKey {K V St}.
Arguments XValue {K V St}. Arguments XStore {K V St}.
(** What a statement shows. *)
Inductive xres (K V St : Type) := XMap (r : mres K V St) | XDone | XBool (b : bool) | XKeyIs (k : K) | XValueIs (v : V).
Arguments XMap {K V St}. Arguments XDone {K V St}. Arguments XBool {K V St}. Arguments XKeyIs {K V St}. Arguments XValueIs {K V St}.

Section Spec.
Context {K V St : Type}.
Variable lt : K -> K -> bool.
(** The stored elements in order, with their identities; the removed ones, each
    with the element that stood behind it when it was removed; and the number of
    elements made so far, which is the next identity. *)
Record estate := mkE { e_live : list (nat * (K * V)); e_gone : list (nat * (K * V) * option nat); e_made : nat }.
Definition first_id (l : list (nat * (K * V))) : option nat := match l with [] => None | e :: _ => Some (fst e) end.
Fixpoint behind (i : nat) (l : list (nat * (K * V))) : option (option nat) :=
  match l with [] => None | e :: r => if Nat.eqb (fst e) i then Some (first_id r) else behind i r end.
Definition find_id (i : nat) (l : list (nat * (K * V))) : option (K * V) := option_map snd (find (fun e => Nat.eqb (fst e) i) l).

(** The pair of an element, the element behind it, writing its value. *)
Definition pair_of (i : nat) (s : estate) : option (K * V) := find_id i (e_live s ++ map fst (e_gone s)).
Definition next_of (i : nat) (s : estate) : option (option nat) :=
  match behind i (e_live s) with
  | Some n => Some n
  | None => option_map snd (find (fun g => Nat.eqb (fst (fst g)) i) (e_gone s))
  end.
Definition write (i : nat) (v : V) (e : nat * (K * V)) : nat * (K * V) := if Nat.eqb (fst e) i then (fst e, (fst (snd e), v)) else e.
Definition store (i : nat) (v : V) (s : estate) : estate :=
  mkE (map (write i v) (e_live s)) (map (fun g => (write i v (fst g), snd g)) (e_gone s)) (e_made s).

(** The elements with p leave. *)
Fixpoint leaving (p : K * V -> bool) (l : list (nat * (K * V))) : list (nat * (K * V) * option nat) :=
  match l with [] => [] | e :: r => if p (snd e) then (e, first_id r) :: leaving p r else leaving p r end.
Definition retire (p : K * V -> bool) (s : estate) : estate :=
  mkE (filter (fun e => negb (p (snd e))) (e_live s)) (leaving p (e_live s) ++ e_gone s) (e_made s).
(** The pairs change in place. *)
Definition repair (m : list (K * V)) (s : estate) : estate := mkE (combine (map fst (e_live s)) m) (e_gone s) (e_made s).
Definition calls (o : mop K V St) (s : estate) : estate :=
  let m := map snd (e_live s) in
  match o with
  | MInsert k v _ =>
    if has lt k m then repair (insert lt k v m) s
    else mkE (filter (fun e => lt (fst (snd e)) k) (e_live s) ++ (e_made s, (k, v)) :: filter (fun e => lt k (fst (snd e))) (e_live s)) (e_gone s) (S (e_made s))
  | MRemove k => retire (fun p => eqv lt (fst p) k) s
  | MClear => retire (fun _ => true) s
  | _ => repair (snd (map_spec lt o m)) s
  end.

(** A variable: the element it stands on and the one it ends at; nil is None. *)
Definition xvar := (option nat * option nat)%type.
Definition same_id (a b : option nat) : bool :=
  match a, b with Some i, Some j => Nat.eqb i j | None, None => true | _, _ => false end.
Definition declare (it : xvar) (st : estate * list xvar) : outcome (xres K V St) * (estate * list xvar) := (Ok XDone, (fst st, snd st ++ [it])).
(** Using a nil iterator or pointer panics. *)
Definition at_element {B} (it : xvar) (st : B) (f : nat -> outcome (xres K V St) * B) : outcome (xres K V St) * B :=
  match fst it with Some i => f i | None => (Panic, st) end.
Definition x_spec (o : xop K V St) (st : estate * list xvar) : outcome (xres K V St) * (estate * list xvar) :=
  let '(s, vars) := st in
  let use x f := match nth_error vars x with Some it => f it | None => (Ok XDone, st) end in
  match o with
  | XCall c => (omap XMap (fst (map_spec lt c (map snd (e_live s)))), (calls c s, vars))
  | XIterate => declare (first_id (e_live s), None) st
  | XLower k => declare (first_id (filter (fun e => negb (lt (fst (snd e)) k)) (e_live s)), None) st
  | XUpper k => declare (first_id (filter (fun e => lt k (fst (snd e))) (e_live s)), None) st
  | XRange a b => declare (first_id (filter (fun e => negb (lt (fst (snd e)) a)) (e_live s)), first_id (filter (fun e => lt b (fst (snd e))) (e_live s))) st
  | XFind k => declare (first_id (filter (fun e => eqv lt (fst (snd e)) k) (e_live s)), None) st
  | XPointer x => use x (fun it => at_element it st (fun i => declare (Some i, None) st))
  | XIsNotEnd x => use x (fun it => (Ok (XBool (negb (same_id (fst it) (snd it)))), st))
  | XMoveToNext x => use x (fun it => at_element it st (fun i =>
      match next_of i s with Some n => (Ok XDone, (s, upd x (n, snd it) vars)) | None => (Panic, st) end))
  | XKey x => use x (fun it => at_element it st (fun i => match pair_of i s with Some p => (Ok (XKeyIs (fst p)), st) | None => (Panic, st) end))
  | XValue x => use x (fun it => at_element it st (fun i => match pair_of i s with Some p => (Ok (XValueIs (snd p)), st) | None => (Panic, st) end))
  | XStore x v => use x (fun it => at_element it st (fun i => (Ok XDone, (store i v s, vars))))
  end.
(** The statement inserts k; it removes every key equivalent to k. *)
Definition inserts (o : xop K V St) (k : K) : Prop := exists v r, o = XCall (MInsert k v r).
Definition removes (o : xop K V St) (k : K) : Prop := (exists k', o = XCall (MRemove k') /\ eqv lt k k' = true) \/ o = XCall MClear.
End Spec.
Arguments estate : clear implicits.
Definition e_empty {K V} : estate K V := mkE [] [] 0.
