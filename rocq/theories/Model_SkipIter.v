(** A client of /repo/skiplist.go that keeps iterators and value pointers in
    variables. *)
From Verif Require Import Base Nodes Spec Trace Spec_List Spec_Map Model_SkipList Spec_SkipIter.
Section Client.
Context {K V St : Type}.
Variable impl : @slimpl K V.
Notation SP := (P (slnode K V) sklist).
Notation state := (list (slnode K V) * sklist)%type.
(** skiplist.go:235-237 Pointer: &it.node.value; a nil dereference if the node
    is nil.  The pointer is represented by the node. *)
Definition Pointer (it : iter) : SP ptr := _ <- pload (fst it) ;; ret (fst it).

(** Client code, not in /repo.  A variable is an iterator (node, end), or a
    value pointer with the node it points into and end nil, so that IsNotEnd is
    p != nil. *)
Definition bind_var (p : SP iter) (st : state * list iter) : outcome (xres K V St) * (state * list iter) :=
  let '(r, s) := p (fst st) in
  match r with Ok it => (Ok XDone, (s, snd st ++ [it])) | Panic => (Panic, (s, snd st)) | NoFuel => (NoFuel, (s, snd st)) end.
Definition move_var (x : nat) (it : iter) (st : state * list iter) : outcome (xres K V St) * (state * list iter) :=
  let '(r, s) := MoveToNext it (fst st) in
  match r with Ok it' => (Ok XDone, (s, upd x it' (snd st))) | Panic => (Panic, (s, snd st)) | NoFuel => (NoFuel, (s, snd st)) end.
Definition with_vars {A} (f : A -> xres K V St) (p : SP A) (st : state * list iter) : outcome (xres K V St) * (state * list iter) :=
  let '(r, s) := p (fst st) in (omap f r, (s, snd st)).
Definition x_step (o : xop K V St) (st : state * list iter) : outcome (xres K V St) * (state * list iter) :=
  let use x f := match nth_error (snd st) x with Some it => f it | None => (Ok XDone, st) end in
  match o with
  | XCall c => let '(r, s) := map_step impl c (fst st) in (omap XMap r, (s, snd st))
  | XIterate => bind_var Iterate st
  | XLower k => bind_var (LowerBound impl k) st
  | XUpper k => bind_var (UpperBound impl k) st
  | XRange a b => bind_var (FindRange impl a b) st
  | XFind k => bind_var (p <- Find impl k ;; ret (p, None)) st
  | XPointer x => use x (fun it => bind_var (p <- Pointer it ;; ret (p, None)) st)
  | XIsNotEnd x => use x (fun it => (Ok (XBool (IsNotEnd it)), st))
  | XMoveToNext x => use x (fun it => move_var x it st)
  | XKey x => use x (fun it => with_vars XKeyIs (Key it) st)
  | XValue x => use x (fun it => with_vars XValueIs (Value it) st)
  | XStore x v => use x (fun it => with_vars (fun _ => XDone) (Pointer_store it v) st)
  end.
End Client.
