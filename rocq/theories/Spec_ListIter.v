(** Lists whose elements have identities, as clients with kept iterators see
    them: what is stored, what was removed and where removed elements lead. *)
From Verif Require Import Base Spec Trace Spec_List Spec_Client.

Section World.
Context {T Q : Type}.
(** The stored elements in order, with their identities; the removed ones, each
    with the place Q an iterator left on it moves to; and the number of elements
    made so far, which is the next identity. *)
Record lworld := mkW { w_live : list (nat * T); w_gone : list (nat * T * Q); w_made : nat }.
Implicit Types (w : lworld).
(** The place reached from an element with this element behind it, if any. *)
Variable to : option nat -> Q.
Definition first_id (l : list (nat * T)) : option nat := match l with [] => None | e :: _ => Some (fst e) end.
Fixpoint behind (i : nat) (l : list (nat * T)) : option (option nat) :=
  match l with [] => None | e :: r => if Nat.eqb (fst e) i then Some (first_id r) else behind i r end.
Definition values w : list T := map snd (w_live w).
Definition value_of (i : nat) w : option T := option_map snd (find (fun e => Nat.eqb (fst e) i) (w_live w ++ map fst (w_gone w))).
Definition next_of (i : nat) w : option Q :=
  match behind i (w_live w) with
  | Some n => Some (to n)
  | None => option_map snd (find (fun g => Nat.eqb (fst (fst g)) i) (w_gone w))
  end.
Definition write (i : nat) (v : T) (e : nat * T) : nat * T := if Nat.eqb (fst e) i then (fst e, v) else e.
Definition store (i : nat) (v : T) w : lworld :=
  mkW (map (write i v) (w_live w)) (map (fun g => (write i v (fst g), snd g)) (w_gone w)) (w_made w).
(** The changes of the list. *)
Definition push_front (v : T) w : lworld := mkW ((w_made w, v) :: w_live w) (w_gone w) (S (w_made w)).
Definition push_back (v : T) w : lworld := mkW (w_live w ++ [(w_made w, v)]) (w_gone w) (S (w_made w)).
(** The first or last element leaves; an iterator on it moves to q. *)
Definition pop_front (q : option nat -> Q) w : lworld :=
  match w_live w with [] => w | e :: r => mkW r ((e, q (first_id r)) :: w_gone w) (w_made w) end.
Definition pop_back (q : Q) w : lworld :=
  match rev (w_live w) with [] => w | e :: r => mkW (rev r) ((e, q) :: w_gone w) (w_made w) end.
(** All leave together, still leading to each other. *)
Fixpoint leaving (l : list (nat * T)) : list (nat * T * Q) :=
  match l with [] => [] | e :: r => (e, to (first_id r)) :: leaving r end.
Definition clear w : lworld := mkW [] (leaving (w_live w) ++ w_gone w) (w_made w).
Definition reverse w : lworld := mkW (rev (w_live w)) (w_gone w) (w_made w).
(** The values change in place. *)
Definition revalue (xs : list T) w : lworld := mkW (combine (map fst (w_live w)) xs) (w_gone w) (w_made w).
End World.
Arguments lworld : clear implicits.
Definition w_empty {T Q} : lworld T Q := mkW [] [] 0.

(** Pure steps as programs. *)
Definition pure {S A} (f : S -> outcome A) : M S A := fun s => (f s, s).
Definition some_or_panic {A} (o : option A) : outcome A := match o with Some a => Ok a | None => Panic end.

(** A singly linked list.  Iterators stand on an element or at the end, where only
    IsNotEnd may be asked.  An element popped or cleared still leads to the element
    that was behind it. *)
Section SListSpec.
Context {T St : Type}.
Notation W := (lworld T (option nat)).
Definition sl_world (o : sop T St) (w : W) : W :=
  match o with
  | LPushFront v => push_front v w
  | LPushBack v => push_back v w
  | LPopFront => pop_front (fun q => q) w
  | LReverse => reverse w
  | LClear => clear (fun q => q) w
  | _ => revalue (snd (slist_spec o (values w))) w
  end.
Definition on_element {A} (p : option nat) (f : nat -> M W A) : M W A := match p with Some i => f i | None => panic end.
Definition sl_spec : listing (sop T St) (res T St) T W (option nat) := {|
  l_call o := fun w => (fst (slist_spec o (values w)), sl_world o w);
  l_iterate := pure (fun w => Ok (first_id (w_live w)));
  l_pointer p := on_element p (fun _ => ret tt);
  l_more p := ret (match p with Some _ => true | None => false end);
  l_next p := on_element p (fun i => pure (fun w => some_or_panic (next_of (fun q => q) i w)));
  l_value p := on_element p (fun i => pure (fun w => some_or_panic (value_of i w)));
  l_store p v := on_element p (fun i => fun w => (Ok tt, store i v w)) |}.
End SListSpec.

(** A doubly linked list.  The end is a place of its own, which exists from the
    first push on, holds a value (at first the zero value) and leads to the first
    element.  A popped element leads nowhere; cleared elements still lead to each
    other and to the end. *)
Inductive place := Nowhere | End | At (i : nat).
Definition to_place (q : option nat) : place := match q with Some i => At i | None => End end.
Section DListSpec.
Context {T St : Type}.
Variable zero : T.
Record dworld := mkDW { dw_list : lworld T place; dw_end : option T }.
Definition with_end (w : dworld) : option T := Some (match dw_end w with Some z => z | None => zero end).
Definition on_world (f : lworld T place -> lworld T place) (w : dworld) : dworld := mkDW (f (dw_list w)) (dw_end w).
Definition dl_world (o : dop T St) (w : dworld) : dworld :=
  match o with
  | DPushFront v => mkDW (push_front v (dw_list w)) (with_end w)
  | DPushBack v => mkDW (push_back v (dw_list w)) (with_end w)
  | DPopFront | DTryPopFront => on_world (pop_front (fun _ => Nowhere)) w
  | DPopBack | DTryPopBack => on_world (pop_back Nowhere) w
  | DClear => on_world (clear to_place) w
  | _ => on_world (revalue (snd (dlist_spec zero o (values (dw_list w))))) w
  end.
Definition exists_end (w : dworld) : bool := match dw_end w with Some _ => true | None => false end.
Definition dl_next (p : place) (w : dworld) : outcome place :=
  match p with
  | Nowhere => Panic
  | End => if exists_end w then Ok (to_place (first_id (w_live (dw_list w)))) else Panic
  | At i => some_or_panic (next_of to_place i (dw_list w))
  end.
Definition dl_value (p : place) (w : dworld) : outcome T :=
  match p with
  | Nowhere => Panic
  | End => some_or_panic (dw_end w)
  | At i => some_or_panic (value_of i (dw_list w))
  end.
Definition dl_store (p : place) (v : T) : M dworld unit :=
  match p with
  | Nowhere => panic
  | End => fun w => (Ok tt, mkDW (dw_list w) (Some v))
  | At i => fun w => (Ok tt, on_world (store i v) w)
  end.
(** Before the first push an iterator stands nowhere, and that is then the end. *)
Definition dl_spec : listing (dop T St) (res T St) T dworld place := {|
  l_call o := fun w => (fst (dlist_spec zero o (values (dw_list w))), dl_world o w);
  l_iterate := pure (fun w => Ok (if exists_end w then to_place (first_id (w_live (dw_list w))) else Nowhere));
  l_pointer p := match p with Nowhere => panic | _ => ret tt end;
  l_more p := pure (fun w => Ok (match p with At _ => true | End => false | Nowhere => exists_end w end));
  l_next p := pure (dl_next p);
  l_value p := pure (dl_value p);
  l_store p v := dl_store p v |}.
End DListSpec.
Arguments dworld : clear implicits.
Definition dw_empty {T} : dworld T := mkDW w_empty None.

(** Statements that neither append nor reverse, remove by popping (DList only), or write values. *)
Definition sl_appends {T St} (o : iop (sop T St) T) : Prop := match o with ICall (LPushBack _) | ICall LReverse => True | _ => False end.
Definition sl_writes {T St} (o : iop (sop T St) T) : Prop :=
  match o with ICall (LForEachMutable _ _) | ICall (LForEachMutableIf _ _) | ICall (LIterSet _ _) | IStore _ _ => True | _ => False end.
Definition dl_appends {T St} (o : iop (dop T St) T) : Prop := match o with ICall (DPushBack _) => True | _ => False end.
Definition dl_pops {T St} (o : iop (dop T St) T) : Prop :=
  match o with ICall DPopFront | ICall DPopBack | ICall DTryPopFront | ICall DTryPopBack => True | _ => False end.
Definition dl_writes {T St} (o : iop (dop T St) T) : Prop :=
  match o with ICall (DForEachMutable _ _) | ICall (DForEachMutableIf _ _) | ICall (DIterSet _ _) | IStore _ _ => True | _ => False end.
(** The number of elements a statement adds. *)
Definition sl_pushes {T St} (o : iop (sop T St) T) : nat := match o with ICall (LPushFront _) | ICall (LPushBack _) => 1 | _ => 0 end.
Definition dl_pushes {T St} (o : iop (dop T St) T) : nat := match o with ICall (DPushFront _) | ICall (DPushBack _) => 1 | _ => 0 end.
Definition total {A} (f : A -> nat) (l : list A) : nat := fold_right (fun x n => f x + n)%nat 0%nat l.
