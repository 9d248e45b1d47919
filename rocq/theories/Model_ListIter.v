(** Clients of /repo/slist.go and /repo/dlist.go with kept iterators and
    pointers, and the ForEach methods of both with callbacks that use the list
    themselves (bounded by a number of iterations, since they may run forever). *)
From Verif Require Import Base Nodes Spec Trace Spec_List Spec_Client.
From Verif Require Model_SList Model_DList.

(** An iterator or value pointer is the pointer to its node: slist.go:173-175
    sListIterator; taking &it.node.value of a nil node panics. *)
Definition slist_listing {T St} (zero : T) : listing (sop T St) (res T St) T (list (Model_SList.snode T) * Model_SList.slist) ptr := {|
  l_call o := Model_SList.slist_step zero o;
  l_iterate := Model_SList.Iterate;
  l_pointer it := pload it ;; ret tt;
  l_more it := Model_SList.IsNotEnd it;
  l_next it := Model_SList.MoveToNext it;
  l_value it := Model_SList.Value it;
  l_store it v := Model_SList.Pointer_store it v |}.
(** dlist.go:49-52 dlistIterator. *)
Definition dlist_listing {T St} (zero : T) : listing (dop T St) (res T St) T (list (Model_DList.dnode T) * Model_DList.dlist) ptr := {|
  l_call o := Model_DList.dlist_step zero o;
  l_iterate := Model_DList.Iterate;
  l_pointer it := pload it ;; ret tt;
  l_more it := Model_DList.IsNotEnd it;
  l_next it := Model_DList.MoveToNext it;
  l_value it := Model_DList.Value it;
  l_store it v := Model_DList.Pointer_store it v |}.

Section SListEach.
Import Model_SList.
Context {T S0 St : Type}.
Variable zero : T.
Notation CS := ((list (snode T) * slist) * list ptr)%type.
Notation sprog := (prog (iop (sop T S0) T) (ires (res T S0) T)).
(** for node := l.head; node != nil; node = node.next { if !cb(...) { break } } *)
Fixpoint slist_each {A} (give : ptr -> M CS A) (cb : St -> A -> sprog (bool * St)) (fuel : nat) (node : ptr) (st : St) : M CS St :=
  match fuel with
  | O => nofuel
  | S fuel' =>
    if is_nil node then ret st else
    a <- give node ;; r <- exec (client (slist_listing zero)) (cb st a) ;;
    if fst r then node' <- on_list (nd <- pload node ;; ret (s_next nd)) ;; slist_each give cb fuel' node' (snd r) else ret (snd r)
  end.
Definition slist_value (node : ptr) : M CS T := on_list (nd <- pload node ;; ret (s_value nd)).
(** &node.value; of a nil node it panics. *)
Definition slist_pointer (node : ptr) : M CS nat := on_list (pload node ;; ret tt) ;; declare node.
Definition slist_from_head {A} (give : ptr -> M CS A) (cb : St -> A -> sprog (bool * St)) (fuel : nat) (st : St) : M CS St :=
  node <- on_list (hget s_head) ;; slist_each give cb fuel node st.
(** slist.go:134-138 ForEach, 142-148 ForEachIf, 151-155 ForEachMutable,
    159-165 ForEachMutableIf. *)
Definition SList_ForEach (cb : St -> T -> sprog St) := slist_from_head slist_value (fun st v => always (cb st v)).
Definition SList_ForEachIf (cb : St -> T -> sprog (bool * St)) := slist_from_head slist_value cb.
Definition SList_ForEachMutable (cb : St -> nat -> sprog St) := slist_from_head slist_pointer (fun st p => always (cb st p)).
Definition SList_ForEachMutableIf (cb : St -> nat -> sprog (bool * St)) := slist_from_head slist_pointer cb.
End SListEach.

Section DListEach.
Import Model_DList.
Context {T S0 St : Type}.
Variable zero : T.
Notation CS := ((list (dnode T) * dlist) * list ptr)%type.
Notation dprog := (prog (iop (dop T S0) T) (ires (res T S0) T)).
(** for n := l.head.next; n != l.head; n = n.next { if !cb(...) { break } } *)
Fixpoint dlist_each {A} (give : ptr -> M CS A) (cb : St -> A -> dprog (bool * St)) (fuel : nat) (n : ptr) (st : St) : M CS St :=
  match fuel with
  | O => nofuel
  | S fuel' =>
    h <- on_list (hget d_head) ;; if peqb n h then ret st else
    a <- give n ;; r <- exec (client (dlist_listing zero)) (cb st a) ;;
    if fst r then n' <- on_list (ld_next n) ;; dlist_each give cb fuel' n' (snd r) else ret (snd r)
  end.
Definition dlist_value (n : ptr) : M CS T := on_list (ld_value n).
Definition dlist_pointer (n : ptr) : M CS nat := on_list (pload n ;; ret tt) ;; declare n.
(** if l.IsEmpty() { return } *)
Definition dlist_from_head {A} (give : ptr -> M CS A) (cb : St -> A -> dprog (bool * St)) (fuel : nat) (st : St) : M CS St :=
  e <- on_list IsEmpty ;; if e : bool then ret st else
  h <- on_list (hget d_head) ;; n <- on_list (ld_next h) ;; dlist_each give cb fuel n st.
(** dlist.go:164-171 ForEach, 175-184 ForEachIf, 187-194 ForEachMutable,
    198-207 ForEachMutableIf. *)
Definition DList_ForEach (cb : St -> T -> dprog St) := dlist_from_head dlist_value (fun st v => always (cb st v)).
Definition DList_ForEachIf (cb : St -> T -> dprog (bool * St)) := dlist_from_head dlist_value cb.
Definition DList_ForEachMutable (cb : St -> nat -> dprog St) := dlist_from_head dlist_pointer (fun st p => always (cb st p)).
Definition DList_ForEachMutableIf (cb : St -> nat -> dprog (bool * St)) := dlist_from_head dlist_pointer cb.
End DListEach.
