(** Model of /repo/slist.go. *)
From Verif Require Import Base Nodes Trace Spec_List.

(** slist.go:10-13 sListNode. *)
Record snode (T : Type) := mkSNode { s_next : ptr; s_value : T }.
Arguments mkSNode {T}. Arguments s_next {T}. Arguments s_value {T}.
Definition set_s_next {T} (p : ptr) (n : snode T) := mkSNode p (s_value n).
Definition set_s_value {T} (v : T) (n : snode T) := mkSNode (s_next n) v.
(** slist.go:4-8 SList.  length is an unbounded Z: a list would need 2^63 nodes
    to overflow it. *)
Record slist := mkSList { s_head : ptr; s_tail : ptr; s_length : Z }.
Definition set_s_head (p : ptr) (l : slist) := mkSList p (s_tail l) (s_length l).
Definition set_s_tail (p : ptr) (l : slist) := mkSList (s_head l) p (s_length l).
Definition set_s_length (n : Z) (l : slist) := mkSList (s_head l) (s_tail l) n.
(** The zero value SList[T]{}. *)
Definition empty_slist : slist := mkSList None None 0.

Section SList.
Context {T : Type}.
Variable zero : T.
Notation SP := (P (snode T) slist).

(** slist.go:25-27 IsEmpty. *)
Definition IsEmpty : SP bool := n <- hget s_length ;; ret (n =? 0).
(** slist.go:30-32 Len. *)
Definition Len : SP Z := hget s_length.
(** slist.go:35-39 Clear. *)
Definition Clear : SP unit := hmod (set_s_head None) ;; hmod (set_s_tail None) ;; hmod (set_s_length 0).
(** slist.go:42-47 Front. *)
Definition Front : SP T :=
  e <- IsEmpty ;; if e : bool then panic else
  p <- hget s_head ;; n <- pload p ;; ret (s_value n).
(** slist.go:50-55 Back. *)
Definition Back : SP T :=
  e <- IsEmpty ;; if e : bool then panic else
  p <- hget s_tail ;; n <- pload p ;; ret (s_value n).
(** slist.go:58-65 PushFront. *)
Definition PushFront (v : T) : SP unit :=
  h <- hget s_head ;;
  node <- pnew (mkSNode h v) ;;
  hmod (set_s_head node) ;;
  t <- hget s_tail ;;
  (if is_nil t then hmod (set_s_tail node) else ret tt) ;;
  n <- hget s_length ;; hmod (set_s_length (n + 1)).
(** slist.go:68-78 PushBack. *)
Definition PushBack (v : T) : SP unit :=
  node <- pnew (mkSNode None v) ;;
  t <- hget s_tail ;;
  (if negb (is_nil t) then pmod t (set_s_next node) else ret tt) ;;
  hmod (set_s_tail node) ;;
  h <- hget s_head ;;
  (if is_nil h then hmod (set_s_head node) else ret tt) ;;
  n <- hget s_length ;; hmod (set_s_length (n + 1)).
(** slist.go:82-94 PopFront. *)
Definition PopFront : SP T :=
  e <- IsEmpty ;; if e : bool then panic else
  node <- hget s_head ;;
  nd <- pload node ;;
  hmod (set_s_head (s_next nd)) ;;
  h <- hget s_head ;;
  (if is_nil h then hmod (set_s_tail None) else ret tt) ;;
  n <- hget s_length ;; hmod (set_s_length (n - 1)) ;;
  nd' <- pload node ;; ret (s_value nd').
(** slist.go:16-22 SListOf. *)
Fixpoint SListOf_loop (values : list T) : SP unit :=
  match values with
  | [] => ret tt
  | v :: r => PushBack v ;; SListOf_loop r
  end.
Definition SListOf (values : list T) : SP unit := hmod (fun _ => empty_slist) ;; SListOf_loop values.

(** slist.go:97-110 Reverse. *)
Fixpoint Reverse_loop (fuel : nat) (node head tail : ptr) : SP (ptr * ptr) :=
  match fuel with
  | O => nofuel
  | S fuel' =>
    if is_nil node then ret (head, tail) else
    nd <- pload node ;;
    let next := s_next nd in
    pmod node (set_s_next head) ;;
    let head := node in
    let tail := if is_nil tail then node else tail in
    Reverse_loop fuel' next head tail
  end.
Definition Reverse : SP unit :=
  fuel <- heap_fuel ;;
  node <- hget s_head ;;
  ht <- Reverse_loop fuel node None None ;;
  hmod (set_s_head (fst ht)) ;; hmod (set_s_tail (snd ht)).

(** slist.go:113-120 Values: s is a fresh slice, its elements [s]. *)
Fixpoint Values_loop (fuel : nat) (node : ptr) (i : Z) (s : list T) : SP (list T) :=
  match fuel with
  | O => nofuel
  | S fuel' =>
    if is_nil node then ret s else
    nd <- pload node ;;
    lift_o (at_ s i) ;;
    Values_loop fuel' (s_next nd) (i + 1) (zupd s i (s_value nd))
  end.
Definition Values : SP (list T) :=
  fuel <- heap_fuel ;;
  n <- Len ;;
  (if n <? 0 then panic else ret tt) ;;
  node <- hget s_head ;;
  Values_loop fuel node 0 (repeat zero (Z.to_nat n)).

Section Callbacks.
Context {St : Type}.
(** slist.go:134-138 ForEach.  Callbacks have a private state and do not touch
    the list except through the pointer they are given. *)
Fixpoint ForEach_loop (cb : St -> T -> St) (fuel : nat) (node : ptr) (st : St) : SP St :=
  match fuel with
  | O => nofuel
  | S fuel' =>
    if is_nil node then ret st else
    nd <- pload node ;;
    let st' := cb st (s_value nd) in
    nd' <- pload node ;; ForEach_loop cb fuel' (s_next nd') st'
  end.
Definition ForEach (cb : St -> T -> St) (st : St) : SP St :=
  fuel <- heap_fuel ;; node <- hget s_head ;; ForEach_loop cb fuel node st.
(** slist.go:142-148 ForEachIf. *)
Fixpoint ForEachIf_loop (cb : St -> T -> bool * St) (fuel : nat) (node : ptr) (st : St) : SP St :=
  match fuel with
  | O => nofuel
  | S fuel' =>
    if is_nil node then ret st else
    nd <- pload node ;;
    let '(go, st') := cb st (s_value nd) in
    if negb go then ret st' else
    nd' <- pload node ;; ForEachIf_loop cb fuel' (s_next nd') st'
  end.
Definition ForEachIf (cb : St -> T -> bool * St) (st : St) : SP St :=
  fuel <- heap_fuel ;; node <- hget s_head ;; ForEachIf_loop cb fuel node st.
(** slist.go:151-155 ForEachMutable: cb maps the value under the pointer to the
    value it leaves there. *)
Fixpoint ForEachMutable_loop (cb : St -> T -> T * St) (fuel : nat) (node : ptr) (st : St) : SP St :=
  match fuel with
  | O => nofuel
  | S fuel' =>
    if is_nil node then ret st else
    nd <- pload node ;;
    let '(v', st') := cb st (s_value nd) in
    pmod node (set_s_value v') ;;
    nd' <- pload node ;; ForEachMutable_loop cb fuel' (s_next nd') st'
  end.
Definition ForEachMutable (cb : St -> T -> T * St) (st : St) : SP St :=
  fuel <- heap_fuel ;; node <- hget s_head ;; ForEachMutable_loop cb fuel node st.
(** slist.go:159-165 ForEachMutableIf. *)
Fixpoint ForEachMutableIf_loop (cb : St -> T -> T * bool * St) (fuel : nat) (node : ptr) (st : St) : SP St :=
  match fuel with
  | O => nofuel
  | S fuel' =>
    if is_nil node then ret st else
    nd <- pload node ;;
    let '(v', go, st') := cb st (s_value nd) in
    pmod node (set_s_value v') ;;
    if negb go then ret st' else
    nd' <- pload node ;; ForEachMutableIf_loop cb fuel' (s_next nd') st'
  end.
Definition ForEachMutableIf (cb : St -> T -> T * bool * St) (st : St) : SP St :=
  fuel <- heap_fuel ;; node <- hget s_head ;; ForEachMutableIf_loop cb fuel node st.
End Callbacks.

(** slist.go:168-171 Iterate; slist.go:173-175 sListIterator (its node). *)
Definition Iterate : SP ptr := hget s_head.
(** slist.go:177-179 IsNotEnd. *)
Definition IsNotEnd (it : ptr) : SP bool := ret (negb (is_nil it)).
(** slist.go:181-183 MoveToNext: the new node of the iterator. *)
Definition MoveToNext (it : ptr) : SP ptr := nd <- pload it ;; ret (s_next nd).
(** slist.go:185-187 Value. *)
Definition Value (it : ptr) : SP T := nd <- pload it ;; ret (s_value nd).
(** slist.go:189-191 Pointer, then *p = v by the caller (taking the address of a
    field of a nil node panics already). *)
Definition Pointer_store (it : ptr) (v : T) : SP unit := pmod it (set_s_value v).

(** Client code, not in /repo.  it.MoveToNext() i times: *)
Fixpoint advance (i : nat) (it : ptr) : SP ptr :=
  match i with O => ret it | S i' => it' <- MoveToNext it ;; advance i' it' end.
(** for it := l.Iterate(); it.IsNotEnd(); it.MoveToNext() { ... it.Value() ... } *)
Fixpoint iter_loop (fuel : nat) (it : ptr) (seen : list T) : SP (list T) :=
  match fuel with
  | O => nofuel
  | S fuel' => e <- IsNotEnd it ;;
               if e : bool then v <- Value it ;; it' <- MoveToNext it ;; iter_loop fuel' it' (seen ++ [v]) else ret seen
  end.
Definition iter_all : SP (list T) := fuel <- heap_fuel ;; it <- Iterate ;; iter_loop fuel it [].

(** One call of a client. *)
Definition slist_step {St} (o : sop T St) (s : list (snode T) * slist) : outcome (res T St) * (list (snode T) * slist) :=
  match o with
  | LPushFront v => show (fun _ => RObs ONone) (PushFront v) s
  | LPushBack v => show (fun _ => RObs ONone) (PushBack v) s
  | LPopFront => show (fun v => RObs (OVal v)) PopFront s
  | LReverse => show (fun _ => RObs ONone) Reverse s
  | LClear => show (fun _ => RObs ONone) Clear s
  | LLen => show (fun n => RObs (OInt n)) Len s
  | LIsEmpty => show (fun b => RObs (OBool b)) IsEmpty s
  | LFront => show (fun v => RObs (OVal v)) Front s
  | LBack => show (fun v => RObs (OVal v)) Back s
  | LValues => show (fun l => RObs (OSeq l)) Values s
  | LForEach cb st => show RSt (ForEach cb st) s
  | LForEachIf cb st => show RSt (ForEachIf cb st) s
  | LForEachMutable cb st => show RSt (ForEachMutable cb st) s
  | LForEachMutableIf cb st => show RSt (ForEachMutableIf cb st) s
  | LIter => show (fun l => RObs (OSeq l)) iter_all s
  | LIterGet i => show (fun v => RObs (OVal v)) (it <- Iterate ;; it' <- advance i it ;; Value it') s
  | LIterSet i v => show (fun _ => RObs ONone) (it <- Iterate ;; it' <- advance i it ;; Pointer_store it' v) s
  end.
End SList.
