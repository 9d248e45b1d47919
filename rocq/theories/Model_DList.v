(** Model of /repo/dlist.go. *)
From Verif Require Import Base Nodes Trace Spec_List.

(** dlist.go:11-14 dListNode. *)
Record dnode (T : Type) := mkDNode { d_prev : ptr; d_next : ptr; d_value : T }.
Arguments mkDNode {T}. Arguments d_prev {T}. Arguments d_next {T}. Arguments d_value {T}.
Definition set_d_prev {T} (p : ptr) (n : dnode T) := mkDNode p (d_next n) (d_value n).
Definition set_d_next {T} (p : ptr) (n : dnode T) := mkDNode (d_prev n) p (d_value n).
Definition set_d_value {T} (v : T) (n : dnode T) := mkDNode (d_prev n) (d_next n) v.
(** dlist.go:6-9 DList.  length is an unbounded Z: a list would need 2^63 nodes
    to overflow it. *)
Record dlist := mkDList { d_head : ptr; d_length : Z }.
Definition set_d_head (p : ptr) (l : dlist) := mkDList p (d_length l).
Definition set_d_length (n : Z) (l : dlist) := mkDList (d_head l) n.
(** The zero value DList[T]{}. *)
Definition empty_dlist : dlist := mkDList None 0.

Section DList.
Context {T : Type}.
Variable zero : T.
Notation DP := (P (dnode T) dlist).

(** p.prev, p.next, p.value and assignments to them. *)
Definition ld_prev (p : ptr) : DP ptr := n <- pload p ;; ret (d_prev n).
Definition ld_next (p : ptr) : DP ptr := n <- pload p ;; ret (d_next n).
Definition ld_value (p : ptr) : DP T := n <- pload p ;; ret (d_value n).
Definition st_prev (p q : ptr) : DP unit := pmod p (set_d_prev q).
Definition st_next (p q : ptr) : DP unit := pmod p (set_d_next q).
Definition st_value (p : ptr) (v : T) : DP unit := pmod p (set_d_value v).

(** dlist.go:26-32 Clear. *)
Definition Clear : DP unit :=
  h <- hget d_head ;;
  (if negb (is_nil h) then st_prev h h ;; st_next h h else ret tt) ;;
  hmod (set_d_length 0).
(** dlist.go:35-37 Len. *)
Definition Len : DP Z := hget d_length.
(** dlist.go:40-42 IsEmpty. *)
Definition IsEmpty : DP bool := n <- hget d_length ;; ret (n =? 0).
(** dlist.go:80-85 Front. *)
Definition Front : DP T :=
  e <- IsEmpty ;; if e : bool then panic else
  h <- hget d_head ;; p <- ld_next h ;; ld_value p.
(** dlist.go:88-93 Back. *)
Definition Back : DP T :=
  e <- IsEmpty ;; if e : bool then panic else
  h <- hget d_head ;; p <- ld_prev h ;; ld_value p.
(** dlist.go:210-216 ensureHead. *)
Definition ensureHead : DP unit :=
  h <- hget d_head ;;
  if is_nil h then
    n <- pnew (mkDNode None None zero) ;;
    hmod (set_d_head n) ;;
    h1 <- hget d_head ;; st_prev h1 h1 ;;
    h2 <- hget d_head ;; st_next h2 h2
  else ret tt.
(** dlist.go:96-102 PushFront. *)
Definition PushFront (val : T) : DP unit :=
  ensureHead ;;
  h <- hget d_head ;;
  hn <- ld_next h ;;
  n <- pnew (mkDNode h hn val) ;;
  hn' <- ld_next h ;;
  st_prev hn' n ;;
  st_next h n ;;
  k <- hget d_length ;; hmod (set_d_length (k + 1)).
(** dlist.go:105-111 PushBack. *)
Definition PushBack (val : T) : DP unit :=
  ensureHead ;;
  h <- hget d_head ;;
  hp <- ld_prev h ;;
  n <- pnew (mkDNode hp h val) ;;
  hp' <- ld_prev h ;;
  st_next hp' n ;;
  st_prev h n ;;
  k <- hget d_length ;; hmod (set_d_length (k + 1)).
(** dlist.go:17-23 DListOf. *)
Fixpoint DListOf_loop (vs : list T) : DP unit :=
  match vs with
  | [] => ret tt
  | v :: r => PushBack v ;; DListOf_loop r
  end.
Definition DListOf (vs : list T) : DP unit := hmod (fun _ => empty_dlist) ;; DListOf_loop vs.
(** dlist.go:132-145 TryPopFront. *)
Definition TryPopFront : DP (T * bool) :=
  e <- IsEmpty ;; if e : bool then ret (zero, false) else
  h <- hget d_head ;;
  node <- ld_next h ;;
  val <- ld_value node ;;
  nn <- ld_next node ;; st_next h nn ;;
  hn <- ld_next h ;; st_prev hn h ;;
  st_prev node None ;;
  st_next node None ;;
  k <- hget d_length ;; hmod (set_d_length (k - 1)) ;;
  ret (val, true).
(** dlist.go:148-161 TryPopBack. *)
Definition TryPopBack : DP (T * bool) :=
  e <- IsEmpty ;; if e : bool then ret (zero, false) else
  h <- hget d_head ;;
  node <- ld_prev h ;;
  val <- ld_value node ;;
  hp <- ld_prev h ;; hpp <- ld_prev hp ;; st_prev h hpp ;;
  hp' <- ld_prev h ;; st_next hp' h ;;
  st_prev node None ;;
  st_next node None ;;
  k <- hget d_length ;; hmod (set_d_length (k - 1)) ;;
  ret (val, true).
(** dlist.go:114-120 PopFront. *)
Definition PopFront : DP T :=
  r <- TryPopFront ;; if negb (snd r) then panic else ret (fst r).
(** dlist.go:123-129 PopBack. *)
Definition PopBack : DP T :=
  r <- TryPopBack ;; if negb (snd r) then panic else ret (fst r).

Section Callbacks.
Context {St : Type}.
(** dlist.go:164-171 ForEach.  Callbacks have a private state and do not touch
    the list except through the pointer they are given. *)
Fixpoint ForEach_loop (cb : St -> T -> St) (fuel : nat) (n : ptr) (st : St) : DP St :=
  match fuel with
  | O => nofuel
  | S fuel' =>
    h <- hget d_head ;;
    if peqb n h then ret st else
    v <- ld_value n ;;
    let st' := cb st v in
    n' <- ld_next n ;; ForEach_loop cb fuel' n' st'
  end.
Definition ForEach (cb : St -> T -> St) (st : St) : DP St :=
  e <- IsEmpty ;; if e : bool then ret st else
  fuel <- heap_fuel ;; h <- hget d_head ;; n <- ld_next h ;; ForEach_loop cb fuel n st.
(** dlist.go:175-184 ForEachIf. *)
Fixpoint ForEachIf_loop (cb : St -> T -> bool * St) (fuel : nat) (n : ptr) (st : St) : DP St :=
  match fuel with
  | O => nofuel
  | S fuel' =>
    h <- hget d_head ;;
    if peqb n h then ret st else
    v <- ld_value n ;;
    let '(go, st') := cb st v in
    if negb go then ret st' else
    n' <- ld_next n ;; ForEachIf_loop cb fuel' n' st'
  end.
Definition ForEachIf (cb : St -> T -> bool * St) (st : St) : DP St :=
  e <- IsEmpty ;; if e : bool then ret st else
  fuel <- heap_fuel ;; h <- hget d_head ;; n <- ld_next h ;; ForEachIf_loop cb fuel n st.
(** dlist.go:187-194 ForEachMutable: cb maps the value under the pointer to the
    value it leaves there. *)
Fixpoint ForEachMutable_loop (cb : St -> T -> T * St) (fuel : nat) (n : ptr) (st : St) : DP St :=
  match fuel with
  | O => nofuel
  | S fuel' =>
    h <- hget d_head ;;
    if peqb n h then ret st else
    v <- ld_value n ;;
    let '(v', st') := cb st v in
    st_value n v' ;;
    n' <- ld_next n ;; ForEachMutable_loop cb fuel' n' st'
  end.
Definition ForEachMutable (cb : St -> T -> T * St) (st : St) : DP St :=
  e <- IsEmpty ;; if e : bool then ret st else
  fuel <- heap_fuel ;; h <- hget d_head ;; n <- ld_next h ;; ForEachMutable_loop cb fuel n st.
(** dlist.go:198-207 ForEachMutableIf. *)
Fixpoint ForEachMutableIf_loop (cb : St -> T -> T * bool * St) (fuel : nat) (n : ptr) (st : St) : DP St :=
  match fuel with
  | O => nofuel
  | S fuel' =>
    h <- hget d_head ;;
    if peqb n h then ret st else
    v <- ld_value n ;;
    let '(v', go, st') := cb st v in
    st_value n v' ;;
    if negb go then ret st' else
    n' <- ld_next n ;; ForEachMutableIf_loop cb fuel' n' st'
  end.
Definition ForEachMutableIf (cb : St -> T -> T * bool * St) (st : St) : DP St :=
  e <- IsEmpty ;; if e : bool then ret st else
  fuel <- heap_fuel ;; h <- hget d_head ;; n <- ld_next h ;; ForEachMutableIf_loop cb fuel n st.
End Callbacks.

(** dlist.go:49-52 dlistIterator: dl is the list itself, so an iterator is its
    node.  dlist.go:71-77 Iterate. *)
Definition Iterate : DP ptr :=
  node <- hget d_head ;;
  if negb (is_nil node) then ld_next node else ret node.
(** dlist.go:54-56 IsNotEnd. *)
Definition IsNotEnd (it : ptr) : DP bool := h <- hget d_head ;; ret (negb (peqb it h)).
(** dlist.go:58-60 MoveToNext: the new node of the iterator. *)
Definition MoveToNext (it : ptr) : DP ptr := ld_next it.
(** dlist.go:62-64 Value. *)
Definition Value (it : ptr) : DP T := ld_value it.
(** dlist.go:66-68 Pointer, then *p = v by the caller. *)
Definition Pointer_store (it : ptr) (v : T) : DP unit := st_value it v.

(** Client code, not in /repo.
    for ; i > 0 && it.IsNotEnd(); i-- { it.MoveToNext() } *)
Fixpoint advance (i : nat) (it : ptr) : DP ptr :=
  match i with
  | O => ret it
  | S i' => e <- IsNotEnd it ;; if e : bool then it' <- MoveToNext it ;; advance i' it' else ret it
  end.
(** for it := l.Iterate(); it.IsNotEnd(); it.MoveToNext() { ... it.Value() ... } *)
Fixpoint iter_loop (fuel : nat) (it : ptr) (seen : list T) : DP (list T) :=
  match fuel with
  | O => nofuel
  | S fuel' => e <- IsNotEnd it ;;
               if e : bool then v <- Value it ;; it' <- MoveToNext it ;; iter_loop fuel' it' (seen ++ [v]) else ret seen
  end.
Definition iter_all : DP (list T) := fuel <- heap_fuel ;; it <- Iterate ;; iter_loop fuel it [].
Definition iter_get (i : nat) : DP (T * bool) :=
  it <- Iterate ;; it' <- advance i it ;; e <- IsNotEnd it' ;;
  if e : bool then v <- Value it' ;; ret (v, true) else ret (zero, false).
Definition iter_set (i : nat) (v : T) : DP bool :=
  it <- Iterate ;; it' <- advance i it ;; e <- IsNotEnd it' ;;
  if e : bool then Pointer_store it' v ;; ret true else ret false.
(** Observer of the backward links: for n := l.head.prev; n != l.head; n = n.prev. *)
Fixpoint back_loop (fuel : nat) (n : ptr) (seen : list T) : DP (list T) :=
  match fuel with
  | O => nofuel
  | S fuel' => h <- hget d_head ;;
               if peqb n h then ret seen else
               v <- ld_value n ;; n' <- ld_prev n ;; back_loop fuel' n' (seen ++ [v])
  end.
Definition back_all : DP (list T) :=
  h <- hget d_head ;; if is_nil h then ret [] else
  fuel <- heap_fuel ;; n <- ld_prev h ;; back_loop fuel n [].

(** One call of a client. *)
Definition dlist_step {St} (o : dop T St) (s : list (dnode T) * dlist) : outcome (res T St) * (list (dnode T) * dlist) :=
  match o with
  | DPushFront v => show (fun _ => RObs ONone) (PushFront v) s
  | DPushBack v => show (fun _ => RObs ONone) (PushBack v) s
  | DPopFront => show (fun v => RObs (OVal v)) PopFront s
  | DPopBack => show (fun v => RObs (OVal v)) PopBack s
  | DTryPopFront => show (fun r => RObs (OTry (fst r) (snd r))) TryPopFront s
  | DTryPopBack => show (fun r => RObs (OTry (fst r) (snd r))) TryPopBack s
  | DClear => show (fun _ => RObs ONone) Clear s
  | DLen => show (fun n => RObs (OInt n)) Len s
  | DIsEmpty => show (fun b => RObs (OBool b)) IsEmpty s
  | DFront => show (fun v => RObs (OVal v)) Front s
  | DBack => show (fun v => RObs (OVal v)) Back s
  | DForEach cb st => show RSt (ForEach cb st) s
  | DForEachIf cb st => show RSt (ForEachIf cb st) s
  | DForEachMutable cb st => show RSt (ForEachMutable cb st) s
  | DForEachMutableIf cb st => show RSt (ForEachMutableIf cb st) s
  | DIter => show (fun l => RObs (OSeq l)) iter_all s
  | DIterGet i => show (fun r => RObs (OTry (fst r) (snd r))) (iter_get i) s
  | DIterSet i v => show (fun b => RObs (OBool b)) (iter_set i v) s
  end.
End DList.
