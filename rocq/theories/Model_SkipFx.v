(** Model of the SkipList of /repo/skiplist.go made by NewSkipListFunc with a
    key comparison function that may panic and may have side effects on state of
    its own.  Model_SkipList.v has the same functions for a pure one; everything
    that does not call keyCmp is taken from there. *)
From Verif Require Import Base Nodes Trace Spec Spec_List Spec_Map Model_SkipList.
From Verif Require Model_Lookup.

Section SkipFx.
Context {K V X : Type}.
Variable keyCmp : K -> K -> M X Z.
Notation SP := (P (slnode K V) sklist).
Definition FP (A : Type) := M ((list (slnode K V) * sklist) * X) A.
(** Code that does not call keyCmp. *)
Definition quiet {A} (p : SP A) : FP A := fun s => let '(o, t) := p (fst s) in (o, (t, snd s)).
Definition compare (a b : K) : FP Z := fun s => let '(o, x) := keyCmp a b (snd s) in (o, (fst s, x)).

(** The inner search loops of lowerBound and findInsertPoint: one call of keyCmp
    for each node, 0 ends the search, a positive result the loop. *)
Fixpoint scan_fx (key : K) (fuel i : nat) (prev cur : ptr) : FP (ptr + ptr) :=
  match fuel with
  | O => nofuel
  | S fuel' =>
    if is_nil cur then ret (inr prev) else
    k <- quiet (ld_key cur) ;;
    r <- compare k key ;;
    if r =? 0 then ret (inl cur) else
    if 0 <? r then ret (inr prev) else
    next <- quiet (ld_next cur i) ;; scan_fx key fuel' i cur next
  end.
(** The inner loop of findPrevNodes. *)
Fixpoint scan_prev_fx (key : K) (fuel i : nat) (prev cur : ptr) : FP ptr :=
  match fuel with
  | O => nofuel
  | S fuel' =>
    if is_nil cur then ret prev else
    k <- quiet (ld_key cur) ;;
    r <- compare k key ;;
    if 0 <=? r then ret prev else
    next <- quiet (ld_next cur i) ;; scan_prev_fx key fuel' i cur next
  end.

(** skiplist.go:389-405 lowerBound. *)
Fixpoint lower_loop_fx (key : K) (fuel level : nat) (prev : ptr) : FP (ptr + ptr) :=
  match level with
  | O => ret (inr prev)
  | S i =>
    cur <- quiet (ld_next prev i) ;;
    r <- scan_fx key fuel i prev cur ;;
    match r with inl n => ret (inl n) | inr prev' => lower_loop_fx key fuel i prev' end
  end.
Definition lowerBound_fx (key : K) : FP ptr :=
  fuel <- quiet heap_fuel ;;
  prev <- quiet (hget sl_head) ;; level <- quiet (hget sl_level) ;;
  r <- lower_loop_fx key fuel level prev ;;
  match r with inl cur => ret cur | inr prev => quiet (ld_next prev 0) end.
(** skiplist.go:381-387 findNode. *)
Definition findNode_fx (key : K) : FP ptr :=
  node <- lowerBound_fx key ;;
  if is_nil node then ret None else
  k <- quiet (ld_key node) ;; r <- compare k key ;; if r =? 0 then ret node else ret None.
(** skiplist.go:407-413 upperBound. *)
Definition upperBound_fx (key : K) : FP ptr :=
  node <- lowerBound_fx key ;;
  if is_nil node then ret node else
  k <- quiet (ld_key node) ;; r <- compare k key ;; if r =? 0 then quiet (ld_next node 0) else ret node.
(** skiplist.go:417-438 findInsertPoint. *)
Fixpoint insert_loop_fx (key : K) (fuel prevs level : nat) (prev : ptr) : FP (ptr + ptr) :=
  match level with
  | O => ret (inr prev)
  | S i =>
    cur <- quiet (ld_next prev i) ;;
    r <- scan_fx key fuel i prev cur ;;
    match r with
    | inl n => ret (inl n)
    | inr prev' => quiet (prevs_set prevs i prev') ;; insert_loop_fx key fuel prevs i prev'
    end
  end.
Definition findInsertPoint_fx (key : K) : FP (ptr * nat) :=
  fuel <- quiet heap_fuel ;;
  prevs <- quiet prevs_slice ;;
  prev <- quiet (hget sl_head) ;; level <- quiet (hget sl_level) ;;
  r <- insert_loop_fx key fuel prevs level prev ;;
  match r with inl cur => ret (cur, O) | inr _ => ret (None, prevs) end.
(** skiplist.go:450-463 findPrevNodes. *)
Fixpoint prev_loop_fx (key : K) (fuel prevs level : nat) (prev : ptr) : FP ptr :=
  match level with
  | O => ret prev
  | S i =>
    cur <- quiet (ld_next prev i) ;;
    prev' <- scan_prev_fx key fuel i prev cur ;;
    quiet (prevs_set prevs i prev') ;; prev_loop_fx key fuel prevs i prev'
  end.
Definition findPrevNodes_fx (key : K) : FP nat :=
  fuel <- quiet heap_fuel ;;
  prevs <- quiet prevs_slice ;;
  prev <- quiet (hget sl_head) ;; level <- quiet (hget sl_level) ;;
  _ <- prev_loop_fx key fuel prevs level prev ;;
  ret prevs.
(** skiplist.go:441-448 findRemovePoint. *)
Definition findRemovePoint_fx (key : K) : FP (ptr * nat) :=
  prevs <- findPrevNodes_fx key ;;
  p0 <- quiet (prevs_get prevs 0) ;; node <- quiet (ld_next p0 0) ;;
  if is_nil node then ret (None, O) else
  k <- quiet (ld_key node) ;; r <- compare k key ;;
  if negb (r =? 0) then ret (None, O) else ret (node, prevs).

(** skiplist.go:91-118 Insert; what follows findInsertPoint calls no function of
    the client. *)
Definition Insert_fx (key : K) (value : V) (r : Z) : FP unit :=
  np <- findInsertPoint_fx key ;;
  quiet (let '(node, prevs) := np in
    if negb (is_nil node) then st_value node value else
    len <- hget sl_len ;;
    let level := randomLevel r len in
    node <- newSkipListNode level key value ;;
    sll <- hget sl_level ;;
    link_loop (Model_Lookup.Min Nat.ltb level sll) 0 prevs node ;;
    (if Nat.ltb sll level then raise_loop (level - sll) sll node ;; hmod (set_sl_level level) else ret tt) ;;
    n <- hget sl_len ;; hmod (set_sl_len (n + 1))).
(** skiplist.go:122-128 Find, 131-133 Has. *)
Definition Find_fx (key : K) : FP ptr :=
  node <- findNode_fx key ;; if negb (is_nil node) then ret node else ret None.
Definition Has_fx (key : K) : FP bool := node <- findNode_fx key ;; ret (negb (is_nil node)).
(** skiplist.go:156-170 Remove. *)
Definition Remove_fx (key : K) : FP bool :=
  np <- findRemovePoint_fx key ;;
  quiet (let '(node, prevs) := np in
    if is_nil node then ret false else
    nd <- pload node ;;
    unlink_loop (length (n_next nd)) 0 prevs node ;;
    l <- hget sl_level ;; shrink_loop (S l) ;;
    n <- hget sl_len ;; hmod (set_sl_len (n - 1)) ;;
    ret true).
(** skiplist.go:138-140 LowerBound, 145-147 UpperBound, 150-152 FindRange. *)
Definition LowerBound_fx (key : K) : FP iter := n <- lowerBound_fx key ;; ret (n, None).
Definition UpperBound_fx (key : K) : FP iter := n <- upperBound_fx key ;; ret (n, None).
Definition FindRange_fx (first last : K) : FP iter :=
  n <- lowerBound_fx first ;; e <- upperBound_fx last ;; ret (n, e).

(** Client code, not in /repo, as in Model_SkipList.v. *)
Definition walk_fx (p : FP iter) : FP (list (K * V)) :=
  fuel <- quiet heap_fuel ;; it <- p ;; quiet (iter_loop fuel it []).
Definition find_get_fx (k : K) : FP (option V) :=
  p <- Find_fx k ;; quiet (if is_nil p then ret None else v <- ld_value p ;; ret (Some v)).
Definition find_set_fx (k : K) (v : V) : FP bool :=
  p <- Find_fx k ;; quiet (if is_nil p then ret false else st_value p v ;; ret true).

(** One call of a client. *)
Definition map_step_fx {St} (o : mop K V St) : FP (mres K V St) :=
  match o with
  | MInsert k v r => show (fun _ => MNone) (Insert_fx k v r)
  | MRemove k => show MBool (Remove_fx k)
  | MClear => show (fun _ => MNone) (quiet Clear)
  | MLen => show MInt (quiet Len)
  | MIsEmpty => show MBool (quiet IsEmpty)
  | MFind k => show MOpt (find_get_fx k)
  | MHas k => show MBool (Has_fx k)
  | MFindSet k v => show MBool (find_set_fx k v)
  | MLower k => show MSeq (walk_fx (LowerBound_fx k))
  | MUpper k => show MSeq (walk_fx (UpperBound_fx k))
  | MRange a b => show MSeq (walk_fx (FindRange_fx a b))
  | MIter => show MSeq (walk_fx (quiet Iterate))
  | MForEach cb st => show MSt (quiet (ForEach cb st))
  | MForEachIf cb st => show MSt (quiet (ForEachIf cb st))
  | MForEachMutable cb st => show MSt (quiet (ForEachMutable cb st))
  | MForEachMutableIf cb st => show MSt (quiet (ForEachMutableIf cb st))
  end.
End SkipFx.
