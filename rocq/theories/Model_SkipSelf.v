(** Model of the SkipList of /repo/skiplist.go made by NewSkipListFunc with a
    key comparison function that itself uses the list (keyCmp calls methods of the
    list it compares keys for).  A call of keyCmp is any computation on the list
    and on variables of the client.  The functions are those of Model_SkipFx.v,
    where keyCmp cannot reach the list; everything that does not call keyCmp is
    taken from Model_SkipList.v. *)
From Verif Require Import Base Nodes Trace Spec Spec_List Spec_Map Model_SkipList Model_SkipFx.
From Verif Require Model_Lookup.

Section SkipSelf.
Context {K V X : Type}.
Notation SP := (P (slnode K V) sklist).
Notation FP := (@FP K V X).
(** sl.keyCmp *)
Variable compare : K -> K -> FP Z.

(** The inner search loops of lowerBound and findInsertPoint: one call of keyCmp
    for each node, 0 ends the search, a positive result the loop. *)
Fixpoint scan_self (key : K) (fuel i : nat) (prev cur : ptr) : FP (ptr + ptr) :=
  match fuel with
  | O => nofuel
  | S fuel' =>
    if is_nil cur then ret (inr prev) else
    k <- quiet (ld_key cur) ;;
    r <- compare k key ;;
    if r =? 0 then ret (inl cur) else
    if 0 <? r then ret (inr prev) else
    next <- quiet (ld_next cur i) ;; scan_self key fuel' i cur next
  end.
(** The inner loop of findPrevNodes. *)
Fixpoint scan_prev_self (key : K) (fuel i : nat) (prev cur : ptr) : FP ptr :=
  match fuel with
  | O => nofuel
  | S fuel' =>
    if is_nil cur then ret prev else
    k <- quiet (ld_key cur) ;;
    r <- compare k key ;;
    if 0 <=? r then ret prev else
    next <- quiet (ld_next cur i) ;; scan_prev_self key fuel' i cur next
  end.

(** skiplist.go:389-405 lowerBound. *)
Fixpoint lower_loop_self (key : K) (fuel level : nat) (prev : ptr) : FP (ptr + ptr) :=
  match level with
  | O => ret (inr prev)
  | S i =>
    cur <- quiet (ld_next prev i) ;;
    r <- scan_self key fuel i prev cur ;;
    match r with inl n => ret (inl n) | inr prev' => lower_loop_self key fuel i prev' end
  end.
Definition lowerBound_self (key : K) : FP ptr :=
  fuel <- quiet heap_fuel ;;
  prev <- quiet (hget sl_head) ;; level <- quiet (hget sl_level) ;;
  r <- lower_loop_self key fuel level prev ;;
  match r with inl cur => ret cur | inr prev => quiet (ld_next prev 0) end.
(** skiplist.go:381-387 findNode. *)
Definition findNode_self (key : K) : FP ptr :=
  node <- lowerBound_self key ;;
  if is_nil node then ret None else
  k <- quiet (ld_key node) ;; r <- compare k key ;; if r =? 0 then ret node else ret None.
(** skiplist.go:407-413 upperBound. *)
Definition upperBound_self (key : K) : FP ptr :=
  node <- lowerBound_self key ;;
  if is_nil node then ret node else
  k <- quiet (ld_key node) ;; r <- compare k key ;; if r =? 0 then quiet (ld_next node 0) else ret node.
(** skiplist.go:417-438 findInsertPoint. *)
Fixpoint insert_loop_self (key : K) (fuel prevs level : nat) (prev : ptr) : FP (ptr + ptr) :=
  match level with
  | O => ret (inr prev)
  | S i =>
    cur <- quiet (ld_next prev i) ;;
    r <- scan_self key fuel i prev cur ;;
    match r with
    | inl n => ret (inl n)
    | inr prev' => quiet (prevs_set prevs i prev') ;; insert_loop_self key fuel prevs i prev'
    end
  end.
Definition findInsertPoint_self (key : K) : FP (ptr * nat) :=
  fuel <- quiet heap_fuel ;;
  prevs <- quiet prevs_slice ;;
  prev <- quiet (hget sl_head) ;; level <- quiet (hget sl_level) ;;
  r <- insert_loop_self key fuel prevs level prev ;;
  match r with inl cur => ret (cur, O) | inr _ => ret (None, prevs) end.
(** skiplist.go:450-463 findPrevNodes. *)
Fixpoint prev_loop_self (key : K) (fuel prevs level : nat) (prev : ptr) : FP ptr :=
  match level with
  | O => ret prev
  | S i =>
    cur <- quiet (ld_next prev i) ;;
    prev' <- scan_prev_self key fuel i prev cur ;;
    quiet (prevs_set prevs i prev') ;; prev_loop_self key fuel prevs i prev'
  end.
Definition findPrevNodes_self (key : K) : FP nat :=
  fuel <- quiet heap_fuel ;;
  prevs <- quiet prevs_slice ;;
  prev <- quiet (hget sl_head) ;; level <- quiet (hget sl_level) ;;
  _ <- prev_loop_self key fuel prevs level prev ;;
  ret prevs.
(** skiplist.go:441-448 findRemovePoint. *)
Definition findRemovePoint_self (key : K) : FP (ptr * nat) :=
  prevs <- findPrevNodes_self key ;;
  p0 <- quiet (prevs_get prevs 0) ;; node <- quiet (ld_next p0 0) ;;
  if is_nil node then ret (None, O) else
  k <- quiet (ld_key node) ;; r <- compare k key ;;
  if negb (r =? 0) then ret (None, O) else ret (node, prevs).

(** skiplist.go:91-118 Insert; what follows findInsertPoint calls no function of
    the client. *)
Definition Insert_self (key : K) (value : V) (r : Z) : FP unit :=
  np <- findInsertPoint_self key ;;
  quiet (let '(node, prevs) := np in
    if negb (is_nil node) then st_value node value else
    len <- hget sl_len ;;
    let level := randomLevel r len in
    node <- newSkipListNode level key value ;;
    sll <- hget sl_level ;;
    link_loop (Model_Lookup.Min Nat.ltb level sll) 0 prevs node ;;
    (if Nat.ltb sll level then raise_loop (level - sll) sll node ;; hmod (set_sl_level level) else ret tt) ;;
    n <- hget sl_len ;; hmod (set_sl_len (n + 1))).
(** skiplist.go:122-128 Find, 131-133 Has. *)
Definition Find_self (key : K) : FP ptr :=
  node <- findNode_self key ;; if negb (is_nil node) then ret node else ret None.
Definition Has_self (key : K) : FP bool := node <- findNode_self key ;; ret (negb (is_nil node)).
(** skiplist.go:156-170 Remove. *)
Definition Remove_self (key : K) : FP bool :=
  np <- findRemovePoint_self key ;;
  quiet (let '(node, prevs) := np in
    if is_nil node then ret false else
    nd <- pload node ;;
    unlink_loop (length (n_next nd)) 0 prevs node ;;
    l <- hget sl_level ;; shrink_loop (S l) ;;
    n <- hget sl_len ;; hmod (set_sl_len (n - 1)) ;;
    ret true).
(** skiplist.go:138-140 LowerBound, 145-147 UpperBound, 150-152 FindRange. *)
Definition LowerBound_self (key : K) : FP iter := n <- lowerBound_self key ;; ret (n, None).
Definition UpperBound_self (key : K) : FP iter := n <- upperBound_self key ;; ret (n, None).
Definition FindRange_self (first last : K) : FP iter :=
  n <- lowerBound_self first ;; e <- upperBound_self last ;; ret (n, e).

(** Client code, not in /repo, as in Model_SkipList.v. *)
Definition walk_self (p : FP iter) : FP (list (K * V)) :=
  fuel <- quiet heap_fuel ;; it <- p ;; quiet (iter_loop fuel it []).
Definition find_get_self (k : K) : FP (option V) :=
  p <- Find_self k ;; quiet (if is_nil p then ret None else v <- ld_value p ;; ret (Some v)).
Definition find_set_self (k : K) (v : V) : FP bool :=
  p <- Find_self k ;; quiet (if is_nil p then ret false else st_value p v ;; ret true).

(** One call of a client. *)
Definition map_step_self {St} (o : mop K V St) : FP (mres K V St) :=
  match o with
  | MInsert k v r => show (fun _ => MNone) (Insert_self k v r)
  | MRemove k => show MBool (Remove_self k)
  | MClear => show (fun _ => MNone) (quiet Clear)
  | MLen => show MInt (quiet Len)
  | MIsEmpty => show MBool (quiet IsEmpty)
  | MFind k => show MOpt (find_get_self k)
  | MHas k => show MBool (Has_self k)
  | MFindSet k v => show MBool (find_set_self k v)
  | MLower k => show MSeq (walk_self (LowerBound_self k))
  | MUpper k => show MSeq (walk_self (UpperBound_self k))
  | MRange a b => show MSeq (walk_self (FindRange_self a b))
  | MIter => show MSeq (walk_self (quiet Iterate))
  | MForEach cb st => show MSt (quiet (ForEach cb st))
  | MForEachIf cb st => show MSt (quiet (ForEachIf cb st))
  | MForEachMutable cb st => show MSt (quiet (ForEachMutable cb st))
  | MForEachMutableIf cb st => show MSt (quiet (ForEachMutableIf cb st))
  end.
End SkipSelf.

(** Client code, not in /repo: a keyCmp that, before it answers cmp a b, makes
    the calls [plan] on the list, unless the nesting is n deep already (the client
    counts it); x is what those calls have shown so far. *)
Section Nest.
Context {K V St : Type}.
Notation log := (list (outcome (mres K V St))).
Variable plan : log -> K -> K -> list (mop K V St).
Variable cmp : K -> K -> Z.
Fixpoint nest (n : nat) (a b : K) : @FP K V log Z := fun s =>
  match n with
  | O => (Ok (cmp a b), s)
  | S n' => let '(rs, (l, x)) := run (map_step_self (nest n')) (plan (snd s) a b) s in (Ok (cmp a b), (l, x ++ rs))
  end.
End Nest.
