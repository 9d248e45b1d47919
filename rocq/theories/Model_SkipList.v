(** Model of /repo/skiplist.go and /repo/skiplist_newnode.go. *)
From Verif Require Import Base Nodes Spec Trace Spec_List Spec_Map.
From Verif Require Model_Lookup.

(** skiplist.go:19-21. *)
Definition skipListMaxLevel : nat := 40.
(** skiplist.go:206-210 skipListNode. *)
Record slnode (K V : Type) := mkSLNode { n_key : K; n_value : V; n_next : list ptr }.
Arguments mkSLNode {K V}. Arguments n_key {K V}. Arguments n_value {K V}. Arguments n_next {K V}.
(** skiplist.go:28-37 SkipList.  level is a nat (it is never negative), len an
    unbounded Z; the embedded head node is a node of the heap, sl_head its
    address; rander and impl are parameters below. *)
Record sklist := mkSL { sl_level : nat; sl_len : Z; sl_head : ptr; sl_prevs : list ptr }.
Definition set_sl_level (n : nat) (s : sklist) := mkSL n (sl_len s) (sl_head s) (sl_prevs s).
Definition set_sl_len (n : Z) (s : sklist) := mkSL (sl_level s) n (sl_head s) (sl_prevs s).
Definition set_sl_prevs (l : list ptr) (s : sklist) := mkSL (sl_level s) (sl_len s) (sl_head s) l.

(** skiplist.go:261-275 randomLevel; r is the number the generator returns. *)
Definition bits_Len64 (k : Z) : Z := if k =? 0 then 0 else Z.log2 k + 1.
Fixpoint cut_level (level : nat) (len : Z) : nat :=
  match level with
  | O => O
  | S l => if Nat.ltb 3 level && (len <? 2 ^ Z.of_nat (level - 3)) then cut_level l len else level
  end.
Definition randomLevel (r : Z) (len : Z) : nat :=
  let total := 2 ^ Z.of_nat skipListMaxLevel - 1 in
  let k := Z.land r total in
  let level := Z.to_nat (Z.of_nat skipListMaxLevel - bits_Len64 k + 1) in
  let level := cut_level level len in
  if Nat.ltb skipListMaxLevel level then skipListMaxLevel else level.

Section SkipList.
Context {K V : Type}.
Variables (zeroK : K) (zeroV : V).
Notation SP := (P (slnode K V) sklist).

(** p.key, p.value, p.next[i] and assignments. *)
Definition ld_key (p : ptr) : SP K := n <- pload p ;; ret (n_key n).
Definition ld_value (p : ptr) : SP V := n <- pload p ;; ret (n_value n).
Definition ld_next (p : ptr) (i : nat) : SP ptr :=
  n <- pload p ;; match nth_error (n_next n) i with Some q => ret q | None => panic end.
Definition st_value (p : ptr) (v : V) : SP unit := pmod p (fun n => mkSLNode (n_key n) v (n_next n)).
Definition st_next (p : ptr) (i : nat) (q : ptr) : SP unit :=
  n <- pload p ;;
  if Nat.ltb i (length (n_next n)) then pmod p (fun n => mkSLNode (n_key n) (n_value n) (upd i q (n_next n))) else panic.
(** sl.prevsCache[0:sl.level]; the slice is represented by its length. *)
Definition prevs_slice : SP nat :=
  l <- hget sl_level ;; c <- hget sl_prevs ;; if Nat.leb l (length c) then ret l else panic.
(** prevs[i] and prevs[i] = q. *)
Definition prevs_get (prevs i : nat) : SP ptr :=
  c <- hget sl_prevs ;;
  if Nat.ltb i prevs then match nth_error c i with Some q => ret q | None => panic end else panic.
Definition prevs_set (prevs i : nat) (q : ptr) : SP unit :=
  c <- hget sl_prevs ;;
  if Nat.ltb i prevs then hmod (set_sl_prevs (upd i q c)) else panic.

(** skiplist_newnode.go:14-293: the length of the nexts array in each case of the
    switch; no case applies to other levels. *)
Definition nexts_len (level : nat) : option nat :=
  (match level with
  | 1 => Some 1 | 2 => Some 2 | 3 => Some 3 | 4 => Some 4 | 5 => Some 5 | 6 => Some 6 | 7 => Some 7 | 8 => Some 8
  | 9 => Some 9 | 10 => Some 10 | 11 => Some 11 | 12 => Some 12 | 13 => Some 13 | 14 => Some 14 | 15 => Some 15 | 16 => Some 16
  | 17 => Some 17 | 18 => Some 18 | 19 => Some 19 | 20 => Some 20 | 21 => Some 21 | 22 => Some 22 | 23 => Some 23 | 24 => Some 24
  | 25 => Some 25 | 26 => Some 26 | 27 => Some 27 | 28 => Some 28 | 29 => Some 29 | 30 => Some 30 | 31 => Some 31 | 32 => Some 32
  | 33 => Some 33 | 34 => Some 34 | 35 => Some 35 | 36 => Some 36 | 37 => Some 37 | 38 => Some 38 | 39 => Some 39 | 40 => Some 40
  | _ => None
  end)%nat.
(** skiplist_newnode.go:7-297 newSkipListNode: the array is allocated together
    with the node; it is the node's next slice and belongs to nothing else. *)
Definition newSkipListNode (level : nat) (key : K) (value : V) : SP ptr :=
  match nexts_len level with Some n => pnew (mkSLNode key value (repeat None n)) | None => panic end.

(** skiplist.go:253-259 init, after the zero struct has been allocated (40-41,
    57-58): the part common to NewSkipList and NewSkipListFunc. *)
Definition init : SP unit :=
  h <- pnew (mkSLNode zeroK zeroV (repeat None skipListMaxLevel)) ;;
  hmod (fun _ => mkSL 1 0 h (repeat None skipListMaxLevel)).

(** The search loops.  All six have the shape
      for cur := prev.next[i]; cur != nil; cur = cur.next[i] {
        if hit { return cur }; if stop { break }; prev = cur }
    with hit and stop tests of cur.key (findPrevNodes has no hit test); inl is
    the early return, inr the final prev. *)
Fixpoint scan (hit stop : K -> bool) (fuel i : nat) (prev cur : ptr) : SP (ptr + ptr) :=
  match fuel with
  | O => nofuel
  | S fuel' =>
    if is_nil cur then ret (inr prev) else
    k <- ld_key cur ;;
    if hit k then ret (inl cur) else
    if stop k then ret (inr prev) else
    next <- ld_next cur i ;; scan hit stop fuel' i cur next
  end.
(** for i := level-1; i >= 0; i-- { <scan> } *)
Fixpoint descend (hit stop : K -> bool) (fuel level : nat) (prev : ptr) : SP (ptr + ptr) :=
  match level with
  | O => ret (inr prev)
  | S i =>
    cur <- ld_next prev i ;;
    r <- scan hit stop fuel i prev cur ;;
    match r with inl n => ret (inl n) | inr prev' => descend hit stop fuel i prev' end
  end.
(** for i := level-1; i >= 0; i-- { <scan>; prevs[i] = prev } *)
Fixpoint descend_prevs (hit stop : K -> bool) (fuel prevs level : nat) (prev : ptr) : SP (ptr + ptr) :=
  match level with
  | O => ret (inr prev)
  | S i =>
    cur <- ld_next prev i ;;
    r <- scan hit stop fuel i prev cur ;;
    match r with
    | inl n => ret (inl n)
    | inr prev' => prevs_set prevs i prev' ;; descend_prevs hit stop fuel prevs i prev'
    end
  end.

(** ** skipListOrdered: [ltb] is <, [eqb] is ==; a > b is [ltb b a], a >= b is
    [ltb b a || eqb a b]. *)
Section Ordered.
Variables ltb eqb : K -> K -> bool.
Definition gtb (a b : K) : bool := ltb b a.
Definition geb (a b : K) : bool := ltb b a || eqb a b.
(** skiplist.go:288-310 doFindNode. *)
Definition ord_doFindNode (key : K) (eq : bool) : SP ptr :=
  fuel <- heap_fuel ;;
  prev <- hget sl_head ;; level <- hget sl_level ;;
  r <- descend (fun k => eqb k key) (fun k => gtb k key) fuel level prev ;;
  match r with
  | inl cur => ret cur
  | inr prev => if eq then ret None else ld_next prev 0
  end.
(** skiplist.go:284-286 findNode. *)
Definition ord_findNode (key : K) : SP ptr := ord_doFindNode key true.
(** skiplist.go:312-314 lowerBound. *)
Definition ord_lowerBound (key : K) : SP ptr := ord_doFindNode key false.
(** skiplist.go:316-322 upperBound. *)
Definition ord_upperBound (key : K) : SP ptr :=
  node <- ord_lowerBound key ;;
  if is_nil node then ret node else
  k <- ld_key node ;; if eqb k key then ld_next node 0 else ret node.
(** skiplist.go:326-346 findInsertPoint; (cur, nil slice) when found. *)
Definition ord_findInsertPoint (key : K) : SP (ptr * nat) :=
  fuel <- heap_fuel ;;
  prevs <- prevs_slice ;;
  prev <- hget sl_head ;; level <- hget sl_level ;;
  r <- descend_prevs (fun k => eqb k key) (fun k => gtb k key) fuel prevs level prev ;;
  match r with inl next => ret (next, O) | inr _ => ret (None, prevs) end.
(** skiplist.go:358-371 findPrevNodes. *)
Definition ord_findPrevNodes (key : K) : SP nat :=
  fuel <- heap_fuel ;;
  prevs <- prevs_slice ;;
  prev <- hget sl_head ;; level <- hget sl_level ;;
  _ <- descend_prevs (fun _ => false) (fun k => geb k key) fuel prevs level prev ;;
  ret prevs.
(** skiplist.go:349-356 findRemovePoint. *)
Definition ord_findRemovePoint (key : K) : SP (ptr * nat) :=
  prevs <- ord_findPrevNodes key ;;
  p0 <- prevs_get prevs 0 ;; node <- ld_next p0 0 ;;
  if is_nil node then ret (None, O) else
  k <- ld_key node ;; if negb (eqb k key) then ret (None, O) else ret (node, prevs).
End Ordered.

(** ** skipListFunc: keyCmp *)
Section Func.
Variable cmp : K -> K -> Z.
(** skiplist.go:389-405 lowerBound. *)
Definition fn_lowerBound (key : K) : SP ptr :=
  fuel <- heap_fuel ;;
  prev <- hget sl_head ;; level <- hget sl_level ;;
  r <- descend (fun k => cmp k key =? 0) (fun k => 0 <? cmp k key) fuel level prev ;;
  match r with inl cur => ret cur | inr prev => ld_next prev 0 end.
(** skiplist.go:381-387 findNode. *)
Definition fn_findNode (key : K) : SP ptr :=
  node <- fn_lowerBound key ;;
  if is_nil node then ret None else
  k <- ld_key node ;; if cmp k key =? 0 then ret node else ret None.
(** skiplist.go:407-413 upperBound. *)
Definition fn_upperBound (key : K) : SP ptr :=
  node <- fn_lowerBound key ;;
  if is_nil node then ret node else
  k <- ld_key node ;; if cmp k key =? 0 then ld_next node 0 else ret node.
(** skiplist.go:417-438 findInsertPoint. *)
Definition fn_findInsertPoint (key : K) : SP (ptr * nat) :=
  fuel <- heap_fuel ;;
  prevs <- prevs_slice ;;
  prev <- hget sl_head ;; level <- hget sl_level ;;
  r <- descend_prevs (fun k => cmp k key =? 0) (fun k => 0 <? cmp k key) fuel prevs level prev ;;
  match r with inl cur => ret (cur, O) | inr _ => ret (None, prevs) end.
(** skiplist.go:450-463 findPrevNodes. *)
Definition fn_findPrevNodes (key : K) : SP nat :=
  fuel <- heap_fuel ;;
  prevs <- prevs_slice ;;
  prev <- hget sl_head ;; level <- hget sl_level ;;
  _ <- descend_prevs (fun _ => false) (fun k => 0 <=? cmp k key) fuel prevs level prev ;;
  ret prevs.
(** skiplist.go:441-448 findRemovePoint. *)
Definition fn_findRemovePoint (key : K) : SP (ptr * nat) :=
  prevs <- fn_findPrevNodes key ;;
  p0 <- prevs_get prevs 0 ;; node <- ld_next p0 0 ;;
  if is_nil node then ret (None, O) else
  k <- ld_key node ;; if negb (cmp k key =? 0) then ret (None, O) else ret (node, prevs).
End Func.

(** skiplist.go:245-251 skipListImpl, and the two implementations (39-45 and
    57-63 choose one). *)
Record slimpl := mkImpl {
  findNode : K -> SP ptr; lowerBound : K -> SP ptr; upperBound : K -> SP ptr;
  findInsertPoint : K -> SP (ptr * nat); findRemovePoint : K -> SP (ptr * nat) }.
Definition implOrdered (ltb eqb : K -> K -> bool) : slimpl :=
  mkImpl (ord_findNode ltb eqb) (ord_lowerBound ltb eqb) (ord_upperBound ltb eqb) (ord_findInsertPoint ltb eqb) (ord_findRemovePoint ltb eqb).
Definition implFunc (cmp : K -> K -> Z) : slimpl :=
  mkImpl (fn_findNode cmp) (fn_lowerBound cmp) (fn_upperBound cmp) (fn_findInsertPoint cmp) (fn_findRemovePoint cmp).

Section Methods.
Variable impl : slimpl.
(** skiplist.go:66-68 IsEmpty, 71-73 Len. *)
Definition IsEmpty : SP bool := n <- hget sl_len ;; ret (n =? 0).
Definition Len : SP Z := hget sl_len.
(** skiplist.go:76-82 Clear. *)
Fixpoint clear_loop (todo i : nat) : SP unit :=
  match todo with
  | O => ret tt
  | S t => h <- hget sl_head ;; st_next h i None ;; clear_loop t (S i)
  end.
Definition Clear : SP unit :=
  h <- hget sl_head ;; n <- pload h ;;
  clear_loop (length (n_next n)) 0 ;;
  hmod (set_sl_level 1) ;; hmod (set_sl_len 0).
(** skiplist.go:104-107: for i := 0; i < Min(level, sl.level); i++. *)
Fixpoint link_loop (todo i prevs : nat) (node : ptr) : SP unit :=
  match todo with
  | O => ret tt
  | S t =>
    p <- prevs_get prevs i ;; q <- ld_next p i ;; st_next node i q ;;
    p <- prevs_get prevs i ;; st_next p i node ;;
    link_loop t (S i) prevs node
  end.
(** skiplist.go:111-113: for i := sl.level; i < level; i++. *)
Fixpoint raise_loop (todo i : nat) (node : ptr) : SP unit :=
  match todo with
  | O => ret tt
  | S t => h <- hget sl_head ;; st_next h i node ;; raise_loop t (S i) node
  end.
(** skiplist.go:91-118 Insert. *)
Definition Insert (key : K) (value : V) (r : Z) : SP unit :=
  np <- findInsertPoint impl key ;;
  let '(node, prevs) := np in
  if negb (is_nil node) then st_value node value else
  len <- hget sl_len ;;
  let level := randomLevel r len in
  node <- newSkipListNode level key value ;;
  sll <- hget sl_level ;;
  link_loop (Model_Lookup.Min Nat.ltb level sll) 0 prevs node ;;
  (if Nat.ltb sll level then raise_loop (level - sll) sll node ;; hmod (set_sl_level level) else ret tt) ;;
  n <- hget sl_len ;; hmod (set_sl_len (n + 1)).
(** skiplist.go:122-128 Find: nil, or the node whose value the pointer is. *)
Definition Find (key : K) : SP ptr :=
  node <- findNode impl key ;; if negb (is_nil node) then ret node else ret None.
(** skiplist.go:131-133 Has. *)
Definition Has (key : K) : SP bool := node <- findNode impl key ;; ret (negb (is_nil node)).
(** skiplist.go:161-163: for i, v := range node.next. *)
Fixpoint unlink_loop (todo i prevs : nat) (node : ptr) : SP unit :=
  match todo with
  | O => ret tt
  | S t => v <- ld_next node i ;; p <- prevs_get prevs i ;; st_next p i v ;; unlink_loop t (S i) prevs node
  end.
(** skiplist.go:165-167: for sl.level > 1 && sl.head.next[sl.level-1] == nil. *)
Fixpoint shrink_loop (fuel : nat) : SP unit :=
  match fuel with
  | O => nofuel
  | S fuel' =>
    l <- hget sl_level ;;
    if negb (Nat.ltb 1 l) then ret tt else
    h <- hget sl_head ;; q <- ld_next h (l - 1) ;;
    if is_nil q then hmod (set_sl_level (l - 1)) ;; shrink_loop fuel' else ret tt
  end.
(** skiplist.go:156-170 Remove. *)
Definition Remove (key : K) : SP bool :=
  np <- findRemovePoint impl key ;;
  let '(node, prevs) := np in
  if is_nil node then ret false else
  nd <- pload node ;;
  unlink_loop (length (n_next nd)) 0 prevs node ;;
  l <- hget sl_level ;; shrink_loop (S l) ;;
  n <- hget sl_len ;; hmod (set_sl_len (n - 1)) ;;
  ret true.

(** skiplist.go:215-217 skipListIterator: (node, end). *)
Definition iter := (ptr * ptr)%type.
(** skiplist.go:219-237. *)
Definition IsNotEnd (it : iter) : bool := negb (peqb (fst it) (snd it)).
Definition MoveToNext (it : iter) : SP iter := n <- ld_next (fst it) 0 ;; ret (n, snd it).
Definition Key (it : iter) : SP K := ld_key (fst it).
Definition Value (it : iter) : SP V := ld_value (fst it).
Definition Pointer_store (it : iter) (v : V) : SP unit := st_value (fst it) v.
(** skiplist.go:85-87 Iterate, 138-140 LowerBound, 145-147 UpperBound, 150-152
    FindRange. *)
Definition Iterate : SP iter := h <- hget sl_head ;; n <- ld_next h 0 ;; ret (n, None).
Definition LowerBound (key : K) : SP iter := n <- lowerBound impl key ;; ret (n, None).
Definition UpperBound (key : K) : SP iter := n <- upperBound impl key ;; ret (n, None).
Definition FindRange (first last : K) : SP iter := n <- lowerBound impl first ;; e <- upperBound impl last ;; ret (n, e).

Section Callbacks.
Context {St : Type}.
(** skiplist.go:173-177 ForEach.  Callbacks have a private state and do not
    touch the list except through the pointer they are given. *)
Fixpoint ForEach_loop (cb : St -> K * V -> St) (fuel : nat) (e : ptr) (st : St) : SP St :=
  match fuel with
  | O => nofuel
  | S fuel' =>
    if is_nil e then ret st else
    k <- ld_key e ;; v <- ld_value e ;;
    let st' := cb st (k, v) in
    e' <- ld_next e 0 ;; ForEach_loop cb fuel' e' st'
  end.
Definition ForEach (cb : St -> K * V -> St) (st : St) : SP St :=
  fuel <- heap_fuel ;; h <- hget sl_head ;; e <- ld_next h 0 ;; ForEach_loop cb fuel e st.
(** skiplist.go:187-193 ForEachIf. *)
Fixpoint ForEachIf_loop (cb : St -> K * V -> bool * St) (fuel : nat) (e : ptr) (st : St) : SP St :=
  match fuel with
  | O => nofuel
  | S fuel' =>
    if is_nil e then ret st else
    k <- ld_key e ;; v <- ld_value e ;;
    let '(go, st') := cb st (k, v) in
    if negb go then ret st' else
    e' <- ld_next e 0 ;; ForEachIf_loop cb fuel' e' st'
  end.
Definition ForEachIf (cb : St -> K * V -> bool * St) (st : St) : SP St :=
  fuel <- heap_fuel ;; h <- hget sl_head ;; e <- ld_next h 0 ;; ForEachIf_loop cb fuel e st.
(** skiplist.go:180-184 ForEachMutable: the callback gets the key and a pointer
    to the value; it maps the value under the pointer to the one it leaves. *)
Fixpoint ForEachMutable_loop (cb : St -> K * V -> V * St) (fuel : nat) (e : ptr) (st : St) : SP St :=
  match fuel with
  | O => nofuel
  | S fuel' =>
    if is_nil e then ret st else
    k <- ld_key e ;; v <- ld_value e ;;
    let '(v', st') := cb st (k, v) in
    st_value e v' ;;
    e' <- ld_next e 0 ;; ForEachMutable_loop cb fuel' e' st'
  end.
Definition ForEachMutable (cb : St -> K * V -> V * St) (st : St) : SP St :=
  fuel <- heap_fuel ;; h <- hget sl_head ;; e <- ld_next h 0 ;; ForEachMutable_loop cb fuel e st.
(** skiplist.go:196-202 ForEachMutableIf. *)
Fixpoint ForEachMutableIf_loop (cb : St -> K * V -> V * bool * St) (fuel : nat) (e : ptr) (st : St) : SP St :=
  match fuel with
  | O => nofuel
  | S fuel' =>
    if is_nil e then ret st else
    k <- ld_key e ;; v <- ld_value e ;;
    let '(v', go, st') := cb st (k, v) in
    st_value e v' ;;
    if negb go then ret st' else
    e' <- ld_next e 0 ;; ForEachMutableIf_loop cb fuel' e' st'
  end.
Definition ForEachMutableIf (cb : St -> K * V -> V * bool * St) (st : St) : SP St :=
  fuel <- heap_fuel ;; h <- hget sl_head ;; e <- ld_next h 0 ;; ForEachMutableIf_loop cb fuel e st.
End Callbacks.

(** skiplist.go:48-54 NewSkipListFromMap after NewSkipList: kvs are the pairs in
    the order the range loop yields them, each with the random number drawn. *)
Fixpoint insert_all (kvs : list (K * V * Z)) : SP unit :=
  match kvs with
  | [] => ret tt
  | (k, v, r) :: rest => Insert k v r ;; insert_all rest
  end.
Definition NewSkipListFromMap (kvs : list (K * V * Z)) : SP unit := init ;; insert_all kvs.

(** Client code, not in /repo.
    for ; it.IsNotEnd(); it.MoveToNext() { ... it.Key(), it.Value() ... } *)
Fixpoint iter_loop (fuel : nat) (it : iter) (seen : list (K * V)) : SP (list (K * V)) :=
  match fuel with
  | O => nofuel
  | S fuel' =>
    if IsNotEnd it then
      k <- Key it ;; v <- Value it ;; it' <- MoveToNext it ;; iter_loop fuel' it' (seen ++ [(k, v)])
    else ret seen
  end.
Definition walk (p : SP iter) : SP (list (K * V)) := fuel <- heap_fuel ;; it <- p ;; iter_loop fuel it [].
(** p := sl.Find(k); nil or *p;  if p != nil { *p = v } *)
Definition find_get (k : K) : SP (option V) :=
  p <- Find k ;; if is_nil p then ret None else v <- ld_value p ;; ret (Some v).
Definition find_set (k : K) (v : V) : SP bool :=
  p <- Find k ;; if is_nil p then ret false else st_value p v ;; ret true.
(** for it := sl.Iterate(); it.IsNotEnd(); it.MoveToNext() {
      if pred(it.Key(), it.Value()) { sl.Remove(it.Key()) } } *)
Fixpoint erase_loop (pred : K * V -> bool) (fuel : nat) (it : iter) : SP unit :=
  match fuel with
  | O => nofuel
  | S fuel' =>
    if IsNotEnd it then
      k <- Key it ;; v <- Value it ;;
      (if pred (k, v) then b <- Remove k ;; ret tt else ret tt) ;;
      it' <- MoveToNext it ;; erase_loop pred fuel' it'
    else ret tt
  end.
Definition erase_if (pred : K * V -> bool) : SP unit := fuel <- heap_fuel ;; it <- Iterate ;; erase_loop pred fuel it.

(** One call of a client. *)
Definition map_step {St} (o : mop K V St) : list (slnode K V) * sklist -> outcome (mres K V St) * (list (slnode K V) * sklist) :=
  match o with
  | MInsert k v r => show (fun _ => MNone) (Insert k v r)
  | MRemove k => show MBool (Remove k)
  | MClear => show (fun _ => MNone) Clear
  | MLen => show MInt Len
  | MIsEmpty => show MBool IsEmpty
  | MFind k => show MOpt (find_get k)
  | MHas k => show MBool (Has k)
  | MFindSet k v => show MBool (find_set k v)
  | MLower k => show MSeq (walk (LowerBound k))
  | MUpper k => show MSeq (walk (UpperBound k))
  | MRange a b => show MSeq (walk (FindRange a b))
  | MIter => show MSeq (walk Iterate)
  | MForEach cb st => show MSt (ForEach cb st)
  | MForEachIf cb st => show MSt (ForEachIf cb st)
  | MForEachMutable cb st => show MSt (ForEachMutable cb st)
  | MForEachMutableIf cb st => show MSt (ForEachMutableIf cb st)
  end.
End Methods.
End SkipList.

(** The implementations NewSkipList and NewSkipListFunc choose, for keys that
    are ordered by [lt]. *)
Definition kind {K V} (impl : @slimpl K V) (lt : K -> K -> bool) : Prop :=
  (exists eqb, impl = implOrdered lt eqb /\ ordered lt eqb) \/
  (exists cmp, impl = implFunc cmp /\ three_way cmp /\ forall a b, lt a b = (cmp a b <? 0)).
