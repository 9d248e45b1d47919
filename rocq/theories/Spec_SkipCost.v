(** Counting the keys a skip list search reads, and averaging over the random
    numbers drawn. *)
From Verif Require Import Base Spec Spec_Map Nodes Model_SkipList.

Section Counting.
Context {K V : Type}.
Notation SP := (P (slnode K V) sklist).
(** [scan], [descend] and [descend_prevs] of Model_SkipList.v, also returning how
    many times cur.key was read.  C76_counting: they do and return the same. *)
Fixpoint scan_count (hit stop : K -> bool) (fuel i : nat) (prev cur : ptr) : SP ((ptr + ptr) * Z) :=
  match fuel with
  | O => nofuel
  | S fuel' =>
    if is_nil cur then ret (inr prev, 0) else
    k <- ld_key cur ;;
    if hit k then ret (inl cur, 1) else
    if stop k then ret (inr prev, 1) else
    next <- ld_next cur i ;; r <- scan_count hit stop fuel' i cur next ;; ret (fst r, snd r + 1)
  end.
Fixpoint descend_count (hit stop : K -> bool) (fuel level : nat) (prev : ptr) : SP ((ptr + ptr) * Z) :=
  match level with
  | O => ret (inr prev, 0)
  | S i =>
    cur <- ld_next prev i ;;
    r <- scan_count hit stop fuel i prev cur ;;
    match fst r with
    | inl n => ret (inl n, snd r)
    | inr prev' => r' <- descend_count hit stop fuel i prev' ;; ret (fst r', snd r + snd r')
    end
  end.
Fixpoint descend_prevs_count (hit stop : K -> bool) (fuel prevs level : nat) (prev : ptr) : SP ((ptr + ptr) * Z) :=
  match level with
  | O => ret (inr prev, 0)
  | S i =>
    cur <- ld_next prev i ;;
    r <- scan_count hit stop fuel i prev cur ;;
    match fst r with
    | inl n => ret (inl n, snd r)
    | inr prev' => prevs_set prevs i prev' ;; r' <- descend_prevs_count hit stop fuel prevs i prev' ;; ret (fst r', snd r + snd r')
    end
  end.
(** The counting copies of the searches of skipListOrdered (skiplist.go:284-371)
    and skipListFunc (381-463), line by line as in Model_SkipList.v. *)
Section Ordered.
Variables ltb eqb : K -> K -> bool.
Definition ord_doFindNode_count (key : K) (eq : bool) : SP (ptr * Z) :=
  fuel <- heap_fuel ;;
  prev <- hget sl_head ;; level <- hget sl_level ;;
  r <- descend_count (fun k => eqb k key) (fun k => gtb ltb k key) fuel level prev ;;
  match fst r with
  | inl cur => ret (cur, snd r)
  | inr prev => if eq then ret (None, snd r) else p <- ld_next prev 0 ;; ret (p, snd r)
  end.
Definition ord_upperBound_count (key : K) : SP (ptr * Z) :=
  r <- ord_doFindNode_count key false ;;
  if is_nil (fst r) then ret r else
  k <- ld_key (fst r) ;; if eqb k key then p <- ld_next (fst r) 0 ;; ret (p, snd r + 1) else ret (fst r, snd r + 1).
Definition ord_findInsertPoint_count (key : K) : SP (ptr * nat * Z) :=
  fuel <- heap_fuel ;;
  prevs <- prevs_slice ;;
  prev <- hget sl_head ;; level <- hget sl_level ;;
  r <- descend_prevs_count (fun k => eqb k key) (fun k => gtb ltb k key) fuel prevs level prev ;;
  match fst r with inl next => ret (next, O, snd r) | inr _ => ret (None, prevs, snd r) end.
Definition ord_findPrevNodes_count (key : K) : SP (nat * Z) :=
  fuel <- heap_fuel ;;
  prevs <- prevs_slice ;;
  prev <- hget sl_head ;; level <- hget sl_level ;;
  r <- descend_prevs_count (fun _ => false) (fun k => geb ltb eqb k key) fuel prevs level prev ;;
  ret (prevs, snd r).
Definition ord_findRemovePoint_count (key : K) : SP (ptr * nat * Z) :=
  r <- ord_findPrevNodes_count key ;;
  p0 <- prevs_get (fst r) 0 ;; node <- ld_next p0 0 ;;
  if is_nil node then ret (None, O, snd r) else
  k <- ld_key node ;; if negb (eqb k key) then ret (None, O, snd r + 1) else ret (node, fst r, snd r + 1).
End Ordered.
Section Func.
Variable cmp : K -> K -> Z.
Definition fn_lowerBound_count (key : K) : SP (ptr * Z) :=
  fuel <- heap_fuel ;;
  prev <- hget sl_head ;; level <- hget sl_level ;;
  r <- descend_count (fun k => cmp k key =? 0) (fun k => 0 <? cmp k key) fuel level prev ;;
  match fst r with inl cur => ret (cur, snd r) | inr prev => p <- ld_next prev 0 ;; ret (p, snd r) end.
Definition fn_findNode_count (key : K) : SP (ptr * Z) :=
  r <- fn_lowerBound_count key ;;
  if is_nil (fst r) then ret (None, snd r) else
  k <- ld_key (fst r) ;; if cmp k key =? 0 then ret (fst r, snd r + 1) else ret (None, snd r + 1).
Definition fn_upperBound_count (key : K) : SP (ptr * Z) :=
  r <- fn_lowerBound_count key ;;
  if is_nil (fst r) then ret r else
  k <- ld_key (fst r) ;; if cmp k key =? 0 then p <- ld_next (fst r) 0 ;; ret (p, snd r + 1) else ret (fst r, snd r + 1).
Definition fn_findInsertPoint_count (key : K) : SP (ptr * nat * Z) :=
  fuel <- heap_fuel ;;
  prevs <- prevs_slice ;;
  prev <- hget sl_head ;; level <- hget sl_level ;;
  r <- descend_prevs_count (fun k => cmp k key =? 0) (fun k => 0 <? cmp k key) fuel prevs level prev ;;
  match fst r with inl cur => ret (cur, O, snd r) | inr _ => ret (None, prevs, snd r) end.
Definition fn_findPrevNodes_count (key : K) : SP (nat * Z) :=
  fuel <- heap_fuel ;;
  prevs <- prevs_slice ;;
  prev <- hget sl_head ;; level <- hget sl_level ;;
  r <- descend_prevs_count (fun _ => false) (fun k => 0 <=? cmp k key) fuel prevs level prev ;;
  ret (prevs, snd r).
Definition fn_findRemovePoint_count (key : K) : SP (ptr * nat * Z) :=
  r <- fn_findPrevNodes_count key ;;
  p0 <- prevs_get (fst r) 0 ;; node <- ld_next p0 0 ;;
  if is_nil node then ret (None, O, snd r) else
  k <- ld_key node ;; if negb (cmp k key =? 0) then ret (None, O, snd r + 1) else ret (node, fst r, snd r + 1).
End Func.
(** m without the count, and only the count of m (-1 if m does not return). *)
Definition plain {S A} (m : M S (A * Z)) : M S A := fun s => let '(o, s') := m s in (omap fst o, s').
Definition reads {S A} (m : M S (A * Z)) (s : S) : Z := match fst (m s) with Ok (_, n) => n | _ => -1 end.
Record slcount := mkCount {
  findNode_count : K -> SP (ptr * Z); lowerBound_count : K -> SP (ptr * Z); upperBound_count : K -> SP (ptr * Z);
  findInsertPoint_count : K -> SP (ptr * nat * Z); findRemovePoint_count : K -> SP (ptr * nat * Z) }.
Definition countOrdered (ltb eqb : K -> K -> bool) : slcount :=
  mkCount (fun key => ord_doFindNode_count ltb eqb key true) (fun key => ord_doFindNode_count ltb eqb key false) (ord_upperBound_count ltb eqb)
    (ord_findInsertPoint_count ltb eqb) (ord_findRemovePoint_count ltb eqb).
Definition countFunc (cmp : K -> K -> Z) : slcount :=
  mkCount (fn_findNode_count cmp) (fn_lowerBound_count cmp) (fn_upperBound_count cmp) (fn_findInsertPoint_count cmp) (fn_findRemovePoint_count cmp).
(** As [kind] of Model_SkipList.v, with the counting copy. *)
Definition counted (impl : @slimpl K V) (cnt : slcount) (lt : K -> K -> bool) : Prop :=
  (exists eqb, impl = implOrdered lt eqb /\ cnt = countOrdered lt eqb /\ ordered lt eqb) \/
  (exists cmp, impl = implFunc cmp /\ cnt = countFunc cmp /\ three_way cmp /\ forall a b, lt a b = (cmp a b <? 0)).
(** Each of the five searches for key has property p of the number of keys it reads. *)
Definition each_search (cnt : slcount) (key : K) (p : (list (slnode K V) * sklist -> Z) -> Prop) : Prop :=
  p (reads (findNode_count cnt key)) /\ p (reads (lowerBound_count cnt key)) /\ p (reads (upperBound_count cnt key)) /\
  p (reads (findInsertPoint_count cnt key)) /\ p (reads (findRemovePoint_count cnt key)).
(** Space: the lengths of the next arrays of the linked nodes, added up along the
    bottom level. *)
Fixpoint links_loop (fuel : nat) (e : ptr) (total : Z) : SP Z :=
  match fuel with
  | O => nofuel
  | S fuel' => if is_nil e then ret total else n <- pload e ;; e' <- ld_next e 0 ;; links_loop fuel' e' (total + zlen (n_next n))
  end.
Definition links (s : list (slnode K V) * sklist) : Z :=
  match fst ((fuel <- heap_fuel ;; h <- hget sl_head ;; e <- ld_next h 0 ;; links_loop fuel e 0) s) with Ok n => n | _ => -1 end.
End Counting.

(** f added up over all sequences of n numbers rand.Uint64 can return. *)
Definition uint64s : nat := Z.to_nat (2 ^ 64).
Fixpoint sum_draws (n : nat) (f : list Z -> Z) : Z :=
  match n with
  | O => f []
  | S n' => sum_below (fun r => sum_draws n' (fun rs => f (r :: rs))) uint64s
  end.
(** The calls ops, the i-th one drawing the i-th number if it draws one. *)
Fixpoint with_draws {K V St} (ops : list (mop K V St)) (rs : list Z) : list (mop K V St) :=
  match ops, rs with
  | o :: ops', r :: rs' => match o with MInsert k v _ => MInsert k v r | _ => o end :: with_draws ops' rs'
  | _, _ => ops
  end.
(** The average of f over all draws in calls ops is at most q/2. *)
Definition twice_average_at_most {K V St} (ops : list (mop K V St)) (f : list (mop K V St) -> Z) (q : Z) : Prop :=
  2 * sum_draws (length ops) (fun rs => f (with_draws ops rs)) <= q * (2 ^ 64) ^ Z.of_nat (length ops).
