(** Model of /repo/heap.go.  In-place helpers are window programs on the heap
    slice; functions taking *[]T work on a [cell] (memory + slice header). *)
From Verif Require Import Base.

Section Heap.
Context {T : Type}.
(** zero value of T and append's growth policy (oracle), used by append only. *)
Variable zero : T.
Variable grow : Z -> Z -> Z.

(** heap.go:69-71 heapSwap. *)
Definition heapSwap (i j : Z) : W T unit := wswap i j.

(** ** Ordered versions; [ltb] is <. *)

(** heap.go:73-82 heapUp; Go's / truncates, so (0-1)/2 = 0. *)
Fixpoint heapUp_loop (ltb : T -> T -> bool) (fuel : nat) (j : Z) : W T unit :=
  match fuel with
  | O => nofuel
  | S fuel' =>
    let i := Z.quot (j - 1) 2 in
    if i =? j then ret tt else
    hj <- wload j ;; hi <- wload i ;;
    if negb (ltb hj hi) then ret tt else
    heapSwap i j ;; heapUp_loop ltb fuel' i
  end.
Definition heapUp (ltb : T -> T -> bool) (j : Z) : W T unit :=
  heapUp_loop ltb (S (S (Z.to_nat j))) j.

(** heap.go:84-102 heapDown; 2*i+1 is computed in 64-bit int arithmetic. *)
Fixpoint heapDown_loop (ltb : T -> T -> bool) (fuel : nat) (i0 n i : Z) : W T bool :=
  match fuel with
  | O => nofuel
  | S fuel' =>
    let j1 := wrap64 (2 * i + 1) in
    if (j1 >=? n) || (j1 <? 0) then ret (i >? i0) else
    let j2 := j1 + 1 in
    right <- (if j2 <? n
              then h2 <- wload j2 ;; h1 <- wload j1 ;; ret (ltb h2 h1)
              else ret false) ;;
    let j := if right : bool then j2 else j1 in
    hj <- wload j ;; hi <- wload i ;;
    if negb (ltb hj hi) then ret (i >? i0) else
    heapSwap i j ;; heapDown_loop ltb fuel' i0 n j
  end.
Definition heapDown (ltb : T -> T -> bool) (i0 n : Z) : W T bool :=
  heapDown_loop ltb (S (Z.to_nat n)) i0 n i0.

(** heap.go:8-14 MakeMinHeap: for i := n/2 - 1; i >= 0; i-- { heapDown }. *)
Fixpoint MakeMinHeap_loop (ltb : T -> T -> bool) (fuel : nat) (n i : Z) : W T unit :=
  if i >=? 0 then
    match fuel with
    | O => nofuel
    | S fuel' => heapDown ltb i n ;; MakeMinHeap_loop ltb fuel' n (i - 1)
    end
  else ret tt.
Definition MakeMinHeap (ltb : T -> T -> bool) : W T unit :=
  n <- wlen ;; MakeMinHeap_loop ltb (Z.to_nat n) n (Z.quot n 2 - 1).

(** heap.go:19-31 IsMinHeap (read only). array[parent] > array[child] is
    [ltb child parent].  The loop runs child = 1 .. len-1. *)
Fixpoint IsMinHeap_loop (ltb : T -> T -> bool) (fuel : nat) (a : list T) (parent child : Z)
  : outcome bool :=
  if child <? zlen a then
    match fuel with
    | O => NoFuel
    | S fuel' =>
      obind (at_ a parent) (fun ap => obind (at_ a child) (fun ac =>
      if ltb ac ap then Ok false
      else IsMinHeap_loop ltb fuel' a
             (if Z.land child 1 =? 0 then parent + 1 else parent) (child + 1)))
    end
  else Ok true.
Definition IsMinHeap (ltb : T -> T -> bool) (a : list T) : outcome bool :=
  IsMinHeap_loop ltb (length a) a 0 1.

(** heap.go:36-39 PushMinHeap. *)
Definition PushMinHeap (ltb : T -> T -> bool) (v : T) : M (cell T) unit :=
  h <- get_hdr ;;
  h' <- lift_mem (append_list zero grow h [v]) ;;
  set_hdr h' ;;
  lift_mem (on_slice h' (heapUp ltb (s_len h' - 1))).

(** heap.go:44-51 PopMinHeap. *)
Definition PopMinHeap (ltb : T -> T -> bool) : M (cell T) T :=
  h <- get_hdr ;;
  let n := s_len h - 1 in
  lift_mem (on_slice h (heapSwap 0 n)) ;;
  lift_mem (on_slice h (heapDown ltb 0 n)) ;;
  h' <- lift_o (reslice h 0 n) ;;
  set_hdr h' ;;
  lift_mem (on_slice h (wload n)).

(** heap.go:56-67 RemoveMinHeap. *)
Definition RemoveMinHeap (ltb : T -> T -> bool) (i : Z) : M (cell T) T :=
  h <- get_hdr ;;
  let n := s_len h - 1 in
  (if n =? i then ret tt
   else lift_mem (on_slice h (heapSwap i n)) ;;
        b <- lift_mem (on_slice h (heapDown ltb i n)) ;;
        if b : bool then ret tt else lift_mem (on_slice h (heapUp ltb i))) ;;
  h' <- lift_o (reslice h 0 n) ;;
  set_hdr h' ;;
  lift_mem (on_slice h (wload n)).

(** ** Func versions *)

(** heap.go:169-178 heapUpFunc. *)
Fixpoint heapUpFunc_loop (less : T -> T -> bool) (fuel : nat) (j : Z) : W T unit :=
  match fuel with
  | O => nofuel
  | S fuel' =>
    let i := Z.quot (j - 1) 2 in
    if i =? j then ret tt else
    hj <- wload j ;; hi <- wload i ;;
    if negb (less hj hi) then ret tt else
    heapSwap i j ;; heapUpFunc_loop less fuel' i
  end.
Definition heapUpFunc (less : T -> T -> bool) (j : Z) : W T unit :=
  heapUpFunc_loop less (S (S (Z.to_nat j))) j.

(** heap.go:180-198 heapDownFunc. *)
Fixpoint heapDownFunc_loop (less : T -> T -> bool) (fuel : nat) (i0 n i : Z) : W T bool :=
  match fuel with
  | O => nofuel
  | S fuel' =>
    let j1 := wrap64 (2 * i + 1) in
    if (j1 >=? n) || (j1 <? 0) then ret (i >? i0) else
    let j2 := j1 + 1 in
    right <- (if j2 <? n
              then h2 <- wload j2 ;; h1 <- wload j1 ;; ret (less h2 h1)
              else ret false) ;;
    let j := if right : bool then j2 else j1 in
    hj <- wload j ;; hi <- wload i ;;
    if negb (less hj hi) then ret (i >? i0) else
    heapSwap i j ;; heapDownFunc_loop less fuel' i0 n j
  end.
Definition heapDownFunc (less : T -> T -> bool) (i0 n : Z) : W T bool :=
  heapDownFunc_loop less (S (Z.to_nat n)) i0 n i0.

(** heap.go:107-113 MakeHeapFunc. *)
Fixpoint MakeHeapFunc_loop (less : T -> T -> bool) (fuel : nat) (n i : Z) : W T unit :=
  if i >=? 0 then
    match fuel with
    | O => nofuel
    | S fuel' => heapDownFunc less i n ;; MakeHeapFunc_loop less fuel' n (i - 1)
    end
  else ret tt.
Definition MakeHeapFunc (less : T -> T -> bool) : W T unit :=
  n <- wlen ;; MakeHeapFunc_loop less (Z.to_nat n) n (Z.quot n 2 - 1).

(** heap.go:118-131 IsHeapFunc: note !less(parent, child), not less(child, parent). *)
Fixpoint IsHeapFunc_loop (less : T -> T -> bool) (fuel : nat) (a : list T) (parent child : Z)
  : outcome bool :=
  if child <? zlen a then
    match fuel with
    | O => NoFuel
    | S fuel' =>
      obind (at_ a parent) (fun ap => obind (at_ a child) (fun ac =>
      if negb (less ap ac) then Ok false
      else IsHeapFunc_loop less fuel' a
             (if Z.land child 1 =? 0 then parent + 1 else parent) (child + 1)))
    end
  else Ok true.
Definition IsHeapFunc (a : list T) (less : T -> T -> bool) : outcome bool :=
  IsHeapFunc_loop less (length a) a 0 1.

(** heap.go:136-139 PushHeapFunc. *)
Definition PushHeapFunc (v : T) (less : T -> T -> bool) : M (cell T) unit :=
  h <- get_hdr ;;
  h' <- lift_mem (append_list zero grow h [v]) ;;
  set_hdr h' ;;
  lift_mem (on_slice h' (heapUpFunc less (s_len h' - 1))).

(** heap.go:144-151 PopHeapFunc. *)
Definition PopHeapFunc (less : T -> T -> bool) : M (cell T) T :=
  h <- get_hdr ;;
  let n := s_len h - 1 in
  lift_mem (on_slice h (heapSwap 0 n)) ;;
  lift_mem (on_slice h (heapDownFunc less 0 n)) ;;
  h' <- lift_o (reslice h 0 n) ;;
  set_hdr h' ;;
  lift_mem (on_slice h (wload n)).

(** heap.go:156-167 RemoveHeapFunc. *)
Definition RemoveHeapFunc (i : Z) (less : T -> T -> bool) : M (cell T) T :=
  h <- get_hdr ;;
  let n := s_len h - 1 in
  (if n =? i then ret tt
   else lift_mem (on_slice h (heapSwap i n)) ;;
        b <- lift_mem (on_slice h (heapDownFunc less i n)) ;;
        if b : bool then ret tt else lift_mem (on_slice h (heapUpFunc less i))) ;;
  h' <- lift_o (reslice h 0 n) ;;
  set_hdr h' ;;
  lift_mem (on_slice h (wload n)).

(** Client code used to state the heap-sort property, not in /repo: call [pop]
    n times and collect the results. *)
Fixpoint drain (pop : M (cell T) T) (n : nat) : M (cell T) (list T) :=
  match n with
  | O => ret []
  | S n' => x <- pop ;; r <- drain pop n' ;; ret (x :: r)
  end.

End Heap.
