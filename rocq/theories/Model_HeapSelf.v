(** Model of the functions of /repo/heap.go that take a less function, for a less
    function that may read and write any memory, the slice of the heap and the
    variable *heap included.  heapUpFunc, heapDownFunc, PushHeapFunc and
    PopHeapFunc for such a function are in Model_PQSelf.v (there *heap is
    pq.heap); the others are here.  Model_HeapFx.v has them for a less function
    that has variables of its own only. *)
From Verif Require Import Base Model_Heap Model_PQSelf.

Section HeapSelf.
Context {T X : Type}.
Variable less : T -> T -> @QP T X bool.

(** heap.go:107-113 MakeHeapFunc(array, less), array = h. *)
Fixpoint MakeHeap_self_loop (h : slice) (fuel : nat) (n i : Z) : @QP T X unit :=
  if i >=? 0 then
    match fuel with
    | O => nofuel
    | S fuel' => heapDown_self less h (S (Z.to_nat n)) i n i ;; MakeHeap_self_loop h fuel' n (i - 1)
    end
  else ret tt.
Definition MakeHeap_self (h : slice) : @QP T X unit :=
  MakeHeap_self_loop h (Z.to_nat (s_len h)) (s_len h) (Z.quot (s_len h) 2 - 1).

(** heap.go:118-131 IsHeapFunc(array, less), array = h. *)
Fixpoint IsHeap_self_loop (h : slice) (fuel : nat) (parent child : Z) : @QP T X bool :=
  if child <? s_len h then
    match fuel with
    | O => nofuel
    | S fuel' =>
      ap <- h_load h parent ;; ac <- h_load h child ;;
      b <- less ap ac ;;
      if negb b then ret false
      else IsHeap_self_loop h fuel' (if Z.land child 1 =? 0 then parent + 1 else parent) (child + 1)
    end
  else ret true.
Definition IsHeap_self (h : slice) : @QP T X bool := IsHeap_self_loop h (Z.to_nat (s_len h)) 0 1.

(** heap.go:156-167 RemoveHeapFunc. *)
Definition RemoveHeap_self (i : Z) : @QP T X T :=
  h <- on_queue get_hdr ;;
  let n := s_len h - 1 in
  (if n =? i then ret tt
   else h_swap h i n ;;
        b <- heapDown_self less h (S (Z.to_nat n)) i n i ;;
        if b : bool then ret tt else heapUp_self less h (S (S (Z.to_nat i))) i) ;;
  h' <- lift_o (reslice h 0 n) ;;
  on_queue (set_hdr h') ;;
  h_load h n.
End HeapSelf.
