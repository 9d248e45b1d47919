(** Model of /repo/priority_queue.go. *)
From Verif Require Import Base Trace Model_Heap.

Section PQ.
Context {T : Type}.
Variable zero : T.
Variable grow : Z -> Z -> Z.

(** priority_queue.go:71-100: the two pqImpl implementations. *)
Inductive pqImpl : Type :=
| pqOrdered (ltb : T -> T -> bool)
| pqFunc (less : T -> T -> bool).

(** priority_queue.go:6-9.  The state of a queue: its heap slice (with the
    memory it lives in) and the impl. *)
Record PriorityQueue : Type := mkPQ { pq_heap : cell T; pq_impl : pqImpl }.

(** priority_queue.go:12-16 NewPriorityQueue. *)
Definition NewPriorityQueue (ltb : T -> T -> bool) (m : mem T) : PriorityQueue :=
  mkPQ (m, nil_slice) (pqOrdered ltb).

(** priority_queue.go:20-26 NewPriorityQueueOn. *)
Definition NewPriorityQueueOn (ltb : T -> T -> bool) (s : slice) (m : mem T)
  : outcome PriorityQueue :=
  match on_slice s (MakeMinHeap ltb) m with
  | (Ok _, m') => Ok (mkPQ (m', s) (pqOrdered ltb))
  | (Panic, _) => Panic
  | (NoFuel, _) => NoFuel
  end.

(** priority_queue.go:29-31 NewPriorityQueueOf; the variadic argument is a
    slice. *)
Definition NewPriorityQueueOf (ltb : T -> T -> bool) (elements : slice) (m : mem T)
  : outcome PriorityQueue := NewPriorityQueueOn ltb elements m.

(** priority_queue.go:34-39 NewPriorityQueueFunc. *)
Definition NewPriorityQueueFunc (less : T -> T -> bool) (m : mem T) : PriorityQueue :=
  mkPQ (m, nil_slice) (pqFunc less).

Definition on_heap {A} (p : M (cell T) A) : M PriorityQueue A :=
  fun q => let '(o, c) := p (pq_heap q) in (o, mkPQ c (pq_impl q)).

(** priority_queue.go:42-44 Len. *)
Definition PQ_Len : M PriorityQueue Z := on_heap (h <- get_hdr ;; ret (s_len h)).
(** priority_queue.go:47-49 IsEmpty. *)
Definition PQ_IsEmpty : M PriorityQueue bool := on_heap (h <- get_hdr ;; ret (s_len h =? 0)).
(** priority_queue.go:52-54 Clear. *)
Definition PQ_Clear : M PriorityQueue unit :=
  on_heap (h <- get_hdr ;; h' <- lift_o (reslice h 0 0) ;; set_hdr h').
(** priority_queue.go:57-59 Top. *)
Definition PQ_Top : M PriorityQueue T := on_heap (h <- get_hdr ;; lift_mem (sload h 0)).
(** priority_queue.go:62-64 Push, with 80-82 and 94-96. *)
Definition PQ_Push (v : T) : M PriorityQueue unit :=
  fun q => match pq_impl q with
           | pqOrdered ltb => on_heap (PushMinHeap zero grow ltb v) q
           | pqFunc less => on_heap (PushHeapFunc zero grow v less) q
           end.
(** priority_queue.go:67-69 Pop, with 84-86 and 98-100. *)
Definition PQ_Pop : M PriorityQueue T :=
  fun q => match pq_impl q with
           | pqOrdered ltb => on_heap (PopMinHeap ltb) q
           | pqFunc less => on_heap (PopHeapFunc less) q
           end.

(** Calls on a queue and what the caller observes. *)
Inductive pq_op : Type := PPush (v : T) | PPop | PTop | PLen | PIsEmpty | PClear.

Definition pq_step (o : pq_op) (q : PriorityQueue) : outcome (obs T) * PriorityQueue :=
  match o with
  | PPush v => observe (fun _ => ONone) (PQ_Push v) q
  | PPop => observe OVal PQ_Pop q
  | PTop => observe OVal PQ_Top q
  | PLen => observe OInt PQ_Len q
  | PIsEmpty => observe OBool PQ_IsEmpty q
  | PClear => observe (fun _ => ONone) PQ_Clear q
  end.
End PQ.
Arguments pq_op : clear implicits.
Arguments pqImpl : clear implicits.
Arguments PriorityQueue : clear implicits.
