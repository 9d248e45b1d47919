(** Model of the queue of /repo/priority_queue.go made by NewPriorityQueueFunc
    with a less function that itself uses the queue (it calls methods of the queue
    it compares elements for).  A call of less is any computation on the memory,
    on the heap slice of the queue (pq.heap) and on variables of the client.  The
    functions are those of Model_HeapFx.v, where less cannot reach the queue:
    h is the slice the function works on, which pq.heap need not be any more. *)
From Verif Require Import Base Trace Model_Heap Model_PriorityQueue.

Section PQSelf.
Context {T X : Type}.
Variable zero : T.
Variable grow : Z -> Z -> Z.
(** The memory and pq.heap, and the variables of the client. *)
Definition QP (A : Type) : Type := M (cell T * X) A.
Definition on_queue {A} (p : M (cell T) A) : QP A := fun s => let '(o, c) := p (fst s) in (o, (c, snd s)).
(** h[i] and heapSwap(h, i, j). *)
Definition h_load (h : slice) (i : Z) : QP T := on_queue (lift_mem (on_slice h (wload i))).
Definition h_swap (h : slice) (i j : Z) : QP unit := on_queue (lift_mem (on_slice h (heapSwap i j))).
(** pq.less *)
Variable less : T -> T -> QP bool.

(** heap.go:169-178 heapUpFunc. *)
Fixpoint heapUp_self (h : slice) (fuel : nat) (j : Z) : QP unit :=
  match fuel with
  | O => nofuel
  | S fuel' =>
    let i := Z.quot (j - 1) 2 in
    if i =? j then ret tt else
    hj <- h_load h j ;; hi <- h_load h i ;;
    b <- less hj hi ;;
    if negb b then ret tt else
    h_swap h i j ;; heapUp_self h fuel' i
  end.
(** heap.go:180-198 heapDownFunc. *)
Fixpoint heapDown_self (h : slice) (fuel : nat) (i0 n i : Z) : QP bool :=
  match fuel with
  | O => nofuel
  | S fuel' =>
    let j1 := wrap64 (2 * i + 1) in
    if (j1 >=? n) || (j1 <? 0) then ret (i >? i0) else
    let j2 := j1 + 1 in
    right <- (if j2 <? n
              then h2 <- h_load h j2 ;; h1 <- h_load h j1 ;; less h2 h1
              else ret false) ;;
    let j := if right : bool then j2 else j1 in
    hj <- h_load h j ;; hi <- h_load h i ;;
    b <- less hj hi ;;
    if negb b then ret (i >? i0) else
    h_swap h i j ;; heapDown_self h fuel' i0 n j
  end.
(** heap.go:136-139 PushHeapFunc.  Here append panics on a slice of the greatest
    length there is (in Model_Heap.v lengths are not bounded). *)
Definition PushHeap_self (v : T) : QP unit :=
  h <- on_queue get_hdr ;;
  if max_int <=? s_len h then panic else
  h' <- on_queue (lift_mem (append_list zero grow h [v])) ;;
  on_queue (set_hdr h') ;;
  heapUp_self h' (S (S (Z.to_nat (s_len h' - 1)))) (s_len h' - 1).
(** heap.go:144-151 PopHeapFunc. *)
Definition PopHeap_self : QP T :=
  h <- on_queue get_hdr ;;
  let n := s_len h - 1 in
  h_swap h 0 n ;;
  _ <- heapDown_self h (S (Z.to_nat n)) 0 n 0 ;;
  h' <- lift_o (reslice h 0 n) ;;
  on_queue (set_hdr h') ;;
  h_load h n.

(** priority_queue.go:42-69 and 88-100: a queue made by NewPriorityQueueFunc. *)
Definition pq_step_self (o : pq_op T) : cell T * X -> outcome (obs T) * (cell T * X) :=
  match o with
  | PPush v => observe (fun _ => ONone) (PushHeap_self v)
  | PPop => observe OVal PopHeap_self
  | PTop => observe OVal (on_queue (h <- get_hdr ;; lift_mem (sload h 0)))
  | PLen => observe OInt (on_queue (h <- get_hdr ;; ret (s_len h)))
  | PIsEmpty => observe OBool (on_queue (h <- get_hdr ;; ret (s_len h =? 0)))
  | PClear => observe (fun _ => ONone) (on_queue (h <- get_hdr ;; h' <- lift_o (reslice h 0 0) ;; set_hdr h'))
  end.
End PQSelf.

(** Client code, not in /repo: a less function that, before it answers f a b,
    makes the calls [plan] on the queue (going on after one that panics), unless
    the nesting is n deep already; x lists the calls made so far from inside less,
    with their results. *)
Section Nest.
Context {T : Type}.
Variable zero : T.
Variable grow : Z -> Z -> Z.
Notation log := (list (pq_op T * outcome (obs T))).
Variable plan : log -> T -> T -> list (pq_op T).
Variable f : T -> T -> bool.
Fixpoint pq_nest (n : nat) (a b : T) : @QP T log bool := fun s =>
  match n with
  | O => (Ok (f a b), s)
  | S n' => let ops := plan (snd s) a b in
            let '(rs, (c, x)) := run (pq_step_self zero grow (pq_nest n')) ops s in (Ok (f a b), (c, x ++ combine ops rs))
  end.
End Nest.
