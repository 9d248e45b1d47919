(** A program on priority_queue.go: the medians of a stream. *)
From Verif Require Import Base Model_PriorityQueue.

Section Median.
Context {T : Type}.
Variable zero : T.
Variable grow : Z -> Z -> Z.
(** Two queues, each in a memory of its own: lo has the greatest element at the top,
    hi the least. *)
Notation queues := (PriorityQueue T * PriorityQueue T)%type.
Definition on_lo {A} (p : M (PriorityQueue T) A) : M queues A := fun s => let '(o, q) := p (fst s) in (o, (q, snd s)).
Definition on_hi {A} (p : M (PriorityQueue T) A) : M queues A := fun s => let '(o, q) := p (snd s) in (o, (fst s, q)).
(** lo.Push(v); hi.Push(lo.Pop()); if hi.Len() > lo.Len() { lo.Push(hi.Pop()) }
    over priority_queue.go:42-44, 62-64 and 67-69. *)
Definition add_value (v : T) : M queues unit :=
  on_lo (PQ_Push zero grow v) ;;
  x <- on_lo PQ_Pop ;; on_hi (PQ_Push zero grow x) ;;
  n <- on_hi PQ_Len ;; k <- on_lo PQ_Len ;;
  if n >? k then y <- on_hi PQ_Pop ;; on_lo (PQ_Push zero grow y) else ret tt.
(** low := lo.Top(); high := low; if hi.Len() == lo.Len() { high = hi.Top() }
    over priority_queue.go:42-44 and 57-59. *)
Definition medians_now : M queues (T * T) :=
  x <- on_lo PQ_Top ;;
  n <- on_hi PQ_Len ;; k <- on_lo PQ_Len ;;
  if n =? k then y <- on_hi PQ_Top ;; ret (x, y) else ret (x, x).
(** for _, v := range vs { add(v); out = append(out, medians()) }; [out] is a plain
    list. *)
Fixpoint medians_loop (vs : list T) (out : list (T * T)) : M queues (list (T * T)) :=
  match vs with
  | [] => ret out
  | v :: r => add_value v ;; m <- medians_now ;; medians_loop r (out ++ [m])
  end.
(** lo := NewPriorityQueueFunc(func(a, b T) bool { return less(b, a) });
    hi := NewPriorityQueueFunc(less) *)
Definition medians (less : T -> T -> bool) (m m' : mem T) (vs : list T) : outcome (list (T * T)) :=
  fst (medians_loop vs [] (NewPriorityQueueFunc (fun a b => less b a) m, NewPriorityQueueFunc less m')).
End Median.
