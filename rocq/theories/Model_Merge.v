(** A program on priority_queue.go: merging lists. *)
From Verif Require Import Base Model_PriorityQueue.

Section Merge.
Context {T : Type}.
(** type stream[T any] struct { head T; num int; rest []T }: what is left of a list that
    is not empty. *)
Record stream : Type := Stream { st_head : T; st_num : Z; st_rest : list T }.
Variable zero : stream.
Variable grow : Z -> Z -> Z.
(** NewPriorityQueueFunc(func(a, b stream[T]) bool { .. }), which compares heads and
    numbers. *)
Definition stream_less (before : Z * T -> Z * T -> bool) (a b : stream) : bool :=
  before (st_num a, st_head a) (st_num b, st_head b).
(** for i, l := range lists { if len(l) > 0 { q.Push(stream[T]{l[0], i, l[1:]}) } } over
    priority_queue.go:62-64. *)
Fixpoint push_streams (i : Z) (ls : list (list T)) : M (PriorityQueue stream) unit :=
  match ls with
  | [] => ret tt
  | [] :: r => push_streams (i + 1) r
  | (x :: t) :: r => PQ_Push zero grow (Stream x i t) ;; push_streams (i + 1) r
  end.
(** for !q.IsEmpty() { s := q.Pop(); out = append(out, s.head);
      if len(s.rest) > 0 { q.Push(stream[T]{s.rest[0], s.num, s.rest[1:]}) } }
    over priority_queue.go:47-49, 62-64 and 67-69; [out] is a plain list. *)
Fixpoint merge_loop (fuel : nat) (out : list T) : M (PriorityQueue stream) (list T) :=
  e <- PQ_IsEmpty ;;
  if e : bool then ret out else
  match fuel with
  | O => nofuel
  | S fuel' =>
    s <- PQ_Pop ;;
    match st_rest s with
    | [] => ret tt
    | x :: t => PQ_Push zero grow (Stream x (st_num s) t)
    end ;;
    merge_loop fuel' (out ++ [st_head s])
  end.
Definition merge (fuel : nat) (ls : list (list T)) : M (PriorityQueue stream) (list T) :=
  push_streams 0 ls ;; merge_loop fuel [].
End Merge.
Arguments stream : clear implicits.
