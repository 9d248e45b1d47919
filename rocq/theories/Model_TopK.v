(** Programs on priority_queue.go: keeping the k greatest elements of a stream. *)
From Verif Require Import Base Model_PriorityQueue.

Section TopK.
Context {T : Type}.
Variable zero : T.
Variable grow : Z -> Z -> Z.
(** for _, v := range vs { q.Push(v); if q.Len() > k { q.Pop() } } over
    priority_queue.go:42-44, 62-64 and 67-69. *)
Fixpoint top_k (k : Z) (vs : list T) : M (PriorityQueue T) unit :=
  match vs with
  | [] => ret tt
  | v :: r =>
    PQ_Push zero grow v ;;
    n <- PQ_Len ;;
    (if n >? k then _ <- PQ_Pop ;; ret tt else ret tt) ;;
    top_k k r
  end.
(** for !q.IsEmpty() { out = append(out, q.Pop()) } over priority_queue.go:47-49
    and 67-69; [out] is a plain list. *)
Fixpoint drain (fuel : nat) (out : list T) : M (PriorityQueue T) (list T) :=
  e <- PQ_IsEmpty ;;
  if e : bool then ret out else
  match fuel with
  | O => nofuel
  | S fuel' => v <- PQ_Pop ;; drain fuel' (out ++ [v])
  end.
End TopK.
