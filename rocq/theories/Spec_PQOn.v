(** Specification for C99: how many elements a queue holds after a call, and
    the largest number it held during a sequence of calls. *)
From Verif Require Import Base Trace Model_PriorityQueue.

Definition size_after {T} (n : Z) (o : pq_op T) : Z :=
  match o with
  | PPush _ => n + 1
  | PPop => Z.max 0 (n - 1)
  | PClear => 0
  | PTop | PLen | PIsEmpty => n
  end.

Fixpoint size_of {T} (n : Z) (ops : list (pq_op T)) : Z :=
  match ops with [] => n | o :: r => size_of (size_after n o) r end.

Fixpoint peak {T} (n : Z) (ops : list (pq_op T)) : Z :=
  match ops with [] => n | o :: r => Z.max n (peak (size_after n o) r) end.
