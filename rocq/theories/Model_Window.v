(** A program on dlist_queue.go: the maxima of all windows of w consecutive elements. *)
From Verif Require Import Base Nodes Model_DList Model_DListQueue.

Section Window.
Context {T : Type}.
Variable zero : T.
Variable less : T -> T -> bool.
(** Elements of the queue: the index and the value. *)
Notation Q A := (P (dnode (Z * T)) dqueue A).
(** for !q.IsEmpty() && less(q.Back().value, v) { q.PopBack() } over
    dlist_queue.go:24-26, 44-46 and 64-66. *)
Fixpoint drop_less (fuel : nat) (v : T) : Q unit :=
  e <- q_IsEmpty ;;
  if e : bool then ret tt else
  b <- q_Back ;;
  if negb (less (snd b) v) then ret tt else
  match fuel with
  | O => nofuel
  | S fuel' => _ <- q_PopBack (0, zero) ;; drop_less fuel' v
  end.
(** for i, v := range vs { ...; q.PushBack({i, v}); if q.Front().index <= i-w {
    q.PopFront() }; if i+1 >= w { out = append(out, q.Front().value) } } over
    dlist_queue.go:39-41, 54-56 and 59-61; [out] is a plain list. *)
Fixpoint slide (w i : Z) (vs out : list T) : Q (list T) :=
  match vs with
  | [] => ret out
  | v :: r =>
    n <- q_Len ;;
    drop_less (Z.to_nat n) v ;;
    q_PushBack (0, zero) (i, v) ;;
    f <- q_Front ;;
    (if fst f <=? i - w then _ <- q_PopFront (0, zero) ;; ret tt else ret tt) ;;
    if i + 1 >=? w then f' <- q_Front ;; slide w (i + 1) r (out ++ [snd f'])
    else slide w (i + 1) r out
  end.
End Window.
