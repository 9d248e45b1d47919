(** Model of several PriorityQueue variables and copies of them
    (priority_queue.go:6-9, 57-69): the struct holds a slice header and the
    interface [impl], which points at the pqOrdered or pqFunc object the
    constructor made; copying the struct copies both. *)
From Verif Require Import Base Trace Spec_PQCopy Model_PriorityQueue.

Section PQCopy.
Context {T : Type}.
Variables (zero : T) (grow : Z -> Z -> Z).

(** priority_queue.go:6-9.  impl: nil, or the number of the variable embedded in
    the object pointed at, with the object's type and less. *)
Record pvar := mkVar { v_heap : slice; v_impl : option (nat * pqImpl T) }.
Definition zero_var : pvar := mkVar nil_slice None.
Record world := mkWorld { w_mem : mem T; w_vars : list pvar }.
Definition var (w : world) (i : nat) : pvar := nth i (w_vars w) zero_var.

(** A new object; its variable is the next one. *)
Definition make (new : mem T -> PriorityQueue T) (w : world) : outcome (obs T) * world :=
  let q := new (w_mem w) in
  (Ok ONone, mkWorld (fst (pq_heap q)) (w_vars w ++ [mkVar (snd (pq_heap q)) (Some (length (w_vars w), pq_impl q))])).

(** Method o on the heap slice of variable j. *)
Definition on_var (j : nat) (im : pqImpl T) (o : pq_op T) (w : world) : outcome (obs T) * world :=
  let '(r, q) := pq_step zero grow o (mkPQ (w_mem w, v_heap (var w j)) im) in
  (r, mkWorld (fst (pq_heap q)) (upd j (mkVar (snd (pq_heap q)) (v_impl (var w j))) (w_vars w))).

Definition copy_step (o : cop T) (w : world) : outcome (obs T) * world :=
  match o with
  | CNew less => make (NewPriorityQueue less) w
  | CNewFunc less => make (NewPriorityQueueFunc less) w
  | CZero => (Ok ONone, mkWorld (w_mem w) (w_vars w ++ [zero_var]))
  | CCopy i => (Ok ONone, mkWorld (w_mem w) (w_vars w ++ [var w i]))
  | CCall i o =>
    match o with
    | PPush _ | PPop => (* priority_queue.go:62-69: pq.impl.Push(v), pq.impl.Pop() *)
      match v_impl (var w i) with
      | Some (j, im) => on_var j im o w
      | None => (Panic, w)
      end
    | _ => (* priority_queue.go:42-59: pq.heap only; impl is not looked at *)
      on_var i match v_impl (var w i) with Some (_, im) => im | None => pqFunc (fun _ _ => false) end o w
    end
  end.
End PQCopy.
Arguments pvar : clear implicits.
Arguments world : clear implicits.
