(** A program on stack.go: a queue made of two stacks. *)
From Verif Require Import Base Trace Model_Stack.

Section TwoStacks.
Context {T : Type}.
Variable zero : T.
Variable grow : Z -> Z -> Z.
(** The memory, the stack elements come in at and the stack they leave from. *)
Record two := mkTwo { t_mem : mem T; t_in : slice; t_out : slice }.
(** in.Method(...), out.Method(...). *)
Definition on_in {A} (p : M (cell T) A) : M two A := fun s =>
  let '(r, (m, i)) := p (t_mem s, t_in s) in (r, mkTwo m i (t_out s)).
Definition on_out {A} (p : M (cell T) A) : M two A := fun s =>
  let '(r, (m, o)) := p (t_mem s, t_out s) in (r, mkTwo m (t_in s) o).
(** for !in.IsEmpty() { out.Push(in.Pop()) } over stack.go:20-22, 40-42 and 58-62; the
    result is the number of rounds. *)
Fixpoint transfer (fuel : nat) (n : Z) : M two Z :=
  e <- on_in Stack_IsEmpty ;;
  if e : bool then ret n else
  match fuel with
  | O => nofuel
  | S fuel' => v <- on_in Stack_Pop ;; on_out (Stack_Push zero grow v) ;; transfer fuel' (n + 1)
  end.
Definition enqueue (v : T) : M two unit := on_in (Stack_Push zero grow v).
(** if out.IsEmpty() { transfer }; return out.Pop().  The number of elements moved is
    returned too. *)
Definition dequeue : M two (T * Z) :=
  e <- on_out Stack_IsEmpty ;;
  n <- on_in Stack_Len ;;
  k <- (if e : bool then transfer (Z.to_nat n) 0 else ret 0) ;;
  v <- on_out Stack_Pop ;; ret (v, k).
Definition queue_len : M two Z := i <- on_in Stack_Len ;; o <- on_out Stack_Len ;; ret (i + o).

Inductive two_op : Type := TEnqueue (v : T) | TDequeue | TLen.
(** What a call shows, and the number of elements it moved. *)
Definition two_step (o : two_op) (s : two) : outcome (obs T * Z) * two :=
  match o with
  | TEnqueue v => let '(r, s') := enqueue v s in (omap (fun _ => (ONone, 0)) r, s')
  | TDequeue => let '(r, s') := dequeue s in (omap (fun p => (OVal (fst p), snd p)) r, s')
  | TLen => let '(r, s') := queue_len s in (omap (fun n => (OInt n, 0)) r, s')
  end.
End TwoStacks.
Arguments two : clear implicits.
Arguments two_op : clear implicits.
