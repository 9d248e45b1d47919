(** First in, first out. *)
From Verif Require Import Base Trace Model_TwoStacks.

Definition fifo_spec {T} (o : two_op T) (xs : list T) : outcome (obs T) * list T :=
  match o with
  | TEnqueue v => (Ok ONone, xs ++ [v])
  | TDequeue => match xs with [] => (Panic, []) | x :: r => (Ok (OVal x), r) end
  | TLen => (Ok (OInt (zlen xs)), xs)
  end.
(** The number of elements put in; the number of elements moved between the stacks. *)
Definition enqueued {T} (ops : list (two_op T)) : Z :=
  fold_right (fun o n => match o with TEnqueue _ => 1 | _ => 0 end + n) 0 ops.
Definition moves {T} (rs : list (outcome (obs T * Z))) : Z :=
  fold_right (fun r n => match r with Ok (_, k) => k | _ => 0 end + n) 0 rs.
