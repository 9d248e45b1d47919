(** A program on stack.go: for every element of a list the next one that is greater.

      func NextGreater(a []T, less func(x, y T) bool) []Option[T] {
        res := make([]Option[T], len(a))
        s := NewStack[T]()
        for i := len(a) - 1; i >= 0; i-- {
          for !s.IsEmpty() && !less(a[i], s.Top()) { s.Pop() }
          if !s.IsEmpty() { res[i] = Some(s.Top()) }
          s.Push(a[i])
        }
        return res
      }

    The list and the result are plain lists here.  The loop over i, downwards, is a
    recursion that does the rest of the list first.  rounds bounds how often the inner
    loop runs for all i together: what is left of it is handed on. *)
From Verif Require Import Base Trace Model_Stack.

Section NextGreater.
Context {T : Type}.
Variable zero : T.
Variable grow : Z -> Z -> Z.
Variable less : T -> T -> bool.
(** Over stack.go:20-22, 58-62 and 67-69. *)
Fixpoint drop_small (rounds : nat) (a : T) : M (cell T) nat :=
  e <- Stack_IsEmpty ;;
  if e : bool then ret rounds else
  t <- Stack_Top ;;
  if less a t then ret rounds else
  match rounds with
  | O => nofuel
  | S r => Stack_Pop ;; drop_small r a
  end.
Definition top_opt : M (cell T) (option T) :=
  e <- Stack_IsEmpty ;;
  if e : bool then ret None else t <- Stack_Top ;; ret (Some t).
(** Over stack.go:40-42. *)
Fixpoint next_loop (rounds : nat) (l : list T) : M (cell T) (nat * list (option T)) :=
  match l with
  | [] => ret (rounds, [])
  | a :: rest =>
    p <- next_loop rounds rest ;;
    n <- drop_small (fst p) a ;;
    g <- top_opt ;;
    Stack_Push zero grow a ;;
    ret (n, g :: snd p)
  end.
(** stack.go:10-12 *)
Definition next_greater (rounds : nat) (l : list T) : M (mem T) (list (option T)) := fun m =>
  let '(o, m1) := NewStack m in
  match o with
  | Ok s => let '(r, c) := (p <- next_loop rounds l ;; ret (snd p)) (m1, s) in (r, fst c)
  | Panic => (Panic, m1)
  | NoFuel => (NoFuel, m1)
  end.
End NextGreater.
