(** A program on stack.go: checking brackets.

      func Check(word []Symbol) (int, bool) {
        s := NewStack[Kind]()
        for i, c := range word {
          if c.IsOpen() {
            s.Push(c.Kind)
          } else if c.IsClose() {
            k, ok := s.TryPop()
            if !(ok && k == c.Kind) { return i, false }
          }
        }
        return len(word), s.IsEmpty()
      }

    The word is a plain list here; it is only read. *)
From Verif Require Import Base Trace Model_Stack Spec_Brackets.

Section Brackets.
Context {B : Type}.
Variable zero : B.
Variable grow : Z -> Z -> Z.
Variable eqb : B -> B -> bool.
(** Over stack.go:20-22, 40-42 and 45-53. *)
Fixpoint check_loop (word : list (symbol B)) (i : Z) : M (cell B) (Z * bool) :=
  match word with
  | [] => e <- Stack_IsEmpty ;; ret (i, e)
  | Open k :: rest => Stack_Push zero grow k ;; check_loop rest (i + 1)
  | Close k :: rest =>
    p <- Stack_TryPop zero ;;
    if snd p && eqb (fst p) k then check_loop rest (i + 1) else ret (i, false)
  | Other :: rest => check_loop rest (i + 1)
  end.
(** stack.go:10-12 *)
Definition check (word : list (symbol B)) : M (mem B) (Z * bool) := fun m =>
  let '(o, m1) := NewStack m in
  match o with
  | Ok s => let '(r, c) := check_loop word 0 (m1, s) in (r, fst c)
  | Panic => (Panic, m1)
  | NoFuel => (NoFuel, m1)
  end.
End Brackets.
