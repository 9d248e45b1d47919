(** Programs with several variables of type Vector (/repo/vector.go:7, a slice)
    or Stack (/repo/stack.go:5-7, a struct with a slice), copied by assignment.
    A call through variable i is the call of Model_Vector.v or Model_Stack.v on
    the memory they all share and on its own header. *)
From Verif Require Import Base Trace Model_Vector Model_Stack Spec_VecCopy.

Section Copy.
Context {T K Op : Type}.
Variable make : K -> M (mem T) slice.
Variable call : Op -> cell T -> outcome (obs T) * cell T.
Definition xvars_step (o : xop K Op) (w : xvars T) : outcome (obs T) * xvars T :=
  match o with
  | XNew k => match make k (fst w) with
              | (Ok s, m) => (Ok ONone, (m, snd w ++ [s]))
              | (Panic, m) => (Panic, (m, snd w))
              | (NoFuel, m) => (NoFuel, (m, snd w))
              end
  | XCopy i => match nth_error (snd w) i with
               | Some s => (Ok ONone, (fst w, snd w ++ [s]))
               | None => (Panic, w)
               end
  | XAssign i j => match nth_error (snd w) i, nth_error (snd w) j with
                   | Some _, Some s => (Ok ONone, (fst w, upd i s (snd w)))
                   | _, _ => (Panic, w)
                   end
  | XCall i o => match nth_error (snd w) i with
                 | Some s => let '(r, (m, s')) := call o (fst w, s) in (r, (m, upd i s' (snd w)))
                 | None => (Panic, w)
                 end
  end.
End Copy.

Section Kinds.
Context {T : Type}.
Variable zero : T.
Variable grow : Z -> Z -> Z.
(** A variable without initial value holds nil; the constructors, vector.go:10-23. *)
Definition vec_new (k : vec_make T) : M (mem T) slice :=
  match k with
  | VZero => ret nil_slice
  | VMake => MakeVector
  | VMakeCap c => MakeVectorCap zero c
  | VOf xs => x <- lit_slice xs ;; VectorOf x
  end.
Definition vx_step := xvars_step vec_new (vec_step zero grow).
(** stack.go:10-17, dereferenced. *)
Definition stack_new (k : stack_make) : M (mem T) slice :=
  match k with KNew => NewStack | KNewCap c => NewStackCap zero c end.
Definition sx_step := xvars_step stack_new (stack_step zero grow).
End Kinds.
