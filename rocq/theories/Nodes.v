(** Go pointers to nodes: used by the linked structures.  The heap is the list
    of all nodes ever allocated (nothing is ever freed: Go's collector only
    reclaims what no one can reach); a pointer is nil or an index.  The state of
    a program is the heap and one container header H.  These model the Go
    language, not a file of /repo. *)
From Verif Require Import Base.

Definition ptr := option nat.
Definition peqb (p q : ptr) : bool :=
  match p, q with
  | None, None => true
  | Some a, Some b => Nat.eqb a b
  | _, _ => false
  end.
Definition is_nil (p : ptr) : bool := match p with None => true | Some _ => false end.

Section Nodes.
Context {N H : Type}.
Definition P (A : Type) := M (list N * H) A.

(** *p; a nil dereference panics (a dangling index never occurs). *)
Definition pload (p : ptr) : P N := fun s =>
  match p with
  | None => (Panic, s)
  | Some a => match nth_error (fst s) a with Some n => (Ok n, s) | None => (Panic, s) end
  end.
(** p.field = ..., with [f] replacing the field. *)
Definition pmod (p : ptr) (f : N -> N) : P unit := fun s =>
  match p with
  | None => (Panic, s)
  | Some a => match nth_error (fst s) a with Some n => (Ok tt, (upd a (f n) (fst s), snd s)) | None => (Panic, s) end
  end.
(** &node{...}. *)
Definition pnew (n : N) : P ptr := fun s => (Ok (Some (length (fst s))), (fst s ++ [n], snd s)).
(** Fields of the container itself. *)
Definition hget {A} (f : H -> A) : P A := fun s => (Ok (f (snd s)), s).
Definition hmod (f : H -> H) : P unit := fun s => (Ok tt, (fst s, f (snd s))).
(** One more than any chain of distinct nodes: fuel for pointer-chasing loops. *)
Definition heap_fuel : P nat := fun s => (Ok (S (length (fst s))), s).
End Nodes.
Arguments P : clear implicits.
