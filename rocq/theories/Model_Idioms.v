(** Programs that use several parts of the library together. *)
From Verif Require Import Base Spec Trace Model_BinarySearch Model_Vector.

Section Insertion.
Context {T : Type}.
Variable zero : T.
Variable grow : Z -> Z -> Z.
Variable ltb : T -> T -> bool.
(** for _, x := range xs { v.Insert(UpperBound(v, x), x) } over vector.go:129-144
    and binary_search.go:54-70. *)
Fixpoint insert_each (xs : list T) : M (cell T) unit :=
  match xs with
  | [] => ret tt
  | x :: r => fun c =>
    match UpperBound ltb (c_contents c) x with
    | Ok i => (vec_step zero grow (VInsert i [x]) ;; insert_each r) c
    | Panic => (Panic, c)
    | NoFuel => (NoFuel, c)
    end
  end.
End Insertion.
