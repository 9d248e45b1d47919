(** Calling a function that may panic on one element after the other.
    Definitions only. *)
From Verif Require Import Base.

(** What became of the calls f l0, f l1, ...: the results of those that
    returned, whether all did (Ok) or the next one panicked (or does not end),
    and the state of f's variables then. *)
Record calls_made (R St : Type) : Type := Calls { results : list R; ended : outcome unit; left_in : St }.
Arguments Calls {R St}. Arguments results {R St}. Arguments ended {R St}. Arguments left_in {R St}.
Definition more {R St} (r : R) (c : calls_made R St) : calls_made R St := Calls (r :: results c) (ended c) (left_in c).
Fixpoint calls {T St R} (f : T -> M St R) (l : list T) (st : St) : calls_made R St :=
  match l with
  | [] => Calls [] (Ok tt) st
  | x :: l' =>
    match f x st with
    | (Ok r, st') => more r (calls f l' st')
    | (Panic, st') => Calls [] Panic st'
    | (NoFuel, st') => Calls [] NoFuel st'
    end
  end.
(** The outcome of a function that returns v when all calls did. *)
Definition giving {A} (o : outcome unit) (v : A) : outcome A :=
  match o with Ok _ => Ok v | Panic => Panic | NoFuel => NoFuel end.
(** The elements of l whose answer was [b], in order; further elements have no answer. *)
Fixpoint answered {T} (b : bool) (l : list T) (rs : list bool) : list T :=
  match l, rs with
  | x :: l', r :: rs' => if Bool.eqb r b then x :: answered b l' rs' else answered b l' rs'
  | _, _ => []
  end.
(** l with the elements whose answer was true replaced. *)
Fixpoint replaced {T} (new : T) (l : list T) (rs : list bool) : list T :=
  match l, rs with
  | x :: l', r :: rs' => (if r : bool then new else x) :: replaced new l' rs'
  | _, _ => l
  end.
(** The elements from the first one whose call did not return. *)
Definition untouched {T R} (l : list T) (rs : list R) : list T := skipn (length rs) l.
