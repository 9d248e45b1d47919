(** Comparison functions with a life of their own: a Go func value may panic,
    and may read and write variables of the caller.  [St] is the state of those
    variables; [less a b st] is what a call does.  Definitions only. *)
From Verif Require Import Base Spec Trace.

Section Fx.
Context {T St : Type}.
Implicit Types less : T -> T -> M St bool.

(** Hoare-style contract of a comparison function: called on elements of [D] in
    a state satisfying [P] it returns, with [P] again, or panics, with [Q].
    (Not to return at all is left out.) *)
Definition contract (D : T -> Prop) (P Q : St -> Prop) less : Prop :=
  forall a b st, D a -> D b -> P st ->
    match less a b st with
    | (Ok _, st') => P st'
    | (Panic, st') => Q st'
    | (NoFuel, _) => False
    end.

(** What code that calls such a function may do in the end. *)
Definition ends_in {A} (P Q : St -> Prop) (o : outcome A) (st : St) : Prop :=
  match o with Ok _ => P st | Panic => Q st | NoFuel => False end.

(** Whenever it returns, it returns what the mathematical order [f] says. *)
Definition answers (D : T -> Prop) (P : St -> Prop) (f : T -> T -> bool) less : Prop :=
  forall a b st r st', D a -> D b -> P st -> less a b st = (Ok r, st') -> r = f a b.

(** The same for functions returning any type R; [answers_sign] is for three-way
    comparison: only the sign of what they return matters. *)
Definition contract_of {R} (P Q : St -> Prop) (f : T -> T -> M St R) : Prop :=
  forall a b st, P st ->
    match f a b st with
    | (Ok _, st') => P st'
    | (Panic, st') => Q st'
    | (NoFuel, _) => False
    end.
Definition answers_sign (P : St -> Prop) (cmp : T -> T -> Z) (f : T -> T -> M St Z) : Prop :=
  forall a b st r st', P st -> f a b st = (Ok r, st') -> Z.sgn r = Z.sgn (cmp a b).
End Fx.

(** The slice without its last element, capacity kept. *)
Definition shrunk (h : slice) : slice := mkSlice (s_arr h) (s_off h) (s_len h - 1) (s_cap h).

(** A call that removes the element x from the slice variable h: it returns x
    and the slice is shorter by it, or it panics and the slice has kept its
    place, its length and all its elements.  No other memory changes. *)
Definition removal {T} (m : mem T) (h : slice) (x : T) (o : outcome T) (m' : mem T) (h' : slice) : Prop :=
  same_except m m' (s_arr h) (s_off h) (s_off h + s_len h) /\ wf_slice m' h' /\
  ((o = Ok x /\ h' = shrunk h /\ Permutation (x :: contents m' h') (contents m h)) \/
   (o = Panic /\ h' = h /\ Permutation (contents m' h') (contents m h))).

(** The elements a priority queue holds, call by call, when any Push or Pop may
    panic: no element appears from nowhere, none is lost, none is handed out
    twice. *)
Inductive ledger_op (T : Type) : Type := LPush (v : T) | LPop | LTop | LLen | LClear.
Arguments LPush {T}. Arguments LPop {T}. Arguments LTop {T}. Arguments LLen {T}. Arguments LClear {T}.
Inductive ledger {T} : list T -> ledger_op T -> outcome (obs T) -> list T -> Prop :=
| ledger_push bag v bag' : Permutation bag' (v :: bag) -> ledger bag (LPush v) (Ok ONone) bag'
| ledger_push_panic bag v bag' : Permutation bag' (v :: bag) -> ledger bag (LPush v) Panic bag'
| ledger_pop bag x bag' : Permutation (x :: bag') bag -> ledger bag LPop (Ok (OVal x)) bag'
| ledger_pop_panic bag bag' : Permutation bag' bag -> ledger bag LPop Panic bag'
| ledger_top bag x : In x bag -> ledger bag LTop (Ok (OVal x)) bag
| ledger_top_empty : ledger [] LTop Panic []
| ledger_len bag : ledger bag LLen (Ok (OInt (zlen bag))) bag
| ledger_clear bag : ledger bag LClear (Ok ONone) [].

Fixpoint ledger_pushes {T} (ops : list (ledger_op T)) : Z :=
  match ops with
  | [] => 0
  | LPush _ :: r => 1 + ledger_pushes r
  | _ :: r => ledger_pushes r
  end.
