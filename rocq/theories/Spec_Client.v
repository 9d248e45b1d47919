(** Clients of a list: they keep iterators and pointers in variables over any
    calls, and give the ForEach methods callbacks that use the list themselves.
    None of this is in /repo; it is what a program using /repo can do. *)
From Verif Require Import Base Spec Trace.

(** A callback body: statements, each depending on what the earlier ones showed,
    then a result.  A panicking statement ends it. *)
Inductive prog (O R A : Type) := Done (a : A) | Do (o : O) (rest : R -> prog O R A).
Arguments Done {O R A}. Arguments Do {O R A}.
Fixpoint exec {O R A St} (step : O -> St -> outcome R * St) (p : prog O R A) (s : St) : outcome A * St :=
  match p with
  | Done a => (Ok a, s)
  | Do o rest =>
    match step o s with
    | (Ok r, s1) => exec step (rest r) s1
    | (Panic, s1) => (Panic, s1)
    | (NoFuel, s1) => (NoFuel, s1)
    end
  end.
Fixpoint pmap {O R A B} (f : A -> B) (p : prog O R A) : prog O R B :=
  match p with Done a => Done (f a) | Do o rest => Do o (fun r => pmap f (rest r)) end.
Fixpoint pbind {O R A B} (p : prog O R A) (k : A -> prog O R B) : prog O R B :=
  match p with Done a => k a | Do o rest => Do o (fun r => pbind (rest r) k) end.
(** for _, x := range xs { if !op(x) { break } } *)
Fixpoint over {O R A St} (op : St -> A -> prog O R (bool * St)) (xs : list A) (st : St) : prog O R St :=
  match xs with
  | [] => Done st
  | x :: r => pbind (op st x) (fun b => if fst b then over op r (snd b) else Done (snd b))
  end.
(** Every statement the body can execute has Q. *)
Inductive only {O R A} (Q : O -> Prop) : prog O R A -> Prop :=
| only_done a : only Q (Done a)
| only_do o rest : Q o -> (forall r, only Q (rest r)) -> only Q (Do o rest).
(** A callback of ForEach always goes on. *)
Definition always {O R A} (p : prog O R A) : prog O R (bool * A) := pmap (fun a => (true, a)) p.

(** Statements of a client of a list with calls C and elements T.  Variables are
    numbered in the order of their declaration. *)
Inductive iop (C T : Type) :=
| ICall (c : C)                      (* any method call *)
| IIterate                           (* it := l.Iterate() *)
| IPointer (x : nat)                 (* p := it.Pointer() *)
| IIsNotEnd (x : nat)                (* it.IsNotEnd() *)
| IMoveToNext (x : nat)              (* it.MoveToNext() *)
| IValue (x : nat)                   (* it.Value(); *p *)
| IStore (x : nat) (v : T).          (* *it.Pointer() = v; *p = v *)
Arguments ICall {C T}. Arguments IIterate {C T}. Arguments IPointer {C T}. Arguments IIsNotEnd {C T}. Arguments IMoveToNext {C T}.
Arguments IValue {C T}. Arguments IStore {C T}.
(** What a statement shows. *)
Inductive ires (R T : Type) := IRes (r : R) | IDone | IBool (b : bool) | IValueIs (v : T).
Arguments IRes {R T}. Arguments IDone {R T}. Arguments IBool {R T}. Arguments IValueIs {R T}.

(** A list as its client sees it: calls with results R, states S, and the
    positions P its iterators and pointers stand on. *)
Record listing (C R T S P : Type) := mkListing {
  l_call : C -> M S R;
  l_iterate : M S P;
  l_pointer : P -> M S unit;
  l_more : P -> M S bool;
  l_next : P -> M S P;
  l_value : P -> M S T;
  l_store : P -> T -> M S unit }.
Arguments mkListing {C R T S P}. Arguments l_call {C R T S P}. Arguments l_iterate {C R T S P}. Arguments l_pointer {C R T S P}.
Arguments l_more {C R T S P}. Arguments l_next {C R T S P}. Arguments l_value {C R T S P}. Arguments l_store {C R T S P}.

Section Client.
Context {C R T S P : Type}.
Variable L : listing C R T S P.
Notation CS := (S * list P)%type.
Definition on_list {A} (m : M S A) : M CS A := fun s => let '(r, s') := m (fst s) in (r, (s', snd s)).
Definition declare (p : P) : M CS nat := fun s => (Ok (length (snd s)), (fst s, snd s ++ [p])).
Definition assign (x : nat) (p : P) : M CS unit := fun s => (Ok tt, (fst s, upd x p (snd s))).
(** With the position in variable x; an undeclared variable does nothing. *)
Definition with_var (x : nat) (f : P -> M CS (ires R T)) : M CS (ires R T) :=
  fun s => match nth_error (snd s) x with Some p => f p s | None => (Ok IDone, s) end.
Definition client (o : iop C T) : M CS (ires R T) :=
  match o with
  | ICall c => r <- on_list (l_call L c) ;; ret (IRes r)
  | IIterate => p <- on_list (l_iterate L) ;; declare p ;; ret IDone
  | IPointer x => with_var x (fun p => on_list (l_pointer L p) ;; declare p ;; ret IDone)
  | IIsNotEnd x => with_var x (fun p => b <- on_list (l_more L p) ;; ret (IBool b))
  | IMoveToNext x => with_var x (fun p => p' <- on_list (l_next L p) ;; assign x p' ;; ret IDone)
  | IValue x => with_var x (fun p => v <- on_list (l_value L p) ;; ret (IValueIs v))
  | IStore x v => with_var x (fun p => on_list (l_store L p v) ;; ret IDone)
  end.

(** From p on: call op with what [give] makes of the position, until op returns
    false or the end is reached.  It may run forever, so the number of iterations
    is bounded. *)
Fixpoint each {A St} (give : P -> M CS A) (op : St -> A -> prog (iop C T) (ires R T) (bool * St)) (fuel : nat) (p : P) (st : St) : M CS St :=
  match fuel with
  | O => nofuel
  | Datatypes.S fuel' =>
    e <- on_list (l_more L p) ;; if negb e then ret st else
    a <- give p ;; r <- exec client (op st a) ;;
    if fst r then p' <- on_list (l_next L p) ;; each give op fuel' p' (snd r) else ret (snd r)
  end.
(** From the beginning. *)
Definition from_start {A St} (give : P -> M CS A) (op : St -> A -> prog (iop C T) (ires R T) (bool * St)) (fuel : nat) (st : St) : M CS St :=
  p <- on_list (l_iterate L) ;; each give op fuel p st.
(** The same at the given positions. *)
Fixpoint over_at {A St} (give : P -> M CS A) (op : St -> A -> prog (iop C T) (ires R T) (bool * St)) (ps : list P) (st : St) : M CS St :=
  match ps with
  | [] => ret st
  | p :: r => a <- give p ;; b <- exec client (op st a) ;; if fst b then over_at give op r (snd b) else ret (snd b)
  end.
(** What a callback is given: the value, or a pointer to it in a new variable. *)
Definition give_value (p : P) : M CS T := on_list (l_value L p).
Definition give_pointer (p : P) : M CS nat := on_list (l_pointer L p) ;; declare p.
End Client.
(** Two lists show their clients the same, now and ever after. *)
Definition alike {C R T S1 P1 S2 P2 A} (L1 : listing C R T S1 P1) (L2 : listing C R T S2 P2) (a : outcome A * (S1 * list P1)) (b : outcome A * (S2 * list P2)) : Prop :=
  fst a = fst b /\ forall rest, fst (run (client L1) rest (snd a)) = fst (run (client L2) rest (snd b)).
