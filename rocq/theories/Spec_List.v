(** Lists as plain sequences. *)
From Verif Require Import Base Spec Trace.

(** What one call shows: an observation, or the final state of the callback. *)
Inductive res (T St : Type) := RObs (o : obs T) | RSt (st : St).
Arguments RObs {T St}. Arguments RSt {T St}.

Definition show {S A R} (f : A -> R) (p : M S A) (s : S) : outcome R * S :=
  let '(o, s') := p s in (omap f o, s').

(** Calls on a singly linked list.  LIter walks a fresh iterator to the end,
    LIterGet/LIterSet move a fresh iterator i times, then read or write the
    element. *)
Inductive sop (T St : Type) :=
| LPushFront (v : T) | LPushBack (v : T) | LPopFront | LReverse | LClear
| LLen | LIsEmpty | LFront | LBack | LValues
| LForEach (cb : St -> T -> St) (st : St)
| LForEachIf (cb : St -> T -> bool * St) (st : St)
| LForEachMutable (cb : St -> T -> T * St) (st : St)
| LForEachMutableIf (cb : St -> T -> T * bool * St) (st : St)
| LIter | LIterGet (i : nat) | LIterSet (i : nat) (v : T).
Arguments LPushFront {T St}. Arguments LPushBack {T St}. Arguments LPopFront {T St}. Arguments LReverse {T St}.
Arguments LClear {T St}. Arguments LLen {T St}. Arguments LIsEmpty {T St}. Arguments LFront {T St}. Arguments LBack {T St}.
Arguments LValues {T St}. Arguments LForEach {T St}. Arguments LForEachIf {T St}. Arguments LForEachMutable {T St}.
Arguments LForEachMutableIf {T St}. Arguments LIter {T St}. Arguments LIterGet {T St}. Arguments LIterSet {T St}.

Section Spec.
Context {T St : Type}.
Definition seq_front (xs : list T) : outcome (res T St) :=
  match xs with [] => Panic | x :: _ => Ok (RObs (OVal x)) end.
Definition seq_back (xs : list T) : outcome (res T St) := seq_front (rev xs).

(** A plain sequence receiving the same calls. *)
Definition slist_spec (o : sop T St) (xs : list T) : outcome (res T St) * list T :=
  match o with
  | LPushFront v => (Ok (RObs ONone), v :: xs)
  | LPushBack v => (Ok (RObs ONone), xs ++ [v])
  | LPopFront => (seq_front xs, tl xs)
  | LReverse => (Ok (RObs ONone), rev xs)
  | LClear => (Ok (RObs ONone), [])
  | LLen => (Ok (RObs (OInt (zlen xs))), xs)
  | LIsEmpty => (Ok (RObs (OBool (match xs with [] => true | _ => false end))), xs)
  | LFront => (seq_front xs, xs)
  | LBack => (seq_back xs, xs)
  | LValues => (Ok (RObs (OSeq xs)), xs)
  | LForEach cb st => (Ok (RSt (fold_left cb xs st)), xs)
  | LForEachIf cb st => (Ok (RSt (fold_while cb st xs)), xs)
  | LForEachMutable cb st => let '(ys, st') := map_st cb st xs in (Ok (RSt st'), ys)
  | LForEachMutableIf cb st => let '(ys, st') := map_while cb st xs in (Ok (RSt st'), ys)
  | LIter => (Ok (RObs (OSeq xs)), xs)
  | LIterGet i => (match nth_error xs i with Some v => Ok (RObs (OVal v)) | None => Panic end, xs)
  | LIterSet i v => (match nth_error xs i with Some _ => Ok (RObs ONone) | None => Panic end, upd i v xs)
  end.
End Spec.

(** Calls on a doubly linked list.  DIter walks a fresh iterator to the end;
    DIterGet/DIterSet move a fresh iterator i times or until its end and, when
    not at the end, read or write the element. *)
Inductive dop (T St : Type) :=
| DPushFront (v : T) | DPushBack (v : T) | DPopFront | DPopBack | DTryPopFront | DTryPopBack | DClear
| DLen | DIsEmpty | DFront | DBack
| DForEach (cb : St -> T -> St) (st : St)
| DForEachIf (cb : St -> T -> bool * St) (st : St)
| DForEachMutable (cb : St -> T -> T * St) (st : St)
| DForEachMutableIf (cb : St -> T -> T * bool * St) (st : St)
| DIter | DIterGet (i : nat) | DIterSet (i : nat) (v : T).
Arguments DPushFront {T St}. Arguments DPushBack {T St}. Arguments DPopFront {T St}. Arguments DPopBack {T St}.
Arguments DTryPopFront {T St}. Arguments DTryPopBack {T St}. Arguments DClear {T St}. Arguments DLen {T St}. Arguments DIsEmpty {T St}.
Arguments DFront {T St}. Arguments DBack {T St}. Arguments DForEach {T St}. Arguments DForEachIf {T St}. Arguments DForEachMutable {T St}.
Arguments DForEachMutableIf {T St}. Arguments DIter {T St}. Arguments DIterGet {T St}. Arguments DIterSet {T St}.

Section DSpec.
Context {T St : Type}.
Variable zero : T.
Definition try_front (xs : list T) : outcome (res T St) :=
  match xs with [] => Ok (RObs (OTry zero false)) | x :: _ => Ok (RObs (OTry x true)) end.
(** A plain double-ended sequence receiving the same calls. *)
Definition dlist_spec (o : dop T St) (xs : list T) : outcome (res T St) * list T :=
  match o with
  | DPushFront v => (Ok (RObs ONone), v :: xs)
  | DPushBack v => (Ok (RObs ONone), xs ++ [v])
  | DPopFront => (seq_front xs, tl xs)
  | DPopBack => (seq_back xs, removelast xs)
  | DTryPopFront => (try_front xs, tl xs)
  | DTryPopBack => (try_front (rev xs), removelast xs)
  | DClear => (Ok (RObs ONone), [])
  | DLen => (Ok (RObs (OInt (zlen xs))), xs)
  | DIsEmpty => (Ok (RObs (OBool (match xs with [] => true | _ => false end))), xs)
  | DFront => (seq_front xs, xs)
  | DBack => (seq_back xs, xs)
  | DForEach cb st => (Ok (RSt (fold_left cb xs st)), xs)
  | DForEachIf cb st => (Ok (RSt (fold_while cb st xs)), xs)
  | DForEachMutable cb st => let '(ys, st') := map_st cb st xs in (Ok (RSt st'), ys)
  | DForEachMutableIf cb st => let '(ys, st') := map_while cb st xs in (Ok (RSt st'), ys)
  | DIter => (Ok (RObs (OSeq xs)), xs)
  | DIterGet i => (match nth_error xs i with Some v => Ok (RObs (OTry v true)) | None => Ok (RObs (OTry zero false)) end, xs)
  | DIterSet i v => (match nth_error xs i with Some _ => Ok (RObs (OBool true)) | None => Ok (RObs (OBool false)) end, upd i v xs)
  end.
(** Where the element at position i of xs is after one call; None if the call
    removes it. *)
Definition track (o : dop T St) (xs : list T) (i : nat) : option nat :=
  match o with
  | DPushFront _ => Some (S i)
  | DPopFront | DTryPopFront => match i with O => None | S j => Some j end
  | DPopBack | DTryPopBack => if Nat.eqb (S i) (length xs) then None else Some i
  | DClear => None
  | _ => Some i
  end.
Fixpoint track_all (ops : list (dop T St)) (xs : list T) (i : nat) : option nat :=
  match ops with
  | [] => Some i
  | o :: r => match track o xs i with Some j => track_all r (snd (dlist_spec o xs)) j | None => None end
  end.
End DSpec.

(** Calls on a queue. *)
Inductive qop (T : Type) :=
| QPushFront (v : T) | QPushBack (v : T) | QPopFront | QPopBack | QTryPopFront | QTryPopBack | QClear | QLen | QIsEmpty | QFront | QBack.
Arguments QPushFront {T}. Arguments QPushBack {T}. Arguments QPopFront {T}. Arguments QPopBack {T}. Arguments QTryPopFront {T}. Arguments QTryPopBack {T}.
Arguments QClear {T}. Arguments QLen {T}. Arguments QIsEmpty {T}. Arguments QFront {T}. Arguments QBack {T}.
Definition first_or {T A} (d : A) (f : T -> A) (xs : list T) : A := match xs with [] => d | x :: _ => f x end.
Definition queue_spec {T} (zero : T) (o : qop T) (xs : list T) : outcome (obs T) * list T :=
  match o with
  | QPushFront v => (Ok ONone, v :: xs)
  | QPushBack v => (Ok ONone, xs ++ [v])
  | QPopFront => (first_or Panic (fun v => Ok (OVal v)) xs, tl xs)
  | QPopBack => (first_or Panic (fun v => Ok (OVal v)) (rev xs), removelast xs)
  | QTryPopFront => (Ok (first_or (OTry zero false) (fun v => OTry v true) xs), tl xs)
  | QTryPopBack => (Ok (first_or (OTry zero false) (fun v => OTry v true) (rev xs)), removelast xs)
  | QClear => (Ok ONone, [])
  | QLen => (Ok (OInt (zlen xs)), xs)
  | QIsEmpty => (Ok (OBool (zlen xs =? 0)), xs)
  | QFront => (first_or Panic (fun v => Ok (OVal v)) xs, xs)
  | QBack => (first_or Panic (fun v => Ok (OVal v)) (rev xs), xs)
  end.
(** Values going in at the back, values coming out of pops. *)
Definition pushed {T} (ops : list (qop T)) : list T := flat_map (fun o => match o with QPushBack v => [v] | _ => [] end) ops.
Definition popped {T} (rs : list (outcome (obs T))) : list T :=
  flat_map (fun r => match r with Ok (OVal v) | Ok (OTry v true) => [v] | _ => [] end) rs.
