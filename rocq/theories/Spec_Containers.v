(** Abstract containers: what the observable behaviour of each container
    should be, with no reference to slices, heaps or pointers. *)
From Verif Require Import Base Spec Trace Model_Stack Model_PriorityQueue.

(** LIFO stack; the state lists the elements from the top down. *)
Definition stack_spec {T} (zero : T) (o : stack_op T) (st : list T)
  : outcome (obs T) * list T :=
  match o with
  | SPush t => (Ok ONone, t :: st)
  | SPop => match st with [] => (Panic, st) | t :: r => (Ok (OVal t), r) end
  | STryPop => match st with [] => (Ok (OTry zero false), st) | t :: r => (Ok (OTry t true), r) end
  | STop => match st with [] => (Panic, st) | t :: _ => (Ok (OVal t), st) end
  | SLen => (Ok (OInt (zlen st)), st)
  | SIsEmpty => (Ok (OBool (zlen st =? 0)), st)
  | SClear => (Ok ONone, [])
  end.

(** Priority queue over a bag (a list up to permutation).  Pop and Top may
    return any element that no element of the bag is less than. *)
Definition is_min {T} (less : T -> T -> bool) (x : T) (bag : list T) : Prop :=
  In x bag /\ forall y, In y bag -> less y x = false.

Definition pq_spec {T} (less : T -> T -> bool) (bag : list T) (o : pq_op T)
  (r : outcome (obs T)) (bag' : list T) : Prop :=
  match o with
  | PPush v => r = Ok ONone /\ Permutation bag' (v :: bag)
  | PPop => (bag = [] /\ r = Panic /\ bag' = []) \/
            (exists x, r = Ok (OVal x) /\ is_min less x bag /\ Permutation (x :: bag') bag)
  | PTop => Permutation bag' bag /\
            ((bag = [] /\ r = Panic) \/ exists x, r = Ok (OVal x) /\ is_min less x bag)
  | PLen => r = Ok (OInt (zlen bag)) /\ Permutation bag' bag
  | PIsEmpty => r = Ok (OBool (zlen bag =? 0)) /\ Permutation bag' bag
  | PClear => r = Ok ONone /\ bag' = []
  end.
