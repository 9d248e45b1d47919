(** Less functions that use the queue they compare elements for.  Definitions
    only.  [less a b ((m, h), x)] is a call of less: m is the memory, h the slice
    pq.heap, x the variables of the client. *)
From Verif Require Import Base Trace Spec Model_PriorityQueue Model_PQSelf.

Section Self.
Context {T X : Type}.
(** On a queue that is not empty, less answers f and leaves the queue, and all
    the memory, exactly as it is; R tells what it may do to its own variables when
    it sees a queue of n elements. *)
Definition looks_as (f : T -> T -> bool) (R : Z -> X -> X -> Prop) (less : T -> T -> @QP T X bool) : Prop :=
  forall m h x a b, wf_slice m h -> 0 < s_len h -> exists x', less a b ((m, h), x) = (Ok (f a b), ((m, h), x')) /\ R (s_len h) x x'.

(** The elements P of a slice: it is a slice, and has elements P only. *)
Definition holds (P : T -> Prop) (m : mem T) (h : slice) : Prop :=
  wf_slice m h /\ s_len h <= max_int /\ Forall P (contents m h).
(** Whatever less does: it returns, or panics (only if [mayfail]); and every
    slice with elements P only is still one. *)
Definition keeps_elements (P : T -> Prop) (mayfail : Prop) (less : T -> T -> @QP T X bool) : Prop :=
  forall m h x a b, P a -> P b -> holds P m h ->
    exists o m' h' x', less a b ((m, h), x) = (o, ((m', h'), x')) /\ holds P m' h' /\ (forall k, holds P m k -> holds P m' k) /\
      match o with Ok _ => True | Panic => mayfail | NoFuel => False end.

(** The elements that a list of calls pushes. *)
Definition pushed (ops : list (pq_op T)) : list T := flat_map (fun o => match o with PPush v => [v] | _ => [] end) ops.
(** Calls that only push or look. *)
Definition adding (o : pq_op T) : Prop := match o with PPop | PClear => False | _ => True end.
(** Calls that only look. *)
Definition looking (o : pq_op T) : Prop := match o with PTop | PLen | PIsEmpty => True | _ => False end.
End Self.
(** The elements that calls have pushed, given their results. *)
Definition came {T} (calls : list (pq_op T * outcome (obs T))) : list T :=
  flat_map (fun c => match c with (PPush v, Ok _) => [v] | _ => [] end) calls.
