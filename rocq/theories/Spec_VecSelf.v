(** RemoveIf with a condition that uses the vector it is called on: what should
    come of it. *)
From Verif Require Import Base Spec Trace Spec_TransformFx Spec_Client.

Section Asked.
Context {O R T St S : Type}.
(** The statements of the condition, the condition, and the elements at the
    places the vector had at the start, in a state. *)
Variable step : O -> S -> outcome R * S.
Variable cond : St -> T -> prog O R (bool * St).
Variable places : S -> list T.
(** The condition was asked about each of [rest] in turn, and answered bs, st being
    its own variables.  In the meantime the places held the elements kept so far
    and, from there on, what they held at the start. *)
Fixpoint asked (start kept rest : list T) (st : St) (bs : list bool) (st' : St) : Prop :=
  match rest, bs with
  | [], [] => st' = st
  | x :: rest', b :: bs' => exists s s' st1, places s = kept ++ skipn (length kept) start /\ exec step (cond st x) s = (Ok (b, st1), s') /\
      asked start (if b then kept else kept ++ [x]) rest' st1 bs' st'
  | _, _ => False
  end.
(** A call of the condition that did not return. *)
Definition cond_failed {A} (r : outcome A) : Prop := exists st x s,
  match r, fst (exec step (cond st x) s) with Panic, Panic => True | NoFuel, NoFuel => True | _, _ => False end.
End Asked.
