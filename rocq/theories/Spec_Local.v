(** Which nodes a call looks at or changes, said without counting steps. *)
From Verif Require Import Base Nodes Spec_List.

Section Local.
Context {N H A : Type}.
(** Two heaps of the same size with the same nodes at the addresses [adrs]. *)
Definition same_at (adrs : list nat) (h h' : list N) : Prop :=
  length h' = length h /\ forall a, In a adrs -> nth_error h' a = nth_error h a.
(** In the state s the call p uses no old node but those at [adrs]: with any other nodes
    elsewhere it returns the same, and does the same to the header, to these nodes and
    to new ones; and it changes no other node. *)
Definition uses (p : list N * H -> outcome A * (list N * H)) (s : list N * H) (adrs : list nat) : Prop :=
  forall h', same_at adrs (fst s) h' ->
  let r := p s in let r' := p (h', snd s) in
  fst r' = fst r /\ snd (snd r') = snd (snd r) /\ length (fst (snd r')) = length (fst (snd r)) /\
  (forall a, In a adrs \/ (length h' <= a)%nat -> nth_error (fst (snd r')) a = nth_error (fst (snd r)) a) /\
  (forall a, ~ In a adrs -> (a < length h')%nat -> nth_error (fst (snd r')) a = nth_error h' a).
(** It uses no more than n nodes and makes no more than k. *)
Definition within (n k : nat) (p : list N * H -> outcome A * (list N * H)) (s : list N * H) : Prop :=
  (exists adrs, (length adrs <= n)%nat /\ uses p s adrs) /\ (length (fst (snd (p s))) <= length (fst s) + k)%nat.
End Local.

(** How many nodes a call may use, however long the list is; None: no such number. *)
Definition slist_uses {T St} (o : sop T St) : option nat :=
  match o with
  | LPushFront _ | LClear | LLen | LIsEmpty => Some 0%nat
  | LPushBack _ | LPopFront | LFront | LBack => Some 1%nat
  | LIterGet i | LIterSet i _ => Some (S i)
  | _ => None
  end.
Definition dlist_uses {T St} (o : dop T St) : option nat :=
  match o with
  | DLen | DIsEmpty => Some 0%nat
  | DClear => Some 1%nat
  | DPushFront _ | DPushBack _ | DFront | DBack => Some 2%nat
  | DPopFront | DPopBack | DTryPopFront | DTryPopBack => Some 3%nat
  | DIterGet i | DIterSet i _ => Some (S (S i))
  | _ => None
  end.
Definition queue_uses {T} (o : qop T) : nat :=
  match o with
  | QLen | QIsEmpty => 0
  | QClear => 1
  | QPushFront _ | QPushBack _ | QFront | QBack => 2
  | QPopFront | QPopBack | QTryPopFront | QTryPopBack => 3
  end%nat.
