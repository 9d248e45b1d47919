(** Callbacks that use the map they are called from, and ForEach over a sorted
    map with element identities. *)
From Verif Require Import Base Spec Spec_Map Spec_Client Spec_SkipIter.

(** A callback body. *)
Notation xprog K V S0 A := (prog (xop K V S0) (xres K V S0) A).
(** The same callback, noting the keys it is given: for ForEach and ForEachMutable,
    and for ForEachIf and ForEachMutableIf. *)
Definition noting {K V S0 A St} (op : St -> K -> A -> xprog K V S0 St) (st : St * list K) (k : K) (a : A) : xprog K V S0 (St * list K) :=
  pmap (fun r => (r, snd st ++ [k])) (op (fst st) k a).
Definition noting_if {K V S0 A St} (op : St -> K -> A -> xprog K V S0 (bool * St)) (st : St * list K) (k : K) (a : A) : xprog K V S0 (bool * (St * list K)) :=
  pmap (fun r => (fst r, (snd r, snd st ++ [k]))) (op (fst st) k a).

Section Each.
Context {K V S0 : Type}.
Variable lt : K -> K -> bool.
Notation SS := (estate K V * list xvar)%type.
(** What the callback is given: the value, or a pointer to it in a new variable. *)
Definition give_value (i : nat) : M SS V := fun s => (match pair_of i (fst s) with Some p => Ok (snd p) | None => Panic end, s).
Definition give_pointer (i : nat) : M SS nat := fun s => (Ok (length (snd s)), (fst s, snd s ++ [(Some i, None)])).
(** From the element q on: call op with the key, until it returns false or there
    is no element behind the current one. *)
Fixpoint each_spec {A St} (give : nat -> M SS A) (op : St -> K -> A -> xprog K V S0 (bool * St)) (fuel : nat) (q : option nat) (st : St) : M SS St :=
  match fuel with
  | O => nofuel
  | S fuel' =>
    match q with
    | None => ret st
    | Some i =>
      k <- (fun s => (match pair_of i (fst s) with Some p => Ok (fst p) | None => Panic end, s)) ;;
      a <- give i ;; r <- exec (x_spec lt) (op st k a) ;;
      if fst r then q' <- (fun s => (match next_of i (fst s) with Some n => Ok n | None => Panic end, s)) ;; each_spec give op fuel' q' (snd r)
      else ret (snd r)
    end
  end.
Definition for_each_spec {A St} (give : nat -> M SS A) (op : St -> K -> A -> xprog K V S0 (bool * St)) (fuel : nat) (st : St) : M SS St :=
  fun s => each_spec give op fuel (first_id (e_live (fst s))) st s.
End Each.
