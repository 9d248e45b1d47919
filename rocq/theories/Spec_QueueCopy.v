(** DListQueue values that are copied by assignment.  A variable remembers which
    ring of elements it uses, if any yet, and its own length; copies use the same
    ring.  Definitions only. *)
From Verif Require Import Base Spec Trace Spec_List Spec_DListCopy.

(** Variables are numbered in the order in which they come into being.
    UNew: var q DListQueue[T], or the struct behind the pointer that NewDListQueue
    returns.  UCopy i: q := qi.  UAssign i j: qi = qj.  UCall i o: a call on qi. *)
Inductive uop (T : Type) := UNew | UCopy (i : nat) | UAssign (i j : nat) | UCall (i : nat) (o : qop T).
Arguments UNew {T}. Arguments UCopy {T}. Arguments UAssign {T}. Arguments UCall {T}.

Section Copy.
Context {T : Type}.
Variable zero : T.
(** A call through a variable with length n that uses the ring c (None when it is
    broken). *)
Definition q_ring_call (o : qop T) (n : Z) (c : option (list T)) : outcome (obs T) * (option (list T) * Z) :=
  match o with
  | QLen => (Ok (OInt n), (c, n))
  | QIsEmpty => (Ok (OBool (n =? 0)), (c, n))
  | QClear => (Ok ONone, (Some [], 0))
  | QPushFront _ | QPushBack _ =>
    match c with Some xs => let '(r, ys) := queue_spec zero o xs in (r, (Some ys, n + 1)) | None => (Panic, (None, n)) end
  | QFront | QBack =>
    if n =? 0 then (Panic, (c, n)) else
    match c with Some [] => (Ok (OVal zero), (c, n)) | Some xs => (fst (queue_spec zero o xs), (c, n)) | None => (Panic, (c, n)) end
  | QPopFront | QPopBack | QTryPopFront | QTryPopBack =>
    if n =? 0 then (fst (queue_spec zero o []), (c, n)) else
    match c with
    | Some [] => (Ok (match o with QPopFront | QPopBack => OVal zero | _ => OTry zero true end), (None, n - 1))
    | Some xs => let '(r, ys) := queue_spec zero o xs in (r, (Some ys, n - 1))
    | None => (Panic, (None, n))
    end
  end.
Definition q_share_spec (o : uop T) (w : shared T) : outcome (obs T) * shared T :=
  match o with
  | UNew => (Ok ONone, mkShared (rings w) (vars w ++ [(None, 0)]))
  | UCopy i => match nth_error (vars w) i with
               | Some v => (Ok ONone, mkShared (rings w) (vars w ++ [v]))
               | None => (Panic, w)
               end
  | UAssign i j => match nth_error (vars w) i, nth_error (vars w) j with
                   | Some _, Some v => (Ok ONone, mkShared (rings w) (upd i v (vars w)))
                   | _, _ => (Panic, w)
                   end
  | UCall i o =>
    match nth_error (vars w) i with
    | None => (Panic, w)
    | Some (None, _) =>
      match queue_spec zero o [] with
      | (r, []) => (r, w)
      | (r, ys) => (r, mkShared (rings w ++ [Some ys]) (upd i (Some (length (rings w)), zlen ys) (vars w)))
      end
    | Some (Some k, n) =>
      let '(r, (c, n')) := q_ring_call o n (nth k (rings w) None) in
      (r, mkShared (upd k c (rings w)) (upd i (Some k, n') (vars w)))
    end
  end.
(** The calls through variable i, and what they showed. *)
Definition q_through (i : nat) (o : uop T) : option (qop T) :=
  match o with UCall j o => if Nat.eqb j i then Some o else None | _ => None end.
Fixpoint q_calls_through (i : nat) (ops : list (uop T)) : list (qop T) :=
  match ops with [] => [] | o :: r => match q_through i o with Some c => c :: q_calls_through i r | None => q_calls_through i r end end.
Fixpoint q_shown_through {R} (i : nat) (ops : list (uop T)) (rs : list R) : list R :=
  match ops, rs with
  | o :: ops', r :: rs' => match q_through i o with Some _ => r :: q_shown_through i ops' rs' | None => q_shown_through i ops' rs' end
  | _, _ => []
  end.
(** In this program, variable i is not assigned to, and no calls are made through
    other variables while they use its ring. *)
Fixpoint q_only_user (i : nat) (ops : list (uop T)) (w : shared T) : Prop :=
  match ops with
  | [] => True
  | o :: r =>
    match o with
    | UAssign j _ => j <> i
    | UCall j _ => j = i \/ ~ sharing w i j
    | _ => True
    end /\ q_only_user i r (snd (q_share_spec o w))
  end.
End Copy.
