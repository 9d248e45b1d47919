(** DList values that are copied by assignment.  A variable remembers which ring
    of elements it uses, if any yet, and its own length; copies use the same
    ring.  Definitions only. *)
From Verif Require Import Base Spec Trace Spec_List.

(** Variables are numbered in the order in which they come into being.
    VNew: var l DList[T].  VOf vs: l := DListOf(vs...).  VCopy i: l := li.
    VAssign i j: li = lj.  VCall i o: a call on li. *)
Inductive vop (T St : Type) := VNew | VOf (vs : list T) | VCopy (i : nat) | VAssign (i j : nat) | VCall (i : nat) (o : dop T St).
Arguments VNew {T St}. Arguments VOf {T St}. Arguments VCopy {T St}. Arguments VAssign {T St}. Arguments VCall {T St}.

(** A ring is None when it is broken: then every use of it panics until a
    Clear. *)
Record shared (T : Type) := mkShared { rings : list (option (list T)); vars : list (option nat * Z) }.
Arguments mkShared {T}. Arguments rings {T}. Arguments vars {T}.

Section Copy.
Context {T St : Type}.
Variable zero : T.

(** The calls that look at the variable's own length first, and do nothing
    (Front, Back, PopFront, PopBack panic) when it is 0. *)
Definition guarded (o : dop T St) : bool :=
  match o with
  | DPopFront | DPopBack | DTryPopFront | DTryPopBack | DFront | DBack
  | DForEach _ _ | DForEachIf _ _ | DForEachMutable _ _ | DForEachMutableIf _ _ => true
  | _ => false
  end.
(** Such a call with length n > 0 on a ring without elements: Front and Back
    return a zero value, and the pops return one and break the ring. *)
Definition call_without_elements (o : dop T St) (n : Z) : outcome (res T St) * (option (list T) * Z) :=
  match o with
  | DPopFront | DPopBack => (Ok (RObs (OVal zero)), (None, n - 1))
  | DTryPopFront | DTryPopBack => (Ok (RObs (OTry zero true)), (None, n - 1))
  | DFront | DBack => (Ok (RObs (OVal zero)), (Some [], n))
  | _ => (fst (dlist_spec zero o []), (Some [], n))
  end.
(** A call through a variable with length n that uses the ring c. *)
Definition ring_call (o : dop T St) (n : Z) (c : option (list T)) : outcome (res T St) * (option (list T) * Z) :=
  match o, c with
  | DLen, _ => (Ok (RObs (OInt n)), (c, n))
  | DIsEmpty, _ => (Ok (RObs (OBool (n =? 0))), (c, n))
  | DClear, _ => (Ok (RObs ONone), (Some [], 0))
  | _, _ =>
    if guarded o && (n =? 0) then (fst (dlist_spec zero o []), (c, n)) else
    match c with
    | None => (Panic, (None, n))
    | Some [] => if guarded o then call_without_elements o n
                 else let '(r, ys) := dlist_spec zero o [] in (r, (Some ys, n + zlen ys))
    | Some xs => let '(r, ys) := dlist_spec zero o xs in (r, (Some ys, n + (zlen ys - zlen xs)))
    end
  end.

Definition share_spec (o : vop T St) (w : shared T) : outcome (res T St) * shared T :=
  match o with
  | VNew | VOf [] => (Ok (RObs ONone), mkShared (rings w) (vars w ++ [(None, 0)]))
  | VOf vs => (Ok (RObs ONone), mkShared (rings w ++ [Some vs]) (vars w ++ [(Some (length (rings w)), zlen vs)]))
  | VCopy i => match nth_error (vars w) i with
               | Some v => (Ok (RObs ONone), mkShared (rings w) (vars w ++ [v]))
               | None => (Panic, w)
               end
  | VAssign i j => match nth_error (vars w) i, nth_error (vars w) j with
                   | Some _, Some v => (Ok (RObs ONone), mkShared (rings w) (upd i v (vars w)))
                   | _, _ => (Panic, w)
                   end
  | VCall i o =>
    match nth_error (vars w) i with
    | None => (Panic, w)
    | Some (None, _) =>
      match dlist_spec zero o [] with
      | (r, []) => (r, w)
      | (r, ys) => (r, mkShared (rings w ++ [Some ys]) (upd i (Some (length (rings w)), zlen ys) (vars w)))
      end
    | Some (Some k, n) =>
      let '(r, (c, n')) := ring_call o n (nth k (rings w) None) in
      (r, mkShared (upd k c (rings w)) (upd i (Some k, n') (vars w)))
    end
  end.
Definition no_vars : shared T := mkShared [] [].

(** The calls through variable i, and what they showed. *)
Definition through (i : nat) (o : vop T St) : option (dop T St) :=
  match o with VCall j o => if Nat.eqb j i then Some o else None | _ => None end.
Fixpoint calls_through (i : nat) (ops : list (vop T St)) : list (dop T St) :=
  match ops with [] => [] | o :: r => match through i o with Some c => c :: calls_through i r | None => calls_through i r end end.
Fixpoint shown_through {R} (i : nat) (ops : list (vop T St)) (rs : list R) : list R :=
  match ops, rs with
  | o :: ops', r :: rs' => match through i o with Some _ => r :: shown_through i ops' rs' | None => shown_through i ops' rs' end
  | _, _ => []
  end.
(** Variable j uses the same ring as i. *)
Definition sharing (w : shared T) (i j : nat) : Prop :=
  exists k n m, nth_error (vars w) i = Some (Some k, n) /\ nth_error (vars w) j = Some (Some k, m).
(** In this program, variable i is not assigned to, and no calls are made
    through other variables while they use its ring. *)
Fixpoint only_user (i : nat) (ops : list (vop T St)) (w : shared T) : Prop :=
  match ops with
  | [] => True
  | o :: r =>
    match o with
    | VAssign j _ => j <> i
    | VCall j _ => j = i \/ ~ sharing w i j
    | _ => True
    end /\ only_user i r (snd (share_spec o w))
  end.
(** Variable i is in order: its length is that of its ring, which holds xs. *)
Definition in_order (w : shared T) (i : nat) (xs : list T) : Prop :=
  match nth_error (vars w) i with
  | Some (None, n) => xs = [] /\ n = 0
  | Some (Some k, n) => nth_error (rings w) k = Some (Some xs) /\ n = zlen xs
  | None => False
  end.
End Copy.
