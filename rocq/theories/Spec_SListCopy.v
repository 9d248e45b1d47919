(** SList values that are copied by assignment.  Definitions only. *)
From Verif Require Import Base Spec Trace Spec_List.

(** Variables are numbered in the order in which they come into being.
    WNew: var l SList[T].  WOf vs: l := SListOf(vs...).  WCopy i: l := li.
    WAssign i j: li = lj.  WCall i o: a call on li. *)
Inductive wop (T St : Type) := WNew | WOf (vs : list T) | WCopy (i : nat) | WAssign (i j : nat) | WCall (i : nat) (o : sop T St).
Arguments WNew {T St}. Arguments WOf {T St}. Arguments WCopy {T St}. Arguments WAssign {T St}. Arguments WCall {T St}.

Section Copy.
Context {T St : Type}.

(** Every variable a sequence of its own. *)
Definition own_spec (o : wop T St) (ls : list (list T)) : outcome (res T St) * list (list T) :=
  match o with
  | WNew => (Ok (RObs ONone), ls ++ [[]])
  | WOf vs => (Ok (RObs ONone), ls ++ [vs])
  | WCopy i => match nth_error ls i with Some xs => (Ok (RObs ONone), ls ++ [xs]) | None => (Panic, ls) end
  | WAssign i j => match nth_error ls i, nth_error ls j with
                   | Some _, Some xs => (Ok (RObs ONone), upd i xs ls)
                   | _, _ => (Panic, ls)
                   end
  | WCall i o => match nth_error ls i with
                 | Some xs => let '(r, ys) := slist_spec o xs in (r, upd i ys ls)
                 | None => (Panic, ls)
                 end
  end.

(** Which elements variables have in common: every pushed element gets a number,
    and a variable has a sequence of such numbers. *)
Definition numbers : Type := (nat * list (list nat))%type.
Definition number_call (o : sop T St) (n : nat) (ids : list nat) : nat * list nat :=
  match o with
  | LPushFront _ => (S n, n :: ids)
  | LPushBack _ => (S n, ids ++ [n])
  | LPopFront => (n, tl ids)
  | LReverse => (n, rev ids)
  | LClear => (n, [])
  | _ => (n, ids)
  end.
Definition number (o : wop T St) (w : numbers) : numbers :=
  match o with
  | WNew => (fst w, snd w ++ [[]])
  | WOf vs => ((fst w + length vs)%nat, snd w ++ [seq (fst w) (length vs)])
  | WCopy i => match nth_error (snd w) i with Some ids => (fst w, snd w ++ [ids]) | None => w end
  | WAssign i j => match nth_error (snd w) i, nth_error (snd w) j with
                   | Some _, Some ids => (fst w, upd i ids (snd w))
                   | _, _ => w
                   end
  | WCall i o => match nth_error (snd w) i with
                 | Some ids => let '(n, ids') := number_call o (fst w) ids in (n, upd i ids' (snd w))
                 | None => w
                 end
  end.
(** The calls that write to elements already there. *)
Definition in_place (o : sop T St) (ids : list nat) : bool :=
  match o with
  | LPushBack _ => match ids with [] => false | _ => true end
  | LReverse | LForEachMutable _ _ | LForEachMutableIf _ _ | LIterSet _ _ => true
  | _ => false
  end.
(** No other variable has an element in common with variable i. *)
Definition alone (i : nat) (w : numbers) : Prop :=
  forall j ids ids' a, j <> i -> nth_error (snd w) i = Some ids -> nth_error (snd w) j = Some ids' -> In a ids -> ~ In a ids'.
(** Such calls are made only through variables that share no elements. *)
Fixpoint polite (ops : list (wop T St)) (w : numbers) : Prop :=
  match ops with
  | [] => True
  | o :: r =>
    match o with
    | WCall i c => in_place c (nth i (snd w) []) = true -> alone i w
    | _ => True
    end /\ polite r (number o w)
  end.
(** No such calls at all. *)
Definition stack_like (o : wop T St) : Prop :=
  match o with
  | WCall _ (LPushBack _ | LReverse | LForEachMutable _ _ | LForEachMutableIf _ _ | LIterSet _ _) => False
  | _ => True
  end.

(** What a variable shows whose list xs was continued by ys through a copy, the
    variable itself not having been touched. *)
Definition stale_spec (xs ys : list T) (o : sop T St) : outcome (res T St) :=
  match o with
  | LLen => Ok (RObs (OInt (zlen xs)))
  | LIsEmpty => Ok (RObs (OBool false))
  | LFront => seq_front xs
  | LBack => seq_back xs
  | LValues => match ys with [] => Ok (RObs (OSeq xs)) | _ => Panic end
  | LForEach cb st => Ok (RSt (fold_left cb (xs ++ ys) st))
  | LForEachIf cb st => Ok (RSt (fold_while cb st (xs ++ ys)))
  | LIter => Ok (RObs (OSeq (xs ++ ys)))
  | LIterGet i => match nth_error (xs ++ ys) i with Some v => Ok (RObs (OVal v)) | None => Panic end
  | _ => Panic
  end.
Definition looks (o : sop T St) : Prop :=
  match o with
  | LLen | LIsEmpty | LFront | LBack | LValues | LForEach _ _ | LForEachIf _ _ | LIter | LIterGet _ => True
  | _ => False
  end.
End Copy.
