(** Programs with several SkipList structs (/repo/skiplist.go:28-37), copied by
    assignment (c := *a, c = *a).  Definitions only. *)
From Verif Require Import Base Spec Trace Spec_Map.

(** NewSkipList, or NewSkipListFunc(cmp). *)
Inductive ykind (K : Type) := ByOrder | ByFunc (cmp : K -> K -> Z).
Arguments ByOrder {K}. Arguments ByFunc {K}.
(** The statements.  YNew makes a list: the next variable is the struct behind the
    pointer that NewSkipList returns.  YZero declares a SkipList without initial
    value.  YCopy i declares a variable that starts as a copy of variable i;
    YAssign i j assigns variable j to variable i.  YCall i o calls o through
    variable i. *)
Inductive yop (K V St : Type) := YNew (k : ykind K) | YZero | YCopy (i : nat) | YAssign (i j : nat) | YCall (i : nat) (o : mop K V St).
Arguments YNew {K V St}. Arguments YZero {K V St}. Arguments YCopy {K V St}. Arguments YAssign {K V St}. Arguments YCall {K V St}.

Section Views.
Context {K V St : Type}.
Variables ltb eqb : K -> K -> bool.
Definition ylt (k : ykind K) : K -> K -> bool := match k with ByOrder => ltb | ByFunc cmp => fun a b => cmp a b <? 0 end.
Definition lawful (o : yop K V St) : Prop :=
  match o with YNew ByOrder => ordered ltb eqb | YNew (ByFunc cmp) => three_way cmp | _ => True end.

(** A variable shows one of the maps, or is a zero value.  It is an original if it
    was made by New.  It has a length of its own. *)
Record view := mkView { v_map : option nat; v_orig : bool; v_len : Z }.
Definition views : Type := (list ((K -> K -> bool) * list (K * V)) * list view)%type.

Definition next_len (lt : K -> K -> bool) (o : mop K V St) (m : list (K * V)) (n : Z) : Z :=
  match o with
  | MInsert k _ _ => if has lt k m then n else n + 1
  | MRemove k => if has lt k m then n - 1 else n
  | MClear => 0
  | _ => n
  end.
(** Calls on a zero value. *)
Definition zero_answer (o : mop K V St) : outcome (mres K V St) :=
  match o with MLen => Ok (MInt 0) | MIsEmpty => Ok (MBool true) | MClear => Ok MNone | _ => Panic end.

(** Copies show the same map as the original, but with lengths of their own. *)
Definition view_spec (o : yop K V St) (w : views) : outcome (mres K V St) * views :=
  match o with
  | YNew k => (Ok MNone, (fst w ++ [(ylt k, [])], snd w ++ [mkView (Some (length (fst w))) true 0]))
  | YZero => (Ok MNone, (fst w, snd w ++ [mkView None false 0]))
  | YCopy i => match nth_error (snd w) i with
               | Some v => (Ok MNone, (fst w, snd w ++ [mkView (v_map v) false (v_len v)]))
               | None => (Panic, w)
               end
  | YAssign i j => match nth_error (snd w) i, nth_error (snd w) j with
                   | Some _, Some v => (Ok MNone, (fst w, upd i (mkView (v_map v) false (v_len v)) (snd w)))
                   | _, _ => (Panic, w)
                   end
  | YCall i o =>
    match nth_error (snd w) i with
    | None => (Panic, w)
    | Some v =>
      match v_map v with
      | None => (zero_answer o, w)
      | Some n =>
        match nth_error (fst w) n with
        | None => (Panic, w)
        | Some (lt, m) =>
          let '(r, m') := map_spec lt o m in
          (match o with MLen => Ok (MInt (v_len v)) | MIsEmpty => Ok (MBool (v_len v =? 0)) | _ => r end,
           (upd n (lt, m') (fst w), upd i (mkView (v_map v) (v_orig v) (next_len lt o m (v_len v))) (snd w)))
        end
      end
    end
  end.

(** Bit 39 of the number the generator returns is set: half of all numbers. *)
Definition low_draw (r : Z) : bool := Z.testbit r 39.
(** Originals are not assigned to; a key that is new is inserted through an
    original, or the generator returns a number with bit 39 set. *)
Definition polite1 (o : yop K V St) (w : views) : Prop :=
  match o with
  | YAssign i _ => forall v, nth_error (snd w) i = Some v -> v_orig v = false
  | YCall i (MInsert k _ r) => forall v n lt m, nth_error (snd w) i = Some v -> v_map v = Some n -> nth_error (fst w) n = Some (lt, m) ->
      v_orig v = true \/ has lt k m = true \/ low_draw r = true
  | _ => True
  end.
Fixpoint polite (ops : list (yop K V St)) (w : views) : Prop :=
  match ops with [] => True | o :: r => polite1 o w /\ polite r (snd (view_spec o w)) end.

(** Originals are not assigned to; Insert, Remove, Clear, Len and IsEmpty are called
    through originals (or zero values). *)
Definition reading1 (o : yop K V St) (w : views) : Prop :=
  match o with
  | YAssign i _ => forall v, nth_error (snd w) i = Some v -> v_orig v = false
  | YCall i (MInsert _ _ _ | MRemove _ | MClear | MLen | MIsEmpty) => forall v, nth_error (snd w) i = Some v -> v_orig v = true \/ v_map v = None
  | _ => True
  end.
Fixpoint reading (ops : list (yop K V St)) (w : views) : Prop :=
  match ops with [] => True | o :: r => reading1 o w /\ reading r (snd (view_spec o w)) end.

(** What one might expect: each variable has a map of its own. *)
Definition own_spec (o : yop K V St) (w : list (option ((K -> K -> bool) * list (K * V)))) : outcome (mres K V St) * list (option ((K -> K -> bool) * list (K * V))) :=
  match o with
  | YNew k => (Ok MNone, w ++ [Some (ylt k, [])])
  | YZero => (Ok MNone, w ++ [None])
  | YCopy i => match nth_error w i with Some v => (Ok MNone, w ++ [v]) | None => (Panic, w) end
  | YAssign i j => match nth_error w i, nth_error w j with Some _, Some v => (Ok MNone, upd i v w) | _, _ => (Panic, w) end
  | YCall i o =>
    match nth_error w i with
    | None => (Panic, w)
    | Some None => (zero_answer o, w)
    | Some (Some (lt, m)) => let '(r, m') := map_spec lt o m in (r, upd i (Some (lt, m')) w)
    end
  end.
(** Or: a copy is another name of the map. *)
Definition alias_spec (o : yop K V St) (w : list ((K -> K -> bool) * list (K * V)) * list (option nat)) : outcome (mres K V St) * (list ((K -> K -> bool) * list (K * V)) * list (option nat)) :=
  match o with
  | YNew k => (Ok MNone, (fst w ++ [(ylt k, [])], snd w ++ [Some (length (fst w))]))
  | YZero => (Ok MNone, (fst w, snd w ++ [None]))
  | YCopy i => match nth_error (snd w) i with Some v => (Ok MNone, (fst w, snd w ++ [v])) | None => (Panic, w) end
  | YAssign i j => match nth_error (snd w) i, nth_error (snd w) j with Some _, Some v => (Ok MNone, (fst w, upd i v (snd w))) | _, _ => (Panic, w) end
  | YCall i o =>
    match nth_error (snd w) i with
    | None => (Panic, w)
    | Some None => (zero_answer o, w)
    | Some (Some n) =>
      match nth_error (fst w) n with
      | None => (Panic, w)
      | Some (lt, m) => let '(r, m') := map_spec lt o m in (r, (upd n (lt, m') (fst w), snd w))
      end
    end
  end.
End Views.
