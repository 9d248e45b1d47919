(** Programs with several SkipListSet structs (/repo/skiplist_set.go:4), copied by
    assignment (c := *a, c = *a).  Definitions only. *)
From Verif Require Import Base Spec Trace Spec_Map Spec_Set Spec_SkipListCopy.

(** The statements.  ZNew makes a set with NewSkipListSet or NewSkipListSetFunc: the
    next variable is the struct behind the pointer.  ZZero declares a SkipListSet
    without initial value.  ZCopy i declares a variable that starts as a copy of
    variable i; ZAssign i j assigns variable j to variable i.  ZCall i o calls o
    through variable i. *)
Inductive zop (K St : Type) := ZNew (k : ykind K) | ZZero | ZCopy (i : nat) | ZAssign (i j : nat) | ZCall (i : nat) (o : sop K St).
Arguments ZNew {K St}. Arguments ZZero {K St}. Arguments ZCopy {K St}. Arguments ZAssign {K St}. Arguments ZCall {K St}.

Section Views.
Context {K St : Type}.
Variables ltb eqb : K -> K -> bool.
Definition z_lawful (o : zop K St) : Prop :=
  match o with ZNew ByOrder => ordered ltb eqb | ZNew (ByFunc cmp) => three_way cmp | _ => True end.
(** Sets, and variables that show one of them with a length of their own. *)
Definition zviews : Type := (list ((K -> K -> bool) * list K) * list view)%type.
Definition z_next_len (lt : K -> K -> bool) (o : sop K St) (m : list K) (n : Z) : Z :=
  match o with
  | SInsert k _ => if mem lt k m then n else n + 1
  | SInsertN ks => n + count_new lt (map fst ks) m
  | SRemove k => if mem lt k m then n - 1 else n
  | SRemoveN ks => n - count_old lt ks m
  | SClear => 0
  | _ => n
  end.
(** Keys makes a slice with the variable's length as capacity. *)
Definition z_answer (lt : K -> K -> bool) (o : sop K St) (m : list K) (n : Z) : outcome (sres K St) :=
  match o with
  | SLen => Ok (SInt n)
  | SIsEmpty => Ok (SBool (n =? 0))
  | SKeys => if n <? 0 then Panic else Ok (SSeq m)
  | _ => fst (set_spec lt o m)
  end.
(** Calls on a zero value. *)
Definition z_zero_answer (o : sop K St) : outcome (sres K St) :=
  match o with
  | SLen | SInsertN [] | SRemoveN [] => Ok (SInt 0)
  | SIsEmpty => Ok (SBool true)
  | SClear => Ok SNone
  | _ => Panic
  end.
Definition z_view_spec (o : zop K St) (w : zviews) : outcome (sres K St) * zviews :=
  match o with
  | ZNew k => (Ok SNone, (fst w ++ [(ylt ltb k, [])], snd w ++ [mkView (Some (length (fst w))) true 0]))
  | ZZero => (Ok SNone, (fst w, snd w ++ [mkView None false 0]))
  | ZCopy i => match nth_error (snd w) i with
               | Some v => (Ok SNone, (fst w, snd w ++ [mkView (v_map v) false (v_len v)]))
               | None => (Panic, w)
               end
  | ZAssign i j => match nth_error (snd w) i, nth_error (snd w) j with
                   | Some _, Some v => (Ok SNone, (fst w, upd i (mkView (v_map v) false (v_len v)) (snd w)))
                   | _, _ => (Panic, w)
                   end
  | ZCall i o =>
    match nth_error (snd w) i with
    | None => (Panic, w)
    | Some v =>
      match v_map v with
      | None => (z_zero_answer o, w)
      | Some n =>
        match nth_error (fst w) n with
        | None => (Panic, w)
        | Some (lt, m) =>
          (z_answer lt o m (v_len v),
           (upd n (lt, snd (set_spec lt o m)) (fst w), upd i (mkView (v_map v) (v_orig v) (z_next_len lt o m (v_len v))) (snd w)))
        end
      end
    end
  end.
(** Originals are not assigned to; every key that is new is inserted through an
    original, or the generator returns a number with bit 39 set for it. *)
Fixpoint polite_keys (lt : K -> K -> bool) (orig : bool) (ks : list (K * Z)) (m : list K) : Prop :=
  match ks with
  | [] => True
  | (k, r) :: rest => (orig = true \/ mem lt k m = true \/ low_draw r = true) /\ polite_keys lt orig rest (add lt k m)
  end.
Definition z_polite1 (o : zop K St) (w : zviews) : Prop :=
  match o with
  | ZAssign i _ => forall v, nth_error (snd w) i = Some v -> v_orig v = false
  | ZCall i (SInsert k r) => forall v n lt m, nth_error (snd w) i = Some v -> v_map v = Some n -> nth_error (fst w) n = Some (lt, m) ->
      polite_keys lt (v_orig v) [(k, r)] m
  | ZCall i (SInsertN ks) => forall v n lt m, nth_error (snd w) i = Some v -> v_map v = Some n -> nth_error (fst w) n = Some (lt, m) ->
      polite_keys lt (v_orig v) ks m
  | _ => True
  end.
Fixpoint z_polite (ops : list (zop K St)) (w : zviews) : Prop :=
  match ops with [] => True | o :: r => z_polite1 o w /\ z_polite r (snd (z_view_spec o w)) end.

(** What one might expect: each variable has a set of its own. *)
Definition z_own_spec (o : zop K St) (w : list (option ((K -> K -> bool) * list K))) : outcome (sres K St) * list (option ((K -> K -> bool) * list K)) :=
  match o with
  | ZNew k => (Ok SNone, w ++ [Some (ylt ltb k, [])])
  | ZZero => (Ok SNone, w ++ [None])
  | ZCopy i => match nth_error w i with Some v => (Ok SNone, w ++ [v]) | None => (Panic, w) end
  | ZAssign i j => match nth_error w i, nth_error w j with Some _, Some v => (Ok SNone, upd i v w) | _, _ => (Panic, w) end
  | ZCall i o =>
    match nth_error w i with
    | None => (Panic, w)
    | Some None => (z_zero_answer o, w)
    | Some (Some (lt, m)) => let '(r, m') := set_spec lt o m in (r, upd i (Some (lt, m')) w)
    end
  end.
(** Or: a copy is another name of the set. *)
Definition z_alias_spec (o : zop K St) (w : list ((K -> K -> bool) * list K) * list (option nat)) : outcome (sres K St) * (list ((K -> K -> bool) * list K) * list (option nat)) :=
  match o with
  | ZNew k => (Ok SNone, (fst w ++ [(ylt ltb k, [])], snd w ++ [Some (length (fst w))]))
  | ZZero => (Ok SNone, (fst w, snd w ++ [None]))
  | ZCopy i => match nth_error (snd w) i with Some v => (Ok SNone, (fst w, snd w ++ [v])) | None => (Panic, w) end
  | ZAssign i j => match nth_error (snd w) i, nth_error (snd w) j with Some _, Some v => (Ok SNone, (fst w, upd i v (snd w))) | _, _ => (Panic, w) end
  | ZCall i o =>
    match nth_error (snd w) i with
    | None => (Panic, w)
    | Some None => (z_zero_answer o, w)
    | Some (Some n) =>
      match nth_error (fst w) n with
      | None => (Panic, w)
      | Some (lt, m) => let '(r, m') := set_spec lt o m in (r, (upd n (lt, m') (fst w), snd w))
      end
    end
  end.
End Views.

(** Originals are not assigned to; calls that change the set or use the length are
    made through originals (or zero values). *)
Section Readers.
Context {K St : Type}.
Variable ltb : K -> K -> bool.
Definition z_reading1 (o : zop K St) (w : @zviews K) : Prop :=
  match o with
  | ZAssign i _ => forall v, nth_error (snd w) i = Some v -> v_orig v = false
  | ZCall i (SInsert _ _ | SInsertN _ | SRemove _ | SRemoveN _ | SClear | SLen | SIsEmpty | SKeys) =>
      forall v, nth_error (snd w) i = Some v -> v_orig v = true \/ v_map v = None
  | _ => True
  end.
Fixpoint z_reading (ops : list (zop K St)) (w : @zviews K) : Prop :=
  match ops with [] => True | o :: r => z_reading1 o w /\ z_reading r (snd (z_view_spec ltb o w)) end.
End Readers.
