(** Programs with several SkipList structs (/repo/skiplist.go:28-37), copied by
    assignment.

    Copying a struct copies level, len, the slice headers head.next and
    prevsCache, the pointer rander and the interface impl.  So a copy has the
    array of the original as head.next: sl_head, which stands for that array (the
    head's key and value are never used), is copied as a pointer.  The impl of a
    copy still is a pointer to the struct the list was made with
    (skiplist.go:42, 61), so the searches of a call through the copy use the level
    and the prevsCache of that struct.  The contents of prevsCache are only used
    within a call, after the search that wrote them; they are not shared here but
    handed from the search to the call. *)
From Verif Require Import Base Nodes Trace Spec Spec_List Spec_Map Model_SkipList Spec_SkipListCopy.

Section Copy.
Context {K V St : Type}.
Variables (zeroK : K) (zeroV : V).
Variables ltb eqb : K -> K -> bool.
Notation SP := (P (slnode K V) sklist).

(** A method of the struct o, called from a method of another struct. *)
Definition elsewhere {A} (o : sklist) (p : SP A) : SP A :=
  fun s => let '(r, (h, o')) := p (fst s, o) in (r, (h, set_sl_prevs (sl_prevs o') (snd s))).
Definition impl_at (o : sklist) (im : @slimpl K V) : @slimpl K V :=
  mkImpl (fun k => elsewhere o (findNode im k)) (fun k => elsewhere o (lowerBound im k)) (fun k => elsewhere o (upperBound im k))
         (fun k => elsewhere o (findInsertPoint im k)) (fun k => elsewhere o (findRemovePoint im k)).
(** Method calls on a nil interface panic. *)
Definition nil_impl : @slimpl K V :=
  mkImpl (fun _ => panic) (fun _ => panic) (fun _ => panic) (fun _ => panic) (fun _ => panic).

(** A variable: the struct and its impl, a pointer to (the struct of) a variable
    with the functions that belong to it. *)
Record yvar := mkY { y_sl : sklist; y_impl : option (nat * @slimpl K V) }.
Definition yvars : Type := (list (slnode K V) * list yvar)%type.
Definition impl_of (w : yvars) (v : yvar) : @slimpl K V :=
  match y_impl v with
  | Some (j, im) => match nth_error (snd w) j with Some u => impl_at (y_sl u) im | None => nil_impl end
  | None => nil_impl
  end.
(** skiplist.go:39-45, 57-63. *)
Definition choose (k : ykind K) : @slimpl K V := match k with ByOrder => implOrdered ltb eqb | ByFunc cmp => implFunc cmp end.

Definition y_step (o : yop K V St) (w : yvars) : outcome (mres K V St) * yvars :=
  match o with
  | YNew k => let '(r, (h, sl)) := init zeroK zeroV (fst w, mkSL 0 0 None []) in
              (omap (fun _ => MNone) r, (h, snd w ++ [mkY sl (Some (length (snd w), choose k))]))
  | YZero => (Ok MNone, (fst w ++ [mkSLNode zeroK zeroV []], snd w ++ [mkY (mkSL 0 0 (Some (length (fst w))) []) None]))
  | YCopy i => match nth_error (snd w) i with
               | Some v => (Ok MNone, (fst w, snd w ++ [v]))
               | None => (Panic, w)
               end
  | YAssign i j => match nth_error (snd w) i, nth_error (snd w) j with
                   | Some _, Some v => (Ok MNone, (fst w, upd i v (snd w)))
                   | _, _ => (Panic, w)
                   end
  | YCall i o => match nth_error (snd w) i with
                 | Some v => let '(r, (h, sl)) := map_step (impl_of w v) o (fst w, y_sl v) in (r, (h, upd i (mkY sl (y_impl v)) (snd w)))
                 | None => (Panic, w)
                 end
  end.
End Copy.
Arguments yvar : clear implicits. Arguments yvars : clear implicits.
