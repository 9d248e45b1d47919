(** Programs with several SkipListSet structs (/repo/skiplist_set.go:4: the struct of
    SkipList), copied by assignment.

    The variables are those of Model_SkipListCopy.v, so the impl of a copy is still
    a pointer to the struct the set was made with.  InsertN and RemoveN search once
    per key, each time in that struct as it is then, and are therefore spelled out
    here; all other methods search at most once before they change anything and are
    those of Model_SkipListSet.v. *)
From Verif Require Import Base Nodes Trace Spec Spec_List Spec_Map Spec_Set Model_SkipList Model_SkipListSet Spec_SkipListCopy Model_SkipListCopy Spec_SetCopy.

Section Copy.
Context {K St : Type}.
Variable zeroK : K.
Variables ltb eqb : K -> K -> bool.
Notation SP := (P (slnode K unit) sklist).
(** A method called through variable i. *)
Definition on_var {A} (i : nat) (p : @slimpl K unit -> SP A) : M (yvars K unit) A := fun w =>
  match nth_error (snd w) i with
  | Some v => let '(r, (h, sl)) := p (impl_of w v) (fst w, y_sl v) in (r, (h, upd i (mkY sl (y_impl v)) (snd w)))
  | None => (Panic, w)
  end.
Definition z_Len (i : nat) : M (yvars K unit) Z := on_var i (fun _ => set_Len).
Definition z_Insert (i : nat) (k : K) (r : Z) : M (yvars K unit) bool := on_var i (fun im => set_Insert im k r).
Definition z_Remove (i : nat) (k : K) : M (yvars K unit) bool := on_var i (fun im => set_Remove im k).
(** skiplist_set.go:53-59 InsertN. *)
Fixpoint z_insert_loop (i : nat) (keys : list (K * Z)) : M (yvars K unit) unit :=
  match keys with [] => ret tt | (k, r) :: rest => b <- z_Insert i k r ;; z_insert_loop i rest end.
Definition z_InsertN (i : nat) (keys : list (K * Z)) : M (yvars K unit) Z :=
  oldLen <- z_Len i ;; z_insert_loop i keys ;; n <- z_Len i ;; ret (n - oldLen).
(** skiplist_set.go:67-73 RemoveN. *)
Fixpoint z_remove_loop (i : nat) (keys : list K) : M (yvars K unit) unit :=
  match keys with [] => ret tt | k :: rest => b <- z_Remove i k ;; z_remove_loop i rest end.
Definition z_RemoveN (i : nat) (keys : list K) : M (yvars K unit) Z :=
  oldLen <- z_Len i ;; z_remove_loop i keys ;; n <- z_Len i ;; ret (oldLen - n).

(** A declaration or assignment of a SkipListSet is one of the SkipList it is. *)
Definition as_map (o : yop K unit unit) : M (yvars K unit) (sres K St) := show (fun _ => SNone) (y_step zeroK tt ltb eqb o).
Definition z_step (o : zop K St) : yvars K unit -> outcome (sres K St) * yvars K unit :=
  match o with
  | ZNew k => as_map (YNew k)
  | ZZero => as_map YZero
  | ZCopy i => as_map (YCopy i)
  | ZAssign i j => as_map (YAssign i j)
  | ZCall i (SInsertN ks) => show SInt (z_InsertN i ks)
  | ZCall i (SRemoveN ks) => show SInt (z_RemoveN i ks)
  | ZCall i o => on_var i (fun im => set_step im o)
  end.
End Copy.
