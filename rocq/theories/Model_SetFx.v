(** Model of the SkipListSet of /repo/skiplist_set.go made by NewSkipListSetFunc
    with a key comparison function that may panic and may have side effects on
    state of its own.  Model_SkipListSet.v has the same functions for a pure one;
    Model_SkipFx.v has the SkipList below it. *)
From Verif Require Import Base Nodes Trace Spec Spec_List Spec_Map Spec_Set Model_SkipList Model_SkipListSet Model_SkipFx.

Section SetFx.
Context {K X : Type}.
Variable keyCmp : K -> K -> M X Z.
Notation FP := (@FP K unit X).
(** skiplist_set.go:41-43 Has. *)
Definition set_Has_fx (key : K) : FP bool := Has_fx keyCmp key.
(** skiplist_set.go:46-50 Insert. *)
Definition set_Insert_fx (key : K) (r : Z) : FP bool :=
  oldLen <- quiet set_Len ;; Insert_fx keyCmp key tt r ;; n <- quiet set_Len ;; ret (oldLen <? n).
(** skiplist_set.go:53-59 InsertN. *)
Fixpoint insertN_loop_fx (keys : list (K * Z)) : FP unit :=
  match keys with [] => ret tt | (k, r) :: rest => b <- set_Insert_fx k r ;; insertN_loop_fx rest end.
Definition set_InsertN_fx (keys : list (K * Z)) : FP Z :=
  oldLen <- quiet set_Len ;; insertN_loop_fx keys ;; n <- quiet set_Len ;; ret (n - oldLen).
(** skiplist_set.go:62-64 Remove. *)
Definition set_Remove_fx (key : K) : FP bool := Remove_fx keyCmp key.
(** skiplist_set.go:67-73 RemoveN. *)
Fixpoint removeN_loop_fx (keys : list K) : FP unit :=
  match keys with [] => ret tt | k :: rest => b <- set_Remove_fx k ;; removeN_loop_fx rest end.
Definition set_RemoveN_fx (keys : list K) : FP Z :=
  oldLen <- quiet set_Len ;; removeN_loop_fx keys ;; n <- quiet set_Len ;; ret (oldLen - n).
(** skiplist_set.go:93-106 LowerBound, UpperBound, FindRange. *)
Definition set_LowerBound_fx (key : K) : FP iter := n <- lowerBound_fx keyCmp key ;; ret (n, None).
Definition set_UpperBound_fx (key : K) : FP iter := n <- upperBound_fx keyCmp key ;; ret (n, None).
Definition set_FindRange_fx (first last : K) : FP iter :=
  n <- lowerBound_fx keyCmp first ;; e <- upperBound_fx keyCmp last ;; ret (n, e).
(** Client code, not in /repo: the iterator is walked to its end, which compares
    no keys. *)
Definition si_walk_fx (p : FP iter) : FP (list K) := fuel <- quiet heap_fuel ;; it <- p ;; quiet (si_loop fuel it []).
(** One call of a client. *)
Definition set_step_fx {St} (o : sop K St) : FP (sres K St) :=
  match o with
  | SInsert k r => show SBool (set_Insert_fx k r)
  | SInsertN ks => show SInt (set_InsertN_fx ks)
  | SRemove k => show SBool (set_Remove_fx k)
  | SRemoveN ks => show SInt (set_RemoveN_fx ks)
  | SClear => show (fun _ => SNone) (quiet set_Clear)
  | SLen => show SInt (quiet set_Len)
  | SIsEmpty => show SBool (quiet set_IsEmpty)
  | SHas k => show SBool (set_Has_fx k)
  | SKeys => show SSeq (quiet set_Keys)
  | SLower k => show SSeq (si_walk_fx (set_LowerBound_fx k))
  | SUpper k => show SSeq (si_walk_fx (set_UpperBound_fx k))
  | SRange a b => show SSeq (si_walk_fx (set_FindRange_fx a b))
  | SForEach cb st => show SSt (quiet (set_ForEach cb st))
  | SForEachIf cb st => show SSt (quiet (set_ForEachIf cb st))
  end.
End SetFx.
