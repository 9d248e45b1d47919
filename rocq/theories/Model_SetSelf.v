(** Model of the SkipListSet of /repo/skiplist_set.go made by NewSkipListSetFunc
    with a comparison function that itself uses the set.  A call of it is any
    computation on the set and on variables of the client.  Model_SkipSelf.v has
    the SkipList below; everything that does not call the comparison function is
    taken from Model_SkipListSet.v. *)
From Verif Require Import Base Nodes Trace Spec Spec_List Spec_Map Spec_Set Model_SkipList Model_SkipListSet Model_SkipFx Model_SkipSelf.

Section SetSelf.
Context {K X : Type}.
Notation FP := (@FP K unit X).
Variable compare : K -> K -> FP Z.
(** skiplist_set.go:41-43 Has. *)
Definition set_Has_self (key : K) : FP bool := Has_self compare key.
(** skiplist_set.go:46-50 Insert. *)
Definition set_Insert_self (key : K) (r : Z) : FP bool :=
  oldLen <- quiet set_Len ;; Insert_self compare key tt r ;; n <- quiet set_Len ;; ret (oldLen <? n).
(** skiplist_set.go:53-59 InsertN. *)
Fixpoint insertN_loop_self (keys : list (K * Z)) : FP unit :=
  match keys with [] => ret tt | (k, r) :: rest => b <- set_Insert_self k r ;; insertN_loop_self rest end.
Definition set_InsertN_self (keys : list (K * Z)) : FP Z :=
  oldLen <- quiet set_Len ;; insertN_loop_self keys ;; n <- quiet set_Len ;; ret (n - oldLen).
(** skiplist_set.go:62-64 Remove. *)
Definition set_Remove_self (key : K) : FP bool := Remove_self compare key.
(** skiplist_set.go:67-73 RemoveN. *)
Fixpoint removeN_loop_self (keys : list K) : FP unit :=
  match keys with [] => ret tt | k :: rest => b <- set_Remove_self k ;; removeN_loop_self rest end.
Definition set_RemoveN_self (keys : list K) : FP Z :=
  oldLen <- quiet set_Len ;; removeN_loop_self keys ;; n <- quiet set_Len ;; ret (oldLen - n).
(** skiplist_set.go:93-106 LowerBound, UpperBound, FindRange. *)
Definition set_LowerBound_self (key : K) : FP iter := n <- lowerBound_self compare key ;; ret (n, None).
Definition set_UpperBound_self (key : K) : FP iter := n <- upperBound_self compare key ;; ret (n, None).
Definition set_FindRange_self (first last : K) : FP iter :=
  n <- lowerBound_self compare first ;; e <- upperBound_self compare last ;; ret (n, e).
(** Client code, not in /repo: the iterator is walked to its end, which compares
    no keys. *)
Definition si_walk_self (p : FP iter) : FP (list K) := fuel <- quiet heap_fuel ;; it <- p ;; quiet (si_loop fuel it []).
(** One call of a client. *)
Definition set_step_self {St} (o : sop K St) : FP (sres K St) :=
  match o with
  | SInsert k r => show SBool (set_Insert_self k r)
  | SInsertN ks => show SInt (set_InsertN_self ks)
  | SRemove k => show SBool (set_Remove_self k)
  | SRemoveN ks => show SInt (set_RemoveN_self ks)
  | SClear => show (fun _ => SNone) (quiet set_Clear)
  | SLen => show SInt (quiet set_Len)
  | SIsEmpty => show SBool (quiet set_IsEmpty)
  | SHas k => show SBool (set_Has_self k)
  | SKeys => show SSeq (quiet set_Keys)
  | SLower k => show SSeq (si_walk_self (set_LowerBound_self k))
  | SUpper k => show SSeq (si_walk_self (set_UpperBound_self k))
  | SRange a b => show SSeq (si_walk_self (set_FindRange_self a b))
  | SForEach cb st => show SSt (quiet (set_ForEach cb st))
  | SForEachIf cb st => show SSt (quiet (set_ForEachIf cb st))
  end.
End SetSelf.

(** Client code, not in /repo: a comparison function that, before it answers
    cmp a b, makes the calls [plan] on the set, unless the nesting is n deep already
    (the client counts it); x is what those calls have shown so far. *)
Section Nest.
Context {K St : Type}.
Notation log := (list (outcome (sres K St))).
Variable plan : log -> K -> K -> list (sop K St).
Variable cmp : K -> K -> Z.
Fixpoint set_nest (n : nat) (a b : K) : @FP K unit log Z := fun s =>
  match n with
  | O => (Ok (cmp a b), s)
  | S n' => let '(rs, (l, x)) := run (set_step_self (set_nest n')) (plan (snd s) a b) s in (Ok (cmp a b), (l, x ++ rs))
  end.
End Nest.
