(** Model of /repo/skiplist_set.go: SkipListSet[K] is SkipList[K, struct{}]. *)
From Verif Require Import Base Nodes Spec Trace Spec_List Spec_Map Spec_Set Model_SkipList.

Section Set_.
Context {K : Type}.
Variable zeroK : K.
Notation SP := (P (slnode K unit) sklist).
(** skiplist_set.go:7-14 NewSkipListSet and NewSkipListSetFunc. *)
Definition NewSkipListSet : SP unit := init zeroK tt.
Variable impl : @slimpl K unit.
(** skiplist_set.go:26-43 (asMap, 108-110, is a pointer conversion). *)
Definition set_IsEmpty : SP bool := IsEmpty.
Definition set_Len : SP Z := Len.
Definition set_Clear : SP unit := Clear.
Definition set_Has (key : K) : SP bool := Has impl key.
(** skiplist_set.go:46-50 Insert. *)
Definition set_Insert (key : K) (r : Z) : SP bool :=
  oldLen <- set_Len ;; Insert impl key tt r ;; n <- set_Len ;; ret (oldLen <? n).
(** skiplist_set.go:55-57, also 19-21: for i := range keys { s.Insert(keys[i]) }. *)
Fixpoint insert_loop (keys : list (K * Z)) : SP unit :=
  match keys with [] => ret tt | (k, r) :: rest => b <- set_Insert k r ;; insert_loop rest end.
(** skiplist_set.go:53-59 InsertN. *)
Definition set_InsertN (keys : list (K * Z)) : SP Z :=
  oldLen <- set_Len ;; insert_loop keys ;; n <- set_Len ;; ret (n - oldLen).
(** skiplist_set.go:17-23 NewSkipListSetOf. *)
Definition NewSkipListSetOf (elements : list (K * Z)) : SP unit := NewSkipListSet ;; insert_loop elements.
(** skiplist_set.go:62-64 Remove. *)
Definition set_Remove (key : K) : SP bool := Remove impl key.
(** skiplist_set.go:67-73 RemoveN. *)
Fixpoint remove_loop (keys : list K) : SP unit :=
  match keys with [] => ret tt | k :: rest => b <- set_Remove k ;; remove_loop rest end.
Definition set_RemoveN (keys : list K) : SP Z :=
  oldLen <- set_Len ;; remove_loop keys ;; n <- set_Len ;; ret (oldLen - n).
(** skiplist_set.go:83-90 ForEach, ForEachIf. *)
Definition set_ForEach {St} (f : St -> K -> St) (st : St) : SP St := ForEach (fun st p => f st (fst p)) st.
Definition set_ForEachIf {St} (f : St -> K -> bool * St) (st : St) : SP St := ForEachIf (fun st p => f st (fst p)) st.
(** skiplist_set.go:76-80 Keys; make panics for a negative capacity. *)
Definition set_Keys : SP (list K) :=
  n <- set_Len ;; if n <? 0 then panic else set_ForEach (fun keys k => keys ++ [k]) [].
(** skiplist_set.go:93-106 LowerBound, UpperBound, FindRange. *)
Definition set_LowerBound (key : K) : SP iter := n <- lowerBound impl key ;; ret (n, None).
Definition set_UpperBound (key : K) : SP iter := n <- upperBound impl key ;; ret (n, None).
Definition set_FindRange (first last : K) : SP iter := n <- lowerBound impl first ;; e <- upperBound impl last ;; ret (n, e).
(** skiplist_set.go:112-124 skipListSetIterator. *)
Definition si_IsNotEnd (it : iter) : bool := negb (peqb (fst it) (snd it)).
Definition si_MoveToNext (it : iter) : SP iter := n <- ld_next (fst it) 0 ;; ret (n, snd it).
Definition si_Value (it : iter) : SP K := ld_key (fst it).
(** Client code: for ; it.IsNotEnd(); it.MoveToNext() { ... it.Value() ... } *)
Fixpoint si_loop (fuel : nat) (it : iter) (seen : list K) : SP (list K) :=
  match fuel with
  | O => nofuel
  | S fuel' =>
    if si_IsNotEnd it then k <- si_Value it ;; it' <- si_MoveToNext it ;; si_loop fuel' it' (seen ++ [k])
    else ret seen
  end.
Definition si_walk (p : SP iter) : SP (list K) := fuel <- heap_fuel ;; it <- p ;; si_loop fuel it [].

Definition set_step {St} (o : sop K St) : list (slnode K unit) * sklist -> outcome (sres K St) * (list (slnode K unit) * sklist) :=
  match o with
  | SInsert k r => show SBool (set_Insert k r)
  | SInsertN ks => show SInt (set_InsertN ks)
  | SRemove k => show SBool (set_Remove k)
  | SRemoveN ks => show SInt (set_RemoveN ks)
  | SClear => show (fun _ => SNone) set_Clear
  | SLen => show SInt set_Len
  | SIsEmpty => show SBool set_IsEmpty
  | SHas k => show SBool (set_Has k)
  | SKeys => show SSeq set_Keys
  | SLower k => show SSeq (si_walk (set_LowerBound k))
  | SUpper k => show SSeq (si_walk (set_UpperBound k))
  | SRange a b => show SSeq (si_walk (set_FindRange a b))
  | SForEach cb st => show SSt (set_ForEach cb st)
  | SForEachIf cb st => show SSt (set_ForEachIf cb st)
  end.
End Set_.
