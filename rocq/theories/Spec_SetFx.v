(** Sorted sets whose key comparison function may panic in the middle of a call.
    Definitions only. *)
From Verif Require Import Base Spec Spec_Set.

(** The calls that compare keys. *)
Definition set_compares {K St} (o : sop K St) : bool :=
  match o with
  | SInsert _ _ | SInsertN _ | SRemove _ | SRemoveN _ | SHas _ | SLower _ | SUpper _ | SRange _ _ => true
  | _ => false
  end.
(** The part of a call that is done when its comparison function panics: some
    keys of InsertN and RemoveN, in the order given, but not all; nothing of any
    other call. *)
Definition begun {K St} (o d : sop K St) : Prop :=
  match o with
  | SInsertN ks => exists ks1 ks2, ks = ks1 ++ ks2 /\ ks2 <> [] /\ d = SInsertN ks1
  | SRemoveN ks => exists ks1 ks2, ks = ks1 ++ ks2 /\ ks2 <> [] /\ d = SRemoveN ks1
  | _ => d = SLen
  end.
(** A call either does what it does on a sorted set, or the comparison function
    panicked, so does the call, and a part of it is done.  x is the state of the
    comparison function: P after calls of it that returned, Q after one that
    panicked; it is left alone by calls that compare no keys. *)
Definition set_may_panic {K St X} (lt : K -> K -> bool) (P Q : X -> Prop)
  (a : list K * X) (o : sop K St) (r : outcome (sres K St)) (a' : list K * X) : Prop :=
  ((r, fst a') = set_spec lt o (fst a) /\ P (snd a') /\ (set_compares o = false -> snd a' = snd a)) \/
  (set_compares o = true /\ r = Panic /\ Q (snd a') /\ exists d, begun o d /\ fst a' = snd (set_spec lt d (fst a))).
