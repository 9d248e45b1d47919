(** Sorted maps whose key comparison function may panic in the middle of a call.
    Definitions only. *)
From Verif Require Import Base Spec_Map Model_SkipList.

(** The calls that compare keys. *)
Definition compares {K V St} (o : mop K V St) : bool :=
  match o with
  | MInsert _ _ _ | MRemove _ | MFind _ | MHas _ | MFindSet _ _ | MLower _ | MUpper _ | MRange _ _ => true
  | _ => false
  end.
(** A call either does what it does on a sorted map, or the comparison function
    panicked, so does the call, and the map is what it was.  x is the state of
    the comparison function: P after calls of it that returned, Q after one that
    panicked; it is left alone by calls that compare no keys. *)
Definition may_panic {K V St X} (lt : K -> K -> bool) (P Q : X -> Prop)
  (a : list (K * V) * X) (o : mop K V St) (r : outcome (mres K V St)) (a' : list (K * V) * X) : Prop :=
  ((r, fst a') = map_spec lt o (fst a) /\ P (snd a') /\ (compares o = false -> snd a' = snd a)) \/
  (compares o = true /\ r = Panic /\ fst a' = fst a /\ Q (snd a')).

(** All nodes with their keys, values and links, the level, the length and the
    head are as before; only the contents of prevsCache may differ. *)
Definition kept {K V} (s s' : list (slnode K V) * sklist) : Prop :=
  fst s' = fst s /\ exists pc, length pc = length (sl_prevs (snd s)) /\ snd s' = set_sl_prevs pc (snd s).
