(** Sorted sets as plain lists in ascending order, and sets as predicates. *)
From Verif Require Import Base Spec Spec_Map.

(** Calls on a sorted set; the numbers beside inserted keys are the random
    numbers drawn.  SLower, SUpper and SRange walk the iterator to its end. *)
Inductive sop (K St : Type) :=
| SInsert (k : K) (r : Z) | SInsertN (ks : list (K * Z)) | SRemove (k : K) | SRemoveN (ks : list K) | SClear
| SLen | SIsEmpty | SHas (k : K) | SKeys
| SLower (k : K) | SUpper (k : K) | SRange (first last : K)
| SForEach (cb : St -> K -> St) (st : St) | SForEachIf (cb : St -> K -> bool * St) (st : St).
Arguments SInsert {K St}. Arguments SInsertN {K St}. Arguments SRemove {K St}. Arguments SRemoveN {K St}. Arguments SClear {K St}.
Arguments SLen {K St}. Arguments SIsEmpty {K St}. Arguments SHas {K St}. Arguments SKeys {K St}. Arguments SLower {K St}. Arguments SUpper {K St}.
Arguments SRange {K St}. Arguments SForEach {K St}. Arguments SForEachIf {K St}.
Inductive sres (K St : Type) := SNone | SBool (b : bool) | SInt (n : Z) | SSeq (l : list K) | SSt (st : St).
Arguments SNone {K St}. Arguments SBool {K St}. Arguments SInt {K St}. Arguments SSeq {K St}. Arguments SSt {K St}.

Section Spec.
Context {K St : Type}.
Variable lt : K -> K -> bool.
Notation eqv := (eqv lt).
Definition mem (k : K) (m : list K) : bool := existsb (fun x => eqv x k) m.
Definition add (k : K) (m : list K) : list K :=
  if mem k m then m else filter (fun x => lt x k) m ++ k :: filter (fun x => lt k x) m.
Definition drop (k : K) (m : list K) : list K := filter (fun x => negb (eqv x k)) m.
(** How many different elements of ks are not, or are, in m. *)
Fixpoint count_new (ks m : list K) : Z :=
  match ks with [] => 0 | k :: ks' => count_new ks' m + if mem k m || mem k ks' then 0 else 1 end.
Fixpoint count_old (ks m : list K) : Z :=
  match ks with [] => 0 | k :: ks' => count_old ks' m + if mem k m && negb (mem k ks') then 1 else 0 end.
Definition set_spec (o : sop K St) (m : list K) : outcome (sres K St) * list K :=
  match o with
  | SInsert k _ => (Ok (SBool (negb (mem k m))), add k m)
  | SInsertN ks => (Ok (SInt (count_new (map fst ks) m)), fold_left (fun m p => add (fst p) m) ks m)
  | SRemove k => (Ok (SBool (mem k m)), drop k m)
  | SRemoveN ks => (Ok (SInt (count_old ks m)), fold_left (fun m k => drop k m) ks m)
  | SClear => (Ok SNone, [])
  | SLen => (Ok (SInt (zlen m)), m)
  | SIsEmpty => (Ok (SBool (match m with [] => true | _ => false end)), m)
  | SHas k => (Ok (SBool (mem k m)), m)
  | SKeys => (Ok (SSeq m), m)
  | SLower k => (Ok (SSeq (filter (fun x => negb (lt x k)) m)), m)
  | SUpper k => (Ok (SSeq (filter (fun x => lt k x) m)), m)
  | SRange first last =>
    (if existsb (fun x => lt last x && lt x first) m then Panic
     else Ok (SSeq (filter (fun x => negb (lt x first) && negb (lt last x)) m)), m)
  | SForEach cb st => (Ok (SSt (fold_left cb m st)), m)
  | SForEachIf cb st => (Ok (SSt (fold_while cb st m)), m)
  end.

(** Sets as predicates: the effect of a call. *)
Definition pset_spec (o : sop K St) (p : K -> bool) : K -> bool :=
  match o with
  | SInsert k _ => fun x => p x || eqv x k
  | SInsertN ks => fun x => p x || existsb (fun kr => eqv x (fst kr)) ks
  | SRemove k => fun x => p x && negb (eqv x k)
  | SRemoveN ks => fun x => p x && negb (existsb (fun k => eqv x k) ks)
  | SClear => fun _ => false
  | _ => p
  end.
(** l lists the elements of p in ascending order, each once. *)
Definition lists (l : list K) (p : K -> bool) : Prop :=
  strictly_sorted_by lt l /\ forall x, p x = true <-> exists y, In y l /\ eqv y x = true.
End Spec.
