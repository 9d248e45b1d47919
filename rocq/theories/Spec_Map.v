(** Sorted maps as plain lists of pairs in ascending key order. *)
From Verif Require Import Base Spec.

(** Calls on a sorted map.  [r] is the random number the call draws if it needs
    one.  MFindSet writes through the pointer Find returns, if not nil; MLower,
    MUpper, MRange and MIter walk the iterator to its end. *)
Inductive mop (K V St : Type) :=
| MInsert (k : K) (v : V) (r : Z) | MRemove (k : K) | MClear | MLen | MIsEmpty
| MFind (k : K) | MHas (k : K) | MFindSet (k : K) (v : V)
| MLower (k : K) | MUpper (k : K) | MRange (first last : K) | MIter
| MForEach (cb : St -> K * V -> St) (st : St)
| MForEachIf (cb : St -> K * V -> bool * St) (st : St)
| MForEachMutable (cb : St -> K * V -> V * St) (st : St)
| MForEachMutableIf (cb : St -> K * V -> V * bool * St) (st : St).
Arguments MInsert {K V St}. Arguments MRemove {K V St}. Arguments MClear {K V St}. Arguments MLen {K V St}. Arguments MIsEmpty {K V St}.
Arguments MFind {K V St}. Arguments MHas {K V St}. Arguments MFindSet {K V St}. Arguments MLower {K V St}. Arguments MUpper {K V St}.
Arguments MRange {K V St}. Arguments MIter {K V St}. Arguments MForEach {K V St}. Arguments MForEachIf {K V St}.
Arguments MForEachMutable {K V St}. Arguments MForEachMutableIf {K V St}.

(** What a call shows. *)
Inductive mres (K V St : Type) := MNone | MBool (b : bool) | MInt (n : Z) | MOpt (v : option V) | MSeq (l : list (K * V)) | MSt (st : St).
Arguments MNone {K V St}. Arguments MBool {K V St}. Arguments MInt {K V St}. Arguments MOpt {K V St}. Arguments MSeq {K V St}. Arguments MSt {K V St}.

Section Spec.
Context {K V St : Type}.
Variable lt : K -> K -> bool.
(** Equivalent keys: neither is less. *)
Definition eqv (a b : K) : bool := negb (lt a b) && negb (lt b a).
Definition has (k : K) (m : list (K * V)) : bool := existsb (fun p => eqv (fst p) k) m.
(** The value of an existing key is replaced (the stored key stays); a new key
    goes between the smaller and the greater ones. *)
Definition set_value (k : K) (v : V) (m : list (K * V)) : list (K * V) := map (fun p => if eqv (fst p) k then (fst p, v) else p) m.
Definition insert (k : K) (v : V) (m : list (K * V)) : list (K * V) :=
  if has k m then set_value k v m
  else filter (fun p => lt (fst p) k) m ++ (k, v) :: filter (fun p => lt k (fst p)) m.
Definition remove (k : K) (m : list (K * V)) : list (K * V) := filter (fun p => negb (eqv (fst p) k)) m.
Definition lookup (k : K) (m : list (K * V)) : option V := option_map snd (find (fun p => eqv (fst p) k) m).

Definition map_spec (o : mop K V St) (m : list (K * V)) : outcome (mres K V St) * list (K * V) :=
  match o with
  | MInsert k v _ => (Ok MNone, insert k v m)
  | MRemove k => (Ok (MBool (has k m)), remove k m)
  | MClear => (Ok MNone, [])
  | MLen => (Ok (MInt (zlen m)), m)
  | MIsEmpty => (Ok (MBool (match m with [] => true | _ => false end)), m)
  | MFind k => (Ok (MOpt (lookup k m)), m)
  | MHas k => (Ok (MBool (has k m)), m)
  | MFindSet k v => (Ok (MBool (has k m)), set_value k v m)
  | MLower k => (Ok (MSeq (filter (fun p => negb (lt (fst p) k)) m)), m)
  | MUpper k => (Ok (MSeq (filter (fun p => lt k (fst p)) m)), m)
  | MRange first last =>
    (if existsb (fun p => lt last (fst p) && lt (fst p) first) m then Panic
     else Ok (MSeq (filter (fun p => negb (lt (fst p) first) && negb (lt last (fst p))) m)), m)
  | MIter => (Ok (MSeq m), m)
  | MForEach cb st => (Ok (MSt (fold_left cb m st)), m)
  | MForEachIf cb st => (Ok (MSt (fold_while cb st m)), m)
  | MForEachMutable cb st =>
    let '(m', st') := map_st (fun st p => let '(v, st') := cb st p in ((fst p, v), st')) st m in (Ok (MSt st'), m')
  | MForEachMutableIf cb st =>
    let '(m', st') := map_while (fun st p => let '(v, go, st') := cb st p in ((fst p, v), go, st')) st m in (Ok (MSt st'), m')
  end.
End Spec.

(** ** Finite maps as functions, for keys identified by [eqv lt]. *)
Inductive fop (K V : Type) := FInsert (k : K) (v : V) (r : Z) | FRemove (k : K) | FClear | FFindSet (k : K) (v : V) | FFind (k : K) | FHas (k : K).
Arguments FInsert {K V}. Arguments FRemove {K V}. Arguments FClear {K V}. Arguments FFindSet {K V}. Arguments FFind {K V}. Arguments FHas {K V}.
Definition mop_of {K V} (o : fop K V) : mop K V unit :=
  match o with
  | FInsert k v r => MInsert k v r | FRemove k => MRemove k | FClear => MClear
  | FFindSet k v => MFindSet k v | FFind k => MFind k | FHas k => MHas k
  end.
Section FSpec.
Context {K V : Type}.
Variable lt : K -> K -> bool.
Definition defined {A} (x : option A) : bool := match x with Some _ => true | None => false end.
Definition fmap_spec (o : fop K V) (f : K -> option V) : outcome (mres K V unit) * (K -> option V) :=
  match o with
  | FInsert k v _ => (Ok MNone, fun x => if eqv lt x k then Some v else f x)
  | FRemove k => (Ok (MBool (defined (f k))), fun x => if eqv lt x k then None else f x)
  | FClear => (Ok MNone, fun _ => None)
  | FFindSet k v => (Ok (MBool (defined (f k))), fun x => if eqv lt x k && defined (f k) then Some v else f x)
  | FFind k => (Ok (MOpt (f k)), f)
  | FHas k => (Ok (MBool (defined (f k))), f)
  end.
(** ks lists the keys of f, each once up to equivalence. *)
Definition enumerates (ks : list K) (f : K -> option V) : Prop :=
  (forall i j a b, i <> j -> nth_error ks i = Some a -> nth_error ks j = Some b -> eqv lt a b = false) /\
  (forall x, f x <> None <-> exists k, In k ks /\ eqv lt x k = true).
End FSpec.
(** Calls that may remove the key k. *)
Definition removes {K V St} (lt : K -> K -> bool) (k : K) (o : mop K V St) : bool :=
  match o with MRemove k' => eqv lt k k' | MClear => true | _ => false end.
(** The same calls, drawing possibly different random numbers. *)
Definition same_call {K V St} (o1 o2 : mop K V St) : Prop :=
  match o1, o2 with
  | MInsert k v _, MInsert k' v' _ => k = k' /\ v = v'
  | MInsert _ _ _, _ | _, MInsert _ _ _ => False
  | _, _ => o1 = o2
  end.
