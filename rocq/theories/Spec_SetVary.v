(** Sets kept in a list whose order changes from call to call: with every call comes the
    comparison function of the moment.  Definitions only. *)
From Verif Require Import Base Spec Spec_Map Spec_Set.

Section Spec.
Context {K St : Type}.
(** One element more, right between its neighbours; or the same, with an element that
    compares equal. *)
Definition puts_in (cmp : K -> K -> Z) (k : K) (a : list K) (new : bool) (a' : list K) : Prop :=
  if new then exists A B, a = A ++ B /\ a' = A ++ k :: B /\
    (A = [] \/ exists A' x, A = A' ++ [x] /\ cmp x k < 0) /\ (B = [] \/ exists x B', B = x :: B' /\ 0 < cmp x k)
  else a' = a /\ exists x, In x a /\ cmp x k = 0.
(** One element less, that compares equal; or the same. *)
Definition takes_out (cmp : K -> K -> Z) (k : K) (a : list K) (found : bool) (a' : list K) : Prop :=
  if found then exists A x B, a = A ++ x :: B /\ a' = A ++ B /\ cmp x k = 0 else a' = a.
(** One after another, n times with success. *)
Inductive each (one : K -> list K -> bool -> list K -> Prop) : list K -> list K -> Z -> list K -> Prop :=
| each_nil a : each one [] a 0 a
| each_cons k ks a b a1 n a2 : one k a b a1 -> each one ks a1 n a2 -> each one (k :: ks) a (n + if b then 1 else 0) a2.
Definition set_loose (a : list K) (co : (K -> K -> Z) * sop K St) (r : outcome (sres K St)) (a' : list K) : Prop :=
  let '(cmp, o) := co in
  match o with
  | SInsert k _ => exists new, r = Ok (SBool new) /\ puts_in cmp k a new a'
  | SInsertN ks => exists n, r = Ok (SInt n) /\ each (puts_in cmp) (map fst ks) a n a'
  | SRemove k => exists found, r = Ok (SBool found) /\ takes_out cmp k a found a'
  | SRemoveN ks => exists n, r = Ok (SInt n) /\ each (takes_out cmp) ks a n a'
  | SHas k => a' = a /\ (r = Ok (SBool false) \/ (r = Ok (SBool true) /\ exists x, In x a /\ cmp x k = 0))
  | SLower _ | SUpper _ => a' = a /\ exists A B, a = A ++ B /\ r = Ok (SSeq B)
  | SRange _ _ => a' = a /\ (r = Panic \/ exists A B D, a = A ++ B ++ D /\ r = Ok (SSeq B))
  | SClear => r = Ok SNone /\ a' = []
  | SLen => r = Ok (SInt (zlen a)) /\ a' = a
  | SIsEmpty => r = Ok (SBool (match a with [] => true | _ => false end)) /\ a' = a
  | SKeys => r = Ok (SSeq a) /\ a' = a
  | SForEach cb st => r = Ok (SSt (fold_left cb a st)) /\ a' = a
  | SForEachIf cb st => r = Ok (SSt (fold_while cb st a)) /\ a' = a
  end.
End Spec.
