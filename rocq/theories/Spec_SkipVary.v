(** Maps kept in a list whose order of keys changes from call to call: with every
    call comes the comparison function of the moment.  Definitions only. *)
From Verif Require Import Base Spec Spec_Map.

Section Spec.
Context {K V St : Type}.
(** k stands rightly between A and B, as far as its neighbours tell. *)
Definition fits (cmp : K -> K -> Z) (k : K) (A B : list (K * V)) : Prop :=
  (A = [] \/ exists A' p, A = A' ++ [p] /\ cmp (fst p) k < 0) /\ (B = [] \/ exists p B', B = p :: B' /\ 0 < cmp (fst p) k).
(** What a call may return and do to the pairs m when nothing is known of the
    order they stand in.  Only Insert puts a pair in, only Remove and Clear take
    pairs out, and no pair moves. *)
Definition loose (a : list (K * V)) (co : (K -> K -> Z) * mop K V St) (r : outcome (mres K V St)) (a' : list (K * V)) : Prop :=
  let '(cmp, o) := co in
  match o with
  | MInsert k v _ => r = Ok MNone /\
    ((exists A B, a = A ++ B /\ fits cmp k A B /\ a' = A ++ (k, v) :: B) \/
     (exists A k' v' B, a = A ++ (k', v') :: B /\ cmp k' k = 0 /\ a' = A ++ (k', v) :: B))
  | MRemove k =>
    (r = Ok (MBool false) /\ a' = a) \/
    (exists A p B, a = A ++ p :: B /\ cmp (fst p) k = 0 /\ r = Ok (MBool true) /\ a' = A ++ B)
  | MFind k => a' = a /\ (r = Ok (MOpt None) \/ exists k' v', In (k', v') a /\ cmp k' k = 0 /\ r = Ok (MOpt (Some v')))
  | MHas k => a' = a /\ (r = Ok (MBool false) \/ (r = Ok (MBool true) /\ exists p, In p a /\ cmp (fst p) k = 0))
  | MFindSet k v =>
    (r = Ok (MBool false) /\ a' = a) \/
    (exists A k' v' B, a = A ++ (k', v') :: B /\ cmp k' k = 0 /\ r = Ok (MBool true) /\ a' = A ++ (k', v) :: B)
  | MLower _ | MUpper _ => a' = a /\ exists A B, a = A ++ B /\ r = Ok (MSeq B)
  | MRange _ _ => a' = a /\ (r = Panic \/ exists A B D, a = A ++ B ++ D /\ r = Ok (MSeq B))
  | MClear => r = Ok MNone /\ a' = []
  | MLen => r = Ok (MInt (zlen a)) /\ a' = a
  | MIsEmpty => r = Ok (MBool (match a with [] => true | _ => false end)) /\ a' = a
  | MIter => r = Ok (MSeq a) /\ a' = a
  | MForEach cb st => r = Ok (MSt (fold_left cb a st)) /\ a' = a
  | MForEachIf cb st => r = Ok (MSt (fold_while cb st a)) /\ a' = a
  | MForEachMutable cb st =>
    let '(m, st') := map_st (fun st p => let '(v, st') := cb st p in ((fst p, v), st')) st a in r = Ok (MSt st') /\ a' = m
  | MForEachMutableIf cb st =>
    let '(m, st') := map_while (fun st p => let '(v, go, st') := cb st p in ((fst p, v), go, st')) st a in r = Ok (MSt st') /\ a' = m
  end.
End Spec.
