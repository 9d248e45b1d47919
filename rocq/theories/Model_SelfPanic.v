(** Client code, not in /repo: comparison functions for NewSkipListFunc and
    NewSkipListSetFunc that use the container they compare keys for, and panic. *)
From Verif Require Import Base Nodes Trace Spec Spec_List Spec_Map Spec_Set Model_SkipList Model_SkipListSet Model_SkipFx Model_SkipSelf Model_SetSelf.

(** Did one of the calls panic (or not end)? *)
Definition stopped {A} (rs : list (outcome A)) : bool := existsb (fun r => match r with Ok _ => false | _ => true end) rs.
(** Before it answers cmp a b, the function makes the calls [plan], unless the
    nesting is n deep already.  It recovers from panics of these calls until all are
    made, and then panics if one of them did, or if [bad] says so.  x is what the calls
    have shown so far. *)
Section Map.
Context {K V St : Type}.
Notation log := (list (outcome (mres K V St))).
Variables (plan : log -> K -> K -> list (mop K V St)) (bad : log -> K -> K -> bool).
Variable cmp : K -> K -> Z.
Fixpoint nest_p (n : nat) (a b : K) : @FP K V log Z := fun s =>
  match n with
  | O => if bad (snd s) a b then (Panic, s) else (Ok (cmp a b), s)
  | S n' => let '(rs, (l, x)) := run (map_step_self (nest_p n')) (plan (snd s) a b) s in
    if stopped rs || bad x a b then (Panic, (l, x ++ rs)) else (Ok (cmp a b), (l, x ++ rs))
  end.
End Map.
Section Set_.
Context {K St : Type}.
Notation log := (list (outcome (sres K St))).
Variables (plan : log -> K -> K -> list (sop K St)) (bad : log -> K -> K -> bool).
Variable cmp : K -> K -> Z.
Fixpoint set_nest_p (n : nat) (a b : K) : @FP K unit log Z := fun s =>
  match n with
  | O => if bad (snd s) a b then (Panic, s) else (Ok (cmp a b), s)
  | S n' => let '(rs, (l, x)) := run (set_step_self (set_nest_p n')) (plan (snd s) a b) s in
    if stopped rs || bad x a b then (Panic, (l, x ++ rs)) else (Ok (cmp a b), (l, x ++ rs))
  end.
End Set_.
