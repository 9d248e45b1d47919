(** Specification for C100: callbacks of BuiltinSet.ForEach and ForEachIf that
    use sets, also the one they are called from. *)
From Verif Require Import Base Spec Spec_BSet.

(** A callback's body: calls on sets, each depending on what the earlier ones
    showed, and ForEachIf loops whose callbacks are such programs again.  A call
    that panics is recovered from and shows the panic; [BFail] panics for good. *)
Inductive bprog (K : Type) : Type -> Type :=
| BRet {R : Type} (r : R) : bprog K R
| BFail {R : Type} : bprog K R
| BDo {R : Type} (o : bop K unit) (next : outcome (bres K unit) -> bprog K R) : bprog K R
| BEach {R St : Type} (s : sref) (o : list nat) (cb : St -> K -> bprog K (bool * St)) (st : St) (next : outcome St -> bprog K R) : bprog K R.
Arguments BRet {K R}. Arguments BFail {K R}. Arguments BDo {K R}. Arguments BEach {K R St}.

Fixpoint bmap {K A B} (f : A -> B) (p : bprog K A) : bprog K B :=
  match p in bprog _ R return (R -> B) -> bprog K B with
  | BRet r => fun f => BRet (f r)
  | BFail => fun _ => BFail
  | BDo o next => fun f => BDo o (fun r => bmap f (next r))
  | BEach s o cb st next => fun f => BEach s o cb st (fun r => bmap f (next r))
  end f.

(** A program can only hold references to sets that have been made: others
    count as nil. *)
Definition clip_ref (n : nat) (s : sref) : sref := if ref_ok n s then s else None.
Definition clip {K St} (n : nat) (o : bop K St) : bop K St :=
  let c := clip_ref n in
  match o with
  | BSetOf ks => BSetOf ks | BInsert s k => BInsert (c s) k | BInsertN s ks => BInsertN (c s) ks
  | BRemove s k => BRemove (c s) k | BRemoveN s ks => BRemoveN (c s) ks | BDelete s k => BDelete (c s) k | BClear s o => BClear (c s) o
  | BUpdate s t o => BUpdate (c s) (c t) o
  | BHas s k => BHas (c s) k | BLen s => BLen (c s) | BIsEmpty s => BIsEmpty (c s) | BKeys s o => BKeys (c s) o
  | BForEach s o cb st => BForEach (c s) o cb st | BForEachIf s o cb st => BForEachIf (c s) o cb st
  | BUnion s t o o' => BUnion (c s) (c t) o o' | BIntersection s t o => BIntersection (c s) (c t) o | BDifference s t o => BDifference (c s) (c t) o
  | BDisjoint s t o => BDisjoint (c s) (c t) o | BSubset s t o => BSubset (c s) (c t) o | BSuperset s t o => BSuperset (c s) (c t) o
  end.

Section Spec.
Context {K : Type}.
Variable eqb : K -> K -> bool.
Notation world := (@world K).

(** The keys of q that were in s in each of the worlds. *)
Definition still (s : sref) (q : K -> bool) (tr : list world) : K -> bool := fun x => q x && forallb (fun w => sem w s x) tr.
Definition without (q : K -> bool) (k : K) : K -> bool := fun x => q x && negb (eqb x k).
Definition with_ (q : K -> bool) (k : K) : K -> bool := fun x => q x || eqb x k.

(** A loop over s.  [B] says what the callback may do: the worlds in between
    are listed.  [must] are the keys in the set from the start till now that
    have not been visited: the loop does not end before there are none.
    [done] are the keys visited that have been in the set ever since: they are
    not visited again.  Others may be visited or not. *)
Inductive each {St} (s : sref) (B : St -> K -> world -> outcome (bool * St) -> list world -> world -> Prop) :
  world -> (K -> bool) -> (K -> bool) -> St -> list K -> outcome St -> list world -> world -> Prop :=
| e_end w must done st : same must none -> each s B w must done st [] (Ok st) [] w
| e_panic w must done st k tr w1 : sem w s k = true -> done k = false -> B st k w Panic tr w1 -> each s B w must done st [k] Panic tr w1
| e_stop w must done st k st1 tr w1 : sem w s k = true -> done k = false -> B st k w (Ok (false, st1)) tr w1 -> each s B w must done st [k] (Ok st1) tr w1
| e_next w must done st k st1 tr w1 ks r tr2 w2 : sem w s k = true -> done k = false -> B st k w (Ok (true, st1)) tr w1 ->
    each s B w1 (still s (without must k) tr) (still s (with_ done k) tr) st1 ks r tr2 w2 ->
    each s B w must done st (k :: ks) r (tr ++ tr2) w2.

Fixpoint body {R} (p : bprog K R) : world -> outcome R -> list world -> world -> Prop :=
  match p in bprog _ R return world -> outcome R -> list world -> world -> Prop with
  | BRet v => fun w r tr w' => r = Ok v /\ tr = [] /\ w' = w
  | BFail => fun w r tr w' => r = Panic /\ tr = [] /\ w' = w
  | BDo o next => fun w r tr w' => exists res w1 tr1, bset_spec eqb w (clip (length w) o) res w1 /\ body (next res) w1 r tr1 w' /\ tr = w1 :: tr1
  | BEach s o cb st next => fun w r tr w' => exists ks r1 tr1 w1 tr2,
      each s (fun st k => body (cb st k)) w (sem w s) none st ks r1 tr1 w1 /\ body (next r1) w1 r tr2 w' /\ tr = tr1 ++ tr2
  end.
End Spec.

(** Every call a program can make satisfies P. *)
Fixpoint uses {K R} (P : bop K unit -> Prop) (p : bprog K R) : Prop :=
  match p with
  | BRet _ | BFail => True
  | BDo o next => P o /\ forall r, uses P (next r)
  | BEach _ _ cb _ next => (forall st k, uses P (cb st k)) /\ forall r, uses P (next r)
  end.
Definition takes_from {K St} (s : sref) (o : bop K St) : Prop :=
  match o with BRemove t _ | BRemoveN t _ | BDelete t _ | BClear t _ => t = s | _ => False end.
