(** Model of BuiltinSet.ForEach and ForEachIf (builtin_set.go:88-101) with
    callbacks that use sets. *)
From Verif Require Import Base Spec Trace Spec_BSet Spec_BSetFx Model_BuiltinSet.

Section Fx.
Context {K : Type}.
Variables (eqb : K -> K -> bool) (pick : K -> K -> K).
Notation heap := (list (gomap K)).

(** Recovering from a panic. *)
Definition try_ {A B} (p : M heap A) (f : outcome A -> M heap B) : M heap B := fun h => let '(r, h1) := p h in f r h1.

(** builtin_set.go:95-101 ForEachIf. *)
Definition ForEachIf_fx {St} (s : sref) (o : list nat) (cb : St -> K -> M heap (bool * St)) (st : St) : M heap St :=
  range s o (fun st k => r <- cb st k ;; if negb (fst r) then ret (false, snd r) else ret (true, snd r)) st.
(** builtin_set.go:88-92 ForEach. *)
Definition ForEach_fx {St} (s : sref) (o : list nat) (cb : St -> K -> M heap St) (st : St) : M heap St :=
  range s o (fun st k => st' <- cb st k ;; ret (true, st')) st.

Fixpoint exec {R} (p : bprog K R) : M heap R :=
  match p in bprog _ R return M heap R with
  | BRet r => ret r
  | BFail => fun h => (Panic, h)
  | BDo o next => try_ (fun h => bset_step eqb pick (clip (length h) o) h) (fun r => exec (next r))
  | BEach s o cb st next => try_ (ForEachIf_fx s o (fun st k => exec (cb st k)) st) (fun r => exec (next r))
  end.
Definition b_ForEach_fx {St} (s : sref) (o : list nat) (cb : St -> K -> bprog K St) (st : St) : M heap St := ForEach_fx s o (fun st k => exec (cb st k)) st.
Definition b_ForEachIf_fx {St} (s : sref) (o : list nat) (cb : St -> K -> bprog K (bool * St)) (st : St) : M heap St := ForEachIf_fx s o (fun st k => exec (cb st k)) st.
End Fx.
