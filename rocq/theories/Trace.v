(** Sequences of calls: running a model and matching it against a
    specification automaton.  Specification vocabulary plus the two simulation
    lemmas. *)
From Verif Require Import Base.

(** What a caller can observe of one call on a container of T. *)
Inductive obs (T : Type) : Type :=
| ONone                      (* returned, no value *)
| OVal (v : T)
| OBool (b : bool)
| OInt (z : Z)
| OTry (v : T) (ok : bool)   (* (value, bool) results *)
| OSeq (l : list T).         (* a whole sequence of values *)
Arguments ONone {T}. Arguments OVal {T}. Arguments OBool {T}. Arguments OInt {T}.
Arguments OTry {T}. Arguments OSeq {T}.

(** Turn the result of a call into an observation. *)
Definition observe {T S A} (f : A -> obs T) (p : M S A) (s : S) : outcome (obs T) * S :=
  let '(o, s') := p s in (omap f o, s').

(** Run a sequence of calls; a panicking call leaves the state it produced
    (the caller recovers) and the sequence continues. *)
Fixpoint run {S Op R : Type} (step : Op -> S -> R * S) (ops : list Op) (s : S) : list R * S :=
  match ops with
  | [] => ([], s)
  | o :: rest => let '(r, s1) := step o s in
                 let '(rs, s2) := run step rest s1 in (r :: rs, s2)
  end.

(** A nondeterministic specification automaton accepts the calls [ops] with
    observations [rs]. *)
Inductive accepts {A Op R : Type} (spec : A -> Op -> R -> A -> Prop)
  : A -> list Op -> list R -> A -> Prop :=
| acc_nil a : accepts spec a [] [] a
| acc_cons a o r a1 ops rs a2 :
    spec a o r a1 -> accepts spec a1 ops rs a2 -> accepts spec a (o :: ops) (r :: rs) a2.

Lemma run_accepts {S A Op R} (step : Op -> S -> R * S) (spec : A -> Op -> R -> A -> Prop)
  (Rel : A -> S -> Prop) :
  (forall a s o, Rel a s -> exists a', spec a o (fst (step o s)) a' /\ Rel a' (snd (step o s))) ->
  forall ops a s, Rel a s -> exists a', accepts spec a ops (fst (run step ops s)) a' /\ Rel a' (snd (run step ops s)).
Proof.
  intros H ops. induction ops as [|o ops IH]; intros a s HR.
  - exists a. split; [constructor|auto].
  - destruct (H a s o HR) as (a1 & Hs & HR1).
    destruct (IH a1 _ HR1) as (a2 & Ha & HR2).
    exists a2. simpl. destruct (step o s) as [r s1]. simpl in *. destruct (run step ops s1) as [rs s2].
    simpl in *. split; auto. econstructor; eauto.
Qed.

(** Deterministic specification: same results, states stay related. *)
Lemma run_sim {S A Op R} (step : Op -> S -> R * S) (spec : Op -> A -> R * A) (Rel : A -> S -> Prop) :
  (forall a s o, Rel a s -> fst (step o s) = fst (spec o a) /\ Rel (snd (spec o a)) (snd (step o s))) ->
  forall ops a s, Rel a s ->
  fst (run step ops s) = fst (run spec ops a) /\ Rel (snd (run spec ops a)) (snd (run step ops s)).
Proof.
  intros H ops. induction ops as [|o ops IH]; intros a s HR; [simpl; auto|].
  destruct (H a s o HR) as [E HR1]. destruct (IH _ _ HR1) as [E2 HR2].
  simpl. destruct (step o s) as [r s1]. destruct (spec o a) as [r' a1]. simpl in *.
  destruct (run step ops s1) as [rs s2]. destruct (run spec ops a1) as [rs' a2]. simpl in *.
  subst. auto.
Qed.

Lemma run_app {S Op R} (step : Op -> S -> R * S) ops1 : forall ops2 s,
  run step (ops1 ++ ops2) s =
  (fst (run step ops1 s) ++ fst (run step ops2 (snd (run step ops1 s))),
   snd (run step ops2 (snd (run step ops1 s)))).
Proof.
  induction ops1 as [|o ops1 IH]; intros; simpl.
  - destruct (run step ops2 s); auto.
  - destruct (step o s) as [r s1]. rewrite IH. destruct (run step ops1 s1) as [rs s2]. simpl.
    destruct (run step ops2 s2); auto.
Qed.

Lemma accepts_nil_inv {A Op R} (spec : A -> Op -> R -> A -> Prop) a rs a2 :
  accepts spec a [] rs a2 -> rs = [] /\ a2 = a.
Proof. intros H. inversion H; auto. Qed.
Lemma accepts_cons_inv {A Op R} (spec : A -> Op -> R -> A -> Prop) a o ops rs a2 :
  accepts spec a (o :: ops) rs a2 ->
  exists r a1 rs', rs = r :: rs' /\ spec a o r a1 /\ accepts spec a1 ops rs' a2.
Proof. intros H. inversion H; subst. eauto 8. Qed.
