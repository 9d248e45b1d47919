(** Who holds what, for pool.go; defined on what can be seen of a run. *)
From Verif Require Import Base Model_Pool.

(** Remove one copy. *)
Fixpoint drop_one (p : nat * nat) (l : list (nat * nat)) : list (nat * nat) :=
  match l with [] => [] | q :: r => if (fst p =? fst q)%nat && (snd p =? snd q)%nat then r else q :: drop_one p r end.
(** The pairs (goroutine, object) such that the goroutine holds the object. *)
Definition hold (own : list (nat * nat)) (e : event) : list (nat * nat) :=
  match e with
  | EGet g (Some x) => (g, x) :: own
  | EPut g (Some x) => drop_one (g, x) own
  | EPass g g' x => (g', x) :: drop_one (g, x) own
  | _ => own
  end.
Definition holders (tr : list event) : list (nat * nat) := fold_left hold tr [].
(** The rules the caller has to keep: only a holder puts or passes an object on,
    and the New function does not return an object twice. *)
Definition by_the_rules (tr : list event) : Prop := forall a e b, tr = a ++ e :: b ->
  match e with
  | EPut g (Some x) => In (g, x) (holders a)
  | EPass g _ x => In (g, x) (holders a)
  | ENew (Some x) => ~ In (ENew (Some x)) a
  | _ => True
  end.
Definition gets (x : nat) (e : event) : bool := match e with EGet _ (Some y) => Nat.eqb x y | _ => false end.
Definition puts (x : nat) (e : event) : bool := match e with EPut _ (Some y) => Nat.eqb x y | _ => false end.
Definition news (x : nat) (e : event) : bool := match e with ENew (Some y) => Nat.eqb x y | _ => false end.
Definition count (f : event -> bool) (tr : list event) : nat := length (filter f tr).
