(** Accounts of what goes into and comes out of a Pool whose sync.Pool is used
    too; defined on what can be seen of a run. *)
From Verif Require Import Base Model_PoolRaw.

Definition tally (f : revent -> bool) (tr : list revent) : nat := length (filter f tr).
Definition is_obj (x : nat) (i : iface) : bool := match i with IPtr (Some y) => Nat.eqb x y | _ => false end.
Definition foreign (i : iface) : bool := match i with IOther => true | _ => false end.

(** The object x: handed out by Get, dropped; put in, put in as sync.Pool, made by New. *)
Definition rgets (x : nat) (e : revent) : bool := match e with RGet _ r => is_obj x (IPtr r) | _ => false end.
Definition rdrops (x : nat) (e : revent) : bool := match e with RDrop i => is_obj x i | _ => false end.
Definition rputs (x : nat) (e : revent) : bool := match e with RPut _ r => is_obj x (IPtr r) | RRaw _ i => is_obj x i | _ => false end.
Definition rnews (x : nat) (e : revent) : bool := match e with RNew i => is_obj x i | _ => false end.
(** Values that are no *T: panics of the type assertion, dropped; put in, made. *)
Definition fpanics (e : revent) : bool := match e with RPanic _ => true | _ => false end.
Definition fdrops (e : revent) : bool := match e with RDrop i => foreign i | _ => false end.
Definition fputs (e : revent) : bool := match e with RRaw _ i => foreign i | _ => false end.
Definition fnews (e : revent) : bool := match e with RNew i => foreign i | _ => false end.

(** The values in the pool, or taken out or made by calls of Get under way. *)
Definition in_flight (s : pool) : list iface := items s ++ flat_map (fun c => match snd c with Found i => [i] | Missed => [] end) (calls s).

(** Who holds what: pairs (goroutine, object). *)
Fixpoint lose (p : nat * nat) (l : list (nat * nat)) : list (nat * nat) :=
  match l with [] => [] | q :: r => if (fst p =? fst q)%nat && (snd p =? snd q)%nat then r else q :: lose p r end.
Definition rhold (own : list (nat * nat)) (e : revent) : list (nat * nat) :=
  match e with
  | RGet g (Some x) | RMake g x => (g, x) :: own
  | RPut g (Some x) | RRaw g (IPtr (Some x)) => lose (g, x) own
  | RPass g g' x => (g', x) :: lose (g, x) own
  | _ => own
  end.
Definition rholders (tr : list revent) : list (nat * nat) := fold_left rhold tr [].
(** e brings the object x into the world. *)
Definition births (x : nat) (e : revent) : bool := match e with RNew i => is_obj x i | RMake _ y => Nat.eqb x y | _ => false end.
(** The rules: only a holder puts or passes an object on, and no object is made
    twice. *)
Definition rrules (tr : list revent) : Prop := forall a e b, tr = a ++ e :: b ->
  match e with
  | RPut g (Some x) | RRaw g (IPtr (Some x)) | RPass g _ x => In (g, x) (rholders a)
  | RNew (IPtr (Some x)) | RMake _ x => tally (births x) a = 0%nat
  | _ => True
  end.
