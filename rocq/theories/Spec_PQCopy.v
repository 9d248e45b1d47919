(** Specification for C101: PriorityQueue values that are copied (c := *q). *)
From Verif Require Import Base Trace Spec_Containers Model_PriorityQueue.

(** A program with any number of PriorityQueue variables, numbered in the order
    they come into being; numbers not in use stand for zero values.  CCopy i
    makes a copy of variable i; CCall i o calls a method of variable i. *)
Inductive cop (T : Type) : Type :=
| CNew (less : T -> T -> bool)
| CNewFunc (less : T -> T -> bool)
| CZero
| CCopy (i : nat)
| CCall (i : nat) (o : pq_op T).
Arguments CNew {T}. Arguments CNewFunc {T}. Arguments CZero {T}. Arguments CCopy {T}. Arguments CCall {T}.

(** What a variable is.  HQueue less bag first: a queue made by a constructor;
    [first] is the element Top returned last, or would have returned.
    HCopy q n seen: a copy that saw n elements of queue q; [seen] is the element
    it goes on seeing once q has moved to other storage. *)
Inductive handle (T : Type) : Type :=
| HQueue (less : T -> T -> bool) (bag : list T) (first : option T)
| HCopy (q : nat) (n : Z) (seen : option T)
| HZero.
Arguments HQueue {T}. Arguments HCopy {T}. Arguments HZero {T}.

(** A call of queue [bag]: a priority queue; moreover Top and Pop return
    [first], which only Push and Pop change, and emptying does not. *)
Definition queue_call {T} (less : T -> T -> bool) (bag : list T) (first : option T) (o : pq_op T) (r : outcome (obs T)) (bag' : list T) (first' : option T) : Prop :=
  pq_spec less bag o r bag' /\
  match o with
  | PTop | PPop => bag <> [] -> exists x, first = Some x /\ r = Ok (OVal x)
  | _ => True
  end /\
  match o with PPush _ | PPop => True | _ => first' = first end /\
  (bag' = [] -> first' = first) /\
  (bag' <> [] -> exists x, first' = Some x /\ is_min less x bag').

Definition copied {T} (i : nat) (h : handle T) : handle T :=
  match h with HQueue _ bag _ => HCopy i (zlen bag) None | _ => h end.
(** Queue q leaves the storage its copies look at. *)
Definition leave {T} (q : nat) (x : option T) (h : handle T) : handle T :=
  match h with HCopy q' n None => if Nat.eqb q' q then HCopy q' n x else h | _ => h end.
(** The queue a call of variable i acts on: Push and Pop of a copy act on the
    queue it was copied from. *)
Definition acts_on {T} (w : list (handle T)) (i : nat) (o : pq_op T) : option nat :=
  match nth i w HZero, o with
  | HQueue _ _ _, _ => Some i
  | HCopy q _ _, (PPush _ | PPop) => Some q
  | _, _ => None
  end.
Definition first_of {T} (h : handle T) : option T := match h with HQueue _ _ x => x | _ => None end.

Inductive copy_spec {T} (w : list (handle T)) : cop T -> outcome (obs T) -> list (handle T) -> Prop :=
| cs_new less : copy_spec w (CNew less) (Ok ONone) (w ++ [HQueue less [] None])
| cs_newfunc less : copy_spec w (CNewFunc less) (Ok ONone) (w ++ [HQueue less [] None])
| cs_zero : copy_spec w CZero (Ok ONone) (w ++ [HZero])
| cs_copy i : copy_spec w (CCopy i) (Ok ONone) (w ++ [copied i (nth i w HZero)])
| cs_queue i o q less bag first r bag' first' : acts_on w i o = Some q -> nth q w HZero = HQueue less bag first ->
    queue_call less bag first o r bag' first' ->
    copy_spec w (CCall i o) r (upd q (HQueue less bag' first') w)
(* a Push may also move the queue *)
| cs_moves i v q less bag first r bag' first' : acts_on w i (PPush v) = Some q -> nth q w HZero = HQueue less bag first ->
    queue_call less bag first (PPush v) r bag' first' ->
    copy_spec w (CCall i (PPush v)) r (upd q (HQueue less bag' first') (map (leave q first) w))
| cs_len i q n s : nth i w HZero = HCopy q n s -> copy_spec w (CCall i PLen) (Ok (OInt n)) w
| cs_isempty i q n s : nth i w HZero = HCopy q n s -> copy_spec w (CCall i PIsEmpty) (Ok (OBool (n =? 0))) w
| cs_clear i q n s : nth i w HZero = HCopy q n s -> copy_spec w (CCall i PClear) (Ok ONone) (upd i (HCopy q 0 s) w)
| cs_top0 i q s : nth i w HZero = HCopy q 0 s -> copy_spec w (CCall i PTop) Panic w
| cs_top i q n s x : nth i w HZero = HCopy q n s -> 0 < n ->
    match s with Some y => x = y | None => first_of (nth q w HZero) = Some x end -> copy_spec w (CCall i PTop) (Ok (OVal x)) w
| cs_z i o r : nth i w HZero = HZero ->
    r = match o with PPush _ | PPop | PTop => Panic | PLen => Ok (OInt 0) | PIsEmpty => Ok (OBool true) | PClear => Ok ONone end ->
    copy_spec w (CCall i o) r w.

(** The calls that act on queue q, with their results.  [origin] says for every
    variable of which queue it is (a copy). *)
Definition next_origin {T} (origin : list (option nat)) (o : cop T) : list (option nat) :=
  match o with
  | CNew _ | CNewFunc _ => origin ++ [Some (length origin)]
  | CZero => origin ++ [None]
  | CCopy i => origin ++ [nth i origin None]
  | CCall _ _ => origin
  end.
Definition concerns {T} (origin : list (option nat)) (q : nat) (i : nat) (o : pq_op T) : bool :=
  match nth i origin None with
  | Some q' => Nat.eqb q' q && match o with PPush _ | PPop => true | _ => Nat.eqb i q end
  | None => false
  end.
Fixpoint calls_of {T} (q : nat) (origin : list (option nat)) (ops : list (cop T)) (rs : list (outcome (obs T))) : list (pq_op T * outcome (obs T)) :=
  match ops, rs with
  | o :: ops', r :: rs' =>
    match o with CCall i p => if concerns origin q i p then [(p, r)] else [] | _ => [] end ++ calls_of q (next_origin origin o) ops' rs'
  | _, _ => []
  end.
Definition vars_made {T} (ops : list (cop T)) : nat := length (filter (fun o => match o with CCall _ _ => false | _ => true end) ops).
Definition cpushes {T} (ops : list (cop T)) : Z := zlen (filter (fun o => match o with CCall _ (PPush _) => true | _ => false end) ops).
