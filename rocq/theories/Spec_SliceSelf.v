(** Slice functions whose callback may write memory: how calls and stores take
    turns.  Definitions only. *)
From Verif Require Import Base Spec_LookupFx.

(** What is at place j of array b. *)
Definition slot {T} (m : mem T) (b : nat) (j : Z) : option T := zget (nth b m []) j.
(** One store, of v at place j of array b; None: no store. *)
Definition stored {T} (p : option (nat * Z * T)) (m m' : mem T) : Prop :=
  match p with
  | None => m' = m
  | Some (b, j, v) => length m' = length m /\ slot m' b j = Some v /\ forall b' j', (b', j') <> (b, j) -> slot m' b' j' = slot m b' j'
  end.

(** One turn: the argument of the call, the world before it, its result, and the
    world when it returned. *)
Record turn (T St A R : Type) : Type := Turn { t_arg : A; t_before : world_of T St; t_result : R; t_after : world_of T St }.
Arguments Turn {T St A R}. Arguments t_arg {T St A R}. Arguments t_before {T St A R}. Arguments t_result {T St A R}. Arguments t_after {T St A R}.

Section Turns.
Context {T St A R : Type}.
Notation W := (world_of T St).
Variable f : A -> M W R.
(** The argument of call number i, taken from the memory when its turn comes. *)
Variable arg : mem T -> Z -> option A.
(** What is stored after a call, by the arguments and results of the calls before,
    its argument and its result. *)
Variable put : list (A * R) -> A -> R -> option (nat * Z * T).
(** Calls and stores take turns, and nothing else happens. *)
Inductive turns : list (A * R) -> W -> list (turn T St A R) -> W -> Prop :=
| turns_none past w : turns past w [] w
| turns_next past w x r w1 m2 ts w3 :
    arg (fst w) (zlen past) = Some x -> f x w = (Ok r, w1) -> stored (put past x r) (fst w1) m2 ->
    turns (past ++ [(x, r)]) (m2, snd w1) ts w3 -> turns past w (Turn x w r w1 :: ts) w3.
(** n turns and then a return with a value as [done] says; or fewer, and then a
    call that does not return. *)
Definition stops (n : Z) (w : W) (o : outcome R) (w' : W) : Prop :=
  exists ts w1 x, zlen ts < n /\ turns [] w ts w1 /\ arg (fst w1) (zlen ts) = Some x /\ f x w1 = (o, w').
Definition takes_turns {B} (n : Z) (w : W) (r : outcome B * W) (done : list (turn T St A R) -> B -> W -> Prop) : Prop :=
  match r with
  | (Ok v, w') => exists ts, zlen ts = n /\ turns [] w ts w' /\ done ts v w'
  | (Panic, w') => stops n w Panic w'
  | (NoFuel, w') => stops n w NoFuel w'
  end.
End Turns.

(** The arguments and results of turns. *)
Definition said {T St A R} (ts : list (turn T St A R)) : list (A * R) := map (fun t => (t_arg t, t_result t)) ts.
(** What a condition answered no to. *)
Definition nos {A} (past : list (A * bool)) : list A := map fst (filter (fun p => negb (snd p)) past).

(** The element of a in its turn. *)
Definition element {T} (a : slice) (m : mem T) (i : Z) : option T := zget (contents m a) i.
(** Result number i is stored at place i of a. *)
Definition put_result {T A} (a : slice) (past : list (A * T)) (x : A) (r : T) : option (nat * Z * T) := Some (s_arr a, s_off a + zlen past, r).
(** What is answered yes to is replaced. *)
Definition put_new {T} (a : slice) (new : T) (past : list (T * bool)) (x : T) (r : bool) : option (nat * Z * T) :=
  if r then Some (s_arr a, s_off a + zlen past, new) else None.
(** What is answered no to is stored behind the like, from place o of array b. *)
Definition put_kept {T} (b : nat) (o : Z) (past : list (T * bool)) (x : T) (r : bool) : option (nat * Z * T) :=
  if r then None else Some (b, o + zlen (nos past), x).

(** The call of this turn left places o, ..., o+n-1 of array b alone. *)
Definition left_alone {T St A R} (b : nat) (o n : Z) (t : turn T St A R) : Prop :=
  forall k, 0 <= k < n -> slot (fst (t_after t)) b (o + k) = slot (fst (t_before t)) b (o + k).
(** Every call left alone as many places as [len] of the turns before it says. *)
Definition all_left_alone {T St A R} (b : nat) (o : Z) (len : list (A * R) -> Z) (ts : list (turn T St A R)) : Prop :=
  forall l t r, ts = l ++ t :: r -> left_alone b o (len (said l)) t.
(** The callback does not know array number n: never writes it. *)
Definition unaware {T St A R} (f : A -> M (world_of T St) R) (n : nat) : Prop :=
  forall x w, (n < length (fst w))%nat -> nth n (fst (snd (f x w))) [] = nth n (fst w) [].
(** The callback leaves the elements of a alone. *)
Definition harmless {T St A R} (f : A -> M (world_of T St) R) (a : slice) : Prop :=
  forall x w, contents (fst (snd (f x w))) a = contents (fst w) a.
