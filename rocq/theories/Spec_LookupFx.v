(** Asking a callback about elements of a slice that the callback itself may
    change.  Definitions only. *)
From Verif Require Import Base.

Section Asks.
Context {T St : Type}.
(** The memory and the callback's own variables. *)
Definition world_of : Type := (mem T * St)%type.

(** What every piece of Go code does to arrays: none vanishes or changes size.
    Their elements may change, and new ones may appear. *)
Definition same_shape (m m' : mem T) : Prop :=
  forall a s, nth_error m a = Some s -> exists s', nth_error m' a = Some s' /\ length s' = length s.
Definition go_code {X R} (f : X -> M world_of R) : Prop :=
  forall x w, same_shape (fst w) (fst (snd (f x w))).

(** [asks f a w l w']: f is called on elements of a, one call after the other,
    and nothing else happens between w and w'.  Entry (i, b) of l is the call on
    the element that a[i] was when its turn came, answered b. *)
Inductive asks (f : T -> M world_of bool) (a : slice) : world_of -> list (Z * bool) -> world_of -> Prop :=
| asks_none w : asks f a w [] w
| asks_next w i x b w1 l w2 :
    zget (contents (fst w) a) i = Some x -> f x w = (Ok b, w1) -> asks f a w1 l w2 ->
    asks f a w ((i, b) :: l) w2.

(** A call about a[i] that does not return: it panics, or never ends. *)
Definition fails (f : T -> M world_of bool) (a : slice) (i : Z) (w : world_of) (o : outcome bool) (w' : world_of) : Prop :=
  exists x, zget (contents (fst w) a) i = Some x /\ f x w = (o, w').
End Asks.
Arguments world_of : clear implicits.

(** Indices 0, 1, ..., n-1, all with the answer b. *)
Definition all_answered (b : bool) (n : Z) : list (Z * bool) := map (fun k => (Z.of_nat k, b)) (seq 0 (Z.to_nat n)).
(** Indices 0, 1, ..., with these answers. *)
Definition numbered (bs : list bool) : list (Z * bool) := combine (map Z.of_nat (seq 0 (length bs))) bs.
Fixpoint count_true (bs : list bool) : Z :=
  match bs with [] => 0 | b :: r => (if b : bool then 1 else 0) + count_true r end.

(** The answers l of a search through n elements single out the place r, where
    [left] is the answer that sends the search to the right: every question was
    asked once, all [left] answers came from before r and all others from r on,
    and both neighbours of r were asked. *)
Definition singles_out (left : bool) (n r : Z) (l : list (Z * bool)) : Prop :=
  0 <= r <= n /\ NoDup (map fst l) /\
  (forall i b, In (i, b) l -> 0 <= i < n /\ b = if i <? r then left else negb left) /\
  (0 < r -> In (r - 1, left) l) /\ (r < n -> In (r, negb left) l).
(** At most floor(log2 n) + 1 questions, none about an empty slice. *)
Definition few (n : Z) (k : nat) : Prop := if n =? 0 then k = O else Z.of_nat k <= Z.log2 n + 1.
