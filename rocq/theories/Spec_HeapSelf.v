(** What can be said of a heap function while its less function reads and writes
    memory.  Definitions only.  A state is ((m, c), x): the memory, the variable
    *heap and the variables of the client; h is the slice the function works on. *)
From Verif Require Import Base BaseLemmas Spec.

Section Self.
Context {T X : Type}.
Notation state := (cell T * X)%type.
(** The state with the elements i and j of h exchanged. *)
Definition with_exchanged (h : slice) (i j : Z) (s : state) : state :=
  let '((m, c), x) := s in ((write_at m h 0 (zswap (contents m h) i j), c), x).
(** A claim I n about the state after n calls of less.  It tells that h is still
    a slice of the memory; every call of less with two elements of h keeps it, and
    returns, or panics (only if [mayfail]); and exchanging two elements of h keeps
    it. *)
Definition kept (I : Z -> state -> Prop) (mayfail : Prop) (h : slice) (less : T -> T -> M state bool) : Prop :=
  (forall n m c x, I n ((m, c), x) -> wf_slice m h) /\
  (forall n m c x a b, I n ((m, c), x) -> In a (contents m h) -> In b (contents m h) ->
     exists o s', less a b ((m, c), x) = (o, s') /\ I (n + 1) s' /\ match o with Ok _ => True | Panic => mayfail | NoFuel => False end) /\
  (forall n s i j, 0 <= i < s_len h -> 0 <= j < s_len h -> I n s -> I n (with_exchanged h i j s)).

(** r is the result of a computation that starts in a state after n calls of less
    where I holds: at most k calls later I holds again; it panics only if [mayfail]. *)
Definition after (I : Z -> state -> Prop) (mayfail : Prop) {A} (n k : Z) (r : outcome A * state) : Prop :=
  exists n' o s', r = (o, s') /\ I n' s' /\ n <= n' <= n + k /\ match o with Ok _ => True | Panic => mayfail | NoFuel => False end.
(** h without its last element. *)
Definition shorter (h : slice) : slice := mkSlice (s_arr h) (s_off h) (s_len h - 1) (s_cap h).
(** Likewise for a computation that takes an element out of the heap h: it
    returns the element that is last in h in the end, and *heap is then h without
    it, whatever less did to *heap. *)
Definition took (I : Z -> state -> Prop) (mayfail : Prop) (h : slice) (n k : Z) (r : outcome T * state) : Prop :=
  exists n' m c x, I n' ((m, c), x) /\ n <= n' <= n + k /\
    ((exists v, r = (Ok v, ((m, shorter h), x)) /\ zget (contents m h) (s_len h - 1) = Some v) \/ (mayfail /\ r = (Panic, ((m, c), x)))).

(** less returns, after any reordering of the elements of h, and writes nothing
    else; it may change *heap. *)
Definition shuffles (h : slice) (less : T -> T -> M state bool) : Prop :=
  forall m c x a b, wf_slice m h -> exists r m' c' x', less a b ((m, c), x) = (Ok r, ((m', c'), x')) /\ wf_slice m' h /\
    Permutation (contents m' h) (contents m h) /\ same_except m m' (s_arr h) (s_off h) (s_off h + s_len h).
(** less answers f a b, and leaves the elements of h alone; it may change all
    other memory and *heap. *)
Definition minds (f : T -> T -> bool) (h : slice) (less : T -> T -> M state bool) : Prop :=
  forall m c x a b, wf_slice m h -> exists m' c' x', less a b ((m, c), x) = (Ok (f a b), ((m', c'), x')) /\ wf_slice m' h /\ contents m' h = contents m h.
End Self.
(** Every call of less adds one to the client's variable. *)
Definition counting {T} (less : T -> T -> M (cell T * Z) bool) : Prop :=
  forall a b m c x, snd (snd (less a b ((m, c), x))) = x + 1.
