(** Go semantics used by the model: outcomes, a state monad that keeps the
    state at a panic, Z-indexed arrays, slices over a memory of backing
    arrays, machine integers.  Definitions only; lemmas are in BaseLemmas.v.
    These model the Go language, not a file of /repo. *)
From Coq Require Export ZArith List Bool Lia Permutation.
Export ListNotations.
Open Scope Z_scope.

(** Result of running Go code: a value, a run-time panic (index or slice
    bounds, nil dereference, division by zero, explicit panic(...)), or the
    model's own "loop fuel exhausted" marker, which theorems exclude. *)
Inductive outcome (A : Type) : Type :=
| Ok (a : A)
| Panic
| NoFuel.
Arguments Ok {A} a.
Arguments Panic {A}.
Arguments NoFuel {A}.

Definition omap {A B} (f : A -> B) (o : outcome A) : outcome B :=
  match o with Ok a => Ok (f a) | Panic => Panic | NoFuel => NoFuel end.

Definition obind {A B} (o : outcome A) (f : A -> outcome B) : outcome B :=
  match o with Ok a => f a | Panic => Panic | NoFuel => NoFuel end.

(** Stateful computations.  The state is returned even when the computation
    panics: Go code can recover() and look at it. *)
Definition M (S A : Type) : Type := S -> outcome A * S.

Definition ret {S A} (a : A) : M S A := fun s => (Ok a, s).
Definition panic {S A} : M S A := fun s => (Panic, s).
Definition nofuel {S A} : M S A := fun s => (NoFuel, s).
Definition bind {S A B} (m : M S A) (k : A -> M S B) : M S B :=
  fun s => match m s with
           | (Ok a, s') => k a s'
           | (Panic, s') => (Panic, s')
           | (NoFuel, s') => (NoFuel, s')
           end.
Definition get_state {S} : M S S := fun s => (Ok s, s).
Definition put_state {S} (s' : S) : M S unit := fun _ => (Ok tt, s').

(** A pure computation that may panic, used inside a stateful one. *)
Definition lift_o {S A} (o : outcome A) : M S A := fun s => (o, s).

Declare Scope go_scope.
Notation "x <- m ;; k" := (bind m (fun x => k))
  (at level 61, m at next level, right associativity) : go_scope.
Notation "m ;; k" := (bind m (fun _ => k))
  (at level 61, right associativity) : go_scope.
Open Scope go_scope.

(** ** Arrays indexed by Go ints *)

Definition zlen {T} (l : list T) : Z := Z.of_nat (length l).

Fixpoint upd {T} (n : nat) (v : T) (l : list T) : list T :=
  match l, n with
  | [], _ => []
  | _ :: r, O => v :: r
  | x :: r, S n' => x :: upd n' v r
  end.

(** l[i] with Go's bounds check: None is an index-out-of-range panic. *)
Definition zget {T} (l : list T) (i : Z) : option T :=
  if i <? 0 then None else nth_error l (Z.to_nat i).

(** l[i] = v; unchanged when out of range (callers check first). *)
Definition zupd {T} (l : list T) (i : Z) (v : T) : list T :=
  if i <? 0 then l else upd (Z.to_nat i) v l.

(** The part l[lo:hi]. *)
Definition zsub {T} (l : list T) (lo hi : Z) : list T :=
  firstn (Z.to_nat (hi - lo)) (skipn (Z.to_nat lo) l).

(** Overwrite l from position pos with xs. *)
Definition zwrite {T} (l : list T) (pos : Z) (xs : list T) : list T :=
  firstn (Z.to_nat pos) l ++ xs ++ skipn (Z.to_nat pos + length xs) l.

(** ** Reads of a read-only slice: a slice that is only read is modelled by
    the list of its elements, and a[i] is [at_ a i]. *)
Definition at_ {T} (a : list T) (i : Z) : outcome T :=
  match zget a i with Some v => Ok v | None => Panic end.

(** ** Window programs: code that works in place on one slice [a].
    The state is the list a[0], ..., a[len(a)-1].  Every access a slice makes
    is bounds-checked by Go against len(a), so such code cannot touch anything
    else. *)
Definition W (T A : Type) : Type := M (list T) A.

Definition wlen {T} : W T Z := fun a => (Ok (zlen a), a).

Definition wload {T} (i : Z) : W T T :=
  fun a => match zget a i with Some v => (Ok v, a) | None => (Panic, a) end.

Definition wstore {T} (i : Z) (v : T) : W T unit :=
  fun a => match zget a i with Some _ => (Ok tt, zupd a i v) | None => (Panic, a) end.

(** a[i], a[j] = a[j], a[i]: both right-hand sides are read (and both index
    checks done) before the two stores. *)
Definition wswap {T} (i j : Z) : W T unit :=
  vj <- wload j ;; vi <- wload i ;; wstore i vj ;; wstore j vi.

(** copy(a[dlo:], a[slo:shi]): memmove semantics, min of the two lengths. *)
Definition wcopy {T} (dlo slo shi : Z) : W T unit :=
  fun a =>
    if (0 <=? dlo) && (dlo <=? zlen a) && (0 <=? slo) && (slo <=? shi) && (shi <=? zlen a)
    then let n := Z.min (zlen a - dlo) (shi - slo) in
         (Ok tt, zwrite a dlo (zsub a slo (slo + n)))
    else (Panic, a).

(** ** Memory of backing arrays and slices *)

Definition mem (T : Type) : Type := list (list T).

Record slice : Type := mkSlice {
  s_arr : nat;   (* which backing array *)
  s_off : Z;     (* index of element 0 in it *)
  s_len : Z;
  s_cap : Z
}.

Definition arr_of {T} (m : mem T) (s : slice) : list T := nth (s_arr s) m [].

(** The elements of a slice. *)
Definition contents {T} (m : mem T) (s : slice) : list T :=
  zsub (arr_of m s) (s_off s) (s_off s + s_len s).

(** The elements up to the capacity (what re-slicing could expose). *)
Definition cap_contents {T} (m : mem T) (s : slice) : list T :=
  zsub (arr_of m s) (s_off s) (s_off s + s_cap s).

Definition write_at {T} (m : mem T) (s : slice) (pos : Z) (xs : list T) : mem T :=
  upd (s_arr s) (zwrite (arr_of m s) (s_off s + pos) xs) m.

(** Every slice value a Go program can hold satisfies this. *)
Definition wf_slice {T} (m : mem T) (s : slice) : Prop :=
  (s_arr s < length m)%nat /\ 0 <= s_off s /\ 0 <= s_len s <= s_cap s /\
  s_off s + s_cap s <= zlen (arr_of m s).

(** Run a window program on slice [s] of the memory. *)
Definition on_slice {T A} (s : slice) (p : W T A) : M (mem T) A :=
  fun m => let '(o, w) := p (contents m s) in (o, write_at m s 0 w).

(** s[lo:hi]: checked against the capacity. *)
Definition reslice (s : slice) (lo hi : Z) : outcome slice :=
  if (0 <=? lo) && (lo <=? hi) && (hi <=? s_cap s)
  then Ok (mkSlice (s_arr s) (s_off s + lo) (hi - lo) (s_cap s - lo))
  else Panic.

(** s[lo:], i.e. s[lo:len(s)]. *)
Definition reslice_from (s : slice) (lo : Z) : outcome slice := reslice s lo (s_len s).
(** s[:hi], i.e. s[0:hi]. *)
Definition reslice_to (s : slice) (hi : Z) : outcome slice := reslice s 0 hi.

(** Allocate a new backing array holding [l]. *)
Definition alloc {T} (l : list T) (n : Z) : M (mem T) slice :=
  fun m => (Ok (mkSlice (length m) 0 n (zlen l)), m ++ [l]).

(** make([]T, n, c): panics on a bad length or capacity.  Running out of
    memory is not modelled. *)
Definition make_slice {T} (zero : T) (n c : Z) : M (mem T) slice :=
  if (0 <=? n) && (n <=? c) then alloc (repeat zero (Z.to_nat c)) n else panic.

(** Slice literal []T{xs...}: exactly as long as its capacity. *)
Definition lit_slice {T} (xs : list T) : M (mem T) slice := alloc xs (zlen xs).

(** copy(dst, src): memmove semantics. *)
Definition copy_slice {T} (dst src : slice) : M (mem T) unit :=
  fun m => let n := Z.min (s_len dst) (s_len src) in
           (Ok tt, write_at m dst 0 (zsub (contents m src) 0 n)).

(** append(s, xs...).  [grow] is the runtime's growth policy, an oracle: any
    capacity not smaller than needed. *)
Definition append_list {T} (zero : T) (grow : Z -> Z -> Z) (s : slice) (xs : list T)
  : M (mem T) slice :=
  fun m =>
    let need := s_len s + zlen xs in
    if need <=? s_cap s
    then (Ok (mkSlice (s_arr s) (s_off s) need (s_cap s)), write_at m s (s_len s) xs)
    else let c := Z.max need (grow (s_cap s) need) in
         alloc (contents m s ++ xs ++ repeat zero (Z.to_nat (c - need))) need m.

(** append(s, t...) where t is a slice: t's elements are read first. *)
Definition append_slice {T} (zero : T) (grow : Z -> Z -> Z) (s t : slice)
  : M (mem T) slice :=
  fun m => append_list zero grow s (contents m t) m.

(** ** A variable holding a slice (a *[]T receiver): memory plus the header *)

Definition cell (T : Type) : Type := (mem T * slice)%type.

Definition lift_mem {T A} (p : M (mem T) A) : M (cell T) A :=
  fun c => let '(o, m') := p (fst c) in (o, (m', snd c)).
Definition get_hdr {T} : M (cell T) slice := fun c => (Ok (snd c), c).
Definition set_hdr {T} (s : slice) : M (cell T) unit := fun c => (Ok tt, (fst c, s)).
Definition c_contents {T} (c : cell T) : list T := contents (fst c) (snd c).

(** ** Machine integers *)

(** Two's complement wrap to 64 bits (Go int on 64-bit platforms). *)
Definition wrap64 (z : Z) : Z := (z + 2^63) mod 2^64 - 2^63.
Definition max_int : Z := 2^63 - 1.

(** ** Element access through a slice *)

(** s[i] and s[i] = v on the memory. *)
Definition sload {T} (s : slice) (i : Z) : M (mem T) T := on_slice s (wload i).
Definition sstore {T} (s : slice) (i : Z) (v : T) : M (mem T) unit := on_slice s (wstore i v).

(** The nil slice: length and capacity 0. *)
Definition nil_slice : slice := mkSlice 0 0 0 0.
