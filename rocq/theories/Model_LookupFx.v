(** The functions of /repo/lookup.go, compute.go and binary_search.go that take
    a callback, for a callback that may panic, keep variables, and read and write
    any memory, the searched slice included.  `range a` evaluates a once and
    reads a[i] when its turn comes.  Model_Lookup.v and Model_BinarySearch.v have
    the same functions for callbacks that cannot do these things. *)
From Verif Require Import Base Spec_LookupFx Model_TransformFx.

Section LookupFx.
Context {T St : Type}.
Notation W := (world_of T St).

(** lookup.go:104-111 FindIf. *)
Fixpoint FindIfFx_loop (cond : T -> M W bool) (a : slice) (n : nat) (i : Z) : M W (Z * bool) :=
  match n with
  | O => ret (-1, false)
  | S n' =>
    v <- own (sload a i) ;;
    c <- cond v ;;
    if c : bool then ret (i, true) else FindIfFx_loop cond a n' (i + 1)
  end.
Definition FindIfFx (a : slice) (cond : T -> M W bool) : M W (Z * bool) :=
  FindIfFx_loop cond a (Z.to_nat (s_len a)) 0.

(** lookup.go:130-137 AllOf. *)
Fixpoint AllOfFx_loop (pred : T -> M W bool) (a : slice) (n : nat) (i : Z) : M W bool :=
  match n with
  | O => ret true
  | S n' =>
    v <- own (sload a i) ;;
    c <- pred v ;;
    if negb c then ret false else AllOfFx_loop pred a n' (i + 1)
  end.
Definition AllOfFx (a : slice) (pred : T -> M W bool) : M W bool :=
  AllOfFx_loop pred a (Z.to_nat (s_len a)) 0.

(** lookup.go:142-149 AnyOf. *)
Fixpoint AnyOfFx_loop (pred : T -> M W bool) (a : slice) (n : nat) (i : Z) : M W bool :=
  match n with
  | O => ret false
  | S n' =>
    v <- own (sload a i) ;;
    c <- pred v ;;
    if c : bool then ret true else AnyOfFx_loop pred a n' (i + 1)
  end.
Definition AnyOfFx (a : slice) (pred : T -> M W bool) : M W bool :=
  AnyOfFx_loop pred a (Z.to_nat (s_len a)) 0.

(** lookup.go:154-156 NoneOf. *)
Definition NoneOfFx (a : slice) (pred : T -> M W bool) : M W bool :=
  r <- AnyOfFx a pred ;; ret (negb r).

(** compute.go:72-80 CountIf. *)
Fixpoint CountIfFx_loop (pred : T -> M W bool) (a : slice) (n : nat) (i c : Z) : M W Z :=
  match n with
  | O => ret c
  | S n' =>
    v <- own (sload a i) ;;
    b <- pred v ;;
    CountIfFx_loop pred a n' (i + 1) (if b : bool then c + 1 else c)
  end.
Definition CountIfFx (a : slice) (pred : T -> M W bool) : M W Z :=
  CountIfFx_loop pred a (Z.to_nat (s_len a)) 0 0.

(** binary_search.go:32-48 LowerBoundFunc.  The fuel counts loop iterations. *)
Fixpoint LowerBoundFx_loop (less : T -> T -> M W bool) (a : slice) (value : T) (fuel : nat) (loc count : Z) : M W Z :=
  if count >? 0 then
    match fuel with
    | O => fun w => (NoFuel, w)
    | S fuel' =>
      let i := loc in
      let step := Z.quot count 2 in
      let i := i + step in
      ai <- own (sload a i) ;;
      c <- less ai value ;;
      if c : bool then
        let i := i + 1 in
        LowerBoundFx_loop less a value fuel' i (count - (step + 1))
      else LowerBoundFx_loop less a value fuel' loc step
    end
  else ret loc.
Definition LowerBoundFx (a : slice) (value : T) (less : T -> T -> M W bool) : M W Z :=
  LowerBoundFx_loop less a value (S (Z.to_nat (s_len a))) 0 (s_len a).

(** binary_search.go:78-94 UpperBoundFunc. *)
Fixpoint UpperBoundFx_loop (less : T -> T -> M W bool) (a : slice) (value : T) (fuel : nat) (loc count : Z) : M W Z :=
  if count >? 0 then
    match fuel with
    | O => fun w => (NoFuel, w)
    | S fuel' =>
      let i := loc in
      let step := Z.quot count 2 in
      let i := i + step in
      ai <- own (sload a i) ;;
      c <- less value ai ;;
      if negb c then
        let i := i + 1 in
        UpperBoundFx_loop less a value fuel' i (count - (step + 1))
      else UpperBoundFx_loop less a value fuel' loc step
    end
  else ret loc.
Definition UpperBoundFx (a : slice) (value : T) (less : T -> T -> M W bool) : M W Z :=
  UpperBoundFx_loop less a value (S (Z.to_nat (s_len a))) 0 (s_len a).

(** binary_search.go:115-121 BinarySearchFunc. *)
Definition BinarySearchFx (a : slice) (value : T) (less : T -> T -> M W bool) : M W (Z * bool) :=
  loc <- LowerBoundFx a value less ;;
  if loc <? s_len a then
    v <- own (sload a loc) ;;
    c <- less value v ;;
    if negb c then ret (loc, true) else ret (-1, false)
  else ret (-1, false).
End LookupFx.
