(** Model of /repo/binary_search.go. *)
From Verif Require Import Base.

Section BinarySearch.
Context {T : Type}.

(** binary_search.go:8-24 LowerBound; [ltb] is the < of the Ordered type.
    Loop lines 11-22.  The fuel counts loop iterations. *)
Fixpoint LowerBound_loop (ltb : T -> T -> bool) (fuel : nat) (a : list T) (value : T)
  (loc count : Z) : outcome Z :=
  if count >? 0 then
    match fuel with
    | O => NoFuel
    | S fuel' =>
      let i := loc in
      let step := Z.quot count 2 in
      let i := i + step in
      obind (at_ a i) (fun ai =>
      if ltb ai value
      then let i := i + 1 in
           LowerBound_loop ltb fuel' a value i (count - (step + 1))
      else LowerBound_loop ltb fuel' a value loc step)
    end
  else Ok loc.

Definition LowerBound (ltb : T -> T -> bool) (a : list T) (value : T) : outcome Z :=
  LowerBound_loop ltb (S (length a)) a value 0 (zlen a).

(** binary_search.go:32-48 LowerBoundFunc. *)
Fixpoint LowerBoundFunc_loop (less : T -> T -> bool) (fuel : nat) (a : list T) (value : T)
  (loc count : Z) : outcome Z :=
  if count >? 0 then
    match fuel with
    | O => NoFuel
    | S fuel' =>
      let i := loc in
      let step := Z.quot count 2 in
      let i := i + step in
      obind (at_ a i) (fun ai =>
      if less ai value
      then let i := i + 1 in
           LowerBoundFunc_loop less fuel' a value i (count - (step + 1))
      else LowerBoundFunc_loop less fuel' a value loc step)
    end
  else Ok loc.

Definition LowerBoundFunc (a : list T) (value : T) (less : T -> T -> bool) : outcome Z :=
  LowerBoundFunc_loop less (S (length a)) a value 0 (zlen a).

(** binary_search.go:54-70 UpperBound. *)
Fixpoint UpperBound_loop (ltb : T -> T -> bool) (fuel : nat) (a : list T) (value : T)
  (loc count : Z) : outcome Z :=
  if count >? 0 then
    match fuel with
    | O => NoFuel
    | S fuel' =>
      let i := loc in
      let step := Z.quot count 2 in
      let i := i + step in
      obind (at_ a i) (fun ai =>
      if negb (ltb value ai)
      then let i := i + 1 in
           UpperBound_loop ltb fuel' a value i (count - (step + 1))
      else UpperBound_loop ltb fuel' a value loc step)
    end
  else Ok loc.

Definition UpperBound (ltb : T -> T -> bool) (a : list T) (value : T) : outcome Z :=
  UpperBound_loop ltb (S (length a)) a value 0 (zlen a).

(** binary_search.go:78-94 UpperBoundFunc. *)
Fixpoint UpperBoundFunc_loop (less : T -> T -> bool) (fuel : nat) (a : list T) (value : T)
  (loc count : Z) : outcome Z :=
  if count >? 0 then
    match fuel with
    | O => NoFuel
    | S fuel' =>
      let i := loc in
      let step := Z.quot count 2 in
      let i := i + step in
      obind (at_ a i) (fun ai =>
      if negb (less value ai)
      then let i := i + 1 in
           UpperBoundFunc_loop less fuel' a value i (count - (step + 1))
      else UpperBoundFunc_loop less fuel' a value loc step)
    end
  else Ok loc.

Definition UpperBoundFunc (a : list T) (value : T) (less : T -> T -> bool) : outcome Z :=
  UpperBoundFunc_loop less (S (length a)) a value 0 (zlen a).

(** binary_search.go:100-106 BinarySearch: (index, ok). *)
Definition BinarySearch (ltb eqb : T -> T -> bool) (a : list T) (value : T)
  : outcome (Z * bool) :=
  obind (LowerBound ltb a value) (fun loc =>
  if loc <? zlen a
  then obind (at_ a loc) (fun x => if eqb x value then Ok (loc, true) else Ok (-1, false))
  else Ok (-1, false)).

(** binary_search.go:115-121 BinarySearchFunc. *)
Definition BinarySearchFunc (a : list T) (value : T) (less : T -> T -> bool)
  : outcome (Z * bool) :=
  obind (LowerBoundFunc a value less) (fun loc =>
  if loc <? zlen a
  then obind (at_ a loc) (fun x => if negb (less value x) then Ok (loc, true) else Ok (-1, false))
  else Ok (-1, false)).

End BinarySearch.
