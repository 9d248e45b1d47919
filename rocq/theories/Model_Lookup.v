(** Model of /repo/lookup.go, compare.go, functor.go and the counting part of
    compute.go.  The slices are only read, so they are lists; a[i] is [at_].
    [ltb] is <, [eqb] is ==; a > b is [ltb b a]. *)
From Verif Require Import Base.

Section Lookup.
Context {T : Type}.
Variable ltb eqb : T -> T -> bool.

(** lookup.go:6-11 Max. *)
Definition Max (a b : T) : T := if ltb b a then a else b.
(** lookup.go:16-21 Min. *)
Definition Min (a b : T) : T := if ltb a b then a else b.

(** lookup.go:31-35: for i := 1; i < len(a); i++ { if a[i] > v { v = a[i] } }. *)
Fixpoint MaxN_loop (fuel : nat) (a : list T) (i : Z) (v : T) : outcome T :=
  if i <? zlen a then
    match fuel with
    | O => NoFuel
    | S fuel' => obind (at_ a i) (fun x => MaxN_loop fuel' a (i + 1) (if ltb v x then x else v))
    end
  else Ok v.
(** lookup.go:26-37 MaxN. *)
Definition MaxN (a : list T) : outcome T :=
  if zlen a =? 0 then Panic else obind (at_ a 0) (MaxN_loop (length a) a 1).

(** lookup.go:47-51. *)
Fixpoint MinN_loop (fuel : nat) (a : list T) (i : Z) (v : T) : outcome T :=
  if i <? zlen a then
    match fuel with
    | O => NoFuel
    | S fuel' => obind (at_ a i) (fun x => MinN_loop fuel' a (i + 1) (if ltb x v then x else v))
    end
  else Ok v.
(** lookup.go:42-53 MinN. *)
Definition MinN (a : list T) : outcome T :=
  if zlen a =? 0 then Panic else obind (at_ a 0) (MinN_loop (length a) a 1).

(** lookup.go:58-63 MinMax. *)
Definition MinMax (a b : T) : T * T := if ltb a b then (a, b) else (b, a).

(** lookup.go:74-81. *)
Fixpoint MinMaxN_loop (fuel : nat) (a : list T) (i : Z) (mn mx : T) : outcome (T * T) :=
  if i <? zlen a then
    match fuel with
    | O => NoFuel
    | S fuel' => obind (at_ a i) (fun x =>
        MinMaxN_loop fuel' a (i + 1) (if ltb x mn then x else mn) (if ltb mx x then x else mx))
    end
  else Ok (mn, mx).
(** lookup.go:68-83 MinMaxN. *)
Definition MinMaxN (a : list T) : outcome (T * T) :=
  if zlen a =? 0 then Panic else
  obind (at_ a 0) (fun mn => obind (at_ a 0) (fun mx => MinMaxN_loop (length a) a 1 mn mx)).

(** lookup.go:90-97 Find: for i, v := range a. *)
Fixpoint Find_loop (a : list T) (i : Z) (x : T) : Z * bool :=
  match a with
  | [] => (-1, false)
  | v :: r => if eqb v x then (i, true) else Find_loop r (i + 1) x
  end.
Definition Find (a : list T) (x : T) : Z * bool := Find_loop a 0 x.

(** lookup.go:118-125 Index. *)
Fixpoint Index_loop (a : list T) (i : Z) (x : T) : Z :=
  match a with
  | [] => -1
  | v :: r => if eqb v x then i else Index_loop r (i + 1) x
  end.
Definition Index (a : list T) (x : T) : Z := Index_loop a 0 x.

Section Callbacks.
Context {St : Type}.
(** lookup.go:104-111 FindIf.  The predicate's private state is threaded. *)
Fixpoint FindIf_loop (cond : St -> T -> bool * St) (a : list T) (i : Z) (st : St) : Z * bool * St :=
  match a with
  | [] => (-1, false, st)
  | v :: r => let '(c, st') := cond st v in
              if c : bool then (i, true, st') else FindIf_loop cond r (i + 1) st'
  end.
Definition FindIf (a : list T) (cond : St -> T -> bool * St) (st : St) : Z * bool * St := FindIf_loop cond a 0 st.

(** lookup.go:130-137 AllOf. *)
Fixpoint AllOf (a : list T) (pred : St -> T -> bool * St) (st : St) : bool * St :=
  match a with
  | [] => (true, st)
  | v :: r => let '(c, st') := pred st v in if negb c then (false, st') else AllOf r pred st'
  end.
(** lookup.go:142-149 AnyOf. *)
Fixpoint AnyOf (a : list T) (pred : St -> T -> bool * St) (st : St) : bool * St :=
  match a with
  | [] => (false, st)
  | v :: r => let '(c, st') := pred st v in if c : bool then (true, st') else AnyOf r pred st'
  end.
(** lookup.go:154-156 NoneOf. *)
Definition NoneOf (a : list T) (pred : St -> T -> bool * St) (st : St) : bool * St :=
  let '(b, st') := AnyOf a pred st in (negb b, st').

(** compute.go:72-80 CountIf.  The counter is at most len(a), a Go int, so it
    cannot wrap. *)
Fixpoint CountIf_loop (a : list T) (pred : St -> T -> bool * St) (c : Z) (st : St) : Z * St :=
  match a with
  | [] => (c, st)
  | v :: r => let '(b, st') := pred st v in CountIf_loop r pred (if b : bool then c + 1 else c) st'
  end.
Definition CountIf (a : list T) (pred : St -> T -> bool * St) (st : St) : Z * St := CountIf_loop a pred 0 st.
End Callbacks.

(** compute.go:59-67 Count. *)
Fixpoint Count_loop (a : list T) (x : T) (c : Z) : Z :=
  match a with
  | [] => c
  | v :: r => Count_loop r x (if eqb v x then c + 1 else c)
  end.
Definition Count (a : list T) (x : T) : Z := Count_loop a x 0.

(** compare.go:11-15: for i := range a { if a[i] != b[i] { return false } }. *)
Fixpoint Equal_loop (n : nat) (i : Z) (a b : list T) : outcome bool :=
  match n with
  | O => Ok true
  | S n' => obind (at_ a i) (fun x => obind (at_ b i) (fun y =>
              if negb (eqb x y) then Ok false else Equal_loop n' (i + 1) a b))
  end.
(** compare.go:7-17 Equal. *)
Definition Equal (a b : list T) : outcome bool :=
  if negb (zlen a =? zlen b) then Ok false else Equal_loop (length a) 0 a b.

(** compare.go:28-43: for i, v1 := range a; [rest] is what is left of a. *)
Fixpoint Compare_loop (rest : list T) (i : Z) (a b : list T) : outcome Z :=
  match rest with
  | [] => Ok (if zlen a <? zlen b then -1 else 0)
  | v1 :: rest' =>
    if zlen b <=? i then Ok 1 else
    obind (at_ b i) (fun v2 =>
      if ltb v1 v2 then Ok (-1) else
      if ltb v2 v1 then Ok 1 else
      Compare_loop rest' (i + 1) a b)
  end.
(** compare.go:26-44 Compare. *)
Definition Compare (a b : list T) : outcome Z := Compare_loop a 0 a b.

(** functor.go:4-6 Less. *)
Definition Less (a b : T) : bool := ltb a b.
(** functor.go:9-11 Greater. *)
Definition Greater (a b : T) : bool := ltb b a.
(** functor.go:14-22 OrderedCompare. *)
Definition OrderedCompare (a b : T) : Z :=
  if ltb a b then -1 else if ltb b a then 1 else 0.
End Lookup.
