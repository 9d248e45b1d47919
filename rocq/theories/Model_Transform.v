(** Model of /repo/transform.go, transform_fillzero_clear.go and
    transform_fillzero_old.go.  Callbacks carry a private state [St] that is
    threaded through the calls, so the number and order of calls is visible. *)
From Verif Require Import Base.

Section Transform.
Context {T : Type}.
(** zero value of T; append's growth policy (oracle). *)
Variable zero : T.
Variable grow : Z -> Z -> Z.

(** transform.go:8-10 Copy: append([]T{}, a...). *)
Definition Copy (a : slice) : M (mem T) slice :=
  e <- lit_slice [] ;; append_slice zero grow e a.

(** transform.go:16-19 CopyTo. *)
Definition CopyTo (a to : slice) : M (mem T) slice :=
  t <- lift_o (reslice to 0 0) ;; append_slice zero grow t a.

(** transform.go:34-36 and 50-52: for ; j < len(a); j *= 2 { copy(a[j:], a[:j]) }.
    j *= 2 wraps at 64 bits. *)
Fixpoint double_loop (fuel : nat) (j : Z) : W T unit :=
  n <- wlen ;;
  if j <? n then
    match fuel with
    | O => nofuel
    | S fuel' => wcopy j 0 j ;; double_loop fuel' (wrap64 (j * 2))
    end
  else ret tt.

(** transform.go:24-37 Fill.  64 doublings always suffice. *)
Definition Fill (v : T) : W T unit :=
  n <- wlen ;;
  if n =? 0 then ret tt else
  wstore 0 v ;; double_loop 64 1.

(** transform.go:42-53 FillPattern; pattern may share storage with a, so both
    are slices in memory. *)
Definition FillPattern (a pattern : slice) : M (mem T) unit :=
  if s_len pattern =? 0 then panic else
  copy_slice a pattern ;;
  on_slice a (double_loop 64 (s_len pattern)).

(** transform_fillzero_clear.go:9-11 FillZero (go1.21 and later): clear(a) sets
    every element to the zero value. *)
Definition FillZero : W T unit := fun a => (Ok tt, repeat zero (length a)).
(** transform_fillzero_old.go:9-12 FillZero (before go1.21). *)
Definition FillZero_old : W T unit := Fill zero.

Section Callbacks.
Context {St : Type}.

(** transform.go:60-66 TransformTo.  Source and destination live in the same
    memory, so that they may overlap (R = T); for R <> T instantiate T with
    T + R.  The loop reads a[i] from memory at each iteration. *)
Fixpoint TransformTo_loop (op : St -> T -> T * St) (a : slice) (n : nat) (i : Z) (b : slice) (st : St)
  : M (mem T) (slice * St) :=
  match n with
  | O => ret (b, st)
  | S n' =>
    v <- sload a i ;;
    let '(r, st') := op st v in
    b' <- append_list zero grow b [r] ;;
    TransformTo_loop op a n' (i + 1) b' st'
  end.
Definition TransformTo (a : slice) (op : St -> T -> T * St) (b : slice) (st : St)
  : M (mem T) (slice * St) :=
  b0 <- lift_o (reslice b 0 0) ;;
  TransformTo_loop op a (Z.to_nat (s_len a)) 0 b0 st.

(** transform.go:71-75 Transform. *)
Fixpoint Transform_loop (op : St -> T -> T * St) (n : nat) (i : Z) (st : St) : W T St :=
  match n with
  | O => ret st
  | S n' =>
    v <- wload i ;;
    let '(r, st') := op st v in
    wstore i r ;;
    Transform_loop op n' (i + 1) st'
  end.
Definition Transform (op : St -> T -> T * St) (st : St) : W T St :=
  n <- wlen ;; Transform_loop op (Z.to_nat n) 0 st.

(** transform.go:80-86 TransformCopy.  The result is fresh storage, so source
    and destination cannot overlap; the source is the list of its elements and
    the result may have another type R. *)
Fixpoint TransformCopy_loop {R} (op : St -> T -> R * St) (a : list T) (i : Z) (st : St) : W R St :=
  match a with
  | [] => ret st
  | v :: a' =>
    let '(r, st') := op st v in
    wstore i r ;; TransformCopy_loop op a' (i + 1) st'
  end.
Definition TransformCopy {R} (zeroR : R) (a : list T) (op : St -> T -> R * St) (st : St)
  : M (mem R) (slice * St) :=
  r <- make_slice zeroR (zlen a) (zlen a) ;;
  st' <- on_slice r (TransformCopy_loop op a 0 st) ;;
  ret (r, st').

(** transform.go:102-108 ReplaceIf. *)
Fixpoint ReplaceIf_loop (pred : St -> T -> bool * St) (new : T) (n : nat) (i : Z) (st : St) : W T St :=
  match n with
  | O => ret st
  | S n' =>
    v <- wload i ;;
    let '(c, st') := pred st v in
    (if c : bool then wstore i new else ret tt) ;;
    ReplaceIf_loop pred new n' (i + 1) st'
  end.
Definition ReplaceIf (pred : St -> T -> bool * St) (new : T) (st : St) : W T St :=
  n <- wlen ;; ReplaceIf_loop pred new (Z.to_nat n) 0 st.

(** transform.go:183-192 RemoveIf: the window part returns j. *)
Fixpoint RemoveIf_loop (cond : St -> T -> bool * St) (n : nat) (i j : Z) (st : St) : W T (Z * St) :=
  match n with
  | O => ret (j, st)
  | S n' =>
    v <- wload i ;;
    let '(c, st') := cond st v in
    if negb c then wstore j v ;; RemoveIf_loop cond n' (i + 1) (j + 1) st'
    else RemoveIf_loop cond n' (i + 1) j st'
  end.
Definition RemoveIf (a : slice) (cond : St -> T -> bool * St) (st : St) : M (mem T) (slice * St) :=
  js <- on_slice a (n <- wlen ;; RemoveIf_loop cond (Z.to_nat n) 0 0 st) ;;
  r <- lift_o (reslice a 0 (fst js)) ;;
  ret (r, snd js).

(** transform.go:198-206 RemoveIfCopy. *)
Fixpoint RemoveIfCopy_loop (a : slice) (cond : St -> T -> bool * St) (n : nat) (i : Z) (r : slice) (st : St)
  : M (mem T) (slice * St) :=
  match n with
  | O => ret (r, st)
  | S n' =>
    v <- sload a i ;;
    let '(c, st') := cond st v in
    if negb c then r' <- append_list zero grow r [v] ;; RemoveIfCopy_loop a cond n' (i + 1) r' st'
    else RemoveIfCopy_loop a cond n' (i + 1) r st'
  end.
Definition RemoveIfCopy (a : slice) (cond : St -> T -> bool * St) (st : St) : M (mem T) (slice * St) :=
  r <- make_slice zero 0 (s_len a) ;;
  RemoveIfCopy_loop a cond (Z.to_nat (s_len a)) 0 r st.

(** generate.go:18-22 Generate. *)
Fixpoint Generate_loop (gen : St -> T * St) (n : nat) (i : Z) (st : St) : W T St :=
  match n with
  | O => ret st
  | S n' => let '(v, st') := gen st in wstore i v ;; Generate_loop gen n' (i + 1) st'
  end.
Definition Generate (gen : St -> T * St) (st : St) : W T St :=
  n <- wlen ;; Generate_loop gen (Z.to_nat n) 0 st.
End Callbacks.

(** transform.go:91-97 Replace; [eqb] is ==. *)
Fixpoint Replace_loop (eqb : T -> T -> bool) (old new : T) (n : nat) (i : Z) : W T unit :=
  match n with
  | O => ret tt
  | S n' =>
    v <- wload i ;;
    (if eqb v old then wstore i new else ret tt) ;;
    Replace_loop eqb old new n' (i + 1)
  end.
Definition Replace (eqb : T -> T -> bool) (old new : T) : W T unit :=
  n <- wlen ;; Replace_loop eqb old new (Z.to_nat n) 0.

(** transform.go:114-128 Unique.  r is the position read by the range loop
    over a[1:]. *)
Fixpoint Unique_loop (eqb : T -> T -> bool) (n : nat) (r i : Z) (prev : T) : W T Z :=
  match n with
  | O => ret i
  | S n' =>
    v <- wload r ;;
    if negb (eqb v prev) then wstore i v ;; Unique_loop eqb n' (r + 1) (i + 1) v
    else Unique_loop eqb n' (r + 1) i prev
  end.
Definition Unique (eqb : T -> T -> bool) (a : slice) : M (mem T) slice :=
  if s_len a =? 0 then ret a else
  prev <- sload a 0 ;;
  i <- on_slice a (Unique_loop eqb (Z.to_nat (s_len a - 1)) 1 1 prev) ;;
  lift_o (reslice a 0 i).

(** transform.go:134-148 UniqueCopy. *)
Fixpoint UniqueCopy_loop (eqb : T -> T -> bool) (a : slice) (n : nat) (i : Z) (r : slice)
  : M (mem T) slice :=
  match n with
  | O => ret r
  | S n' =>
    v <- sload a i ;;
    dup <- (if s_len r >? 0 then l <- sload r (s_len r - 1) ;; ret (eqb l v) else ret false) ;;
    if dup : bool then UniqueCopy_loop eqb a n' (i + 1) r
    else r' <- append_list zero grow r [v] ;; UniqueCopy_loop eqb a n' (i + 1) r'
  end.
Definition UniqueCopy (eqb : T -> T -> bool) (a : slice) : M (mem T) slice :=
  if s_len a =? 0 then ret nil_slice else
  UniqueCopy_loop eqb a (Z.to_nat (s_len a)) 0 nil_slice.

(** transform.go:154-163 Remove. *)
Fixpoint Remove_loop (eqb : T -> T -> bool) (x : T) (n : nat) (i j : Z) : W T Z :=
  match n with
  | O => ret j
  | S n' =>
    v <- wload i ;;
    if negb (eqb v x) then wstore j v ;; Remove_loop eqb x n' (i + 1) (j + 1)
    else Remove_loop eqb x n' (i + 1) j
  end.
Definition Remove (eqb : T -> T -> bool) (a : slice) (x : T) : M (mem T) slice :=
  j <- on_slice a (n <- wlen ;; Remove_loop eqb x (Z.to_nat n) 0 0) ;;
  lift_o (reslice a 0 j).

(** transform.go:169-177 RemoveCopy. *)
Fixpoint RemoveCopy_loop (eqb : T -> T -> bool) (a : slice) (x : T) (n : nat) (i : Z) (r : slice)
  : M (mem T) slice :=
  match n with
  | O => ret r
  | S n' =>
    v <- sload a i ;;
    if negb (eqb v x) then r' <- append_list zero grow r [v] ;; RemoveCopy_loop eqb a x n' (i + 1) r'
    else RemoveCopy_loop eqb a x n' (i + 1) r
  end.
Definition RemoveCopy (eqb : T -> T -> bool) (a : slice) (x : T) : M (mem T) slice :=
  r <- make_slice zero 0 (s_len a) ;;
  RemoveCopy_loop eqb a x (Z.to_nat (s_len a)) 0 r.

(** transform.go:211-215 Shuffle: rand.Shuffle calls the swap callback with a
    sequence of index pairs chosen by the generator (oracle [swaps]). *)
Fixpoint Shuffle (swaps : list (Z * Z)) : W T unit :=
  match swaps with
  | [] => ret tt
  | (i, j) :: rest => wswap i j ;; Shuffle rest
  end.

(** transform.go:220-224 Reverse. *)
Fixpoint Reverse_loop (fuel : nat) (i j : Z) : W T unit :=
  if i <? j then
    match fuel with
    | O => nofuel
    | S fuel' => wswap i j ;; Reverse_loop fuel' (i + 1) (j - 1)
    end
  else ret tt.
Definition Reverse : W T unit := n <- wlen ;; Reverse_loop (Z.to_nat n) 0 (n - 1).

(** transform.go:229-235 ReverseCopy. *)
Fixpoint ReverseCopy_loop (a : slice) (fuel : nat) (i : Z) (b : slice) : M (mem T) slice :=
  if i >=? 0 then
    match fuel with
    | O => nofuel
    | S fuel' => v <- sload a i ;; b' <- append_list zero grow b [v] ;; ReverseCopy_loop a fuel' (i - 1) b'
    end
  else ret b.
Definition ReverseCopy (a : slice) : M (mem T) slice :=
  b <- make_slice zero 0 (s_len a) ;;
  ReverseCopy_loop a (Z.to_nat (s_len a)) (s_len a - 1) b.

End Transform.
