(** Specification vocabulary, independent of the model's algorithms: orders,
    sortedness, heaps, first-match, etc.  Read together with the theorem
    statements in Props_*.v. *)
From Verif Require Import Base.

(** ** Orders *)

(** [less] is a strict weak order: what a Go less function must be (types.go
    LessFn, lines 44-45), and what < is on integers, strings and non-NaN
    floats. *)
Record strict_weak {T} (less : T -> T -> bool) : Prop := {
  sw_irrefl : forall a, less a a = false;
  sw_trans : forall a b c, less a b = true -> less b c = true -> less a c = true;
  sw_negtrans : forall a b c, less a b = false -> less b c = false -> less a c = false
}.

(** A Go Ordered type without NaN: < is a strict weak order and == holds
    exactly when neither operand is less (so +0 and -0 are ==). *)
Record ordered {T} (ltb eqb : T -> T -> bool) : Prop := {
  ord_sw : strict_weak ltb;
  ord_eq : forall a b, eqb a b = negb (ltb a b) && negb (ltb b a)
}.

(** A Go Ordered type that may contain NaN: NaN is neither less than, nor
    greater than, nor equal to anything, itself included; the other values
    form an ordered type. *)
Record ordered_nan {T} (ltb eqb : T -> T -> bool) (isnan : T -> bool) : Prop := {
  on_nan_l : forall a b, isnan a = true -> ltb a b = false /\ eqb a b = false;
  on_nan_r : forall a b, isnan b = true -> ltb a b = false /\ eqb a b = false;
  on_irrefl : forall a, ltb a a = false;
  on_trans : forall a b c, ltb a b = true -> ltb b c = true -> ltb a c = true;
  on_negtrans : forall a b c, isnan b = false -> ltb a b = false -> ltb b c = false -> ltb a c = false;
  on_eq : forall a b, isnan a = false -> isnan b = false ->
          eqb a b = negb (ltb a b) && negb (ltb b a)
}.

(** A consistent three-way comparison function (types.go CompareFn, lines
    47-51).  Only the sign matters. *)
Record three_way {T} (cmp : T -> T -> Z) : Prop := {
  tw_antisym : forall a b, Z.sgn (cmp a b) = - Z.sgn (cmp b a);
  tw_trans : forall a b c, cmp a b <= 0 -> cmp b c <= 0 -> cmp a c <= 0
}.

(** ** Sequences, by index *)

(** No later element is less than an earlier one. *)
Definition sorted_by {T} (less : T -> T -> bool) (l : list T) : Prop :=
  forall i j a b, 0 <= i < j -> zget l i = Some a -> zget l j = Some b -> less b a = false.

(** Each later element is greater than every earlier one. *)
Definition strictly_sorted_by {T} (less : T -> T -> bool) (l : list T) : Prop :=
  forall i j a b, 0 <= i < j -> zget l i = Some a -> zget l j = Some b -> less a b = true.

(** Binary min-heap in array layout: no element is less than its parent; the
    parent of index c > 0 is (c-1)/2. *)
Definition min_heap {T} (less : T -> T -> bool) (l : list T) : Prop :=
  forall c a b, 0 < c -> zget l ((c - 1) / 2) = Some a -> zget l c = Some b -> less b a = false.

(** r is the index of the first element satisfying P. *)
Definition first_index {T} (P : T -> bool) (l : list T) (r : Z) : Prop :=
  (exists v, zget l r = Some v /\ P v = true) /\
  (forall i v, i < r -> zget l i = Some v -> P v = false).

(** ** Reading every element of the memory outside one slice region *)

(** The memories agree except possibly on positions lo <= i < hi of backing
    array a. *)
Definition same_except {T} (m m' : mem T) (a : nat) (lo hi : Z) : Prop :=
  (forall b, b <> a -> nth b m [] = nth b m' []) /\
  (forall i, 0 <= i -> (i < lo \/ hi <= i) -> zget (nth a m []) i = zget (nth a m' []) i) /\
  zlen (nth a m []) = zlen (nth a m' []) /\ length m' = length m.

(** All arrays of m are unchanged in m' (m' may have more arrays). *)
Definition extends {T} (m m' : mem T) : Prop :=
  (length m <= length m')%nat /\ forall a, (a < length m)%nat -> nth a m' [] = nth a m [].

(** ** Concrete ordered types used in examples *)

Lemma Z_ltb_strict_weak : strict_weak Z.ltb.
Proof.
  constructor; intros *; rewrite ?Z.ltb_lt, ?Z.ltb_ge; lia.
Qed.

Lemma Z_ordered : ordered Z.ltb Z.eqb.
Proof.
  constructor; [exact Z_ltb_strict_weak|].
  intros a b. destruct (Z.eqb_spec a b), (Z.ltb_spec a b), (Z.ltb_spec b a); simpl; auto; lia.
Qed.

(** Option Z with None as NaN. *)
Definition nltb (a b : option Z) : bool :=
  match a, b with Some x, Some y => x <? y | _, _ => false end.
Definition neqb (a b : option Z) : bool :=
  match a, b with Some x, Some y => x =? y | _, _ => false end.
Definition isNone (a : option Z) : bool := match a with None => true | _ => false end.

Lemma optZ_ordered_nan : ordered_nan nltb neqb isNone.
Proof.
  constructor.
  - intros [a|] [b|]; simpl; auto; discriminate.
  - intros [a|] [b|]; simpl; auto; discriminate.
  - intros [a|]; simpl; auto using Z.ltb_irrefl.
  - intros [a|] [b|] [c|]; simpl; rewrite ?Z.ltb_lt; try discriminate; lia.
  - intros [a|] [b|] [c|]; simpl; rewrite ?Z.ltb_ge; try discriminate; auto; lia.
  - intros [a|] [b|]; simpl; try discriminate. intros _ _. apply Z_ordered.
Qed.

Lemma Z_three_way : three_way (fun a b => a - b).
Proof. constructor; intros; lia. Qed.

(** What an operation that makes slice [s] have length [n] (by append) may do
    to memory: when the capacity suffices the storage is kept and only its
    first n slots may change; otherwise the slice moves to a new array and the
    old memory is untouched. *)
Definition append_frame {T} (m m' : mem T) (s s' : slice) (n : Z) : Prop :=
  s_len s' = n /\
  if n <=? s_cap s
  then s_arr s' = s_arr s /\ s_off s' = s_off s /\ s_cap s' = s_cap s /\
       same_except m m' (s_arr s) (s_off s) (s_off s + n)
  else s_arr s' = length m /\ n <= s_cap s' /\ extends m m'.

(** ** Sequences with callbacks: the callback's private state is threaded
    through the calls, one call per element, in order. *)
Fixpoint map_st {T R St} (op : St -> T -> R * St) (st : St) (l : list T) : list R * St :=
  match l with
  | [] => ([], st)
  | x :: r => let '(y, st1) := op st x in
              let '(ys, st2) := map_st op st1 r in (y :: ys, st2)
  end.

(** Elements for which the predicate is false, and the final callback state. *)
Fixpoint reject_st {T St} (cond : St -> T -> bool * St) (st : St) (l : list T) : list T * St :=
  match l with
  | [] => ([], st)
  | x :: r => let '(c, st1) := cond st x in
              let '(ys, st2) := reject_st cond st1 r in
              (if c : bool then ys else x :: ys, st2)
  end.

(** l without the elements equal (==) to their predecessor in l. *)
Fixpoint drop_repeats_after {T} (eqb : T -> T -> bool) (prev : T) (l : list T) : list T :=
  match l with
  | [] => []
  | x :: r => if eqb x prev then drop_repeats_after eqb x r
              else x :: drop_repeats_after eqb x r
  end.
Definition drop_repeats {T} (eqb : T -> T -> bool) (l : list T) : list T :=
  match l with [] => [] | x :: r => x :: drop_repeats_after eqb x r end.

(** == of any Go comparable type: symmetric and transitive (not reflexive on
    NaN). *)
Record partial_equiv {T} (eqb : T -> T -> bool) : Prop := {
  pe_sym : forall a b, eqb a b = true -> eqb b a = true;
  pe_trans : forall a b c, eqb a b = true -> eqb b c = true -> eqb a c = true
}.

(** Memory after an operation that may allocate: arrays that existed keep
    their size and are unchanged, except positions lo <= i < hi of array a. *)
Definition old_same_except {T} (m m' : mem T) (a : nat) (lo hi : Z) : Prop :=
  (length m <= length m')%nat /\
  (forall b, (b < length m)%nat -> b <> a -> nth b m' [] = nth b m []) /\
  (forall i, (a < length m)%nat -> 0 <= i -> (i < lo \/ hi <= i) ->
     zget (nth a m' []) i = zget (nth a m []) i) /\
  ((a < length m)%nat -> zlen (nth a m' []) = zlen (nth a m [])).

(** Slice r cannot be used to write to any array that existed in m. *)
Definition fresh_storage {T} (m : mem T) (r : slice) : Prop :=
  (length m <= s_arr r)%nat \/ s_cap r = 0.

(** Callbacks that can stop the iteration: they are called on the elements in
    order up to and including the first one on which they return false. *)
Fixpoint fold_while {T St} (cb : St -> T -> bool * St) (st : St) (l : list T) : St :=
  match l with
  | [] => st
  | x :: r => let '(go, st1) := cb st x in if go : bool then fold_while cb st1 r else st1
  end.
(** The same for callbacks that also replace the element; later elements are
    unchanged. *)
Fixpoint map_while {T St} (cb : St -> T -> T * bool * St) (st : St) (l : list T) : list T * St :=
  match l with
  | [] => ([], st)
  | x :: r => let '(y, go, st1) := cb st x in
              if go : bool then let '(ys, st2) := map_while cb st1 r in (y :: ys, st2)
              else (y :: r, st1)
  end.

(** ** Sums: f 0 + ... + f (k-1) *)
Fixpoint sum_below (f : Z -> Z) (k : nat) : Z := match k with O => 0 | S k' => sum_below f k' + f (Z.of_nat k') end.
