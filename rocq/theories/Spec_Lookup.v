(** Specification vocabulary for lookup.go and compare.go. *)
From Verif Require Import Base Spec.

(** [m] occurs in [l], no element of [l] is greater (less) than it, and every
    element before its first occurrence that is not NaN is less (greater): the
    first maximum (minimum). *)
Definition first_max {T} (ltb : T -> T -> bool) (isnan : T -> bool) (l : list T) (m : T) : Prop :=
  exists i, zget l i = Some m /\
    (forall x, In x l -> ltb m x = false) /\
    (forall j x, j < i -> zget l j = Some x -> isnan x = false -> ltb x m = true).
Definition first_min {T} (ltb : T -> T -> bool) (isnan : T -> bool) (l : list T) (m : T) : Prop :=
  exists i, zget l i = Some m /\
    (forall x, In x l -> ltb x m = false) /\
    (forall j x, j < i -> zget l j = Some x -> isnan x = false -> ltb m x = true).
(** For types without NaN. *)
Definition no_nan {T} (_ : T) : bool := false.

(** Lexicographic order, by position: a and b are equivalent before position p,
    and there a ends while b does not, or a's element is less. *)
Definition agree_before {T} (ltb : T -> T -> bool) (p : Z) (a b : list T) : Prop :=
  forall i x y, i < p -> zget a i = Some x -> zget b i = Some y -> ltb x y = false /\ ltb y x = false.
Definition lex_lt {T} (ltb : T -> T -> bool) (a b : list T) : Prop :=
  exists p, 0 <= p <= zlen a /\ p <= zlen b /\ agree_before ltb p a b /\
    ((p = zlen a /\ p < zlen b) \/
     exists x y, zget a p = Some x /\ zget b p = Some y /\ ltb x y = true).
Definition lex_eq {T} (ltb : T -> T -> bool) (a b : list T) : Prop :=
  zlen a = zlen b /\ agree_before ltb (zlen a) a b.

(** A stateful predicate called on the elements of [l] in order answers [bs]
    and ends in state [st']. *)
Definition answers {T St} (pred : St -> T -> bool * St) (st : St) (l : list T) (bs : list bool) (st' : St) : Prop :=
  map_st pred st l = (bs, st').
