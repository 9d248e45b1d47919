(** What Go documents about sort.Sort and sort.Stable, independently of any
    slice: the algorithm rearranges the positions 0..n-1. *)
From Verif Require Import Base Spec Model_Sort.

(** 0, 1, ..., n-1. *)
Definition positions (n : Z) : list Z := map Z.of_nat (seq 0 (Z.to_nat n)).

Definition exchange (p : list Z) (i j : Z) : option (list Z) :=
  match zget p i, zget p j with
  | Some x, Some y => Some (zupd (zupd p i y) j x)
  | _, _ => None
  end.
(** Runs an algorithm on positions: Less(i,j) asks whether the position now at i
    is less than the one now at j.  None: an index out of range. *)
Fixpoint arrange (lt : Z -> Z -> bool) (pr : sort_prog) (p : list Z) : option (list Z) :=
  match pr with
  | PRet => Some p
  | PLess i j k => match zget p i, zget p j with
                   | Some x, Some y => arrange lt (k (lt x y)) p
                   | _, _ => None
                   end
  | PSwap i j k => match exchange p i j with Some p' => arrange lt k p' | None => None end
  end.

(** sort.Sort: "sorts data in ascending order as determined by the Less
    method"; Less must be a transitive (strict weak) ordering. *)
Definition sort_contract (alg : sort_alg) : Prop :=
  forall n lt, 0 <= n -> strict_weak lt ->
  exists p, arrange lt (alg n) (positions n) = Some p /\ sorted_by lt p.
(** sort.Stable: also "keeping the original order of equal elements". *)
Definition stable_contract (alg : sort_alg) : Prop :=
  forall n lt, 0 <= n -> strict_weak lt ->
  exists p, arrange lt (alg n) (positions n) = Some p /\ sorted_by lt p /\
    forall i j x y, i < j -> zget p i = Some x -> zget p j = Some y -> lt x y = false -> lt y x = false -> x < y.

(** l' has the elements of l, those equivalent to each other in the same order. *)
Definition keeps_order {T} (less : T -> T -> bool) (l l' : list T) : Prop :=
  forall x, let eqv y := negb (less x y) && negb (less y x) in filter eqv l' = filter eqv l.
