(** Medians. *)
From Verif Require Import Base Spec.

Section Median.
Context {T : Type}.
Variable less : T -> T -> bool.
Definition below (x : T) (vs : list T) : Z := zlen (filter (fun y => less y x) vs).
Definition above (x : T) (vs : list T) : Z := zlen (filter (fun y => less x y) vs).
(** x is a lower median: less than half of the elements are below it and not more than
    half above; an upper median: the other way round. *)
Definition lower_median (vs : list T) (x : T) : Prop := In x vs /\ 2 * below x vs < zlen vs /\ 2 * above x vs <= zlen vs.
Definition upper_median (vs : list T) (x : T) : Prop := In x vs /\ 2 * below x vs <= zlen vs /\ 2 * above x vs < zlen vs.
End Median.
