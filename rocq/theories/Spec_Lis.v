(** Subsequences and their lengths.  Definitions only. *)
From Verif Require Import Base Spec.

(** l is p without some of its elements. *)
Inductive subseq {T} : list T -> list T -> Prop :=
| subseq_nil : subseq [] []
| subseq_skip x l p : subseq l p -> subseq l (x :: p)
| subseq_take x l p : subseq l p -> subseq (x :: l) (x :: p).
(** n is the greatest length of a subsequence of p with the property Q. *)
Definition longest {T} (Q : list T -> Prop) (p : list T) (n : Z) : Prop :=
  (exists l, subseq l p /\ Q l /\ zlen l = n) /\ forall l, subseq l p -> Q l -> zlen l <= n.
