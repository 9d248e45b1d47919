(** Key comparison functions that use the list they compare keys for.
    Definitions only.  [compare a b (s, x)] is a call of keyCmp: s is the list, x
    the variables of the client. *)
From Verif Require Import Base Nodes Spec_Map Model_SkipList Model_SkipFx Spec_SkipFx.

Section Self.
Context {K V X : Type}.
Variable cmp : K -> K -> Z.
Variable compare : K -> K -> @FP K V X Z.
(** On the list s, at any point of a search (when prevsCache may hold anything),
    keyCmp answers with the sign of cmp and leaves the list exactly as it is. *)
Definition looks_on (s : list (slnode K V) * sklist) : Prop :=
  forall s1 x a b, kept s s1 -> exists r x', compare a b (s1, x) = (Ok r, (s1, x')) /\ Z.sgn r = Z.sgn (cmp a b).
(** The same, but it may write prevsCache: no node, no link, not the level and not
    the length changes. *)
Definition keeps_on (s : list (slnode K V) * sklist) : Prop :=
  forall s1 x a b, kept s s1 -> exists r s2 x', compare a b (s1, x) = (Ok r, (s2, x')) /\ kept s s2 /\ Z.sgn r = Z.sgn (cmp a b).
End Self.
