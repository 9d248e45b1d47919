(** Key comparison functions that look at the list they compare keys for and may
    panic.  Definitions only.  [compare a b (s, x)] is a call of keyCmp: s is the
    list, x the variables of the client. *)
From Verif Require Import Base Nodes Spec_Map Model_SkipList Model_SkipFx Spec_SkipFx.

(** On the list s, at any point of a search (when prevsCache may hold anything),
    and with P of the client's variables, keyCmp answers with the sign of cmp, leaves
    the list exactly as it is and P true, or it panics, with Q of the variables and the
    list as it was but for prevsCache. *)
Definition looks_or_panics {K V X} (P Q : X -> Prop) (cmp : K -> K -> Z) (compare : K -> K -> @FP K V X Z) (s : list (slnode K V) * sklist) : Prop :=
  forall s1 x a b, kept s s1 -> P x ->
  match compare a b (s1, x) with
  | (Ok r, (s2, x')) => s2 = s1 /\ Z.sgn r = Z.sgn (cmp a b) /\ P x'
  | (Panic, (s2, x')) => kept s s2 /\ Q x'
  | (NoFuel, _) => False
  end.
