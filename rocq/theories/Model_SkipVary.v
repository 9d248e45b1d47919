(** The SkipList of /repo/skiplist.go made by NewSkipListFunc (57-63), with a
    comparison function whose answers change between calls: the keys are
    pointers, say, and the program changes what they point to.  During one call
    the answers are those of one function, that comes with the call. *)
From Verif Require Import Base Nodes Trace Spec Spec_List Spec_Map Model_SkipList.

Definition vary_step {K V St} (co : (K -> K -> Z) * mop K V St) : list (slnode K V) * sklist -> outcome (mres K V St) * (list (slnode K V) * sklist) :=
  map_step (implFunc (fst co)) (snd co).
