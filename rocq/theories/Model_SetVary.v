(** The SkipListSet of /repo/skiplist_set.go made by NewSkipListSetFunc (12-14), with a
    comparison function whose answers change between calls; during one call the answers
    are those of one function, that comes with the call. *)
From Verif Require Import Base Nodes Trace Spec Spec_List Spec_Map Spec_Set Model_SkipList Model_SkipListSet.

Definition set_vary_step {K St} (co : (K -> K -> Z) * sop K St) : list (slnode K unit) * sklist -> outcome (sres K St) * (list (slnode K unit) * sklist) :=
  set_step (implFunc (fst co)) (snd co).
