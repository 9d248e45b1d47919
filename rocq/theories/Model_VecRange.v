(** Clients of /repo/vector.go that keep iterators of IterateRange too. *)
From Verif Require Import Base Spec Trace Model_Vector Spec_Vector Spec_Client Spec_VecClient Model_VecClient Spec_VecRange.
(** vector.go:212-214: it := v.IterateRange(i, j). *)
Definition vec_range {T} (i j : Z) : M (cell T) vectorIterator := v <- get_hdr ;; fun c => (Vector_IterateRange v i j, c).
