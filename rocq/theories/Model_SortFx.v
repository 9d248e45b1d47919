(** SortFunc and StableSortFunc of /repo/sort.go for a less function that may
    panic and keeps variables of its own ([St]).  The sort package is any
    decision tree of Less and Swap calls, as in Model_Sort.v. *)
From Verif Require Import Base Model_Sort Model_TransformFx.

Section SortFx.
Context {T St : Type}.

(** sort.go:85-92 funcSortable. *)
Definition LessFx (less : T -> T -> M St bool) (i j : Z) : M (list T * St) bool :=
  x <- own (wload i) ;; y <- own (wload j) ;; callback (less x y).
Definition SwapFx (i j : Z) : M (list T * St) unit := own (wswap i j).

Fixpoint run_sort_fx (less : T -> T -> M St bool) (p : sort_prog) : M (list T * St) unit :=
  match p with
  | PRet => ret tt
  | PLess i j k => b <- LessFx less i j ;; run_sort_fx less (k b)
  | PSwap i j k => SwapFx i j ;; run_sort_fx less k
  end.
(** sort.go:98-100 SortFunc. *)
Definition SortFuncFx (lib_sort : sort_alg) (less : T -> T -> M St bool) : M (list T * St) unit :=
  n <- own wlen ;; run_sort_fx less (lib_sort n).
(** sort.go:106-108 StableSortFunc. *)
Definition StableSortFuncFx (lib_stable : sort_alg) (less : T -> T -> M St bool) : M (list T * St) unit :=
  n <- own wlen ;; run_sort_fx less (lib_stable n).
End SortFx.
