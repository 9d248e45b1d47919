(** SortFunc and StableSortFunc of /repo/sort.go for a less function that may read
    and write any memory, the slice being sorted included.  The sort package is any
    decision tree of Less and Swap calls, as in Model_Sort.v; a state is that of
    Model_PQSelf.v: the memory, one slice variable, and variables of the client. *)
From Verif Require Import Base Model_Heap Model_Sort Model_PQSelf.

Section SortSelf.
Context {T X : Type}.
Variable less : T -> T -> @QP T X bool.

(** sort.go:85-92 funcSortable{a, less}: Less(i, j) and Swap(i, j), a = h. *)
Definition LessSelf (h : slice) (i j : Z) : @QP T X bool := x <- h_load h i ;; y <- h_load h j ;; less x y.
Definition SwapSelf (h : slice) (i j : Z) : @QP T X unit := h_swap h i j.
Fixpoint run_sort_self (h : slice) (p : sort_prog) : @QP T X unit :=
  match p with
  | PRet => ret tt
  | PLess i j k => b <- LessSelf h i j ;; run_sort_self h (k b)
  | PSwap i j k => SwapSelf h i j ;; run_sort_self h k
  end.
(** sort.go:98-100 SortFunc. *)
Definition SortFuncSelf (lib_sort : sort_alg) (h : slice) : @QP T X unit := run_sort_self h (lib_sort (s_len h)).
(** sort.go:106-108 StableSortFunc. *)
Definition StableSortFuncSelf (lib_stable : sort_alg) (h : slice) : @QP T X unit := run_sort_self h (lib_stable (s_len h)).
End SortSelf.
