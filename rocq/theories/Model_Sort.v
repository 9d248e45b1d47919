(** Model of /repo/sort.go. *)
From Verif Require Import Base.

(** Go's sort package is not part of the repository.  sort.Sort and sort.Stable
    use a sort.Interface only through Len, Less and Swap, so an algorithm is any
    function from the length to a decision tree of Less and Swap calls. *)
Inductive sort_prog :=
  | PRet
  | PLess (i j : Z) (k : bool -> sort_prog)
  | PSwap (i j : Z) (k : sort_prog).
Definition sort_alg := Z -> sort_prog.

Section Sort.
Context {T : Type}.

(** sort.Interface of a value holding one slice, as window programs. *)
Record interface := { Len : W T Z; LessAt : Z -> Z -> W T bool; Swap : Z -> Z -> W T unit }.

Fixpoint run_sort (x : interface) (p : sort_prog) : W T unit :=
  match p with
  | PRet => ret tt
  | PLess i j k => b <- LessAt x i j ;; run_sort x (k b)
  | PSwap i j k => Swap x i j ;; run_sort x k
  end.
(** sort.Sort(x), sort.Stable(x): they differ in [alg]. *)
Definition sort_with (alg : sort_alg) (x : interface) : W T unit :=
  n <- Len x ;; run_sort x (alg n).

Section Ordered.
Variable ltb : T -> T -> bool.

(** sort.go:10-22 IsSorted. *)
Fixpoint IsSorted_loop (prev : T) (rest : list T) : bool :=
  match rest with
  | [] => true
  | v :: rest' => if ltb v prev then false else IsSorted_loop v rest'
  end.
Definition IsSorted (a : list T) : bool :=
  match a with [] => true | prev :: rest => IsSorted_loop prev rest end.

(** sort.go:27-39 IsDescSorted. *)
Fixpoint IsDescSorted_loop (prev : T) (rest : list T) : bool :=
  match rest with
  | [] => true
  | v :: rest' => if ltb prev v then false else IsDescSorted_loop v rest'
  end.
Definition IsDescSorted (a : list T) : bool :=
  match a with [] => true | prev :: rest => IsDescSorted_loop prev rest end.

(** sort.go:41-45 ascSlice. *)
Definition ascSlice : interface := {|
  Len := wlen;
  LessAt := fun i j => x <- wload i ;; y <- wload j ;; ret (ltb x y);
  Swap := fun i j => wswap i j |}.
(** sort.go:51-53 Sort. *)
Definition Sort (lib_sort : sort_alg) : W T unit := sort_with lib_sort ascSlice.
(** sort.go:59-61 StableSort. *)
Definition StableSort (lib_stable : sort_alg) : W T unit := sort_with lib_stable ascSlice.

(** sort.go:63-67 descSlice. *)
Definition descSlice : interface := {|
  Len := wlen;
  LessAt := fun i j => x <- wload i ;; y <- wload j ;; ret (ltb y x);
  Swap := fun i j => wswap i j |}.
(** sort.go:73-75 DescSort. *)
Definition DescSort (lib_sort : sort_alg) : W T unit := sort_with lib_sort descSlice.
(** sort.go:81-83 DescStableSort. *)
Definition DescStableSort (lib_stable : sort_alg) : W T unit := sort_with lib_stable descSlice.
End Ordered.

(** sort.go:85-92 funcSortable. *)
Definition funcSortable (less : T -> T -> bool) : interface := {|
  Len := wlen;
  LessAt := fun i j => x <- wload i ;; y <- wload j ;; ret (less x y);
  Swap := fun i j => wswap i j |}.
(** sort.go:98-100 SortFunc. *)
Definition SortFunc (lib_sort : sort_alg) (less : T -> T -> bool) : W T unit := sort_with lib_sort (funcSortable less).
(** sort.go:106-108 StableSortFunc. *)
Definition StableSortFunc (lib_stable : sort_alg) (less : T -> T -> bool) : W T unit := sort_with lib_stable (funcSortable less).
End Sort.
Arguments interface : clear implicits.
