(** A program on binary_search.go: the length of the longest increasing (or not
    decreasing) subsequence.

      func Longest(vs []T, less LessFn[T]) int {
        var tails []T
        for _, v := range vs {
          i := LowerBoundFunc(tails, v, less)   // or UpperBoundFunc
          if i == len(tails) {
            tails = append(tails, v)
          } else {
            tails[i] = v
          }
        }
        return len(tails)
      }

    Slices are plain lists here; tails is used by nobody else. *)
From Verif Require Import Base Model_BinarySearch.

Section Lis.
Context {T : Type}.
Variable less : T -> T -> bool.
Variable bound : list T -> T -> (T -> T -> bool) -> outcome Z.
Fixpoint tails_loop (vs tails : list T) : outcome (list T) :=
  match vs with
  | [] => Ok tails
  | v :: rest =>
    obind (bound tails v less) (fun i =>
    if i =? zlen tails then tails_loop rest (tails ++ [v])
    else match zget tails i with Some _ => tails_loop rest (zupd tails i v) | None => Panic end)
  end.
Definition longest_by (vs : list T) : outcome Z := obind (tails_loop vs []) (fun tails => Ok (zlen tails)).
End Lis.
(** Over binary_search.go:32-48, and over 78-94. *)
Definition longest_increasing {T} (less : T -> T -> bool) (vs : list T) : outcome Z := longest_by less LowerBoundFunc vs.
Definition longest_sorted {T} (less : T -> T -> bool) (vs : list T) : outcome Z := longest_by less UpperBoundFunc vs.
