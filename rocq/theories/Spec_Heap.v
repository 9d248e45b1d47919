(** Counting iterations of the heap construction. *)
From Verif Require Import Base Spec Model_Heap.

(** What MakeMinHeap and MakeHeapFunc do, sifting down the elements k-1, ..., 0,
    except that each sift-down loop has a budget of iterations: the result is
    NoFuel if one of them needs more. *)
Fixpoint sift_within {T} (less : T -> T -> bool) (budget : Z -> Z) (n : Z) (k : nat) : W T unit :=
  match k with
  | O => ret tt
  | S k' => heapDown_loop less (Z.to_nat (budget (Z.of_nat k'))) (Z.of_nat k') n (Z.of_nat k') ;; sift_within less budget n k'
  end.
Fixpoint sift_within_func {T} (less : T -> T -> bool) (budget : Z -> Z) (n : Z) (k : nat) : W T unit :=
  match k with
  | O => ret tt
  | S k' => heapDownFunc_loop less (Z.to_nat (budget (Z.of_nat k'))) (Z.of_nat k') n (Z.of_nat k') ;; sift_within_func less budget n k'
  end.
