(** Client code, not in /repo, that changes an element of a heap: h[i] = v, then
    x := RemoveHeapFunc(&h, i, less), then PushHeapFunc(&h, x, less) (heap.go:136-167),
    and the same with RemoveMinHeap and PushMinHeap (heap.go:36-67). *)
From Verif Require Import Base Model_Heap.

Section Update.
Context {T : Type}.
Variable zero : T.
Variable grow : Z -> Z -> Z.
Variable less : T -> T -> bool.
(** h[i] = v *)
Definition store_elem (i : Z) (v : T) : M (cell T) unit := h <- get_hdr ;; lift_mem (on_slice h (wstore i v)).
Definition update_elem (i : Z) (v : T) : M (cell T) unit :=
  store_elem i v ;; x <- RemoveHeapFunc i less ;; PushHeapFunc zero grow x less.
Definition update_min (i : Z) (v : T) : M (cell T) unit :=
  store_elem i v ;; x <- RemoveMinHeap less i ;; PushMinHeap zero grow less x.
(** The updates (i, v) one after another. *)
Fixpoint update_all (us : list (Z * T)) : M (cell T) unit :=
  match us with
  | [] => ret tt
  | (i, v) :: rest => update_elem i v ;; update_all rest
  end.
End Update.
