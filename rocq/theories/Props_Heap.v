(** Properties C33-C39, C71, C72 (heap.go).  Only statements; proofs are in
    Proof_Heap.v, Proof_HeapOps.v and Proof_HeapTotal.v.  A state is a pair
    (memory, slice header) for functions taking *[]T.  Lengths are bounded by
    [max_int] = 2^63-1, as every Go slice is. *)
From Verif Require Import BaseLemmas Spec Proof_Mem Model_Heap Proof_Heap Proof_HeapOps Proof_HeapTotal Spec_Heap Proof_HeapLinear.

(** C33: MakeMinHeap / MakeHeapFunc turn the slice into a heap with the same
    elements; memory outside the slice is untouched. *)
Theorem C33_MakeMinHeap : forall T (ltb : T -> T -> bool) m s,
  strict_weak ltb -> wf_slice m s -> s_len s <= max_int ->
  exists m', on_slice s (MakeMinHeap ltb) m = (Ok tt, m') /\ wf_slice m' s /\
    min_heap ltb (contents m' s) /\ Permutation (contents m' s) (contents m s) /\
    same_except m m' (s_arr s) (s_off s) (s_off s + s_len s).
Proof. exact @MakeHeap_mem. Qed.
Print Assumptions C33_MakeMinHeap.

Theorem C33_MakeHeapFunc : forall T (less : T -> T -> bool) m s,
  strict_weak less -> wf_slice m s -> s_len s <= max_int ->
  exists m', on_slice s (MakeHeapFunc less) m = (Ok tt, m') /\ wf_slice m' s /\
    min_heap less (contents m' s) /\ Permutation (contents m' s) (contents m s) /\
    same_except m m' (s_arr s) (s_off s) (s_off s + s_len s).
Proof. exact @MakeHeap_mem. Qed.
Print Assumptions C33_MakeHeapFunc.

(** C34: pushing on a heap gives a heap with one more element, for every
    growth policy; in place when there is spare capacity, otherwise in a new
    array leaving the old memory alone. *)
Theorem C34_PushMinHeap : forall T (ltb : T -> T -> bool), strict_weak ltb ->
  forall zero grow v m h, wf_slice m h -> min_heap ltb (contents m h) ->
  exists m' h', PushMinHeap zero grow ltb v (m, h) = (Ok tt, (m', h')) /\
    wf_slice m' h' /\ min_heap ltb (contents m' h') /\
    Permutation (contents m' h') (v :: contents m h) /\
    append_frame m m' h h' (s_len h + 1).
Proof. exact @PushHeapFunc_ok. Qed.
Print Assumptions C34_PushMinHeap.

Theorem C34_PushHeapFunc : forall T (less : T -> T -> bool), strict_weak less ->
  forall zero grow v m h, wf_slice m h -> min_heap less (contents m h) ->
  exists m' h', PushHeapFunc zero grow v less (m, h) = (Ok tt, (m', h')) /\
    wf_slice m' h' /\ min_heap less (contents m' h') /\
    Permutation (contents m' h') (v :: contents m h) /\
    append_frame m m' h h' (s_len h + 1).
Proof. exact @PushHeapFunc_ok. Qed.
Print Assumptions C34_PushHeapFunc.

(** C35: popping a non-empty heap returns its first element, which no element
    is less than, and leaves a heap of exactly the other elements in the same
    storage. *)
Theorem C35_PopMinHeap : forall T (ltb : T -> T -> bool), strict_weak ltb ->
  forall m h, wf_slice m h -> min_heap ltb (contents m h) -> 0 < s_len h <= max_int ->
  exists x m' h', PopMinHeap ltb (m, h) = (Ok x, (m', h')) /\
    (forall y, In y (contents m h) -> ltb y x = false) /\
    wf_slice m' h' /\ min_heap ltb (contents m' h') /\
    Permutation (x :: contents m' h') (contents m h) /\
    h' = mkSlice (s_arr h) (s_off h) (s_len h - 1) (s_cap h) /\
    same_except m m' (s_arr h) (s_off h) (s_off h + s_len h).
Proof. exact @PopHeap_min. Qed.
Print Assumptions C35_PopMinHeap.

Theorem C35_PopHeapFunc : forall T (less : T -> T -> bool), strict_weak less ->
  forall m h, wf_slice m h -> min_heap less (contents m h) -> 0 < s_len h <= max_int ->
  exists x m' h', PopHeapFunc less (m, h) = (Ok x, (m', h')) /\
    (forall y, In y (contents m h) -> less y x = false) /\
    wf_slice m' h' /\ min_heap less (contents m' h') /\
    Permutation (x :: contents m' h') (contents m h) /\
    h' = mkSlice (s_arr h) (s_off h) (s_len h - 1) (s_cap h) /\
    same_except m m' (s_arr h) (s_off h) (s_off h + s_len h).
Proof. exact @PopHeap_min. Qed.
Print Assumptions C35_PopHeapFunc.

(** C35: popping an empty heap panics and changes nothing. *)
Theorem C35_PopMinHeap_empty : forall T (ltb : T -> T -> bool) m h,
  wf_slice m h -> s_len h = 0 -> PopMinHeap ltb (m, h) = (Panic, (m, h)).
Proof. exact @PopHeapFunc_panic. Qed.
Print Assumptions C35_PopMinHeap_empty.

Theorem C35_PopHeapFunc_empty : forall T (less : T -> T -> bool) m h,
  wf_slice m h -> s_len h = 0 -> PopHeapFunc less (m, h) = (Panic, (m, h)).
Proof. exact @PopHeapFunc_panic. Qed.
Print Assumptions C35_PopHeapFunc_empty.

(** C36: removing a valid index returns exactly that element and leaves a heap
    of exactly the others. *)
Theorem C36_RemoveMinHeap : forall T (ltb : T -> T -> bool), strict_weak ltb ->
  forall i m h, wf_slice m h -> min_heap ltb (contents m h) ->
  0 <= i < s_len h -> s_len h <= max_int ->
  exists x m' h', RemoveMinHeap ltb i (m, h) = (Ok x, (m', h')) /\
    zget (contents m h) i = Some x /\
    wf_slice m' h' /\ min_heap ltb (contents m' h') /\
    Permutation (x :: contents m' h') (contents m h) /\
    h' = mkSlice (s_arr h) (s_off h) (s_len h - 1) (s_cap h) /\
    same_except m m' (s_arr h) (s_off h) (s_off h + s_len h).
Proof. exact @RemoveHeapFunc_ok. Qed.
Print Assumptions C36_RemoveMinHeap.

Theorem C36_RemoveHeapFunc : forall T (less : T -> T -> bool), strict_weak less ->
  forall i m h, wf_slice m h -> min_heap less (contents m h) ->
  0 <= i < s_len h -> s_len h <= max_int ->
  exists x m' h', RemoveHeapFunc i less (m, h) = (Ok x, (m', h')) /\
    zget (contents m h) i = Some x /\
    wf_slice m' h' /\ min_heap less (contents m' h') /\
    Permutation (x :: contents m' h') (contents m h) /\
    h' = mkSlice (s_arr h) (s_off h) (s_len h - 1) (s_cap h) /\
    same_except m m' (s_arr h) (s_off h) (s_off h + s_len h).
Proof. exact @RemoveHeapFunc_ok. Qed.
Print Assumptions C36_RemoveHeapFunc.

(** C36: any other index panics and changes nothing. *)
Theorem C36_RemoveMinHeap_range : forall T (ltb : T -> T -> bool) i m h,
  wf_slice m h -> ~ (0 <= i < s_len h) -> RemoveMinHeap ltb i (m, h) = (Panic, (m, h)).
Proof. exact @RemoveHeapFunc_panic. Qed.
Print Assumptions C36_RemoveMinHeap_range.

Theorem C36_RemoveHeapFunc_range : forall T (less : T -> T -> bool) i m h,
  wf_slice m h -> ~ (0 <= i < s_len h) -> RemoveHeapFunc i less (m, h) = (Panic, (m, h)).
Proof. exact @RemoveHeapFunc_panic. Qed.
Print Assumptions C36_RemoveHeapFunc_range.

(** C37: IsMinHeap decides the heap property, for any < (no law needed). *)
Theorem C37_IsMinHeap : forall T (ltb : T -> T -> bool) l,
  exists b, IsMinHeap ltb l = Ok b /\ (b = true <-> min_heap ltb l).
Proof. exact @IsMinHeap_spec. Qed.
Print Assumptions C37_IsMinHeap.

(** C38 is false: a heap, built by MakeHeapFunc itself from a slice
    with two equal elements, is rejected by IsHeapFunc. *)
Theorem C38_IsHeapFunc_refuted :
  exists l, min_heap Z.ltb l /\ MakeHeapFunc Z.ltb l = (Ok tt, l) /\ IsHeapFunc l Z.ltb = Ok false.
Proof. exact IsHeapFunc_rejects. Qed.
Print Assumptions C38_IsHeapFunc_refuted.

(** C38, what it does decide: every parent is strictly less than its child. *)
Theorem C38_IsHeapFunc_actual : forall T (less : T -> T -> bool) l,
  exists b, IsHeapFunc l less = Ok b /\
  (b = true <->
   forall c p x, 0 < c -> zget l ((c - 1) / 2) = Some p -> zget l c = Some x -> less p x = true).
Proof. exact @IsHeapFunc_spec. Qed.
Print Assumptions C38_IsHeapFunc_actual.

(** C38, so a true answer can be trusted, a false one cannot. *)
Theorem C38_IsHeapFunc_sound : forall T (less : T -> T -> bool) l,
  strict_weak less -> IsHeapFunc l less = Ok true -> min_heap less l.
Proof. exact @IsHeapFunc_sound. Qed.
Print Assumptions C38_IsHeapFunc_sound.

(** C39: popping a heap until it is empty yields all its elements in
    non-descending order.  [drain pop n] calls pop n times. *)
Theorem C39_heap_sort : forall T (ltb : T -> T -> bool), strict_weak ltb ->
  forall n m h, wf_slice m h -> min_heap ltb (contents m h) ->
  s_len h = Z.of_nat n -> s_len h <= max_int ->
  exists out m' h', drain (PopMinHeap ltb) n (m, h) = (Ok out, (m', h')) /\
    s_len h' = 0 /\ Permutation out (contents m h) /\ sorted_by ltb out.
Proof. exact @drain_sorted. Qed.
Print Assumptions C39_heap_sort.

Theorem C39_heap_sort_func : forall T (less : T -> T -> bool), strict_weak less ->
  forall n m h, wf_slice m h -> min_heap less (contents m h) ->
  s_len h = Z.of_nat n -> s_len h <= max_int ->
  exists out m' h', drain (PopHeapFunc less) n (m, h) = (Ok out, (m', h')) /\
    s_len h' = 0 /\ Permutation out (contents m h) /\ sorted_by less out.
Proof. exact @drain_sorted. Qed.
Print Assumptions C39_heap_sort_func.

(** C71 (documented complexity O(log n)): the sift-up and sift-down loops
    finish within floor(log2) many iterations plus one; the fuel counts the
    iterations. Any less function. *)
Theorem C71_heapUp_steps : forall T (less : T -> T -> bool) l j,
  0 <= j < zlen l ->
  fst (heapUp_loop less (Z.to_nat (Z.log2 (j + 1) + 1)) j l) <> NoFuel /\
  fst (heapUpFunc_loop less (Z.to_nat (Z.log2 (j + 1) + 1)) j l) <> NoFuel.
Proof. exact (fun T less l j H => conj (up_steps less l j H) (up_steps less l j H)). Qed.
Print Assumptions C71_heapUp_steps.

Theorem C71_heapDown_steps : forall T (less : T -> T -> bool) l n i,
  0 <= i <= n -> n <= zlen l -> n <= max_int ->
  fst (heapDown_loop less (Z.to_nat (Z.log2 (n / (i + 1) + 1) + 1)) i n i l) <> NoFuel /\
  fst (heapDownFunc_loop less (Z.to_nat (Z.log2 (n / (i + 1) + 1) + 1)) i n i l) <> NoFuel.
Proof.
  exact (fun T less l n i H1 H2 H3 =>
    conj (down_steps less l n i i (proj1 H1) H1 H2 H3) (down_steps less l n i i (proj1 H1) H1 H2 H3)).
Qed.
Print Assumptions C71_heapDown_steps.

(** C75 (documented complexity O(n) of heap construction): the sift-down loops
    together need at most 2n iterations, for any less function. *)
Theorem C75_make_linear : forall T (less : T -> T -> bool) l,
  zlen l <= max_int ->
  (exists budget, sum_below budget (Z.to_nat (zlen l / 2)) <= 2 * zlen l /\
    MakeMinHeap less l = sift_within less budget (zlen l) (Z.to_nat (zlen l / 2)) l) /\
  (exists budget, sum_below budget (Z.to_nat (zlen l / 2)) <= 2 * zlen l /\
    MakeHeapFunc less l = sift_within_func less budget (zlen l) (Z.to_nat (zlen l / 2)) l).
Proof. exact (fun T less l H => conj (make_linear T less l H) (make_linear T less l H)). Qed.
Print Assumptions C75_make_linear.
Example C75_hyp : let l := [9; 8; 7; 6; 5; 4; 3; 2; 1] in
  MakeMinHeap Z.ltb l = (Ok tt, [1; 2; 3; 6; 5; 4; 7; 8; 9]) /\
  sift_within Z.ltb (fun i => if i =? 0 then 4 else if i =? 1 then 3 else 2) 9 4 l = MakeMinHeap Z.ltb l /\
  fst (sift_within Z.ltb (fun i => 2) 9 4 l) = NoFuel.
Proof. vm_compute. repeat split. Qed.

(** C72: with any less function whatsoever (inconsistent, or < on floats with
    NaN) the heap operations still terminate without panic, lose and invent
    nothing, and return the first / the requested element. *)
Theorem C72_make_any_less : forall T (less : T -> T -> bool) l,
  zlen l <= max_int ->
  (exists l', MakeMinHeap less l = (Ok tt, l') /\ Permutation l' l /\ zlen l' = zlen l) /\
  (exists l', MakeHeapFunc less l = (Ok tt, l') /\ Permutation l' l /\ zlen l' = zlen l).
Proof. exact (fun T less l H => conj (make_total less l H) (make_total less l H)). Qed.
Print Assumptions C72_make_any_less.

Theorem C72_push_any_less : forall T (less : T -> T -> bool) zero grow v m h,
  wf_slice m h ->
  exists m' h', PushMinHeap zero grow less v (m, h) = (Ok tt, (m', h')) /\
    PushHeapFunc zero grow v less (m, h) = (Ok tt, (m', h')) /\
    wf_slice m' h' /\ Permutation (contents m' h') (v :: contents m h).
Proof. exact @push_total2. Qed.
Print Assumptions C72_push_any_less.

Theorem C72_pop_any_less : forall T (less : T -> T -> bool) m h,
  wf_slice m h -> 0 < s_len h <= max_int ->
  exists x m' h', PopMinHeap less (m, h) = (Ok x, (m', h')) /\
    PopHeapFunc less (m, h) = (Ok x, (m', h')) /\
    zget (contents m h) 0 = Some x /\ wf_slice m' h' /\
    Permutation (x :: contents m' h') (contents m h).
Proof. exact @pop_total2. Qed.
Print Assumptions C72_pop_any_less.

Theorem C72_remove_any_less : forall T (less : T -> T -> bool) i m h,
  wf_slice m h -> 0 <= i < s_len h -> s_len h <= max_int ->
  exists x m' h', RemoveMinHeap less i (m, h) = (Ok x, (m', h')) /\
    RemoveHeapFunc i less (m, h) = (Ok x, (m', h')) /\
    zget (contents m h) i = Some x /\ wf_slice m' h' /\
    Permutation (x :: contents m' h') (contents m h).
Proof. exact @remove_total2. Qed.
Print Assumptions C72_remove_any_less.

(** Concrete cases meeting the hypotheses: a heap of five elements in an array
    of seven, with spare capacity one and a neighbour on each side. *)
Example heap_case :
  let m := [[9; 1; 3; 2; 3; 7; 0]] in let h := mkSlice 0 1 5 6 in
  strict_weak Z.ltb /\ wf_slice m h /\ min_heap Z.ltb (contents m h) /\ contents m h = [1; 3; 2; 3; 7].
Proof. exact heap_case_ok. Qed.
Example heap_runs :
  let m := [[9; 1; 3; 2; 3; 7; 0]] in let h := mkSlice 0 1 5 6 in
  MakeMinHeap Z.ltb [5; 3; 1; 4; 1] = (Ok tt, [1; 3; 1; 4; 5]) /\
  PushMinHeap 0 (fun _ n => n) Z.ltb 0 (m, h) = (Ok tt, ([[9; 0; 3; 1; 3; 7; 2]], mkSlice 0 1 6 6)) /\
  PopMinHeap Z.ltb (m, h) = (Ok 1, ([[9; 2; 3; 7; 3; 1; 0]], mkSlice 0 1 4 6)) /\
  RemoveMinHeap Z.ltb 1 (m, h) = (Ok 3, ([[9; 1; 3; 2; 7; 3; 0]], mkSlice 0 1 4 6)).
Proof. repeat split. Qed.
