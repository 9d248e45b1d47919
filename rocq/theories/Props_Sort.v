(** Theorems C45-C47 about /repo/sort.go. *)
From Coq Require Import Permutation.
From Verif Require Import BaseLemmas Spec Model_Sort Spec_Sort Proof_Lookup Proof_Sort.

(** ** C45 Sort, DescSort, SortFunc *)
Theorem C45_Sort : forall T ltb lib_sort (m : mem T) a, strict_weak ltb -> sort_contract lib_sort -> wf_slice m a ->
  exists m', on_slice a (Sort ltb lib_sort) m = (Ok tt, m') /\ wf_slice m' a /\
    Permutation (contents m' a) (contents m a) /\ sorted_by ltb (contents m' a) /\
    same_except m m' (s_arr a) (s_off a) (s_off a + s_len a).
Proof. intros. now apply (sort_mem ltb). Qed.
Print Assumptions C45_Sort.

(** Descending: no later element is greater than an earlier one. *)
Theorem C45_DescSort : forall T ltb lib_sort (m : mem T) a, strict_weak ltb -> sort_contract lib_sort -> wf_slice m a ->
  exists m', on_slice a (DescSort ltb lib_sort) m = (Ok tt, m') /\ wf_slice m' a /\
    Permutation (contents m' a) (contents m a) /\ sorted_by (fun x y => ltb y x) (contents m' a) /\
    same_except m m' (s_arr a) (s_off a) (s_off a + s_len a).
Proof. intros T ltb alg m a SW C W. apply (sort_mem (fun x y => ltb y x)); auto. now apply flip_sw. Qed.
Print Assumptions C45_DescSort.

Theorem C45_SortFunc : forall T less lib_sort (m : mem T) a, strict_weak less -> sort_contract lib_sort -> wf_slice m a ->
  exists m', on_slice a (SortFunc lib_sort less) m = (Ok tt, m') /\ wf_slice m' a /\
    Permutation (contents m' a) (contents m a) /\ sorted_by less (contents m' a) /\
    same_except m m' (s_arr a) (s_off a) (s_off a + s_len a).
Proof. intros. now apply sort_mem. Qed.
Print Assumptions C45_SortFunc.

(** For any Less (not even an order, NaN included) and any algorithm that
    touches the slice only through the adapter, all six functions leave a
    permutation and write nothing else, even when the algorithm asks for an
    index out of range and panics half-way. *)
Theorem C45_permutation : forall T (lt : T -> T -> bool) alg (m : mem T) a, wf_slice m a ->
  forall f, In f [Sort lt alg; DescSort lt alg; SortFunc alg lt; StableSort lt alg; DescStableSort lt alg; StableSortFunc alg lt] ->
  exists o m', on_slice a f m = (o, m') /\ (o = Ok tt \/ o = Panic) /\ wf_slice m' a /\
    Permutation (contents m' a) (contents m a) /\
    same_except m m' (s_arr a) (s_off a) (s_off a + s_len a).
Proof.
  intros T lt alg m a W.
  assert (K : forall less, exists o m', on_slice a (sort_with alg (funcSortable less)) m = (o, m') /\ (o = Ok tt \/ o = Panic) /\ wf_slice m' a /\
    Permutation (contents m' a) (contents m a) /\ same_except m m' (s_arr a) (s_off a) (s_off a + s_len a)).
  { intros less. destruct (sort_mem_perm less alg m a W) as (o & m' & E & N & R). exists o, m'. split; auto. split; auto.
    destruct o as [[]| |]; auto. congruence. }
  intros f F. cbn in F. destruct F as [<-|[<-|[<-|[<-|[<-|[<-|[]]]]]]];
    [apply (K lt)|apply (K (fun x y => lt y x))|apply (K lt)|apply (K lt)|apply (K (fun x y => lt y x))|apply (K lt)].
Qed.
Print Assumptions C45_permutation.

(** The contracts are satisfiable: insertion sort through Less and Swap. *)
Theorem C45_contract_satisfiable : exists alg, sort_contract alg /\ stable_contract alg.
Proof. exists insertion_sort. split; [apply stable_is_sort|]; apply insertion_stable. Qed.
Print Assumptions C45_contract_satisfiable.

Example Sort_runs : Sort Z.ltb insertion_sort [3;1;2;1] = (Ok tt, [1;1;2;3]).
Proof. reflexivity. Qed.
Example DescSort_runs : DescSort Z.ltb insertion_sort [3;1;2;1] = (Ok tt, [3;2;1;1]).
Proof. reflexivity. Qed.
Example SortFunc_runs : SortFunc insertion_sort (fun x y => Z.ltb (snd x) (snd y)) [(1,3);(2,1);(3,2)] = (Ok tt, [(2,1);(3,2);(1,3)]).
Proof. reflexivity. Qed.
(** A slice in the middle of an array, a neighbour on each side. *)
Example Sort_mem_runs : on_slice (mkSlice 0 1 3 4) (Sort Z.ltb insertion_sort) [[9;3;1;2;8]] = (Ok tt, [[9;1;2;3;8]]).
Proof. reflexivity. Qed.

(** ** C46 stable variants *)
Theorem C46_StableSort : forall T ltb lib_stable (m : mem T) a, strict_weak ltb -> stable_contract lib_stable -> wf_slice m a ->
  exists m', on_slice a (StableSort ltb lib_stable) m = (Ok tt, m') /\ wf_slice m' a /\
    Permutation (contents m' a) (contents m a) /\ sorted_by ltb (contents m' a) /\
    keeps_order ltb (contents m a) (contents m' a) /\
    same_except m m' (s_arr a) (s_off a) (s_off a + s_len a).
Proof. intros. now apply (stable_mem ltb). Qed.
Print Assumptions C46_StableSort.

Theorem C46_DescStableSort : forall T ltb lib_stable (m : mem T) a, strict_weak ltb -> stable_contract lib_stable -> wf_slice m a ->
  exists m', on_slice a (DescStableSort ltb lib_stable) m = (Ok tt, m') /\ wf_slice m' a /\
    Permutation (contents m' a) (contents m a) /\ sorted_by (fun x y => ltb y x) (contents m' a) /\
    keeps_order ltb (contents m a) (contents m' a) /\
    same_except m m' (s_arr a) (s_off a) (s_off a + s_len a).
Proof.
  intros T ltb alg m a SW C W.
  destruct (stable_mem (fun x y => ltb y x) alg m a) as (m' & E & W' & P & S & K & F); auto; [now apply flip_sw|].
  exists m'. do 4 (split; [auto|]). split; auto. intros x. specialize (K x). cbn zeta in *.
  assert (X : forall l, filter (fun y => negb (ltb x y) && negb (ltb y x)) l = filter (fun y => negb (ltb y x) && negb (ltb x y)) l)
    by (intros l; apply filter_ext; intros y; apply andb_comm).
  rewrite !X. exact K.
Qed.
Print Assumptions C46_DescStableSort.

Theorem C46_StableSortFunc : forall T less lib_stable (m : mem T) a, strict_weak less -> stable_contract lib_stable -> wf_slice m a ->
  exists m', on_slice a (StableSortFunc lib_stable less) m = (Ok tt, m') /\ wf_slice m' a /\
    Permutation (contents m' a) (contents m a) /\ sorted_by less (contents m' a) /\
    keeps_order less (contents m a) (contents m' a) /\
    same_except m m' (s_arr a) (s_off a) (s_off a + s_len a).
Proof. intros. now apply stable_mem. Qed.
Print Assumptions C46_StableSortFunc.

(** Ordering pairs by their first component only. *)
Example StableSortFunc_runs :
  StableSortFunc insertion_sort (fun x y => Z.ltb (fst x) (fst y)) [(2,1);(1,1);(2,2);(1,2)] = (Ok tt, [(1,1);(1,2);(2,1);(2,2)]).
Proof. reflexivity. Qed.
Example stable_hyp : strict_weak (fun x y : Z * Z => Z.ltb (fst x) (fst y)).
Proof. constructor; intros *; rewrite ?Z.ltb_lt, ?Z.ltb_ge; lia. Qed.
Example DescStableSort_runs : DescStableSort Z.ltb insertion_sort [1;3;2;3] = (Ok tt, [3;3;2;1]).
Proof. reflexivity. Qed.

(** ** C47 IsSorted, IsDescSorted *)
Theorem C47_IsSorted : forall T ltb (l : list T), strict_weak ltb -> (IsSorted ltb l = true <-> sorted_by ltb l).
Proof. intros. now apply IsSorted_ok. Qed.
Print Assumptions C47_IsSorted.
Theorem C47_IsDescSorted : forall T ltb (l : list T), strict_weak ltb -> (IsDescSorted ltb l = true <-> sorted_by (fun x y => ltb y x) l).
Proof. intros. rewrite IsDescSorted_flip. apply IsSorted_ok. now apply flip_sw. Qed.
Print Assumptions C47_IsDescSorted.

Example IsSorted_true : IsSorted Z.ltb [1;2;2;5] = true. Proof. reflexivity. Qed.
Example IsSorted_false : IsSorted Z.ltb [1;3;2;5] = false. Proof. reflexivity. Qed.
Example IsDescSorted_true : IsDescSorted Z.ltb [5;2;2;1] = true. Proof. reflexivity. Qed.
(** With NaN (None) between them the two ends are never compared. *)
Example IsSorted_nan : IsSorted nltb [Some 2; None; Some 1] = true. Proof. reflexivity. Qed.
