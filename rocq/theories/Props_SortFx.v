(** Property C103 (sort.go): less functions that panic or keep state. *)
From Coq Require Import Permutation.
From Verif Require Import BaseLemmas Spec Spec_Fx Spec_Sort Model_Sort Proof_Mem Proof_Sort Model_TransformFx Proof_TransformFx Model_SortFx Proof_SortFx.

(** C103: whatever less does (short of not returning) and whatever sequence of
    Less and Swap calls the sort package makes, the slice is left with its
    elements in some order, also when less panics, and nothing else is written.
    less is only called on elements of the slice. *)
Theorem C103_permutation : forall T St (P Q : St -> Prop) (less : T -> T -> M St bool) alg m a st,
  wf_slice m a -> contract (fun x => In x (contents m a)) P Q less -> P st ->
  forall f, In f [SortFuncFx alg less; StableSortFuncFx alg less] ->
  exists o m' st', on_slice_fx a f (m, st) = (o, (m', st')) /\ wf_slice m' a /\
    Permutation (contents m' a) (contents m a) /\ same_except m m' (s_arr a) (s_off a) (s_off a + s_len a) /\
    match o with Ok _ => P st' | Panic => P st' \/ Q st' | NoFuel => False end.
Proof.
  intros T St P Q less alg m a st W C HP f Hf.
  assert (f = SortFuncFx alg less) by (destruct Hf as [<-|[<-|[]]]; reflexivity). subst f. clear Hf.
  destruct (run_fx _ P Q less C (alg (zlen (contents m a))) (contents m a) st (fun x H => H) HP) as (o & l' & st' & R & Pm & O & _).
  destruct (on_slice_fx_ok (SortFuncFx alg less) m a st o l' st' W R (Permutation_length Pm)) as (m' & E & _ & W' & Cm & S).
  exists o, m', st'. rewrite Cm. auto 10.
Qed.
Print Assumptions C103_permutation.

(** C103: with a sort package that keeps its contract, and a less whose answers,
    when it returns, are those of a strict weak order: the slice is sorted (for
    StableSortFunc stably) when the call returns; it panics only if less does. *)
Theorem C103_SortFunc : forall T St (P Q : St -> Prop) f (less : T -> T -> M St bool) lib_sort m a st,
  wf_slice m a -> contract (fun x => In x (contents m a)) P Q less -> answers (fun x => In x (contents m a)) P f less -> P st ->
  strict_weak f -> sort_contract lib_sort ->
  exists o m' st', on_slice_fx a (SortFuncFx lib_sort less) (m, st) = (o, (m', st')) /\ ends_in P Q o st' /\
    wf_slice m' a /\ Permutation (contents m' a) (contents m a) /\
    same_except m m' (s_arr a) (s_off a) (s_off a + s_len a) /\
    (o = Ok tt -> sorted_by f (contents m' a)).
Proof.
  intros T St P Q f less alg m a st W C A HP SW Cn.
  destruct (run_fx _ P Q less C (alg (zlen (contents m a))) (contents m a) st (fun x H => H) HP) as (o & l' & st' & R & Pm & O & F).
  destruct (on_slice_fx_ok (SortFuncFx alg less) m a st o l' st' W R (Permutation_length Pm)) as (m' & E & _ & W' & Cm & S).
  exists o, m', st'. rewrite Cm. split; [exact E|].
  destruct (sort_ok f alg (contents m a) SW Cn) as (l2 & E2 & _ & So).
  change (run_sort (funcSortable f) (alg (zlen (contents m a))) (contents m a) = (Ok tt, l2)) in E2.
  destruct (F f A) as [G|[-> G]].
  - rewrite G in E2. injection E2 as -> ->. auto 10.
  - split; [exact G|]. split; [auto|]. split; [auto|]. split; [auto|]. discriminate.
Qed.
Print Assumptions C103_SortFunc.

Theorem C103_StableSortFunc : forall T St (P Q : St -> Prop) f (less : T -> T -> M St bool) lib_stable m a st,
  wf_slice m a -> contract (fun x => In x (contents m a)) P Q less -> answers (fun x => In x (contents m a)) P f less -> P st ->
  strict_weak f -> stable_contract lib_stable ->
  exists o m' st', on_slice_fx a (StableSortFuncFx lib_stable less) (m, st) = (o, (m', st')) /\ ends_in P Q o st' /\
    wf_slice m' a /\ Permutation (contents m' a) (contents m a) /\
    same_except m m' (s_arr a) (s_off a) (s_off a + s_len a) /\
    (o = Ok tt -> sorted_by f (contents m' a) /\ keeps_order f (contents m a) (contents m' a)).
Proof.
  intros T St P Q f less alg m a st W C A HP SW Cn.
  destruct (run_fx _ P Q less C (alg (zlen (contents m a))) (contents m a) st (fun x H => H) HP) as (o & l' & st' & R & Pm & O & F).
  destruct (on_slice_fx_ok (StableSortFuncFx alg less) m a st o l' st' W R (Permutation_length Pm)) as (m' & E & _ & W' & Cm & S).
  exists o, m', st'. rewrite Cm. split; [exact E|].
  destruct (stable_ok f alg (contents m a) SW Cn) as (l2 & E2 & _ & So & St2).
  change (run_sort (funcSortable f) (alg (zlen (contents m a))) (contents m a) = (Ok tt, l2)) in E2.
  destruct (F f A) as [G|[-> G]].
  - rewrite G in E2. injection E2 as -> ->. auto 10.
  - split; [exact G|]. split; [auto|]. split; [auto|]. split; [auto|]. discriminate.
Qed.
Print Assumptions C103_StableSortFunc.

(** A less that counts its calls in st and panics at the fifth. *)
Definition C103_less : Z -> Z -> M Z bool := fun x y st => if st =? 4 then (Panic, st) else (Ok (x <? y), st + 1).
Example C103_hyp : forall D, contract D (fun st => st <= 4) (fun st => st = 4) C103_less /\
  answers D (fun st => st <= 4) Z.ltb C103_less /\ strict_weak Z.ltb /\
  stable_contract insertion_sort /\ sort_contract insertion_sort.
Proof.
  intros D. split; [|split; [|split; [|split]]].
  - intros x y st _ _ H. unfold C103_less. destruct (Z.eqb_spec st 4); lia.
  - intros x y st r st' _ _ _. unfold C103_less. destruct (st =? 4); congruence.
  - constructor; intros *; rewrite ?Z.ltb_lt, ?Z.ltb_ge; lia.
  - apply insertion_stable.
  - apply stable_is_sort, insertion_stable.
Qed.
(** It stops half-way through a slice in the middle of an array, all elements
    still there; with enough calls left the slice is sorted. *)
Example C103_runs :
  on_slice_fx (mkSlice 0 1 4 4) (SortFuncFx insertion_sort C103_less) ([[9;4;3;2;1;8]], 0) = (Panic, ([[9;2;3;1;4;8]], 4)) /\
  on_slice_fx (mkSlice 0 1 4 4) (SortFuncFx insertion_sort C103_less) ([[9;4;3;2;1;8]], -10) = (Ok tt, ([[9;1;2;3;4;8]], -4)).
Proof. split; reflexivity. Qed.
