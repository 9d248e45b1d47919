(** Properties C57-C63 (transform.go, transform_fillzero_*.go, Generate of
    generate.go).  Slices live in a memory of backing arrays, so every
    statement also says what else in memory may have changed. *)
From Verif Require Import BaseLemmas Spec Proof_Mem Model_Transform Proof_Transform Proof_TransformMem.

(** ** C57 Copy / CopyTo *)

(** Copy: equal contents in an array that did not exist before; everything that
    existed is unchanged. *)
Theorem C57_Copy : forall T (zero : T) grow m a, wf_slice m a ->
  exists r m', Copy zero grow a m = (Ok r, m') /\ wf_slice m' r /\ contents m' r = contents m a /\
    (length m <= s_arr r)%nat /\ extends m m'.
Proof. exact @Copy_ok. Qed.
Print Assumptions C57_Copy.

(** Hence isolation: a later write through any old slice [b] (the source
    included) is invisible in the copy, and one through the copy is invisible
    in every old slice. *)
Theorem C57_Copy_isolated : forall T (zero : T) grow m a, wf_slice m a ->
  exists r m', Copy zero grow a m = (Ok r, m') /\
  forall b pos xs, (s_arr b < length m)%nat ->
    contents (write_at m' b pos xs) r = contents m a /\
    contents (write_at m' r pos xs) b = contents m b.
Proof.
  intros T zero grow m a Hwf. destruct (Copy_ok zero grow m a Hwf) as (r & m' & E & W & C & F & X).
  exists r, m'. split; [exact E|]. intros b pos xs Hb. split.
  - rewrite <- C. unfold contents, arr_of. rewrite write_at_nth_other by lia. reflexivity.
  - rewrite <- (extends_contents m m' b X Hb). unfold contents, arr_of. rewrite write_at_nth_other by lia. reflexivity.
Qed.
Print Assumptions C57_Copy_isolated.

(** CopyTo: the result has the source's old contents, also when source and
    target overlap; the target's storage is reused iff its capacity suffices
    and then only its first len(a) slots are written. *)
Theorem C57_CopyTo : forall T (zero : T) grow m a to, wf_slice m a -> wf_slice m to ->
  exists r m', CopyTo zero grow a to m = (Ok r, m') /\ wf_slice m' r /\ contents m' r = contents m a /\
    append_frame m m' to r (s_len a).
Proof. exact @CopyTo_ok. Qed.
Print Assumptions C57_CopyTo.

(** ** C58 Fill *)

(** Slices of up to 2^62 elements (beyond any real memory unless elements have
    size zero). *)
Theorem C58_Fill : forall T (v : T) m a, wf_slice m a -> s_len a <= 2^62 ->
  exists m', on_slice a (Fill v) m = (Ok tt, m') /\ wf_slice m' a /\
    contents m' a = repeat v (length (contents m a)) /\
    same_except m m' (s_arr a) (s_off a) (s_off a + s_len a).
Proof.
  intros T v m a Hwf H. apply inplace; auto.
  - apply Fill_spec. now rewrite zlen_contents.
  - apply repeat_length.
Qed.
Print Assumptions C58_Fill.

(** Beyond that (only possible with zero-size elements) the doubled index
    overflows and Fill panics. *)
Theorem C58_Fill_huge_panics : forall T (v : T) (l : list T),
  2^62 < zlen l <= max_int -> exists l', Fill v l = (Panic, l').
Proof. exact @Fill_overflow. Qed.
Print Assumptions C58_Fill_huge_panics.

(** FillZero, both build variants. *)
Theorem C58_FillZero : forall T (zero : T) m a, wf_slice m a ->
  exists m', on_slice a (FillZero zero) m = (Ok tt, m') /\ wf_slice m' a /\
    contents m' a = repeat zero (length (contents m a)) /\
    same_except m m' (s_arr a) (s_off a) (s_off a + s_len a) /\
    (s_len a <= 2^62 -> on_slice a (FillZero_old zero) m = (Ok tt, m')).
Proof.
  intros T zero m a Hwf.
  destruct (inplace m a (FillZero zero) tt (repeat zero (length (contents m a))) Hwf eq_refl (repeat_length _ _)) as (m' & E & W & C & S).
  exists m'. do 4 (split; [auto|]). intros H.
  rewrite <- E. unfold FillZero_old. rewrite (on_slice_start m a (Fill zero) _ _ Hwf (Fill_spec zero (contents m a) ltac:(rewrite zlen_contents by auto; auto))).
  rewrite (on_slice_start m a (FillZero zero) _ _ Hwf eq_refl). reflexivity.
Qed.
Print Assumptions C58_FillZero.

(** FillPattern; the pattern may be part of the filled slice (its old contents
    count). *)
Theorem C58_FillPattern : forall T (m : mem T) a p, wf_slice m a -> wf_slice m p -> s_len a <= 2^62 ->
  s_len p <> 0 ->
  exists m', FillPattern a p m = (Ok tt, m') /\ wf_slice m' a /\
    (forall i, 0 <= i < s_len a -> zget (contents m' a) i = zget (contents m p) (i mod s_len p)) /\
    same_except m m' (s_arr a) (s_off a) (s_off a + s_len a).
Proof. exact @FillPattern_ok. Qed.
Print Assumptions C58_FillPattern.

Theorem C58_FillPattern_empty : forall T (m : mem T) a p, s_len p = 0 -> FillPattern a p m = (Panic, m).
Proof. intros T m a p H. unfold FillPattern. rewrite H. reflexivity. Qed.
Print Assumptions C58_FillPattern_empty.

Example Fill_runs : Fill 7 [1;2;3;4;5] = (Ok tt, [7;7;7;7;7]).
Proof. reflexivity. Qed.
Example FillPattern_aliased :
  FillPattern (mkSlice 0 1 7 8) (mkSlice 0 2 3 7) [[0;1;2;3;4;5;6;7;8]] = (Ok tt, [[0;2;3;4;2;3;4;2;8]]).
Proof. reflexivity. Qed.

(** ** C59 Transform / TransformTo / TransformCopy / Generate *)

(** [map_st op st l]: results and final callback state of calling op once per
    element, first to last (Spec.v). *)
Theorem C59_Transform : forall T St (op : St -> T -> T * St) st m a, wf_slice m a ->
  exists m', on_slice a (Transform op st) m = (Ok (snd (map_st op st (contents m a))), m') /\ wf_slice m' a /\
    contents m' a = fst (map_st op st (contents m a)) /\
    same_except m m' (s_arr a) (s_off a) (s_off a + s_len a).
Proof. intros. apply inplace; auto; [apply Transform_spec|apply map_st_length]. Qed.
Print Assumptions C59_Transform.

(** TransformTo, when appending to the target cannot overwrite source elements
    that are still to be read: different arrays, or the target starts at or
    before the source (b = a included), or after its end. *)
Theorem C59_TransformTo : forall T (zero : T) grow St (op : St -> T -> T * St) st m a b,
  wf_slice m a -> wf_slice m b ->
  s_arr a <> s_arr b \/ s_off b <= s_off a \/ s_off a + s_len a <= s_off b ->
  exists b' m', TransformTo zero grow a op b st m = (Ok (b', snd (map_st op st (contents m a))), m') /\
    wf_slice m' b' /\ contents m' b' = fst (map_st op st (contents m a)) /\
    old_same_except m m' (s_arr b) (s_off b) (s_off b + Z.min (s_len a) (s_cap b)) /\
    (if s_len a <=? s_cap b then s_arr b' = s_arr b /\ s_off b' = s_off b /\ s_cap b' = s_cap b
     else (length m <= s_arr b')%nat).
Proof. intros T zero grow St. exact (TransformTo_ok zero grow). Qed.
Print Assumptions C59_TransformTo.

(** The side condition is needed: with the target one slot into the source, the
    results of earlier calls are transformed again. *)
Theorem C59_TransformTo_overlap_refuted : exists (m : mem Z) a b,
  wf_slice m a /\ wf_slice m b /\
  exists b' m', TransformTo 0 (fun _ n => n) a (fun (s : unit) x => (x + 1, s)) b tt m = (Ok (b', tt), m') /\
  contents m' b' <> map (fun x => x + 1) (contents m a).
Proof.
  exists [[10;20;30;40]], (mkSlice 0 0 3 4), (mkSlice 0 1 0 3).
  split; [unfold wf_slice, arr_of, zlen; simpl; lia|]. split; [unfold wf_slice, arr_of, zlen; simpl; lia|].
  eexists _, _. split; [vm_compute; reflexivity|]. vm_compute. discriminate.
Qed.
Print Assumptions C59_TransformTo_overlap_refuted.

Theorem C59_TransformCopy : forall T R St (zeroR : R) (op : St -> T -> R * St) st (a : list T) (m : mem R),
  exists r m', TransformCopy zeroR a op st m = (Ok (r, snd (map_st op st a)), m') /\ wf_slice m' r /\
    contents m' r = fst (map_st op st a) /\ (length m <= s_arr r)%nat /\ extends m m'.
Proof. exact @TransformCopy_ok. Qed.
Print Assumptions C59_TransformCopy.

(** Generate: [gen_list gen n st] is the list of n successive results. *)
Theorem C59_Generate : forall T St (gen : St -> T * St) st m a, wf_slice m a ->
  let p := gen_list gen (length (contents m a)) st in
  exists m', on_slice a (Generate gen st) m = (Ok (snd p), m') /\ wf_slice m' a /\
    contents m' a = fst p /\ same_except m m' (s_arr a) (s_off a) (s_off a + s_len a).
Proof. intros. apply inplace; auto; [apply Generate_spec|apply gen_list_length]. Qed.
Print Assumptions C59_Generate.

Example Transform_counts : Transform (fun s x => (x * 10 + s, s + 1)) 0 [1;2;3] = (Ok 3, [10;21;32]).
Proof. reflexivity. Qed.
Example TransformTo_self :
  TransformTo 0 (fun _ n => n) (mkSlice 0 1 3 3) (fun (s : Z) x => (x * 10 + s, s + 1)) (mkSlice 0 1 0 3) 0 [[9;1;2;3]]
  = (Ok (mkSlice 0 1 3 3, 3), [[9;10;21;32]]).
Proof. reflexivity. Qed.
Example Generate_counts : Generate (fun s => (s, s + 1)) 5 [0;0;0] = (Ok 8, [5;6;7]).
Proof. reflexivity. Qed.

(** ** C60 Replace / ReplaceIf *)
Theorem C60_Replace : forall T eqb (old new : T) m a, wf_slice m a ->
  exists m', on_slice a (Replace eqb old new) m = (Ok tt, m') /\ wf_slice m' a /\
    contents m' a = map (fun x => if eqb x old then new else x) (contents m a) /\
    same_except m m' (s_arr a) (s_off a) (s_off a + s_len a).
Proof. intros. apply inplace; auto; [apply Replace_spec|apply map_length]. Qed.
Print Assumptions C60_Replace.

Theorem C60_ReplaceIf : forall T St (pred : St -> T -> bool * St) (new : T) st m a, wf_slice m a ->
  let p := map_st (fun s x => let '(c, s') := pred s x in (if c : bool then new else x, s')) st (contents m a) in
  exists m', on_slice a (ReplaceIf pred new st) m = (Ok (snd p), m') /\ wf_slice m' a /\
    contents m' a = fst p /\ same_except m m' (s_arr a) (s_off a) (s_off a + s_len a).
Proof. intros. apply inplace; auto; [apply ReplaceIf_spec|apply map_st_length]. Qed.
Print Assumptions C60_ReplaceIf.

Example Replace_runs : Replace Z.eqb 2 9 [1;2;3;2] = (Ok tt, [1;9;3;9]).
Proof. reflexivity. Qed.
Example ReplaceIf_runs : ReplaceIf (fun n x => (2 <? x, n + 1)) 0 0 [1;2;3;4] = (Ok 4, [1;2;0;0]).
Proof. reflexivity. Qed.

(** ** C61 Unique / UniqueCopy: [drop_repeats eqb l] is l without the elements
    == to their predecessor in l.  Holds for every Go ==, NaN included. *)
Theorem C61_Unique : forall T eqb, partial_equiv eqb -> forall (m : mem T) a, wf_slice m a ->
  let k := drop_repeats eqb (contents m a) in
  exists r m', Unique eqb a m = (Ok r, m') /\ wf_slice m' r /\ contents m' r = k /\
    s_arr r = s_arr a /\ s_off r = s_off a /\ s_cap r = s_cap a /\
    same_except m m' (s_arr a) (s_off a) (s_off a + zlen k).
Proof. exact @Unique_ok. Qed.
Print Assumptions C61_Unique.

Theorem C61_UniqueCopy : forall T (zero : T) grow eqb, partial_equiv eqb -> forall m a, wf_slice m a ->
  exists r m', UniqueCopy zero grow eqb a m = (Ok r, m') /\ wf_slice m' r /\
    contents m' r = drop_repeats eqb (contents m a) /\ fresh_storage m r /\ extends m m'.
Proof. exact @UniqueCopy_ok. Qed.
Print Assumptions C61_UniqueCopy.

(** The results have no two adjacent equal elements. *)
Theorem C61_no_adjacent_equal : forall T (zero : T) grow eqb, partial_equiv eqb -> forall m a r m', wf_slice m a ->
  Unique eqb a m = (Ok r, m') \/ UniqueCopy zero grow eqb a m = (Ok r, m') ->
  forall i x y, 0 <= i -> zget (contents m' r) i = Some x -> zget (contents m' r) (i + 1) = Some y -> eqb y x = false.
Proof.
  intros T zero grow eqb He m a r m' W H i x y Hi. assert (E : contents m' r = drop_repeats eqb (contents m a)).
  { destruct H as [H|H]; [destruct (Unique_ok eqb He m a W) as (r1 & m1 & H1 & _ & C & _)|destruct (UniqueCopy_ok zero grow eqb He m a W) as (r1 & m1 & H1 & _ & C & _)]; rewrite H1 in H; injection H as <- <-; exact C. }
  rewrite E. now apply drop_repeats_no_adjacent.
Qed.
Print Assumptions C61_no_adjacent_equal.

Lemma Z_partial_equiv : partial_equiv Z.eqb.
Proof. constructor; intros *; rewrite ?Z.eqb_eq; congruence. Qed.
Lemma optZ_partial_equiv : partial_equiv neqb.
Proof. constructor; intros [a|] [b|]; simpl; try discriminate; try (intros [c|]; simpl; try discriminate); rewrite ?Z.eqb_eq; congruence. Qed.
Example Unique_runs : Unique Z.eqb (mkSlice 0 1 6 6) [[9;1;1;2;3;3;1]] = (Ok (mkSlice 0 1 4 6), [[9;1;2;3;1;3;1]]).
Proof. reflexivity. Qed.
Example Unique_nan : drop_repeats neqb [None; None; Some 1; Some 1; None] = [None; None; Some 1; None].
Proof. reflexivity. Qed.

(** ** C62 Remove family *)
Theorem C62_Remove : forall T eqb (x : T) m a, wf_slice m a ->
  let k := filter (fun v => negb (eqb v x)) (contents m a) in
  exists r m', Remove eqb a x m = (Ok r, m') /\ wf_slice m' r /\ contents m' r = k /\
    s_arr r = s_arr a /\ s_off r = s_off a /\ s_cap r = s_cap a /\
    same_except m m' (s_arr a) (s_off a) (s_off a + zlen k).
Proof. exact @Remove_ok. Qed.
Print Assumptions C62_Remove.

Theorem C62_RemoveCopy : forall T (zero : T) grow eqb (x : T) m a, wf_slice m a ->
  exists r m', RemoveCopy zero grow eqb a x m = (Ok r, m') /\ wf_slice m' r /\
    contents m' r = filter (fun v => negb (eqb v x)) (contents m a) /\
    fresh_storage m r /\ extends m m'.
Proof. exact @RemoveCopy_ok. Qed.
Print Assumptions C62_RemoveCopy.

(** [reject_st cond st l]: elements whose predicate call said false, calling it
    once per element, first to last. *)
Theorem C62_RemoveIf : forall T St (cond : St -> T -> bool * St) st m a, wf_slice m a ->
  let p := reject_st cond st (contents m a) in
  exists r m', RemoveIf a cond st m = (Ok (r, snd p), m') /\ wf_slice m' r /\ contents m' r = fst p /\
    s_arr r = s_arr a /\ s_off r = s_off a /\ s_cap r = s_cap a /\
    same_except m m' (s_arr a) (s_off a) (s_off a + zlen (fst p)).
Proof. exact @RemoveIf_ok. Qed.
Print Assumptions C62_RemoveIf.

Theorem C62_RemoveIfCopy : forall T (zero : T) grow St (cond : St -> T -> bool * St) st m a, wf_slice m a ->
  let p := reject_st cond st (contents m a) in
  exists r m', RemoveIfCopy zero grow a cond st m = (Ok (r, snd p), m') /\ wf_slice m' r /\ contents m' r = fst p /\
    fresh_storage m r /\ extends m m'.
Proof. exact @RemoveIfCopy_ok. Qed.
Print Assumptions C62_RemoveIfCopy.

Example Remove_runs : Remove Z.eqb (mkSlice 0 1 4 5) 2 [[9;2;1;2;3;8]] = (Ok (mkSlice 0 1 2 5), [[9;1;3;2;3;8]]).
Proof. reflexivity. Qed.
Example RemoveIfCopy_runs :
  RemoveIfCopy 0 (fun _ n => n) (mkSlice 0 0 4 4) (fun s x => (x <? 3, s + 1)) 0 [[1;4;2;5]] = (Ok (mkSlice 1 0 2 4, 4), [[1;4;2;5];[4;5;0;0]]).
Proof. reflexivity. Qed.

(** ** C63 Reverse / ReverseCopy / Shuffle *)
Theorem C63_Reverse : forall T (m : mem T) a, wf_slice m a ->
  exists m', on_slice a Reverse m = (Ok tt, m') /\ wf_slice m' a /\ contents m' a = rev (contents m a) /\
    same_except m m' (s_arr a) (s_off a) (s_off a + s_len a).
Proof. intros. apply inplace; auto; [apply Reverse_spec|apply rev_length]. Qed.
Print Assumptions C63_Reverse.

Theorem C63_ReverseCopy : forall T (zero : T) grow m a, wf_slice m a ->
  exists r m', ReverseCopy zero grow a m = (Ok r, m') /\ wf_slice m' r /\
    contents m' r = rev (contents m a) /\ fresh_storage m r /\ extends m m'.
Proof. exact @ReverseCopy_ok. Qed.
Print Assumptions C63_ReverseCopy.

(** Shuffle: any swap sequence with indexes in range (what rand.Shuffle
    promises) gives a permutation. *)
Theorem C63_Shuffle : forall T swaps (m : mem T) a, wf_slice m a ->
  Forall (fun p => 0 <= fst p < s_len a /\ 0 <= snd p < s_len a) swaps ->
  exists m', on_slice a (Shuffle swaps) m = (Ok tt, m') /\ wf_slice m' a /\
    Permutation (contents m' a) (contents m a) /\
    same_except m m' (s_arr a) (s_off a) (s_off a + s_len a).
Proof.
  intros T swaps m a Hwf H.
  destruct (Shuffle_spec swaps (contents m a)) as (l' & E & P); [now rewrite zlen_contents|].
  destruct (inplace m a _ _ _ Hwf E (Permutation_length P)) as (m' & E' & W & C & S).
  exists m'. split; [auto|]. split; [auto|]. split; [now rewrite C|auto].
Qed.
Print Assumptions C63_Shuffle.

Example Reverse_runs : Reverse [1;2;3;4;5] = (Ok tt, [5;4;3;2;1]).
Proof. reflexivity. Qed.
Example Shuffle_runs : Shuffle [(3,1);(2,2);(1,0)] [1;2;3;4] = (Ok tt, [4;1;3;2]).
Proof. reflexivity. Qed.
