(** Properties C41-C44 (binary_search.go).  Only statements; proofs are in
    Proof_BinarySearch.v.  [zget a i = Some x] reads "i is a valid index and
    a[i] is x". *)
From Verif Require Import BaseLemmas Spec Model_BinarySearch Proof_BinarySearch.

(** C41: on a slice that is partitioned at p (exactly the first p elements are
    less than the value), LowerBound returns p. *)
Theorem C41_LowerBound_partition : forall T (ltb : T -> T -> bool) a v p,
  0 <= p <= zlen a ->
  (forall i x, zget a i = Some x -> ltb x v = (i <? p)) ->
  LowerBound ltb a v = Ok p.
Proof. intros. rewrite LowerBound_bs. exact (lower_partition _ a p H H0). Qed.
Print Assumptions C41_LowerBound_partition.

Theorem C41_LowerBoundFunc_partition : forall T (less : T -> T -> bool) a v p,
  0 <= p <= zlen a ->
  (forall i x, zget a i = Some x -> less x v = (i <? p)) ->
  LowerBoundFunc a v less = Ok p.
Proof. intros. rewrite LowerBoundFunc_bs. exact (lower_partition _ a p H H0). Qed.
Print Assumptions C41_LowerBoundFunc_partition.

(** C41, sorted form: on a sorted slice the result r splits the slice: the
    elements before r are less than the value, those from r on are not. *)
Theorem C41_LowerBound_sorted : forall T (ltb : T -> T -> bool) a v,
  strict_weak ltb -> sorted_by ltb a ->
  exists r, LowerBound ltb a v = Ok r /\ 0 <= r <= zlen a /\
    forall i x, zget a i = Some x -> ltb x v = (i <? r).
Proof. intros. rewrite LowerBound_bs. exact (lower_sorted ltb a v H H0). Qed.
Print Assumptions C41_LowerBound_sorted.

Theorem C41_LowerBoundFunc_sorted : forall T (less : T -> T -> bool) a v,
  strict_weak less -> sorted_by less a ->
  exists r, LowerBoundFunc a v less = Ok r /\ 0 <= r <= zlen a /\
    forall i x, zget a i = Some x -> less x v = (i <? r).
Proof. intros. rewrite LowerBoundFunc_bs. exact (lower_sorted less a v H H0). Qed.
Print Assumptions C41_LowerBoundFunc_sorted.

(** C41, any slice (sorted or not) and any less: terminates, never panics, and
    the result is a place where the comparison flips. *)
Theorem C41_LowerBound_total : forall T (ltb : T -> T -> bool) a v,
  exists r, LowerBound ltb a v = Ok r /\ 0 <= r <= zlen a /\
    (forall x, zget a (r - 1) = Some x -> ltb x v = true) /\
    (forall x, zget a r = Some x -> ltb x v = false).
Proof. intros. rewrite LowerBound_bs. exact (run_bs (fun x => ltb x v) a). Qed.
Print Assumptions C41_LowerBound_total.

Theorem C41_LowerBoundFunc_total : forall T (less : T -> T -> bool) a v,
  exists r, LowerBoundFunc a v less = Ok r /\ 0 <= r <= zlen a /\
    (forall x, zget a (r - 1) = Some x -> less x v = true) /\
    (forall x, zget a r = Some x -> less x v = false).
Proof. intros. rewrite LowerBoundFunc_bs. exact (run_bs (fun x => less x v) a). Qed.
Print Assumptions C41_LowerBoundFunc_total.

(** C42: on a slice where exactly the elements from p on are greater than the
    value, UpperBound returns p. *)
Theorem C42_UpperBound_partition : forall T (ltb : T -> T -> bool) a v p,
  0 <= p <= zlen a ->
  (forall i x, zget a i = Some x -> ltb v x = (p <=? i)) ->
  UpperBound ltb a v = Ok p.
Proof.
  intros. rewrite UpperBound_bs. apply (lower_partition _ a p H).
  intros i x Hx. rewrite (H0 _ _ Hx). lia.
Qed.
Print Assumptions C42_UpperBound_partition.

Theorem C42_UpperBoundFunc_partition : forall T (less : T -> T -> bool) a v p,
  0 <= p <= zlen a ->
  (forall i x, zget a i = Some x -> less v x = (p <=? i)) ->
  UpperBoundFunc a v less = Ok p.
Proof.
  intros. rewrite UpperBoundFunc_bs. apply (lower_partition _ a p H).
  intros i x Hx. rewrite (H0 _ _ Hx). lia.
Qed.
Print Assumptions C42_UpperBoundFunc_partition.

Theorem C42_UpperBound_sorted : forall T (ltb : T -> T -> bool) a v,
  strict_weak ltb -> sorted_by ltb a ->
  exists r, UpperBound ltb a v = Ok r /\ 0 <= r <= zlen a /\
    forall i x, zget a i = Some x -> ltb v x = (r <=? i).
Proof. intros. rewrite UpperBound_bs. exact (upper_sorted ltb a v H H0). Qed.
Print Assumptions C42_UpperBound_sorted.

Theorem C42_UpperBoundFunc_sorted : forall T (less : T -> T -> bool) a v,
  strict_weak less -> sorted_by less a ->
  exists r, UpperBoundFunc a v less = Ok r /\ 0 <= r <= zlen a /\
    forall i x, zget a i = Some x -> less v x = (r <=? i).
Proof. intros. rewrite UpperBoundFunc_bs. exact (upper_sorted less a v H H0). Qed.
Print Assumptions C42_UpperBoundFunc_sorted.

Theorem C42_UpperBound_total : forall T (ltb : T -> T -> bool) a v,
  exists r, UpperBound ltb a v = Ok r /\ 0 <= r <= zlen a /\
    (forall x, zget a (r - 1) = Some x -> ltb v x = false) /\
    (forall x, zget a r = Some x -> ltb v x = true).
Proof.
  intros. rewrite UpperBound_bs. destruct (run_bs (fun x => negb (ltb v x)) a) as (r & Hr & Hb & HL & HR).
  exists r. repeat split; auto; try apply Hb; intros x Hx.
  - now apply negb_true_iff, HL.
  - now apply negb_false_iff, HR.
Qed.
Print Assumptions C42_UpperBound_total.

Theorem C42_UpperBoundFunc_total : forall T (less : T -> T -> bool) a v,
  exists r, UpperBoundFunc a v less = Ok r /\ 0 <= r <= zlen a /\
    (forall x, zget a (r - 1) = Some x -> less v x = false) /\
    (forall x, zget a r = Some x -> less v x = true).
Proof.
  intros. rewrite UpperBoundFunc_bs. destruct (run_bs (fun x => negb (less v x)) a) as (r & Hr & Hb & HL & HR).
  exists r. repeat split; auto; try apply Hb; intros x Hx.
  - now apply negb_true_iff, HL.
  - now apply negb_false_iff, HR.
Qed.
Print Assumptions C42_UpperBoundFunc_total.

(** C43: on a sorted slice BinarySearch finds the first element == value, or
    reports (-1,false) exactly when there is none. *)
Theorem C43_BinarySearch : forall T (ltb eqb : T -> T -> bool) a v,
  ordered ltb eqb -> sorted_by ltb a ->
  exists r, BinarySearch ltb eqb a v = Ok r /\
    match r with
    | (i, true) => first_index (fun x => eqb x v) a i
    | (i, false) => i = -1 /\ forall x, In x a -> eqb x v = false
    end.
Proof. intros. exact (bsearch_ordered ltb eqb a v H H0). Qed.
Print Assumptions C43_BinarySearch.

(** BinarySearchFunc: "equal" means neither is less than the other. *)
Theorem C43_BinarySearchFunc : forall T (less : T -> T -> bool) a v,
  strict_weak less -> sorted_by less a ->
  exists r, BinarySearchFunc a v less = Ok r /\
    match r with
    | (i, true) => first_index (fun x => negb (less x v) && negb (less v x)) a i
    | (i, false) => i = -1 /\ forall x, In x a -> negb (less x v) && negb (less v x) = false
    end.
Proof. intros. exact (bsearch_sorted less a v H H0). Qed.
Print Assumptions C43_BinarySearchFunc.

(** C44: [LowerBound, UpperBound) is exactly the range of elements == value. *)
Theorem C44_equal_range : forall T (ltb eqb : T -> T -> bool) a v,
  ordered ltb eqb -> sorted_by ltb a ->
  exists lo hi, LowerBound ltb a v = Ok lo /\ UpperBound ltb a v = Ok hi /\
    0 <= lo <= hi /\ hi <= zlen a /\
    forall i x, zget a i = Some x -> eqb x v = (lo <=? i) && (i <? hi).
Proof.
  intros T ltb eqb a v [Hw He] Hs. rewrite LowerBound_bs, UpperBound_bs.
  destruct (lower_sorted ltb a v Hw Hs) as (lo & -> & Hlo & HL).
  destruct (upper_sorted ltb a v Hw Hs) as (hi & -> & Hhi & HU).
  exists lo, hi. split; [auto|]. split; [auto|]. split.
  - split; [lia|]. destruct (Z_le_dec lo hi); auto.
    destruct (zget_range a hi) as [x Hx]; [lia|].
    pose proof (HL _ _ Hx). pose proof (HU _ _ Hx).
    assert (ltb x v = true) by (rewrite H; lia). assert (ltb v x = true) by (rewrite H0; lia).
    destruct Hw as [Hi Ht _]. specialize (Ht x v x H1 H2). rewrite Hi in Ht. discriminate.
  - split; [lia|]. intros i x Hx. rewrite He, (HL _ _ Hx), (HU _ _ Hx). lia.
Qed.
Print Assumptions C44_equal_range.

(** C70 (complexity O(log n), documented at lines 7, 31, 53, 77): each loop
    finishes within floor(log2 n) + 1 iterations; the fuel of the loop counts
    its iterations and the result with that fuel is the function's result. *)
Theorem C70_binary_search_steps : forall T (less : T -> T -> bool) a v,
  LowerBound less a v = LowerBound_loop less (log2_steps (zlen a)) a v 0 (zlen a) /\
  LowerBoundFunc a v less = LowerBoundFunc_loop less (log2_steps (zlen a)) a v 0 (zlen a) /\
  UpperBound less a v = UpperBound_loop less (log2_steps (zlen a)) a v 0 (zlen a) /\
  UpperBoundFunc a v less = UpperBoundFunc_loop less (log2_steps (zlen a)) a v 0 (zlen a).
Proof.
  intros.
  rewrite LowerBound_bs, LowerBoundFunc_bs, UpperBound_bs, UpperBoundFunc_bs.
  rewrite LowerBound_loop_bs, LowerBoundFunc_loop_bs, UpperBound_loop_bs, UpperBoundFunc_loop_bs.
  destruct (run_bs (fun x => less x v) a) as (r1 & E1 & _).
  destruct (run_bs (fun x => negb (less v x)) a) as (r2 & E2 & _).
  rewrite (bs_steps _ _ _ E1), (bs_steps _ _ _ E2). auto.
Qed.
Print Assumptions C70_binary_search_steps.

(** The hypotheses are satisfiable: a sorted slice with duplicates. *)
Example sorted_example : sorted_by Z.ltb [1; 3; 3; 5; 8].
Proof.
  intros i j a b Hij Ha Hb. pose proof (zget_Some_range _ _ _ Hb) as Hj. unfold zlen in Hj; simpl in Hj.
  assert (Hcase : (i = 0 \/ i = 1 \/ i = 2 \/ i = 3) /\ (j = 1 \/ j = 2 \/ j = 3 \/ j = 4)) by lia.
  destruct Hcase as [[->|[->|[->| ->]]] [->|[->|[->| ->]]]]; try lia;
  cbv in Ha, Hb; inversion Ha; inversion Hb; subst; reflexivity.
Qed.
Example binary_search_runs :
  LowerBound Z.ltb [1; 3; 3; 5; 8] 3 = Ok 1 /\ UpperBound Z.ltb [1; 3; 3; 5; 8] 3 = Ok 3 /\
  BinarySearch Z.ltb Z.eqb [1; 3; 3; 5; 8] 3 = Ok (1, true) /\
  BinarySearch Z.ltb Z.eqb [1; 3; 3; 5; 8] 4 = Ok (-1, false).
Proof. repeat split. Qed.
