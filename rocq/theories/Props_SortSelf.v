(** C129: SortFunc and StableSortFunc when less reads and writes memory, the slice
    being sorted included. *)
From Verif Require Import BaseLemmas Spec Proof_Mem Model_Heap Model_Sort Spec_Sort Proof_Sort Model_PQSelf Spec_HeapSelf Proof_HeapSelf Spec_SortSelf Model_SortSelf Proof_SortSelf.

(** Whatever less does and whatever the sort package does: a claim about the state
    that calls of less with elements of the slice and exchanges of its elements
    keep holds in the end; less is called at most as often as the package calls
    Less; there is a panic only if less panics or an index is out of range. *)
Theorem C129_any : forall T X (less : T -> T -> @QP T X bool) h I mayfail alg k n s, kept I mayfail h less -> asks_most k (alg (s_len h)) -> I n s ->
  forall p, In p [SortFuncSelf less alg h; StableSortFuncSelf less alg h] ->
  after I (mayfail \/ ~ in_range (s_len h) (alg (s_len h))) n k (p s).
Proof. intros T X less h I mayfail alg k n s K A H p [<-|[<-|[]]]; now apply run_kept. Qed.
Print Assumptions C129_any.

(** A less function that reorders the slice, and counts its calls. *)
Theorem C129_shuffled : forall T (less : T -> T -> @QP T Z bool) m h c x alg k, wf_slice m h -> shuffles h less -> counting less ->
  asks_most k (alg (s_len h)) -> in_range (s_len h) (alg (s_len h)) ->
  forall p, In p [SortFuncSelf less alg h; StableSortFuncSelf less alg h] ->
  exists m' c' x', p ((m, c), x) = (Ok tt, ((m', c'), x')) /\ Permutation (contents m' h) (contents m h) /\
    same_except m m' (s_arr h) (s_off h) (s_off h + s_len h) /\ x <= x' <= x + k.
Proof.
  intros T less m h c x alg k W Sh Co A R p Hp.
  destruct (C129_any _ _ less h _ _ alg k x ((m, c), x) (reordered_kept h less Sh Co m) A (reordered_start h m c x W) p Hp) as (n' & o & [[m' c'] x'] & E & (Ex & _ & P & S) & Hn & Ho).
  destruct o as [[]| |]; [|destruct Ho as [[]|Ho]; now destruct Ho|destruct Ho]. exists m', c', x'. split; auto. split; auto. split; auto. lia.
Qed.
Print Assumptions C129_shuffled.

(** A less function that answers as the order f and leaves the elements of the
    slice alone, whatever it does to other memory: the slice is sorted. *)
Theorem C129_minded : forall T X f (less : T -> T -> @QP T X bool) m h c x, strict_weak f -> wf_slice m h -> minds f h less ->
  (forall lib_sort, sort_contract lib_sort -> exists m' c' x', SortFuncSelf less lib_sort h ((m, c), x) = (Ok tt, ((m', c'), x')) /\ wf_slice m' h /\
     Permutation (contents m' h) (contents m h) /\ sorted_by f (contents m' h)) /\
  (forall lib_stable, stable_contract lib_stable -> exists m' c' x', StableSortFuncSelf less lib_stable h ((m, c), x) = (Ok tt, ((m', c'), x')) /\ wf_slice m' h /\
     Permutation (contents m' h) (contents m h) /\ sorted_by f (contents m' h) /\ keeps_order f (contents m h) (contents m' h)).
Proof.
  intros T X f less m h c x Sw W L. split; intros alg C; destruct (same_run f h less L (alg (s_len h)) m c x W) as (o & m' & c' & x' & E & W' & P).
  - destruct (sort_ok f alg (contents m h) Sw C) as (l' & E' & Pm & So). unfold sort_with, bind in E'. cbn [Len funcSortable] in E'. unfold wlen in E'. rewrite zlen_contents in E' by auto. rewrite P in E'. injection E' as -> <-. exists m', c', x'. auto.
  - destruct (stable_ok f alg (contents m h) Sw C) as (l' & E' & Pm & So & Ko). unfold sort_with, bind in E'. cbn [Len funcSortable] in E'. unfold wlen in E'. rewrite zlen_contents in E' by auto. rewrite P in E'. injection E' as -> <-. exists m', c', x'. auto.
Qed.
Print Assumptions C129_minded.

(** Cases that meet the hypotheses: insertion sort; a less function that exchanges
    the first two elements, and one that sets a slice to nil and allocates. *)
Example C129_insertion : forall n, 0 <= n -> in_range n (insertion_sort n) /\ asks_most (n * n) (insertion_sort n) /\ sort_contract insertion_sort /\ stable_contract insertion_sort.
Proof.
  intros n Hn. unfold insertion_sort. split; [apply outer_range; lia|]. split; [|split; [apply stable_is_sort|]; apply insertion_stable].
  pose proof (outer_asks (Z.to_nat n) 0) as H. replace (Z.of_nat (Z.to_nat n) * Z.of_nat (0 + Z.to_nat n)) with (n * n) in H by (cbn [Nat.add]; now rewrite Z2Nat.id by lia). exact H.
Qed.
Definition stir (h : slice) (a b : Z) : @QP Z Z bool := fun s => let '((m, c), x) := with_exchanged h 0 1 s in (Ok (a <? b), ((m, c), x + 1)).
Definition allocating (a b : Z) : @QP Z Z bool := fun s => let '((m, c), x) := s in (Ok (a <? b), ((m ++ [[a; b]], nil_slice), x + 1)).
Example C129_stir : forall h, shuffles h (stir h) /\ counting (stir h).
Proof.
  intros h. split; [|intros a b m c x; reflexivity]. intros m c x a b W. assert (Zl : zlen (zswap (contents m h) 0 1) = s_len h) by (rewrite zlen_zswap; now apply zlen_contents).
  exists (a <? b), (write_at m h 0 (zswap (contents m h) 0 1)), c, (x + 1). split; [reflexivity|]. split; [now apply wf_write_self|]. split; [rewrite contents_write_at by auto; apply zswap_perm|now apply same_except_write].
Qed.
Example C129_allocating : forall h, minds Z.ltb h allocating.
Proof.
  intros h m c x a b W. exists (m ++ [[a; b]]), nil_slice, (x + 1). split; [reflexivity|]. destruct W as (A1 & A2 & A3 & A4).
  assert (Ea : arr_of (m ++ [[a; b]]) h = arr_of m h) by (unfold arr_of; now rewrite app_nth1). unfold wf_slice, contents. rewrite Ea, app_length. split; auto. lia.
Qed.
Example C129_runs : let h := mkSlice 0 1 4 4 in let m := [[9; 3; 4; 1; 2]] in
  wf_slice m h /\
  SortFuncSelf allocating insertion_sort h ((m, h), 0) = (Ok tt, (([[9; 1; 2; 3; 4]; [4; 3]; [1; 4]; [1; 3]; [2; 4]; [2; 3]; [2; 1]], nil_slice), 6)) /\
  SortFuncSelf (stir h) insertion_sort h ((m, h), 0) = (Ok tt, (([[9; 3; 2; 1; 4]], h), 6)).
Proof. split; [unfold wf_slice, zlen; simpl; lia|]. vm_compute. auto. Qed.

(** Expected: if every answer of less is that of one order, the slice is sorted
    though less reorders it.  False. *)
Definition C129_expected : Prop := forall T (f : T -> T -> bool) (less : T -> T -> @QP T Z bool) alg m h c x, strict_weak f -> wf_slice m h -> sort_contract alg ->
  shuffles h less -> (forall a b s, fst (less a b s) = Ok (f a b)) -> sorted_by f (contents (fst (fst (snd (SortFuncSelf less alg h ((m, c), x))))) h).
Theorem C129_refuted : ~ C129_expected.
Proof.
  intros E. set (h := mkSlice 0 0 2 2). assert (W : wf_slice [[1; 2]] h) by (unfold wf_slice, zlen; simpl; lia).
  specialize (E Z Z.ltb (stir h) insertion_sort [[1; 2]] h h 0 Z_ltb_strict_weak W (stable_is_sort _ insertion_stable) (proj1 (C129_stir h)) ltac:(intros a b [[m c] x]; reflexivity)).
  specialize (E 0 1 2 1 ltac:(lia) eq_refl eq_refl). discriminate E.
Qed.
Print Assumptions C129_refuted.
