(** C128: the functions of heap.go that take a less function, when less reads and
    writes memory, the slice of the heap and *heap included. *)
From Verif Require Import BaseLemmas Spec Proof_Mem Model_Heap Proof_Heap Proof_HeapOps Proof_HeapTotal Model_PQSelf Model_HeapSelf Spec_HeapSelf Proof_HeapSelf.

(** Whatever less does: a claim about the state that calls of less with elements
    of the slice and exchanges of its elements keep, all the functions keep.  They
    end, panic only if less does, and call it at most so many times.  PopHeapFunc
    and RemoveHeapFunc go on with the slice they started with: in the end *heap is
    that one without its last element, which they return. *)
Theorem C128_MakeHeapFunc : forall T X (less : T -> T -> @QP T X bool) h I mayfail n m c x,
  kept I mayfail h less -> s_len h <= max_int -> I n ((m, c), x) -> after I mayfail n (2 * s_len h) (MakeHeap_self less h ((m, c), x)).
Proof. intros T X less h I mayfail n m c x K Lm H. apply make_kept; auto. destruct K as (Kw & _). pose proof (Kw _ _ _ _ H) as (_ & _ & A & _). lia. Qed.
Print Assumptions C128_MakeHeapFunc.
Theorem C128_IsHeapFunc : forall T X (less : T -> T -> @QP T X bool) h I mayfail n m c x,
  kept I mayfail h less -> I n ((m, c), x) -> after I mayfail n (Z.max 0 (s_len h - 1)) (IsHeap_self less h ((m, c), x)).
Proof. intros T X less h I mayfail n m c x K H. apply is_kept; auto. destruct K as (Kw & _). pose proof (Kw _ _ _ _ H) as (_ & _ & A & _). lia. Qed.
Print Assumptions C128_IsHeapFunc.
Theorem C128_PushHeapFunc : forall T X (less : T -> T -> @QP T X bool) zero grow v m h0 m1 h I mayfail n x,
  wf_slice m h0 -> append_list zero grow h0 [v] m = (Ok h, m1) -> kept I mayfail h less -> s_len h <= max_int -> I n ((m1, h), x) ->
  after I mayfail n (Z.log2 (s_len h)) (PushHeap_self zero grow less v ((m, h0), x)).
Proof. intros T X less zero grow v m h0 m1 h I mayfail n x W Ea K Lm H. eapply push_kept; eauto. Qed.
Print Assumptions C128_PushHeapFunc.
Theorem C128_PopHeapFunc : forall T X (less : T -> T -> @QP T X bool) h I mayfail n m x,
  kept I mayfail h less -> s_len h <= max_int -> 0 < s_len h -> I n ((m, h), x) -> took I mayfail h n (2 * Z.log2 (s_len h - 1)) (PopHeap_self less ((m, h), x)).
Proof. intros T X less h I mayfail n m x K Lm H0 H. now apply pop_kept. Qed.
Print Assumptions C128_PopHeapFunc.
Theorem C128_RemoveHeapFunc : forall T X (less : T -> T -> @QP T X bool) h I mayfail n m x i,
  kept I mayfail h less -> s_len h <= max_int -> 0 <= i < s_len h -> I n ((m, h), x) -> took I mayfail h n (2 * Z.log2 (s_len h)) (RemoveHeap_self less i ((m, h), x)).
Proof. intros T X less h I mayfail n m x i K Lm Hi H. now apply remove_kept. Qed.
Print Assumptions C128_RemoveHeapFunc.

(** A less function that reorders the slice, and counts its calls: the elements
    stay (Pop and Remove take out the one they return), no other memory is
    written, and there are at most 2 log2 n calls (MakeHeapFunc: 2n). *)
Theorem C128_shuffled : forall T (less : T -> T -> @QP T Z bool) m h c x, wf_slice m h -> s_len h <= max_int -> shuffles h less -> counting less ->
  (exists m' c' x', MakeHeap_self less h ((m, c), x) = (Ok tt, ((m', c'), x')) /\ Permutation (contents m' h) (contents m h) /\
     same_except m m' (s_arr h) (s_off h) (s_off h + s_len h) /\ x <= x' <= x + 2 * s_len h) /\
  (exists b m' c' x', IsHeap_self less h ((m, c), x) = (Ok b, ((m', c'), x')) /\ Permutation (contents m' h) (contents m h) /\
     same_except m m' (s_arr h) (s_off h) (s_off h + s_len h) /\ x <= x' <= x + Z.max 0 (s_len h - 1)) /\
  (0 < s_len h -> exists v m' x', PopHeap_self less ((m, h), x) = (Ok v, ((m', shorter h), x')) /\ wf_slice m' (shorter h) /\
     Permutation (v :: contents m' (shorter h)) (contents m h) /\ same_except m m' (s_arr h) (s_off h) (s_off h + s_len h) /\ x <= x' <= x + 2 * Z.log2 (s_len h - 1)) /\
  (forall i, 0 <= i < s_len h -> exists v m' x', RemoveHeap_self less i ((m, h), x) = (Ok v, ((m', shorter h), x')) /\ wf_slice m' (shorter h) /\
     Permutation (v :: contents m' (shorter h)) (contents m h) /\ same_except m m' (s_arr h) (s_off h) (s_off h + s_len h) /\ x <= x' <= x + 2 * Z.log2 (s_len h)).
Proof.
  intros T less m h c x W Lm Sh Co. pose proof (reordered_kept h less Sh Co m) as K. pose proof (fun c => reordered_start h m c x W) as H.
  assert (Tk : forall k r, took (reordered h m) False h x k r -> exists v m' x', r = (Ok v, ((m', shorter h), x')) /\ wf_slice m' (shorter h) /\
     Permutation (v :: contents m' (shorter h)) (contents m h) /\ same_except m m' (s_arr h) (s_off h) (s_off h + s_len h) /\ x <= x' <= x + k).
  { intros k r (n' & m' & c' & x' & (Ex & W' & P & E) & Hn & [(v & -> & G)|([] & _)]). destruct (last_perm h m' v W' G) as [Ws Pv]. exists v, m', x'. split; auto. split; auto. split; [now rewrite Pv|]. split; auto. lia. }
  split; [|split; [|split]].
  - destruct (C128_MakeHeapFunc _ _ less h _ _ _ _ _ _ K Lm (H c)) as (n' & o & [[m' c'] x'] & E & (Ex & _ & P & S) & Hn & Ho). destruct o as [[]| |]; try destruct Ho. exists m', c', x'. split; auto. split; auto. split; auto. lia.
  - destruct (C128_IsHeapFunc _ _ less h _ _ _ _ _ _ K (H c)) as (n' & o & [[m' c'] x'] & E & (Ex & _ & P & S) & Hn & Ho). destruct o as [b| |]; try destruct Ho. exists b, m', c', x'. split; auto. split; auto. split; auto. lia.
  - intros H0. eapply Tk, C128_PopHeapFunc; eauto.
  - intros i Hi. eapply Tk, C128_RemoveHeapFunc; eauto.
Qed.
Print Assumptions C128_shuffled.
Theorem C128_shuffled_push : forall T (less : T -> T -> @QP T Z bool) zero grow v m h0 m1 h x, wf_slice m h0 -> append_list zero grow h0 [v] m = (Ok h, m1) -> s_len h <= max_int -> shuffles h less -> counting less ->
  exists m' c' x', PushHeap_self zero grow less v ((m, h0), x) = (Ok tt, ((m', c'), x')) /\ wf_slice m' h /\ Permutation (contents m' h) (v :: contents m h0) /\ x <= x' <= x + Z.log2 (s_len h).
Proof.
  intros T less zero grow v m h0 m1 h x W Ea Lm Sh Co. destruct (append_list_ok zero grow h0 [v] m W) as (h1 & m1' & Ea' & W1 & C1 & L1 & _). rewrite Ea in Ea'. injection Ea' as <- <-.
  destruct (C128_PushHeapFunc _ _ less zero grow v m h0 m1 h _ _ x x W Ea (reordered_kept h less Sh Co m1) Lm (reordered_start h m1 h x W1)) as (n' & o & [[m' c'] x'] & E & (Ex & W' & P & _) & Hn & Ho).
  destruct o as [[]| |]; try destruct Ho. exists m', c', x'. split; auto. split; auto. split; [|lia]. rewrite P, C1. now rewrite Permutation_app_comm.
Qed.
Print Assumptions C128_shuffled_push.

(** A less function that answers as the order f and leaves the elements of the
    slice alone, whatever it does to other memory and to *heap: the functions do
    what they do with f. *)
Theorem C128_minded : forall T X f (less : T -> T -> @QP T X bool) m h c x, strict_weak f -> wf_slice m h -> s_len h <= max_int -> minds f h less ->
  (exists m' c' x', MakeHeap_self less h ((m, c), x) = (Ok tt, ((m', c'), x')) /\ wf_slice m' h /\ min_heap f (contents m' h) /\ Permutation (contents m' h) (contents m h)) /\
  (exists b m' c' x', IsHeap_self less h ((m, c), x) = (Ok b, ((m', c'), x')) /\ contents m' h = contents m h /\
     (b = true <-> forall c p y, 0 < c -> zget (contents m h) ((c - 1) / 2) = Some p -> zget (contents m h) c = Some y -> f p y = true)) /\
  (min_heap f (contents m h) -> 0 < s_len h -> exists v m' x', PopHeap_self less ((m, h), x) = (Ok v, ((m', shorter h), x')) /\ wf_slice m' (shorter h) /\
     (forall y, In y (contents m h) -> f y v = false) /\ min_heap f (contents m' (shorter h)) /\ Permutation (v :: contents m' (shorter h)) (contents m h)) /\
  (min_heap f (contents m h) -> forall i, 0 <= i < s_len h -> exists v m' x', RemoveHeap_self less i ((m, h), x) = (Ok v, ((m', shorter h), x')) /\ wf_slice m' (shorter h) /\
     zget (contents m h) i = Some v /\ min_heap f (contents m' (shorter h)) /\ Permutation (v :: contents m' (shorter h)) (contents m h)).
Proof.
  intros T X f less m h c x Sw W Lm L. split; [|split; [|split]].
  - destruct (make_minds f h less L m c x W) as (o & m' & c' & x' & E & W' & P). destruct (MakeHeap_mem T f m h Sw W Lm) as (m2 & E2 & W2 & H2 & P2 & _).
    unfold on_slice in E2. rewrite P in E2. injection E2 as -> <-. exists m', c', x'. split; auto. split; auto.
    rewrite contents_write_at in * by (auto; now apply zlen_contents). auto.
  - destruct (is_minds f h less L m c x W) as (o & m' & c' & x' & E & W' & C' & <-). destruct (IsHeapFunc_spec f (contents m h)) as (b & Eb & Hb). rewrite Eb in E. exists b, m', c', x'. auto.
  - intros Hh H0. destruct (PopHeap_min T f Sw m h W Hh (conj H0 Lm)) as (v & m2 & h2 & E & Hm & W2 & H2 & P2 & _). destruct (pop_minds f h less L m x v m2 h2 W H0 E) as (m' & x' & E' & W' & C'). exists v, m', x'. rewrite C'. auto 10.
  - intros Hh i Hi. destruct (RemoveHeapFunc_ok f Sw i m h W Hh Hi Lm) as (v & m2 & h2 & E & Hm & W2 & H2 & P2 & _). destruct (remove_minds f h less L m x i v m2 h2 W ltac:(lia) E) as (m' & x' & E' & W' & C'). exists v, m', x'. rewrite C'. auto 10.
Qed.
Print Assumptions C128_minded.
Theorem C128_minded_push : forall T X f (less : T -> T -> @QP T X bool) zero grow v m h0 m1 h x, strict_weak f -> wf_slice m h0 -> s_len h0 < max_int -> min_heap f (contents m h0) ->
  append_list zero grow h0 [v] m = (Ok h, m1) -> minds f h less ->
  exists m' c' x', PushHeap_self zero grow less v ((m, h0), x) = (Ok tt, ((m', c'), x')) /\ wf_slice m' h /\ min_heap f (contents m' h) /\ Permutation (contents m' h) (v :: contents m h0).
Proof.
  intros T X f less zero grow v m h0 m1 h x Sw W Lm Hh Ea L. destruct (push_minds f h less L zero grow v m h0 x m1 W Lm Ea) as (o & m2 & c2 & x2 & m3 & E & W2 & E3 & C2).
  destruct (PushHeapFunc_ok f Sw zero grow v m h0 W Hh) as (m4 & h4 & E4 & W4 & H4 & P4 & _). rewrite E3 in E4. injection E4 as -> <- <-. exists m2, c2, x2. rewrite C2. auto.
Qed.
Print Assumptions C128_minded_push.

(** Cases that meet the hypotheses: a less function that exchanges the first two
    elements of the slice, and one that sets *heap to nil and allocates. *)
Definition stirring (h : slice) (a b : Z) : @QP Z Z bool := fun s => let '((m, c), x) := with_exchanged h 0 1 s in (Ok (a <? b), ((m, c), x + 1)).
Definition careless (a b : Z) : @QP Z Z bool := fun s => let '((m, c), x) := s in (Ok (a <? b), ((m ++ [[a; b]], nil_slice), x + 1)).
Example C128_stirring : forall h, shuffles h (stirring h) /\ counting (stirring h).
Proof.
  intros h. split; [|intros a b m c x; reflexivity]. intros m c x a b W. assert (Zl : zlen (zswap (contents m h) 0 1) = s_len h) by (rewrite zlen_zswap; now apply zlen_contents).
  exists (a <? b), (write_at m h 0 (zswap (contents m h) 0 1)), c, (x + 1). split; [reflexivity|]. split; [now apply wf_write_self|]. split; [rewrite contents_write_at by auto; apply zswap_perm|now apply same_except_write].
Qed.
Example C128_careless : forall h, minds Z.ltb h careless.
Proof.
  intros h m c x a b W. exists (m ++ [[a; b]]), nil_slice, (x + 1). split; [reflexivity|]. destruct W as (A1 & A2 & A3 & A4).
  assert (Ea : arr_of (m ++ [[a; b]]) h = arr_of m h) by (unfold arr_of; now rewrite app_nth1). unfold wf_slice, contents. rewrite Ea, app_length. split; auto. lia.
Qed.
Example C128_runs : let h := mkSlice 0 0 5 5 in let m := [[5; 3; 4; 1; 2]] in
  wf_slice m h /\ s_len h <= max_int /\
  MakeHeap_self careless h ((m, h), 0) = (Ok tt, (([[1; 2; 4; 3; 5]; [2; 1]; [1; 3]; [4; 1]; [1; 5]; [2; 3]; [2; 5]], nil_slice), 6)) /\
  MakeHeap_self (stirring h) h ((m, h), 0) = (Ok tt, (([[5; 1; 4; 3; 2]], h), 4)).
Proof. split; [unfold wf_slice, zlen; simpl; lia|]. split; [unfold max_int; cbn; lia|]. vm_compute. auto. Qed.

(** Expected: if every answer of less is that of one order, MakeHeapFunc makes a
    heap of it though less reorders the slice.  False. *)
Definition C128_expected : Prop := forall T (f : T -> T -> bool) (less : T -> T -> @QP T Z bool) m h c x, strict_weak f -> wf_slice m h -> s_len h <= max_int ->
  shuffles h less -> (forall a b s, fst (less a b s) = Ok (f a b)) -> min_heap f (contents (fst (fst (snd (MakeHeap_self less h ((m, c), x))))) h).
Theorem C128_refuted : ~ C128_expected.
Proof.
  intros E. set (h := mkSlice 0 0 5 5). specialize (E Z Z.ltb (stirring h) [[5; 3; 4; 1; 2]] h h 0). assert (Sw : strict_weak Z.ltb).
  { split; intros *; rewrite ?Z.ltb_lt, ?Z.ltb_ge; lia. }
  assert (W : wf_slice [[5; 3; 4; 1; 2]] h) by (unfold wf_slice, zlen; simpl; lia).
  specialize (E Sw W ltac:(unfold max_int; cbn; lia) (proj1 (C128_stirring h))).
  specialize (E ltac:(intros a b [[m c] x]; reflexivity) 1 5 1 ltac:(lia)). vm_compute in E. discriminate E; reflexivity.
Qed.
Print Assumptions C128_refuted.
