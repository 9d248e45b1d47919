(** C117: changing an element that is in a heap. *)
From Verif Require Import BaseLemmas Spec Proof_Mem Model_Heap Proof_Heap Proof_HeapOps Spec_HeapUpdate Model_HeapUpdate Proof_HeapUpdate.

(** The slice was a heap, then the element at index i became another (stored anew,
    or modified behind a pointer): RemoveHeapFunc of that index, under the order of
    now, returns the element and leaves a heap of exactly the others. *)
Theorem C117_remove : forall T T' (less : T -> T -> bool) (less' : T' -> T' -> bool) l i m h,
  strict_weak less -> strict_weak less' -> min_heap less l ->
  wf_slice m h -> but_one i less l less' (contents m h) -> 0 <= i < s_len h -> s_len h <= max_int ->
  exists x m' h', RemoveHeapFunc i less' (m, h) = (Ok x, (m', h')) /\ zget (contents m h) i = Some x /\
    wf_slice m' h' /\ min_heap less' (contents m' h') /\ Permutation (x :: contents m' h') (contents m h) /\
    h' = mkSlice (s_arr h) (s_off h) (s_len h - 1) (s_cap h) /\ same_except m m' (s_arr h) (s_off h) (s_off h + s_len h).
Proof.
  intros T T' less less' l i m h SW SW' Hh W B Hi Hm. apply remove_changed; auto. rewrite <- (zlen_contents m h W). apply (but_one_down less less' SW _ l); auto.
Qed.
Print Assumptions C117_remove.
Theorem C117_remove_min : forall T T' (ltb : T -> T -> bool) (ltb' : T' -> T' -> bool) l i m h,
  strict_weak ltb -> strict_weak ltb' -> min_heap ltb l ->
  wf_slice m h -> but_one i ltb l ltb' (contents m h) -> 0 <= i < s_len h -> s_len h <= max_int ->
  exists x m' h', RemoveMinHeap ltb' i (m, h) = (Ok x, (m', h')) /\ zget (contents m h) i = Some x /\
    wf_slice m' h' /\ min_heap ltb' (contents m' h') /\ Permutation (x :: contents m' h') (contents m h) /\
    h' = mkSlice (s_arr h) (s_off h) (s_len h - 1) (s_cap h) /\ same_except m m' (s_arr h) (s_off h) (s_off h + s_len h).
Proof. exact C117_remove. Qed.
Print Assumptions C117_remove_min.
(** So does Pop when the first element has changed: it returns that one, least or
    not. *)
Theorem C117_pop : forall T T' (less : T -> T -> bool) (less' : T' -> T' -> bool) l m h,
  strict_weak less -> strict_weak less' -> min_heap less l ->
  wf_slice m h -> but_one 0 less l less' (contents m h) -> 0 < s_len h <= max_int ->
  exists x m' h', PopHeapFunc less' (m, h) = (Ok x, (m', h')) /\ PopMinHeap less' (m, h) = (Ok x, (m', h')) /\ zget (contents m h) 0 = Some x /\
    wf_slice m' h' /\ min_heap less' (contents m' h') /\ Permutation (x :: contents m' h') (contents m h) /\
    h' = mkSlice (s_arr h) (s_off h) (s_len h - 1) (s_cap h) /\ same_except m m' (s_arr h) (s_off h) (s_off h + s_len h).
Proof.
  intros T T' less less' l m h SW SW' Hh W B Hm. destruct (pop_changed less' SW' m h W) as (x & m' & h' & E & H); auto.
  - rewrite <- (zlen_contents m h W). apply (but_one_down less less' SW _ l); auto.
  - exists x, m', h'. split; auto.
Qed.
Print Assumptions C117_pop.
(** h[i] = v, RemoveHeapFunc(&h, i), PushHeapFunc: a heap again, with v for h[i], in
    the same storage. *)
Theorem C117_update : forall T zero grow (less : T -> T -> bool) i v m h,
  strict_weak less -> min_heap less (contents m h) -> wf_slice m h -> 0 <= i < s_len h -> s_len h <= max_int ->
  exists m', update_elem zero grow less i v (m, h) = (Ok tt, (m', h)) /\ update_min zero grow less i v (m, h) = (Ok tt, (m', h)) /\
    wf_slice m' h /\ min_heap less (contents m' h) /\ Permutation (contents m' h) (zupd (contents m h) i v) /\
    same_except m m' (s_arr h) (s_off h) (s_off h + s_len h).
Proof.
  intros T zero grow less i v m h SW Hh W Hi Hm. destruct (update_ok less SW zero grow i v m h W Hh Hi Hm) as (m' & h' & E & W' & H' & P & -> & S). exists m'. auto 10.
Qed.
Print Assumptions C117_update.
(** So any number of updates one after another: as many elements are gone as
    there were updates, and the new ones are there. *)
Theorem C117_updates : forall T zero grow (less : T -> T -> bool) us m h,
  strict_weak less -> min_heap less (contents m h) -> wf_slice m h -> s_len h <= max_int -> Forall (fun u => 0 <= fst u < s_len h) us ->
  exists m' gone, update_all zero grow less us (m, h) = (Ok tt, (m', h)) /\ wf_slice m' h /\ min_heap less (contents m' h) /\ length gone = length us /\ Permutation (gone ++ contents m' h) (map snd us ++ contents m h) /\ same_except m m' (s_arr h) (s_off h) (s_off h + s_len h).
Proof.
  intros T zero grow less us. induction us as [|[i v] us IH]; intros m h SW Hh W Hm F; [exists m, []; split; [reflexivity|]; repeat (split; auto); apply same_except_refl|].
  inversion F as [|? ? Fi Fr]; subst. cbn [fst] in Fi. destruct (C117_update T zero grow less i v m h SW Hh W Fi Hm) as (m1 & E & _ & W1 & H1 & P1 & S1).
  cbn [update_all]. rewrite (bind_Ok _ _ _ _ _ E). destruct (IH m1 h SW H1 W1 Hm Fr) as (m2 & gone & E2 & W2 & H2 & L2 & P2 & S2).
  destruct (zget_range (contents m h) i) as [x Gx]; [rewrite zlen_contents by auto; lia|].
  exists m2, (x :: gone). split; auto. split; auto. split; auto. split; [cbn; now rewrite L2|].
  split; [|eapply same_except_trans; eauto]. cbn [map snd app]. rewrite P2, P1. rewrite Permutation_middle, (zupd_perm _ _ _ _ Gx). apply Permutation_sym, Permutation_middle.
Qed.
Print Assumptions C117_updates.
(** While the changed element is still in its place, the first element is a least
    one if and only if the changed one is not less than it. *)
Theorem C117_top : forall T T' (less : T -> T -> bool) (less' : T' -> T' -> bool) l l' i r x,
  strict_weak less -> min_heap less l -> but_one i less l less' l' -> i <> 0 ->
  zget l' 0 = Some r -> zget l' i = Some x -> (least less' l' r <-> less' x r = false).
Proof.
  intros T T' less less' l l' i r x SW Hh (Hl & Hc) Hi Gr Gx. assert (Here : forall p y, zget l' p = Some y -> In y l'). { intros p y G. apply in_zget. exists p. split; auto. now apply zget_Some_range in G. }
  split; [intros (_ & H); eauto|]. intros Hx. split; [eauto|].
  intros y Hy. apply in_zget in Hy. destruct Hy as (p & Hp & Gy). destruct (Z.eq_dec p i) as [->|N]; [congruence|].
  destruct (zget_range l 0) as [r0 Gr0]; [lia|]. destruct (zget_range l p) as [y0 Gy0]; [lia|]. rewrite (Hc p 0 y0 r0 y r); auto. apply (heap_root_min less SW l); auto. apply in_zget. exists p. split; auto. lia.
Qed.
Print Assumptions C117_top.

(** Expected: the next operations put the changed element right.  False: after
    the store, Pop, which should return a least element, does not. *)
Definition C117_expected : Prop :=
  forall T (less : T -> T -> bool) i v m h m1 x c, strict_weak less -> wf_slice m h -> min_heap less (contents m h) ->
  store_elem i v (m, h) = (Ok tt, (m1, h)) -> PopHeapFunc less (m1, h) = (Ok x, c) -> least less (contents m1 h) x.
Lemma Z_ltb_strict : strict_weak Z.ltb.
Proof. constructor; intros; rewrite ?Z.ltb_lt, ?Z.ltb_ge, ?Z.ltb_irrefl in *; try lia; auto. Qed.
Lemma heap_dec l : IsMinHeap Z.ltb l = Ok true -> min_heap Z.ltb l.
Proof. intros E. destruct (IsMinHeap_spec Z.ltb l) as (b & E1 & H). rewrite E in E1. injection E1 as <-. now apply H. Qed.
Theorem C117_refuted : ~ C117_expected.
Proof.
  intros H. set (h := mkSlice 0 0 3 3). set (m := [[2; 3; 4]]).
  destruct (H Z Z.ltb 2 1 m h [[2; 3; 1]] 2 ([[1; 3; 2]], mkSlice 0 0 2 3)) as (_ & F).
  - exact Z_ltb_strict.
  - unfold wf_slice, arr_of. cbn. unfold zlen. cbn. lia.
  - apply heap_dec. reflexivity.
  - reflexivity.
  - reflexivity.
  - specialize (F 1). vm_compute in F. assert (Q : true = false) by auto. discriminate.
Qed.
Print Assumptions C117_refuted.
(** Expected: when two elements have changed, removing the one and then the other
    leaves a heap. *)
Definition C117_expected_two : Prop :=
  forall T (less : T -> T -> bool) i j v w m h m2 x y m3 h3 m4 h4, strict_weak less -> wf_slice m h -> min_heap less (contents m h) ->
  (store_elem i v ;; store_elem j w) (m, h) = (Ok tt, (m2, h)) -> i < j ->
  RemoveHeapFunc i less (m2, h) = (Ok x, (m3, h3)) -> x = v -> zget (contents m3 h3) j = Some w ->
  RemoveHeapFunc j less (m3, h3) = (Ok y, (m4, h4)) -> min_heap less (contents m4 h4).
Theorem C117_refuted_two : ~ C117_expected_two.
Proof.
  intros H. set (h := mkSlice 0 0 8 8). set (m := [[1; 2; 50; 4; 5; 60; 70; 90]]).
  assert (E : exists m3 h3 m4 h4, RemoveHeapFunc 0 Z.ltb ([[0; 200; 50; 4; 5; 60; 70; 90]], h) = (Ok 0, (m3, h3)) /\ zget (contents m3 h3) 1 = Some 200 /\ RemoveHeapFunc 1 Z.ltb (m3, h3) = (Ok 200, (m4, h4)) /\ IsMinHeap Z.ltb (contents m4 h4) = Ok false).
  { do 4 eexists. split; [vm_compute; reflexivity|]. split; [vm_compute; reflexivity|]. split; vm_compute; reflexivity. }
  destruct E as (m3 & h3 & m4 & h4 & E1 & G & E2 & N).
  assert (F : min_heap Z.ltb (contents m4 h4)).
  { refine (H Z Z.ltb 0 1 0 200 m h _ 0 200 m3 h3 m4 h4 Z_ltb_strict _ _ _ ltac:(lia) E1 eq_refl G E2).
    - unfold wf_slice, arr_of. cbn. unfold zlen. cbn. lia.
    - apply heap_dec. reflexivity.
    - reflexivity. }
  destruct (IsMinHeap_spec Z.ltb (contents m4 h4)) as (b & E & Hb). rewrite N in E. injection E as <-. now apply Hb in F.
Qed.
Print Assumptions C117_refuted_two.

(** A case: tasks held by pointer, with their priorities; that of task 1, at index
    2, becomes 9. *)
Definition c117_prio (p : Z -> Z) : Z -> Z -> bool := fun a b => p a <? p b.
Definition c117_old : Z -> Z := fun t => t.
Definition c117_new : Z -> Z := fun t => if t =? 1 then 9 else t.
Example C117_hyp :
  strict_weak (c117_prio c117_old) /\ strict_weak (c117_prio c117_new) /\ min_heap (c117_prio c117_old) [0; 2; 1; 3; 4; 7] /\
  but_one 2 (c117_prio c117_old) [0; 2; 1; 3; 4; 7] (c117_prio c117_new) [0; 2; 1; 3; 4; 7] /\
  wf_slice [[0; 2; 1; 3; 4; 7]] (mkSlice 0 0 6 6) /\
  RemoveHeapFunc 2 (c117_prio c117_new) ([[0; 2; 1; 3; 4; 7]], mkSlice 0 0 6 6) = (Ok 1, ([[0; 2; 7; 3; 4; 1]], mkSlice 0 0 5 6)) /\
  update_elem 0 (fun _ _ => 8) Z.ltb 3 (-1) ([[0; 2; 1; 3; 4; 7]], mkSlice 0 0 6 6) = (Ok tt, ([[-1; 2; 0; 7; 4; 1]], mkSlice 0 0 6 6)).
Proof.
  assert (SWp : forall p, strict_weak (c117_prio p)). { intros p. unfold c117_prio. constructor; intros; rewrite ?Z.ltb_lt, ?Z.ltb_ge, ?Z.ltb_irrefl in *; try lia; auto. }
  split; [apply SWp|]. split; [apply SWp|]. split; [apply heap_dec; reflexivity|]. split.
  { split; [reflexivity|]. intros p q a b a' b' Hp Hq Ga Gb Ga' Gb'. rewrite Ga in Ga'. rewrite Gb in Gb'. injection Ga' as <-. injection Gb' as <-.
    assert (N : forall k z, k <> 2 -> zget [0; 2; 1; 3; 4; 7] k = Some z -> z <> 1).
    { intros k z Hk G. pose proof (zget_Some_range _ _ _ G) as R. change (zlen [0; 2; 1; 3; 4; 7]) with 6 in R. assert (K : k = 0 \/ k = 1 \/ k = 3 \/ k = 4 \/ k = 5) by lia. destruct K as [-> | [-> | [-> | [-> | ->]]]]; cbn in G; injection G as <-; lia. }
    unfold c117_prio, c117_new, c117_old. destruct (Z.eqb_spec a 1); [now apply N in Ga|]. destruct (Z.eqb_spec b 1); [now apply N in Gb|]. reflexivity. }
  split; [unfold wf_slice, arr_of; cbn; unfold zlen; cbn; lia|]. split; vm_compute; reflexivity.
Qed.
