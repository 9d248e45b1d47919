(** Property C120: the maxima of all windows of w consecutive elements, computed with a
    DListQueue (dlist_queue.go).  Proofs in Proof_Window.v, the specification
    [window_maxima] in Spec_Window.v. *)
From Verif Require Import BaseLemmas Spec Trace Nodes Model_DList Model_DListQueue Model_Window Spec_Window Props_DList Proof_Window.

(** C120: from an empty queue, in a heap that holds anything else, the program never
    panics and gives the first maximum of each window, in order. *)
Theorem C120_window : forall T (zero : T) less, strict_weak less -> forall h0 w vs, 1 <= w ->
  exists r s', slide zero less w 0 vs [] (h0, NewDListQueue) = (Ok r, s') /\ window_maxima less w vs r.
Proof.
  intros T zero less SW h0 w vs Hw. apply (slide_ok zero less SW h0 w vs Hw [] []); [apply QRel_init| |].
  - split; [intros j x []|]. split; [intros k y _ G; apply zget_Some_range in G; change (zlen (@nil T)) with 0 in G; lia|]. intros i j a b H G. apply zget_Some_range in G. change (zlen (@nil (Z * T))) with 0 in G. lia.
  - split; [change (zlen (@nil T)) with 0; lia|]. intros i x G. apply zget_Some_range in G. change (zlen (@nil T)) with 0 in G. lia.
Qed.
Print Assumptions C120_window.

(** C120: there is only one such sequence, so the result is determined. *)
Theorem C120_unique : forall T (less : T -> T -> bool) w vs r r', window_maxima less w vs r -> window_maxima less w vs r' -> r = r'.
Proof.
  intros T less w vs r r' [L M] [L' M']. apply zlist_eq. intros i _.
  destruct (zget r i) as [x|] eqn:G, (zget r' i) as [x'|] eqn:G'; auto.
  - destruct (M i x G) as (j & Hj & Gj & F), (M' i x' G') as (j' & Hj' & Gj' & F'). destruct (F j' x' Hj' Gj') as [A B], (F' j x Hj Gj) as [A' B'].
    destruct (Z.lt_trichotomy j j') as [H|[-> |H]]; [rewrite (B' H) in A; discriminate|congruence|rewrite (B H) in A'; discriminate].
  - apply zget_Some_range in G. apply zget_None in G'. lia.
  - apply zget_Some_range in G'. apply zget_None in G. lia.
Qed.
Print Assumptions C120_unique.

(** C120: with a width that is not positive the first element makes it panic, as the
    queue is then empty when Front is called. *)
Theorem C120_not_positive : forall T (zero : T) less h0 w v vs, w <= 0 ->
  fst (slide zero less w 0 (v :: vs) [] (h0, NewDListQueue)) = Panic.
Proof.
  intros T zero less h0 w v vs Hw. cbn [slide].
  destruct (w_len (0, zero) h0 _ _ (QRel_init h0)) as (s1 & E1 & R1). unfold bind at 1. rewrite E1. change (Z.to_nat (zlen (@nil (Z * T)))) with O. cbn [drop_less].
  destruct (w_empty (0, zero) h0 _ _ R1) as (s2 & E2 & R2). unfold bind at 1. unfold bind at 1. rewrite E2. cbn [zlen length Z.of_nat Z.eqb]. unfold ret at 1.
  destruct (w_pushback (0, zero) h0 (0, v) _ _ R2) as (s3 & E3 & R3). unfold bind at 1. rewrite E3.
  destruct (w_front (0, zero) h0 _ _ _ R3) as (s4 & E4 & R4). unfold bind at 1. rewrite E4. cbn [fst]. replace (0 <=? 0 - w) with true by lia.
  destruct (w_popfront (0, zero) h0 _ _ _ R4) as (s5 & E5 & R5). unfold bind at 1. unfold bind at 1. rewrite E5. unfold ret at 1.
  replace (0 + 1 >=? w) with true by lia. destruct (w_front_nil (0, zero) h0 _ R5) as (s6 & E6). unfold bind at 1. rewrite E6. reflexivity.
Qed.
Print Assumptions C120_not_positive.

(** Concrete cases: windows of 3, of 1, wider than the sequence; the first of equal
    maxima (pairs compared by the first component). *)
Example C120_hyp : strict_weak Z.ltb /\ 1 <= 3.
Proof. split; [apply Z_ltb_strict_weak|lia]. Qed.
Example C120_runs :
  map (fun w => fst (slide 0 Z.ltb w 0 [1; 3; -1; -3; 5; 3; 6; 7] [] ([], NewDListQueue))) [3; 1; 9] =
  [Ok [3; 3; 5; 5; 6; 7]; Ok [1; 3; -1; -3; 5; 3; 6; 7]; Ok []] /\
  fst (slide (0, 0) (fun a b => fst a <? fst b) 2 0 [(1, 0); (1, 1); (0, 2); (1, 3)] [] ([], NewDListQueue)) = Ok [(1, 0); (1, 1); (1, 3)].
Proof. split; reflexivity. Qed.
