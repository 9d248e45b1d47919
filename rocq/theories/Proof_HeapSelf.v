(** Heap functions whose less function reads and writes memory. *)
From Verif Require Import BaseLemmas Spec Proof_Mem Spec_Heap Model_Heap Proof_Heap Proof_HeapOps Proof_HeapTotal Proof_HeapLinear Model_PriorityQueue Model_PQSelf Spec_PQSelf Proof_PQSelf Spec_HeapSelf Model_HeapSelf.

(** ** Number of calls *)
Lemma log_child n i j : 0 <= i -> 2 * i + 1 <= j -> j < n -> Z.log2 (n / (j + 1)) + 1 <= Z.log2 (n / (i + 1)).
Proof.
  intros Hi Hj Hn. assert (1 <= n / (j + 1)) by (apply Z.div_le_lower_bound; lia).
  replace (Z.log2 (n / (j + 1)) + 1) with (Z.log2 (2 * (n / (j + 1)))) by (rewrite Z.log2_double; lia).
  apply Z.log2_le_mono. apply Z.div_le_lower_bound; [lia|].
  pose proof (Z.mul_div_le n (j + 1) ltac:(lia)). nia.
Qed.
Lemma log_parent j : 0 < j -> Z.log2 ((j - 1) / 2 + 1) + 1 = Z.log2 (j + 1).
Proof.
  intros Hj. replace ((j - 1) / 2 + 1) with ((j + 1) / 2) by (replace (j + 1) with (j - 1 + 1 * 2) by lia; rewrite Z.div_add; lia).
  pose proof (Z.div_mod (j + 1) 2 ltac:(lia)) as E. pose proof (Z.mod_pos_bound (j + 1) 2 ltac:(lia)). set (q := (j + 1) / 2) in *.
  assert (0 < q) by lia. assert (j + 1 = 2 * q \/ j + 1 = 2 * q + 1) as [Q|Q] by lia; rewrite Q; [rewrite Z.log2_double|rewrite Z.log2_succ_double]; lia.
Qed.

Section Kept.
Context {T X : Type}.
Variables (I : Z -> cell T * X -> Prop) (mayfail : Prop) (h : slice) (less : T -> T -> @QP T X bool).
Hypothesis K : kept I mayfail h less.
Hypothesis Lm : s_len h <= max_int.

Notation after := (after I mayfail).
Lemma after_ret {A} n k (a : A) s : I n s -> 0 <= k -> after n k (ret a s).
Proof. intros H Hk. exists n, (Ok a), s. repeat split; auto; lia. Qed.
Lemma after_bind {A B} n k1 k2 (p : @QP T X A) (q : A -> @QP T X B) s : after n k1 (p s) -> 0 <= k2 ->
  (forall a n' s', p s = (Ok a, s') -> I n' s' -> n <= n' <= n + k1 -> after n' k2 (q a s')) -> after n (k1 + k2) (bind p q s).
Proof.
  intros (n' & o & s' & E & H & Hn & Ho) Hk Hq. unfold bind. rewrite E. destruct o as [a| |]; [|exists n', Panic, s'; repeat split; auto; lia|destruct Ho].
  destruct (Hq a n' s' E H Hn) as (n2 & o2 & s2 & E2 & H2 & Hn2 & Ho2). exists n2, o2, s2. repeat split; auto; lia.
Qed.
Lemma after_le {A} n k k' (r : outcome A * (cell T * X)) : after n k r -> k <= k' -> after n k' r.
Proof. intros (n' & o & s' & E & H & Hn & Ho) Hk. exists n', o, s'. repeat split; auto; lia. Qed.
Lemma load_kept n s i : I n s -> 0 <= i < s_len h -> exists v, zget (contents (fst (fst s)) h) i = Some v /\ In v (contents (fst (fst s)) h) /\ h_load h i s = (Ok v, s).
Proof using K.
  destruct s as [[m c] x]. cbn [fst]. intros H Hi. destruct K as (Kw & _). destruct (load_at m h c x i (Kw _ _ _ _ H) Hi) as (v & G & E). exists v. split; auto. split; auto.
  unfold zget in G. destruct (i <? 0); [discriminate|]. eapply nth_error_In; eauto.
Qed.
Lemma less_kept n s a b : I n s -> In a (contents (fst (fst s)) h) -> In b (contents (fst (fst s)) h) -> after n 1 (less a b s).
Proof using K. destruct s as [[m c] x]. cbn [fst]. intros H Ha Hb. destruct K as (_ & Kl & _). destruct (Kl n m c x a b H Ha Hb) as (o & s' & E & H' & Ho). exists (n + 1), o, s'. repeat split; auto; lia. Qed.
Lemma swap_kept n s i j : I n s -> 0 <= i < s_len h -> 0 <= j < s_len h -> h_swap h i j s = (Ok tt, with_exchanged h i j s) /\ I n (with_exchanged h i j s).
Proof using K. destruct s as [[m c] x]. intros H Hi Hj. destruct K as (Kw & _ & Ks). split; [|now apply Ks]. rewrite swap_at by eauto. reflexivity. Qed.
(** Loading two elements and comparing them. *)
Lemma ask_kept n s i j : I n s -> 0 <= i < s_len h -> 0 <= j < s_len h -> after n 1 (bind (h_load h i) (fun a => bind (h_load h j) (fun b => less a b)) s).
Proof using K.
  intros H Hi Hj. destruct (load_kept n s i H Hi) as (a & _ & Ia & Ea). destruct (load_kept n s j H Hj) as (b & _ & Ib & Eb).
  rewrite (bind_Ok _ _ _ _ _ Ea), (bind_Ok _ _ _ _ _ Eb). now apply less_kept.
Qed.
Lemma ask_then {B} n s i j k (q : bool -> @QP T X B) : I n s -> 0 <= i < s_len h -> 0 <= j < s_len h -> 0 <= k ->
  (forall r n' s', I n' s' -> n <= n' <= n + 1 -> after n' k (q r s')) -> after n (1 + k) (bind (h_load h i) (fun a => bind (h_load h j) (fun b => bind (less a b) q)) s).
Proof using K.
  intros H Hi Hj Hk Hq. destruct (load_kept n s i H Hi) as (a & _ & Ia & Ea). destruct (load_kept n s j H Hj) as (b & _ & Ib & Eb).
  rewrite (bind_Ok _ _ _ _ _ Ea), (bind_Ok _ _ _ _ _ Eb). apply after_bind; [now apply less_kept|exact Hk|]. intros r n' s' _ H' Hn. now apply Hq.
Qed.

Lemma up_kept fuel : forall j n s, I n s -> 0 <= j < s_len h -> j < Z.of_nat fuel -> after n (Z.log2 (j + 1)) (heapUp_self less h fuel j s).
Proof using K.
  induction fuel as [|fu IH]; intros j n s H Hj Hf; [lia|]. cbn [heapUp_self]. cbv zeta. pose proof (Z.log2_nonneg (j + 1)).
  destruct (Z.eqb_spec (Z.quot (j - 1) 2) j) as [E|E]; [now apply after_ret|].
  assert (J0 : 0 < j). { destruct (Z.eq_dec j 0) as [->|]; [cbv in E|]; lia. }
  rewrite quot_parent in * by lia. assert (B : 0 <= (j - 1) / 2 < j) by (pose proof (Z.div_pos (j - 1) 2); pose proof (Z.div_le_upper_bound (j - 1) 2 (j - 1)); lia).
  pose proof (log_parent j J0) as L. set (i := (j - 1) / 2) in *. clearbody i. pose proof (Z.log2_nonneg (i + 1)).
  replace (Z.log2 (j + 1)) with (1 + Z.log2 (i + 1)) by lia. apply ask_then; auto; [lia|]. intros r n' s' H' Hn'.
  destruct (negb r); [now apply after_ret|]. destruct (swap_kept n' s' i j H') as [Es Hs]; auto; try lia. rewrite (bind_Ok _ _ _ _ _ Es). apply IH; auto; lia.
Qed.
Lemma down_kept k i0 fuel : forall i n s, I n s -> 0 <= i <= k -> k <= s_len h -> k - i < Z.of_nat fuel -> after n (2 * Z.log2 (k / (i + 1))) (heapDown_self less h fuel i0 k i s).
Proof using K Lm.
  induction fuel as [|fu IH]; intros i n s H Hi Hk Hf; [lia|]. cbn [heapDown_self]. cbv zeta. pose proof (Z.log2_nonneg (k / (i + 1))) as Ln.
  pose proof (wrap64_child i k ltac:(lia) ltac:(lia) ltac:(lia)) as Hw. cbv zeta in Hw.
  destruct ((wrap64 (2 * i + 1) >=? k) || (wrap64 (2 * i + 1) <? 0)); [apply after_ret; auto; lia|]. destruct Hw as [-> Hj1].
  pose proof (log_child k i (2 * i + 1) ltac:(lia) ltac:(lia) ltac:(lia)) as Lc. pose proof (Z.log2_nonneg (k / (2 * i + 1 + 1))).
  replace (2 * Z.log2 (k / (i + 1))) with (1 + (1 + (2 * Z.log2 (k / (i + 1)) - 2))) by lia. apply after_bind; [|lia|].
  { destruct (Z.ltb_spec (2 * i + 1 + 1) k); [apply ask_kept; auto; lia|apply after_ret; auto; lia]. }
  intros right n' s' Er H' Hn'.
  assert (Hr : (if right then 2 * i + 1 + 1 else 2 * i + 1) < k). { destruct right; auto. destruct (Z.ltb_spec (2 * i + 1 + 1) k); auto. discriminate Er. }
  clear Er. set (j := if right then _ else _) in *. assert (Hj : 2 * i + 1 <= j) by (unfold j; destruct right; lia). clearbody j.
  apply ask_then; auto; try lia. intros r n2 s2 H2 Hn2. destruct (negb r); [apply after_ret; auto; lia|].
  destruct (swap_kept n2 s2 i j H2) as [Es Hs]; auto; try lia. rewrite (bind_Ok _ _ _ _ _ Es). pose proof (log_child k i j ltac:(lia) Hj Hr).
  eapply after_le; [apply IH; auto; lia|lia].
Qed.
(** MakeHeapFunc: sum over i < k of 2 log2 (n / (i+1)). *)
Lemma make_loop_kept fuel : forall k n s, I n s -> (k <= fuel)%nat -> Z.of_nat k <= s_len h ->
  after n (2 * sum_below (fun i => Z.log2 (s_len h / (i + 1))) k) (MakeHeap_self_loop less h fuel (s_len h) (Z.of_nat k - 1) s).
Proof using K Lm.
  induction fuel as [|fu IH]; intros k n s H Hk Hl.
  - destruct k; [|lia]. cbn [MakeHeap_self_loop sum_below Z.geb Z.compare Z.of_nat Z.sub Z.add Z.opp]. apply after_ret; auto. lia.
  - cbn [MakeHeap_self_loop]. destruct k as [|k]; [cbn; apply after_ret; auto; lia|]. replace (Z.of_nat (S k) - 1) with (Z.of_nat k) by lia.
    destruct (Z.geb_spec (Z.of_nat k) 0); [|lia]. cbn [sum_below].
    assert (S0 : 0 <= sum_below (fun i => Z.log2 (s_len h / (i + 1))) k).
    { clear. induction k as [|k IH]; cbn [sum_below]; [lia|]. pose proof (Z.log2_nonneg (s_len h / (Z.of_nat k + 1))). lia. }
    eapply after_le; [apply after_bind with (k1 := 2 * Z.log2 (s_len h / (Z.of_nat k + 1))) (k2 := 2 * sum_below (fun i => Z.log2 (s_len h / (i + 1))) k)|lia]; [apply down_kept; auto; lia|lia|].
    intros _ n' s' _ H' Hn'. apply IH; auto; lia.
Qed.
Lemma make_kept n s : I n s -> 0 <= s_len h -> after n (2 * s_len h) (MakeHeap_self less h s).
Proof using K Lm.
  intros H H0. unfold MakeHeap_self. rewrite Z.quot_div_nonneg by lia.
  assert (D : 0 <= s_len h / 2 <= s_len h) by (split; [apply Z.div_pos; lia|apply Z.div_le_upper_bound; lia]).
  rewrite <- (Z2Nat.id (s_len h / 2)) by lia. eapply after_le; [apply make_loop_kept; auto; lia|].
  pose proof (sum_logs (s_len h) H0) as S.
  assert (P : forall k j, sum_below (fun i => Z.log2 (s_len h / (i + 1))) k <= sum_below (fun i => Z.log2 (s_len h / (i + 1))) (k + j)).
  { intros k j. induction j as [|j IH]; [rewrite Nat.add_0_r; lia|]. rewrite Nat.add_succ_r. cbn [sum_below]. pose proof (Z.log2_nonneg (s_len h / (Z.of_nat (k + j) + 1))). lia. }
  specialize (P (Z.to_nat (s_len h / 2)) (Z.to_nat (s_len h - s_len h / 2))). replace (Z.to_nat (s_len h / 2) + Z.to_nat (s_len h - s_len h / 2))%nat with (Z.to_nat (s_len h)) in P by lia. lia.
Qed.
Lemma is_loop_kept fuel : forall p c n s, I n s -> 0 <= p < c -> s_len h - c <= Z.of_nat fuel -> after n (Z.max 0 (s_len h - c)) (IsHeap_self_loop less h fuel p c s).
Proof using K.
  induction fuel as [|fu IH]; intros p c n s H Hp Hf; cbn [IsHeap_self_loop]; destruct (Z.ltb_spec c (s_len h)); try (apply after_ret; auto; lia); [lia|].
  replace (Z.max 0 (s_len h - c)) with (1 + Z.max 0 (s_len h - (c + 1))) by lia. apply ask_then; auto; try lia. intros r n' s' H' Hn'.
  destruct (negb r); [apply after_ret; auto; lia|]. apply IH; auto; [destruct (Z.land c 1 =? 0); lia|lia].
Qed.
Lemma is_kept n s : I n s -> 0 <= s_len h -> after n (Z.max 0 (s_len h - 1)) (IsHeap_self less h s).
Proof using K. intros H H0. apply is_loop_kept; auto; lia. Qed.

(** The end of PopHeapFunc and RemoveHeapFunc. *)
Notation shorter := (shorter h).
Lemma end_kept n m c x : I n ((m, c), x) -> 0 < s_len h -> exists v, zget (contents m h) (s_len h - 1) = Some v /\
  bind (lift_o (reslice h 0 (s_len h - 1))) (fun h' => bind (on_queue (set_hdr h')) (fun _ => h_load h (s_len h - 1))) (@pair (cell T) X (m, c) x) = (Ok v, ((m, shorter), x)).
Proof using K.
  intros H H0. pose proof K as (Kw & _). pose proof (Kw _ _ _ _ H) as W. pose proof W as (A1 & A2 & A3 & A4).
  assert (Er : reslice h 0 (s_len h - 1) = Ok shorter).
  { unfold reslice. replace ((0 <=? 0) && (0 <=? s_len h - 1) && (s_len h - 1 <=? s_cap h)) with true; [unfold Spec_HeapSelf.shorter; do 2 f_equal; lia|]. symmetry. rewrite !andb_true_iff, !Z.leb_le. lia. }
  destruct (load_at m h shorter x (s_len h - 1) W ltac:(lia)) as (v & G & E). exists v. split; auto. rewrite Er.
  rewrite (bind_Ok (lift_o (Ok shorter)) _ (@pair (cell T) X (m, c) x) shorter (@pair (cell T) X (m, c) x) eq_refl).
  rewrite (bind_Ok (on_queue (set_hdr shorter)) _ (@pair (cell T) X (m, c) x) tt (@pair (cell T) X (m, shorter) x) eq_refl). exact E.
Qed.
Notation took := (took I mayfail h).
Lemma end_took {A} n k (p : @QP T X A) s : after n k (p s) -> 0 < s_len h ->
  took n k (bind p (fun _ => bind (lift_o (reslice h 0 (s_len h - 1))) (fun h' => bind (on_queue (set_hdr h')) (fun _ => h_load h (s_len h - 1)))) s).
Proof using K.
  intros (n' & o & [[m c] x] & E & H & Hn & Ho) H0. exists n', m, c, x. split; auto. split; auto.
  destruct o as [a| |]; [left|right; split; auto; now apply bind_stop|destruct Ho]. destruct (end_kept n' m c x H H0) as (v & G & Ev). exists v. rewrite (bind_Ok _ _ _ _ _ E), Ev. auto.
Qed.
Lemma pop_kept n m x : I n ((m, h), x) -> 0 < s_len h -> took n (2 * Z.log2 (s_len h - 1)) (PopHeap_self less ((m, h), x)).
Proof using K Lm.
  intros H H0. unfold PopHeap_self. rewrite (bind_Ok (on_queue get_hdr) _ (@pair (cell T) X (m, h) x) h (@pair (cell T) X (m, h) x) eq_refl). cbv zeta.
  destruct (swap_kept n _ 0 (s_len h - 1) H) as [Es Hs]; try lia. rewrite (bind_Ok _ _ _ _ _ Es). apply end_took; auto.
  eapply after_le; [apply down_kept; auto; lia|]. replace (0 + 1) with 1 by lia. rewrite Z.div_1_r. lia.
Qed.
Lemma remove_kept n m x i : I n ((m, h), x) -> 0 <= i < s_len h -> took n (2 * Z.log2 (s_len h)) (RemoveHeap_self less i ((m, h), x)).
Proof using K Lm.
  intros H Hi. unfold RemoveHeap_self. rewrite (bind_Ok (on_queue get_hdr) _ (@pair (cell T) X (m, h) x) h (@pair (cell T) X (m, h) x) eq_refl). cbv zeta.
  pose proof (Z.log2_nonneg (s_len h)). apply end_took; [|lia]. destruct (Z.eqb_spec (s_len h - 1) i); [apply after_ret; auto; lia|].
  destruct (swap_kept n _ i (s_len h - 1) H) as [Es Hs]; try lia. rewrite (bind_Ok _ _ _ _ _ Es).
  pose proof (Z.log2_nonneg (i + 1)). eapply after_le; [eapply after_bind with (k1 := 2 * Z.log2 ((s_len h - 1) / (i + 1))) (k2 := Z.log2 (i + 1)); auto; [apply down_kept; auto; lia|]|].
  - intros b n' s' _ H' Hn'. destruct b; [now apply after_ret|]. apply up_kept; auto; lia.
  - assert (1 <= (s_len h - 1) / (i + 1)) by (apply Z.div_le_lower_bound; lia). pose proof (Z.log2_mul_below ((s_len h - 1) / (i + 1)) (i + 1) ltac:(lia) ltac:(lia)).
    assert (Z.log2 ((s_len h - 1) / (i + 1) * (i + 1)) <= Z.log2 (s_len h)).
    { apply Z.log2_le_mono. pose proof (Z.mul_div_le (s_len h - 1) (i + 1) ltac:(lia)). lia. }
    lia.
Qed.
Lemma push_kept zero grow v n m h0 x m1 : wf_slice m h0 -> append_list zero grow h0 [v] m = (Ok h, m1) -> I n ((m1, h), x) -> after n (Z.log2 (s_len h)) (PushHeap_self zero grow less v ((m, h0), x)).
Proof using K Lm.
  intros W Ea H. destruct (append_list_ok zero grow h0 [v] m W) as (h1 & m1' & Ea' & W1 & C1 & L1 & _). rewrite Ea in Ea'. injection Ea' as <- <-. change (zlen [v]) with 1 in L1. pose proof W as (A1 & A2 & A3 & A4).
  unfold PushHeap_self. rewrite (bind_Ok (on_queue get_hdr) _ (@pair (cell T) X (m, h0) x) h0 (@pair (cell T) X (m, h0) x) eq_refl).
  destruct (Z.leb_spec max_int (s_len h0)); [lia|].
  assert (Ea' : on_queue (lift_mem (append_list zero grow h0 [v])) (@pair (cell T) X (m, h0) x) = (Ok h, @pair (cell T) X (m1, h0) x)) by (unfold on_queue, lift_mem; cbn [fst snd]; now rewrite Ea).
  rewrite (bind_Ok _ _ _ _ _ Ea'). rewrite (bind_Ok (on_queue (set_hdr h)) _ (@pair (cell T) X (m1, h0) x) tt (@pair (cell T) X (m1, h) x) eq_refl).
  replace (Z.log2 (s_len h)) with (Z.log2 (s_len h - 1 + 1)) by (f_equal; lia). apply up_kept; auto; lia.
Qed.
End Kept.

(** ** Less functions that leave the slice alone *)
Section Minds.
Context {T X : Type}.
Variables (f : T -> T -> bool) (h : slice) (less : T -> T -> @QP T X bool).
Hypothesis L : minds f h less.
(** q gives what the window program p gives on the elements of h. *)
Definition same {A} (p : W T A) (q : @QP T X A) : Prop :=
  forall m c x, wf_slice m h -> exists o m' c' x', q (@pair (cell T) X (m, c) x) = (o, ((m', c'), x')) /\ wf_slice m' h /\ p (contents m h) = (o, contents m' h).
Lemma same_ret {A} (a : A) : same (ret a) (ret a).
Proof. intros m c x W. exists (Ok a), m, c, x. auto. Qed.
Lemma same_nofuel {A} : same (@nofuel _ A) nofuel.
Proof. intros m c x W. exists NoFuel, m, c, x. auto. Qed.
Lemma same_bind {A B} (p : W T A) q (k : A -> W T B) (k' : A -> @QP T X B) : same p q -> (forall a, same (k a) (k' a)) -> same (bind p k) (bind q k').
Proof.
  intros Hp Hk m c x W. destruct (Hp m c x W) as (o & m1 & c1 & x1 & E & W1 & Ep). unfold bind. rewrite E, Ep.
  destruct o as [a| |]; [apply Hk; auto|exists Panic, m1, c1, x1; auto|exists NoFuel, m1, c1, x1; auto].
Qed.
Lemma same_win {A} (p : W T A) : (forall l, zlen (snd (p l)) = zlen l) -> same p (on_queue (lift_mem (on_slice h p))).
Proof.
  intros H m c x W. destruct (p (contents m h)) as [o w] eqn:E. pose proof (H (contents m h)) as Hl. rewrite E in Hl. cbn [snd] in Hl. rewrite zlen_contents in Hl by auto.
  unfold on_queue, lift_mem, on_slice. cbn [fst snd]. rewrite E. exists o, (write_at m h 0 w), c, x. split; auto. split; [now apply wf_write_self|]. now rewrite contents_write_at.
Qed.
Lemma same_less a b : same (ret (f a b)) (less a b).
Proof using L. intros m c x W. destruct (L m c x a b W) as (m' & c' & x' & E & W' & C'). exists (Ok (f a b)), m', c', x'. rewrite C'. auto. Qed.
Lemma same_load i : same (wload i) (h_load h i).
Proof. apply same_win. apply load_len. Qed.
Lemma same_swap i j : same (heapSwap i j) (h_swap h i j).
Proof. apply same_win. apply swap_len. Qed.
Lemma same_up fuel : forall j, same (heapUpFunc_loop f fuel j) (heapUp_self less h fuel j).
Proof using L.
  induction fuel as [|fu IH]; intros j; cbn [heapUpFunc_loop heapUp_self]; [apply same_nofuel|]. cbv zeta. destruct (Z.quot (j - 1) 2 =? j); [apply same_ret|].
  apply same_bind; [apply same_load|]. intros hj. apply same_bind; [apply same_load|]. intros hi.
  apply (same_bind (ret (f hj hi)) _ (fun b => if negb b then ret tt else bind (heapSwap (Z.quot (j - 1) 2) j) (fun _ => heapUpFunc_loop f fu (Z.quot (j - 1) 2)))); [apply same_less|].
  intros b. destruct (negb b); [apply same_ret|]. apply same_bind; [apply same_swap|]. intros _. apply IH.
Qed.
Lemma same_down fuel : forall i0 n i, same (heapDownFunc_loop f fuel i0 n i) (heapDown_self less h fuel i0 n i).
Proof using L.
  induction fuel as [|fu IH]; intros i0 n i; cbn [heapDownFunc_loop heapDown_self]; [apply same_nofuel|]. cbv zeta. destruct ((wrap64 (2 * i + 1) >=? n) || (wrap64 (2 * i + 1) <? 0)); [apply same_ret|].
  apply same_bind.
  { destruct (wrap64 (2 * i + 1) + 1 <? n); [|apply same_ret]. apply same_bind; [apply same_load|]. intros h2. apply same_bind; [apply same_load|]. intros h1. apply same_less. }
  intros right. set (j := if right then _ else _).
  apply same_bind; [apply same_load|]. intros hj. apply same_bind; [apply same_load|]. intros hi.
  apply (same_bind (ret (f hj hi)) _ (fun b => if negb b then ret (i >? i0) else bind (heapSwap i j) (fun _ => heapDownFunc_loop f fu i0 n j))); [apply same_less|].
  intros b. destruct (negb b); [apply same_ret|]. apply same_bind; [apply same_swap|]. intros _. apply IH.
Qed.
Lemma same_make_loop fuel : forall n i, same (MakeHeapFunc_loop f fuel n i) (MakeHeap_self_loop less h fuel n i).
Proof using L.
  induction fuel as [|fu IH]; intros n i; cbn [MakeHeapFunc_loop MakeHeap_self_loop]; destruct (i >=? 0); try apply same_ret; [apply same_nofuel|].
  apply same_bind; [apply same_down|]. intros _. apply IH.
Qed.
Lemma make_minds m c x : wf_slice m h -> exists o m' c' x', MakeHeap_self less h (@pair (cell T) X (m, c) x) = (o, ((m', c'), x')) /\ wf_slice m' h /\ MakeHeapFunc f (contents m h) = (o, contents m' h).
Proof using L.
  intros W. unfold MakeHeap_self, MakeHeapFunc, wlen, bind. rewrite zlen_contents by auto. now apply same_make_loop.
Qed.
Lemma is_loop_minds fuel : forall p c0 m c x, wf_slice m h -> exists o m' c' x', IsHeap_self_loop less h fuel p c0 (@pair (cell T) X (m, c) x) = (o, ((m', c'), x')) /\ wf_slice m' h /\ contents m' h = contents m h /\ IsHeapFunc_loop f fuel (contents m h) p c0 = o.
Proof using L.
  induction fuel as [|fu IH]; intros p c0 m c x W; cbn [IsHeap_self_loop IsHeapFunc_loop]; rewrite zlen_contents by auto; destruct (c0 <? s_len h).
  - exists NoFuel, m, c, x. auto.
  - exists (Ok true), m, c, x. auto.
  - assert (Ld : forall i, h_load h i (@pair (cell T) X (m, c) x) = (match zget (contents m h) i with Some v => Ok v | None => Panic end, ((m, c), x))).
    { intros i. unfold h_load, on_queue, lift_mem, on_slice, wload. cbn [fst snd]. destruct (zget (contents m h) i); now rewrite write_at_same. }
    unfold at_. unfold bind at 1. rewrite Ld. destruct (zget (contents m h) p) as [vp|]; [|exists Panic, m, c, x; auto]. cbn [obind].
    unfold bind at 1. rewrite Ld. destruct (zget (contents m h) c0) as [vc|]; [|exists Panic, m, c, x; auto]. cbn [obind].
    destruct (L m c x vp vc W) as (m1 & c1 & x1 & E1 & W1 & C1). unfold bind. rewrite E1. destruct (negb (f vp vc)); [exists (Ok false), m1, c1, x1; auto|].
    destruct (IH (if Z.land c0 1 =? 0 then p + 1 else p) (c0 + 1) m1 c1 x1 W1) as (o & m2 & c2 & x2 & E2 & W2 & C2 & E3). rewrite C1 in *. exists o, m2, c2, x2. auto.
  - exists (Ok true), m, c, x. auto.
Qed.
Lemma is_minds m c x : wf_slice m h -> exists o m' c' x', IsHeap_self less h (@pair (cell T) X (m, c) x) = (o, ((m', c'), x')) /\ wf_slice m' h /\ contents m' h = contents m h /\ IsHeapFunc (contents m h) f = o.
Proof using L.
  intros W. unfold IsHeap_self, IsHeapFunc. replace (Z.to_nat (s_len h)) with (length (contents m h)); [now apply is_loop_minds|].
  pose proof (zlen_contents m h W) as E. unfold zlen in E. lia.
Qed.
(** The same for code without a callback. *)
Definition cell_same {A} (p : W T A) (q : M (cell T) A) : Prop :=
  forall m c, wf_slice m h -> exists o m', q (m, c) = (o, (m', c)) /\ wf_slice m' h /\ p (contents m h) = (o, contents m' h).
Lemma cell_ret {A} (a : A) : cell_same (ret a) (ret a).
Proof. intros m c W. exists (Ok a), m. auto. Qed.
Lemma cell_bind {A B} (p : W T A) q (k : A -> W T B) (k' : A -> M (cell T) B) : cell_same p q -> (forall a, cell_same (k a) (k' a)) -> cell_same (bind p k) (bind q k').
Proof.
  intros Hp Hk m c W. destruct (Hp m c W) as (o & m1 & E & W1 & Ep). unfold bind. rewrite E, Ep.
  destruct o as [a| |]; [apply Hk; auto|exists Panic, m1; auto|exists NoFuel, m1; auto].
Qed.
Definition lenp {A} (p : W T A) : Prop := forall l, zlen (snd (p l)) = zlen l.
Lemma lenp_ret {A} (a : A) : lenp (ret a). Proof. intros l. reflexivity. Qed.
Lemma lenp_bind {A B} (p : W T A) (k : A -> W T B) : lenp p -> (forall a, lenp (k a)) -> lenp (bind p k).
Proof. intros Hp Hk l. unfold bind. specialize (Hp l). destruct (p l) as [[a| |] w]; cbn [snd] in *; auto. now rewrite Hk. Qed.
Lemma lenp_up fuel : forall j, lenp (heapUpFunc_loop f fuel j).
Proof.
  induction fuel as [|fu IH]; intros j; cbn [heapUpFunc_loop]; [intros l; reflexivity|]. cbv zeta. destruct (Z.quot (j - 1) 2 =? j); [apply lenp_ret|].
  apply lenp_bind; [intros l; apply load_len|]. intros hj. apply lenp_bind; [intros l; apply load_len|]. intros hi. destruct (negb (f hj hi)); [apply lenp_ret|].
  apply lenp_bind; [intros l; apply swap_len|]. intros _. apply IH.
Qed.
Lemma lenp_down fuel : forall i0 n i, lenp (heapDownFunc_loop f fuel i0 n i).
Proof.
  induction fuel as [|fu IH]; intros i0 n i; cbn [heapDownFunc_loop]; [intros l; reflexivity|]. cbv zeta. destruct ((wrap64 (2 * i + 1) >=? n) || (wrap64 (2 * i + 1) <? 0)); [apply lenp_ret|].
  apply lenp_bind. { destruct (wrap64 (2 * i + 1) + 1 <? n); [|apply lenp_ret]. apply lenp_bind; [intros l; apply load_len|]. intros h2. apply lenp_bind; [intros l; apply load_len|]. intros h1. apply lenp_ret. }
  intros right. set (j := if right then _ else _). apply lenp_bind; [intros l; apply load_len|]. intros hj. apply lenp_bind; [intros l; apply load_len|]. intros hi. destruct (negb (f hj hi)); [apply lenp_ret|].
  apply lenp_bind; [intros l; apply swap_len|]. intros _. apply IH.
Qed.
Lemma cell_win {A} (p : W T A) : lenp p -> cell_same p (lift_mem (on_slice h p)).
Proof.
  intros H m c W. destruct (p (contents m h)) as [o w] eqn:E. pose proof (H (contents m h)) as Hl. rewrite E in Hl. cbn [snd] in Hl. rewrite zlen_contents in Hl by auto.
  unfold lift_mem, on_slice. cbn [fst snd]. rewrite E. exists o, (write_at m h 0 w). split; auto. split; [now apply wf_write_self|]. now rewrite contents_write_at.
Qed.
Lemma contents_shorter (m : mem T) : wf_slice m h -> 0 < s_len h -> wf_slice m (shorter h) /\ contents m (shorter h) = zsub (contents m h) 0 (s_len h - 1).
Proof.
  intros (A1 & A2 & A3 & A4) H0. split; [unfold wf_slice, arr_of, shorter in *; cbn [s_arr s_off s_len s_cap]; lia|].
  apply zlist_eq. intros k Hk. unfold contents, arr_of, shorter in *. cbn [s_arr s_off s_len s_cap]. rewrite !zget_zsub by lia.
  destruct (Z.ltb_spec k (s_off h + (s_len h - 1) - s_off h)), (Z.ltb_spec k (s_len h - 1 - 0)); try lia; auto. destruct (Z.ltb_spec (0 + k) (s_off h + s_len h - s_off h)); [f_equal; lia|lia].
Qed.
(** The ends of PopHeapFunc and RemoveHeapFunc, with and without callback. *)
Lemma ends {A} (p : W T A) q (q' : M (cell T) A) m c x v m2 h2 : same p q -> cell_same p q' -> wf_slice m h -> 0 < s_len h ->
  bind q' (fun _ => bind (lift_o (reslice h 0 (s_len h - 1))) (fun h' => bind (set_hdr h') (fun _ => lift_mem (on_slice h (wload (s_len h - 1)))))) (m, h) = (Ok v, (m2, h2)) ->
  exists m1 x1, bind q (fun _ => bind (lift_o (reslice h 0 (s_len h - 1))) (fun h' => bind (on_queue (set_hdr h')) (fun _ => h_load h (s_len h - 1)))) (@pair (cell T) X (m, c) x) = (Ok v, ((m1, shorter h), x1)) /\
    wf_slice m1 (shorter h) /\ contents m1 (shorter h) = contents m2 h2.
Proof.
  intros S1 S2 W H0 E. pose proof W as (A1 & A2 & A3 & A4). destruct (S1 m c x W) as (o & m1 & c1 & x1 & E1 & W1 & P1). destruct (S2 m h W) as (o' & m1' & E2 & W1' & P2).
  rewrite P1 in P2. injection P2 as <- Cm. unfold bind at 1 in E. rewrite E2 in E. destruct o as [a| |]; [|discriminate E|discriminate E]. rewrite (bind_Ok _ _ _ _ _ E1).
  assert (Er : reslice h 0 (s_len h - 1) = Ok (shorter h)).
  { unfold reslice. replace ((0 <=? 0) && (0 <=? s_len h - 1) && (s_len h - 1 <=? s_cap h)) with true; [unfold shorter; do 2 f_equal; lia|]. symmetry. rewrite !andb_true_iff, !Z.leb_le. lia. }
  rewrite Er in *. rewrite (bind_Ok (lift_o (Ok (shorter h))) _ (@pair (cell T) X (m1, c1) x1) (shorter h) (@pair (cell T) X (m1, c1) x1) eq_refl).
  rewrite (bind_Ok (on_queue (set_hdr (shorter h))) _ (@pair (cell T) X (m1, c1) x1) tt (@pair (cell T) X (m1, shorter h) x1) eq_refl).
  unfold lift_o, bind, set_hdr, lift_mem, on_slice, wload in E. cbn [fst snd] in E. rewrite <- Cm in E.
  destruct (load_at m1 h (shorter h) x1 (s_len h - 1) W1 ltac:(lia)) as (u & G & El). rewrite El. rewrite G in E. rewrite Cm in E. rewrite write_at_same in E by auto. injection E as <- <- <-.
  exists m1, x1. split; auto. destruct (contents_shorter m1 W1 H0) as [Ws ->]. destruct (contents_shorter m1' W1' H0) as [_ ->]. now rewrite Cm.
Qed.
Lemma pop_minds m x v m2 h2 : wf_slice m h -> 0 < s_len h -> PopHeapFunc f (m, h) = (Ok v, (m2, h2)) ->
  exists m1 x1, PopHeap_self less (@pair (cell T) X (m, h) x) = (Ok v, ((m1, shorter h), x1)) /\ wf_slice m1 (shorter h) /\ contents m1 (shorter h) = contents m2 h2.
Proof using L.
  intros W H0 E. unfold PopHeapFunc in E. rewrite (bind_Ok get_hdr _ (m, h) h (m, h) eq_refl) in E. cbv zeta in E.
  unfold PopHeap_self. rewrite (bind_Ok (on_queue get_hdr) _ (@pair (cell T) X (m, h) x) h (@pair (cell T) X (m, h) x) eq_refl). cbv zeta.
  set (p := bind (heapSwap 0 (s_len h - 1)) (fun _ => heapDownFunc f 0 (s_len h - 1))).
  assert (Assoc : forall S A B C (a : M S A) (b : M S B) (k : M S C) s, bind a (fun _ => bind b (fun _ => k)) s = bind (bind a (fun _ => b)) (fun _ => k) s).
  { intros S A B C a b k s. unfold bind. now destruct (a s) as [[?| |] ?]. }
  rewrite Assoc in *. eapply (ends p); eauto.
  - apply same_bind; [apply same_swap|]. intros _. apply same_down.
  - apply cell_bind; [apply cell_win; intros l; apply swap_len|]. intros _. apply cell_win. apply lenp_down.
Qed.
Lemma remove_minds m x i v m2 h2 : wf_slice m h -> 0 < s_len h -> RemoveHeapFunc i f (m, h) = (Ok v, (m2, h2)) ->
  exists m1 x1, RemoveHeap_self less i (@pair (cell T) X (m, h) x) = (Ok v, ((m1, shorter h), x1)) /\ wf_slice m1 (shorter h) /\ contents m1 (shorter h) = contents m2 h2.
Proof using L.
  intros W H0 E. unfold RemoveHeapFunc in E. rewrite (bind_Ok get_hdr _ (m, h) h (m, h) eq_refl) in E. cbv zeta in E.
  unfold RemoveHeap_self. rewrite (bind_Ok (on_queue get_hdr) _ (@pair (cell T) X (m, h) x) h (@pair (cell T) X (m, h) x) eq_refl). cbv zeta.
  eapply (ends (if s_len h - 1 =? i then ret tt else bind (heapSwap i (s_len h - 1)) (fun _ => bind (heapDownFunc f i (s_len h - 1)) (fun b => if b : bool then ret tt else heapUpFunc f i)))); eauto.
  - destruct (s_len h - 1 =? i); [apply same_ret|]. apply same_bind; [apply same_swap|]. intros _. apply same_bind; [apply same_down|]. intros b. destruct b; [apply same_ret|apply same_up].
  - destruct (s_len h - 1 =? i); [apply cell_ret|]. apply cell_bind; [apply cell_win; intros l; apply swap_len|]. intros _. apply cell_bind; [apply cell_win; apply lenp_down|].
    intros b. destruct b; [apply cell_ret|]. apply cell_win. apply lenp_up.
Qed.
Lemma push_minds zero grow v m h0 x m1 : wf_slice m h0 -> s_len h0 < max_int -> append_list zero grow h0 [v] m = (Ok h, m1) ->
  exists o m2 c2 x2 m3, PushHeap_self zero grow less v (@pair (cell T) X (m, h0) x) = (o, ((m2, c2), x2)) /\ wf_slice m2 h /\
    PushHeapFunc zero grow v f (m, h0) = (o, (m3, h)) /\ contents m2 h = contents m3 h.
Proof using L.
  intros W Hl Ea. destruct (append_list_ok zero grow h0 [v] m W) as (h1 & m1' & Ea' & W1 & C1 & L1 & _). rewrite Ea in Ea'. injection Ea' as <- <-.
  unfold PushHeap_self. rewrite (bind_Ok (on_queue get_hdr) _ (@pair (cell T) X (m, h0) x) h0 (@pair (cell T) X (m, h0) x) eq_refl).
  destruct (Z.leb_spec max_int (s_len h0)); [lia|].
  assert (Ea' : on_queue (lift_mem (append_list zero grow h0 [v])) (@pair (cell T) X (m, h0) x) = (Ok h, @pair (cell T) X (m1, h0) x)) by (unfold on_queue, lift_mem; cbn [fst snd]; now rewrite Ea).
  rewrite (bind_Ok _ _ _ _ _ Ea'). rewrite (bind_Ok (on_queue (set_hdr h)) _ (@pair (cell T) X (m1, h0) x) tt (@pair (cell T) X (m1, h) x) eq_refl).
  destruct (same_up (S (S (Z.to_nat (s_len h - 1)))) (s_len h - 1) m1 h x W1) as (o & m2 & c2 & x2 & E & W2 & P). rewrite E.
  destruct (cell_win (heapUpFunc f (s_len h - 1)) (lenp_up _ _) m1 h W1) as (o' & m3 & E3 & W3 & P3). unfold heapUpFunc in P3 at 1. rewrite P in P3. injection P3 as <- Cm.
  exists o, m2, c2, x2, m3. split; auto. split; auto. split; auto. unfold PushHeapFunc, bind, get_hdr, set_hdr. cbn [fst snd]. unfold lift_mem at 1. cbn [fst snd]. rewrite Ea. exact E3.
Qed.
End Minds.

(** ** Less functions that reorder the slice *)
Section Shuffles.
Context {T : Type}.
Variables (h : slice) (less : T -> T -> @QP T Z bool).
Hypothesis Sh : shuffles h less.
Hypothesis Co : counting less.
Implicit Type m : mem T.
Definition reordered m0 (n : Z) (s : cell T * Z) : Prop :=
  let '((m, c), x) := s in x = n /\ wf_slice m h /\ Permutation (contents m h) (contents m0 h) /\ same_except m0 m (s_arr h) (s_off h) (s_off h + s_len h).
Lemma reordered_start m c x : wf_slice m h -> reordered m x ((m, c), x).
Proof. intros W. split; auto. split; auto. split; auto. apply same_except_refl. Qed.
Lemma reordered_kept m0 : kept (reordered m0) False h less.
Proof using Sh Co.
  split; [|split].
  - intros n m c x (_ & W & _). exact W.
  - intros n m c x a b (-> & W & P & E) _ _. destruct (Sh m c n a b W) as (r & m' & c' & x' & El & W' & P' & E'). exists (Ok r), ((m', c'), x'). split; auto. split; auto.
    pose proof (Co a b m c n) as Cn. rewrite El in Cn. cbn [snd] in Cn. split; auto. split; auto. split; [now rewrite P'|]. eapply same_except_trans; eauto.
  - intros n [[m c] x] i j Hi Hj (En & W & P & E). assert (Zl : zlen (zswap (contents m h) i j) = s_len h) by (rewrite zlen_zswap; now apply zlen_contents).
    split; auto. split; [now apply wf_write_self|]. split; [rewrite contents_write_at by auto; now rewrite zswap_perm|]. eapply same_except_trans; eauto. now apply same_except_write.
Qed.
Lemma last_perm m v : wf_slice m h -> zget (contents m h) (s_len h - 1) = Some v -> wf_slice m (shorter h) /\ Permutation (v :: contents m (shorter h)) (contents m h).
Proof.
  intros W G. pose proof (zget_Some_range _ _ _ G) as R. rewrite zlen_contents in R by auto. destruct (contents_shorter h m W ltac:(lia)) as [Ws E]. split; auto. rewrite E.
  rewrite Permutation_cons_append. enough (Q : contents m h = zsub (contents m h) 0 (s_len h - 1) ++ [v]) by (now rewrite <- Q).
  pose proof (zlen_contents m h W) as Zl. apply zlist_eq. intros k Hk.
  assert (Zs : zlen (zsub (contents m h) 0 (s_len h - 1)) = s_len h - 1) by (rewrite zlen_zsub; lia).
  destruct (Z_lt_le_dec k (s_len h - 1)).
  - rewrite zget_app_l by lia. rewrite zget_zsub by lia. destruct (Z.ltb_spec k (s_len h - 1 - 0)); [f_equal; lia|lia].
  - rewrite zget_app_r by lia. rewrite Zs. destruct (Z.eq_dec k (s_len h - 1)) as [->|]; [now rewrite Z.sub_diag|].
    transitivity (@None T); [apply zget_None; lia|symmetry; apply zget_None; unfold zlen; cbn; lia].
Qed.
End Shuffles.
