(** Sort functions whose less function reads and writes memory. *)
From Verif Require Import BaseLemmas Spec Proof_Mem Model_Heap Model_Sort Spec_Sort Proof_Sort Model_PQSelf Proof_PQSelf Spec_HeapSelf Proof_HeapSelf Spec_SortSelf Model_SortSelf.

Section Kept.
Context {T X : Type}.
Variables (I : Z -> cell T * X -> Prop) (mayfail : Prop) (h : slice) (less : T -> T -> @QP T X bool).
Hypothesis K : kept I mayfail h less.

Lemma asks_pos k p : asks_most k p -> 0 <= k.
Proof. induction 1; lia. Qed.
(** A claim about k that [after] has, panics out of range included. *)
Lemma run_kept p : forall k n s, asks_most k p -> I n s -> after I (mayfail \/ ~ in_range (s_len h) p) n k (run_sort_self less h p s).
Proof using K.
  induction p as [|i j q IH|i j q IH]; intros k n [[m c] x] A H; cbn [run_sort_self]; pose proof K as (Kw & _ & _); pose proof (Kw _ _ _ _ H) as W.
  - exists n, (Ok tt), ((m, c), x). pose proof (asks_pos _ _ A). repeat split; auto; lia.
  - inversion A as [|k' i' j' q' Hk Hq|]; subst.
    assert (Out : forall i0, ~ (0 <= i0 < s_len h) -> h_load h i0 (@pair (cell T) X (m, c) x) = (Panic, ((m, c), x))).
    { intros i0 Hi. unfold h_load, on_queue, lift_mem, on_slice, wload. cbn [fst snd]. replace (zget (contents m h) i0) with (@None T); [now rewrite write_at_same|]. symmetry. apply zget_None. rewrite zlen_contents by auto. lia. }
    assert (Bad : ~ (0 <= i < s_len h) \/ ~ (0 <= j < s_len h) -> ~ in_range (s_len h) (PLess i j q)) by (intros B R; inversion R; lia).
    destruct (Z_le_gt_dec 0 i) as [I0|I0]; [destruct (Z_lt_le_dec i (s_len h)) as [I1|I1]|]; try (exists n, Panic, ((m, c), x); split; [unfold LessSelf; apply bind_stop, bind_stop, Out; lia|]; split; auto; split; [lia|right; apply Bad; lia]).
    destruct (load_kept I mayfail h less K n _ i H (conj I0 I1)) as (a & _ & Ia & Ea).
    destruct (Z_le_gt_dec 0 j) as [J0|J0]; [destruct (Z_lt_le_dec j (s_len h)) as [J1|J1]|]; try (exists n, Panic, ((m, c), x); split; [unfold LessSelf; apply bind_stop; rewrite (bind_Ok _ _ _ _ _ Ea); apply bind_stop, Out; lia|]; split; auto; split; [lia|right; apply Bad; lia]).
    destruct (ask_kept I mayfail h less K n _ i j H (conj I0 I1) (conj J0 J1)) as (n' & o & s' & E & H' & Hn & Ho). fold (LessSelf less h i j) in E.
    destruct o as [b| |]; [|exists n', Panic, s'; split; [now apply bind_stop|]; split; auto; split; [lia|auto]|destruct Ho].
    rewrite (bind_Ok _ _ _ _ _ E). destruct (IH b k' n' s' (Hq b) H') as (n2 & o2 & s2 & E2 & H2 & Hn2 & Ho2). exists n2, o2, s2. split; auto. split; auto. split; [lia|].
    destruct o2; auto. destruct Ho2 as [|B]; [auto|right]. intros R. apply B. inversion R; subst. auto.
  - inversion A as [| |k' i' j' q' Hq]; subst.
    assert (Bad : ~ (0 <= i < s_len h) \/ ~ (0 <= j < s_len h) -> ~ in_range (s_len h) (PSwap i j q)) by (intros B R; inversion R; lia).
    destruct (Z_le_gt_dec 0 i) as [I0|I0]; [destruct (Z_lt_le_dec i (s_len h)) as [I1|I1]; [destruct (Z_le_gt_dec 0 j) as [J0|J0]; [destruct (Z_lt_le_dec j (s_len h)) as [J1|J1]|]|]|].
    1: { destruct (swap_kept I mayfail h less K n _ i j H (conj I0 I1) (conj J0 J1)) as [Es Hs]. unfold SwapSelf. rewrite (bind_Ok _ _ _ _ _ Es).
      destruct (IH k n _ Hq Hs) as (n2 & o2 & s2 & E2 & H2 & Hn2 & Ho2). exists n2, o2, s2. split; auto. split; auto. split; [lia|].
      destruct o2; auto. destruct Ho2 as [|B]; [auto|right]. intros R. apply B. inversion R; subst. auto. }
    all: pose proof (asks_pos _ _ A); exists n, Panic, ((m, c), x); split; [|split; [auto|]; split; [lia|right; apply Bad; lia]]; apply bind_stop;
      unfold SwapSelf, h_swap, on_queue, lift_mem, on_slice, heapSwap, wswap, bind, wload; cbn [fst snd];
      (destruct (zget (contents m h) j) as [b|] eqn:Gj; [|now rewrite write_at_same]);
      (destruct (zget (contents m h) i) as [a|] eqn:Gi; [|now rewrite write_at_same]);
      apply zget_Some_range in Gi; apply zget_Some_range in Gj; rewrite zlen_contents in Gi, Gj by auto; lia.
Qed.
End Kept.

Section Minds.
Context {T X : Type}.
Variables (f : T -> T -> bool) (h : slice) (less : T -> T -> @QP T X bool).
Hypothesis L : minds f h less.
Lemma same_run p : same h (run_sort (funcSortable f) p) (run_sort_self less h p).
Proof using L.
  induction p as [|i j q IH|i j q IH]; cbn [run_sort run_sort_self].
  - apply same_ret.
  - apply same_bind; [|intros b; apply IH]. unfold LessSelf. cbn [LessAt funcSortable]. apply same_bind; [apply same_load|]. intros x. apply same_bind; [apply same_load|]. intros y. now apply same_less.
  - apply same_bind; [apply same_swap|]. intros _. apply IH.
Qed.
End Minds.

(** The insertion sort of Proof_Sort.v is such a sort package. *)
Lemma inner_range n k : forall q, (Z.of_nat k < n) -> in_range n q -> in_range n (ins_inner k q).
Proof.
  induction k as [|k IH]; intros q Hk Hq; cbn [ins_inner]; auto. constructor; try lia. intros b. destruct b; auto. constructor; try lia. apply IH; auto; lia.
Qed.
Lemma outer_range n k : forall j, 0 <= Z.of_nat j -> Z.of_nat (j + k) <= n -> in_range n (ins_outer j k).
Proof. induction k as [|k IH]; intros j H0 Hj; cbn [ins_outer]; [constructor|]. apply inner_range; [lia|apply IH; lia]. Qed.
Lemma asks_le k p : asks_most k p -> forall k', k <= k' -> asks_most k' p.
Proof.
  induction 1 as [k Hk|k i j q Hk Hq IH|k i j q Hq IH]; intros k' Hle; [constructor; lia| |constructor; auto].
  replace k' with (k' - 1 + 1) by lia. constructor; [lia|]. intros b. apply IH. lia.
Qed.
Lemma inner_asks k : forall q n, asks_most n q -> asks_most (n + Z.of_nat k) (ins_inner k q).
Proof.
  induction k as [|k IH]; intros q n Hq; cbn [ins_inner]; [eapply asks_le; eauto; lia|]. pose proof (asks_pos _ _ Hq).
  replace (n + Z.of_nat (S k)) with (n + Z.of_nat k + 1) by lia. constructor; [lia|]. intros b. destruct b; [constructor; auto|eapply asks_le; eauto; lia].
Qed.
Lemma outer_asks k : forall j, asks_most (Z.of_nat k * Z.of_nat (j + k)) (ins_outer j k).
Proof.
  induction k as [|k IH]; intros j; cbn [ins_outer]; [constructor; lia|]. eapply asks_le; [apply inner_asks, IH|]. nia.
Qed.
