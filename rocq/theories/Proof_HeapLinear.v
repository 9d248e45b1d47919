(** Total work of MakeMinHeap. *)
From Verif Require Import BaseLemmas Spec Proof_Mem Spec_Heap Model_Heap Proof_Heap Proof_HeapTotal.

Lemma sum_below_le f g k : (forall i, 0 <= i < Z.of_nat k -> f i <= g i) -> sum_below f k <= sum_below g k.
Proof. induction k as [|k IH]; cbn [sum_below]; intros H; [lia|]. pose proof (H (Z.of_nat k) ltac:(lia)). assert (sum_below f k <= sum_below g k) by (apply IH; intros; apply H; lia). lia. Qed.
Lemma sum_below_add f g k : sum_below (fun i => f i + g i) k = sum_below f k + sum_below g k.
Proof. induction k as [|k IH]; cbn [sum_below]; lia. Qed.
Lemma sum_below_const c k : sum_below (fun _ => c) k = c * Z.of_nat k.
Proof. induction k as [|k IH]; cbn [sum_below]; lia. Qed.
Lemma sum_below_ext f g k : (forall i, 0 <= i < Z.of_nat k -> f i = g i) -> sum_below f k = sum_below g k.
Proof. induction k as [|k IH]; cbn [sum_below]; intros H; [lia|]. rewrite (H (Z.of_nat k)) by lia. rewrite IH; [reflexivity|]. intros; apply H; lia. Qed.
Lemma sum_below_more f k j : (forall i, Z.of_nat k <= i -> f i = 0) -> sum_below f (k + j) = sum_below f k.
Proof. intros H. induction j as [|j IH]; [f_equal; lia|]. rewrite Nat.add_succ_r. cbn [sum_below]. rewrite IH, H; lia. Qed.

(** floor(log2 n/1) + floor(log2 n/2) + ... is at most n. *)
Lemma sum_logs n : 0 <= n -> sum_below (fun i => Z.log2 (n / (i + 1))) (Z.to_nat n) <= n.
Proof.
  intros Hn. pattern n. apply Zlt_0_ind; auto. clear n Hn. intros n IH Hn.
  destruct (Z.eq_dec n 0) as [->|Nz]; [cbn; lia|].
  assert (D : 0 <= n / 2 < n) by (split; [apply Z.div_pos; lia|apply Z.div_lt; lia]).
  specialize (IH (n / 2) D).
  pose proof (Z.div_mod n 2 ltac:(lia)) as DM. pose proof (Z.mod_pos_bound n 2 ltac:(lia)) as MB.
  replace (Z.to_nat n) with (Z.to_nat (n / 2) + (Z.to_nat (n - n / 2)))%nat by lia.
  rewrite sum_below_more.
  - rewrite (sum_below_ext _ (fun i => 1 + Z.log2 (n / 2 / (i + 1)))).
    + rewrite sum_below_add, sum_below_const. lia.
    + intros i Hi. rewrite Z.div_div by lia. rewrite (Z.mul_comm 2), <- Z.div_div by lia.
      assert (2 <= n / (i + 1)) by (apply Z.div_le_lower_bound; lia).
      assert (0 < n / (i + 1) / 2) by (apply Z.div_str_pos; lia).
      pose proof (Z.log2_double (n / (i + 1) / 2) ltac:(lia)). pose proof (Z.log2_succ_double (n / (i + 1) / 2) ltac:(lia)).
      pose proof (Z.div_mod (n / (i + 1)) 2 ltac:(lia)) as E. pose proof (Z.mod_pos_bound (n / (i + 1)) 2 ltac:(lia)).
      assert (n / (i + 1) = 2 * (n / (i + 1) / 2) \/ n / (i + 1) = 2 * (n / (i + 1) / 2) + 1) as [Q|Q] by lia; rewrite Q at 1; lia.
  - intros i Hi. assert (n / (i + 1) <= 1) by (assert (n / (i + 1) < 2) by (apply Z.div_lt_upper_bound; lia); lia).
    apply Z.log2_null; lia.
Qed.
Definition down_budget (n i : Z) : Z := Z.log2 (n / (i + 1) + 1) + 1.
Lemma budget_total n : 0 <= n -> sum_below (down_budget n) (Z.to_nat (n / 2)) <= 2 * n.
Proof.
  intros Hn. assert (D : 0 <= n / 2) by (apply Z.div_pos; lia). pose proof (Z.div_mod n 2 ltac:(lia)) as DM. pose proof (Z.mod_pos_bound n 2 ltac:(lia)) as MB.
  eapply Z.le_trans; [apply (sum_below_le _ (fun i => 2 + Z.log2 (n / (i + 1))))|].
  - intros i Hi. unfold down_budget. assert (1 <= n / (i + 1)) by (apply Z.div_le_lower_bound; lia).
    pose proof (Z.log2_succ_le (n / (i + 1))). unfold Z.succ in *. lia.
  - rewrite sum_below_add, sum_below_const. pose proof (sum_logs n Hn) as S.
    assert (P : forall k j, sum_below (fun i => Z.log2 (n / (i + 1))) k <= sum_below (fun i => Z.log2 (n / (i + 1))) (k + j)).
    { intros k j. induction j as [|j IH]; [rewrite Nat.add_0_r; lia|]. rewrite Nat.add_succ_r. cbn [sum_below].
      pose proof (Z.log2_nonneg (n / (Z.of_nat (k + j) + 1))). lia. }
    specialize (P (Z.to_nat (n / 2)) (Z.to_nat (n - n / 2))). replace (Z.to_nat (n / 2) + Z.to_nat (n - n / 2))%nat with (Z.to_nat n) in P by lia. lia.
Qed.

(** More fuel changes nothing. *)
Lemma bind_more {S A B} (m : M S A) (k k' : A -> M S B) s : (forall a t, fst (k a t) <> NoFuel -> k' a t = k a t) ->
  fst (bind m k s) <> NoFuel -> bind m k' s = bind m k s.
Proof. intros H. unfold bind. destruct (m s) as [[a| |] t]; auto. Qed.
Lemma down_more T (less : T -> T -> bool) f : forall f' i0 n i l, (f <= f')%nat ->
  fst (heapDownFunc_loop less f i0 n i l) <> NoFuel -> heapDownFunc_loop less f' i0 n i l = heapDownFunc_loop less f i0 n i l.
Proof.
  induction f as [|f IH]; intros f' i0 n i l Hf N; [now destruct N|].
  destruct f' as [|f']; [lia|]. cbn [heapDownFunc_loop] in *.
  destruct ((wrap64 (2 * i + 1) >=? n) || (wrap64 (2 * i + 1) <? 0)); auto.
  refine (bind_more _ _ _ _ _ N). clear N. intros r s1 N. refine (bind_more _ _ _ _ _ N). clear N. intros hj s2 N.
  refine (bind_more _ _ _ _ _ N). clear N. intros hi s3 N. destruct (negb (less hj hi)); auto.
  refine (bind_more _ _ _ _ _ N). clear N. intros u s4 N. apply IH; auto. lia.
Qed.
Lemma down_within T (less : T -> T -> bool) l n i : 0 <= i <= n -> n <= zlen l -> n <= max_int ->
  heapDownFunc less i n l = heapDownFunc_loop less (Z.to_nat (down_budget n i)) i n i l.
Proof.
  intros Hi Hn Hm. unfold heapDownFunc, down_budget. apply down_more; [|apply down_steps; lia].
  assert (0 <= n / (i + 1)) by (apply Z.div_pos; lia). assert (n / (i + 1) <= n) by (apply Z.div_le_upper_bound; nia).
  assert (Z.log2 (n / (i + 1) + 1) <= n); [|lia].
  destruct (Z.eq_dec n 0) as [->|]; [rewrite Z.div_0_l by lia; cbn; lia|].
  pose proof (Z.log2_le_lin (n + 1) ltac:(lia)). pose proof (Z.log2_lt_lin (n + 1) ltac:(lia)). pose proof (Z.log2_le_mono (n / (i + 1) + 1) (n + 1) ltac:(lia)). lia.
Qed.
Lemma down_len T (less : T -> T -> bool) l n i : 0 <= i <= n -> n <= zlen l -> n <= max_int ->
  exists b l', heapDownFunc less i n l = (Ok b, l') /\ zlen l' = zlen l.
Proof.
  intros Hi Hn Hm. destruct (down_loop_total less (S (Z.to_nat n)) l n i i) as (b & l' & E & H); try lia.
  - assert (n + 1 < 2 ^ (n + 1)) by (apply Z.pow_gt_lin_r; lia). replace (Z.of_nat (S (Z.to_nat n))) with (n + 1) by lia. nia.
  - exists b, l'. split; [exact E|]. destruct H as [H _]. unfold zlen. first [now rewrite (Permutation_length H)|lia|apply H].
Qed.

Lemma make_within T (less : T -> T -> bool) fuel : forall k l n, (k <= fuel)%nat -> Z.of_nat k <= n -> n = zlen l -> n <= max_int ->
  MakeHeapFunc_loop less fuel n (Z.of_nat k - 1) l = sift_within_func less (down_budget n) n k l.
Proof.
  induction fuel as [|fuel IH]; intros k l n Hk Hn En Hm.
  - destruct k; [|lia]. reflexivity.
  - destruct k as [|k]; [reflexivity|]. cbn [MakeHeapFunc_loop sift_within_func]. replace (Z.of_nat (S k) - 1) with (Z.of_nat k) by lia.
    destruct (Z.geb_spec (Z.of_nat k) 0); [|lia]. destruct (down_len T less l n (Z.of_nat k)) as (b & l' & E & L); try lia.
    rewrite (bind_Ok _ _ _ _ _ E). rewrite down_within in E by lia. rewrite (bind_Ok _ _ _ _ _ E). apply IH; lia.
Qed.
Lemma make_linear T (less : T -> T -> bool) l : zlen l <= max_int ->
  exists budget, sum_below budget (Z.to_nat (zlen l / 2)) <= 2 * zlen l /\ MakeHeapFunc less l = sift_within_func less budget (zlen l) (Z.to_nat (zlen l / 2)) l.
Proof.
  intros Hm. assert (0 <= zlen l) as H0 by (unfold zlen; lia). exists (down_budget (zlen l)). split; [now apply budget_total|].
  assert (0 <= zlen l / 2 <= zlen l) by (split; [apply Z.div_pos; lia|apply Z.div_le_upper_bound; lia]).
  rewrite <- (make_within T less (Z.to_nat (zlen l))) by lia. rewrite Z2Nat.id by lia. unfold MakeHeapFunc, wlen, bind. rewrite Z.quot_div_nonneg by lia. reflexivity.
Qed.
