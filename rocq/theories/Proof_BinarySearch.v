From Verif Require Import BaseLemmas Spec Model_BinarySearch.

Section BS.
Context {T : Type}.
Implicit Types (a : list T) (v : T).

(** One loop parameterised by "go right" covers the four Go loops. *)
Fixpoint bs_loop (right : T -> bool) (fuel : nat) a (loc count : Z) : outcome Z :=
  if count >? 0 then
    match fuel with
    | O => NoFuel
    | S fuel' =>
      let step := Z.quot count 2 in
      obind (at_ a (loc + step)) (fun ai =>
      if right ai then bs_loop right fuel' a (loc + step + 1) (count - (step + 1))
      else bs_loop right fuel' a loc step)
    end
  else Ok loc.

Lemma LowerBound_loop_bs ltb fuel a v loc count :
  LowerBound_loop ltb fuel a v loc count = bs_loop (fun x => ltb x v) fuel a loc count.
Proof.
  revert loc count; induction fuel as [|f IH]; intros; simpl; auto.
  destruct (count >? 0); auto. destruct (at_ a _); simpl; auto. rewrite !IH. auto.
Qed.

Lemma LowerBoundFunc_loop_bs ltb fuel a v loc count :
  LowerBoundFunc_loop ltb fuel a v loc count = bs_loop (fun x => ltb x v) fuel a loc count.
Proof.
  revert loc count; induction fuel as [|f IH]; intros; simpl; auto.
  destruct (count >? 0); auto. destruct (at_ a _); simpl; auto. rewrite !IH. auto.
Qed.

Lemma UpperBound_loop_bs ltb fuel a v loc count :
  UpperBound_loop ltb fuel a v loc count = bs_loop (fun x => negb (ltb v x)) fuel a loc count.
Proof.
  revert loc count; induction fuel as [|f IH]; intros; simpl; auto.
  destruct (count >? 0); auto. destruct (at_ a _); simpl; auto. rewrite !IH. auto.
Qed.

Lemma UpperBoundFunc_loop_bs ltb fuel a v loc count :
  UpperBoundFunc_loop ltb fuel a v loc count = bs_loop (fun x => negb (ltb v x)) fuel a loc count.
Proof.
  revert loc count; induction fuel as [|f IH]; intros; simpl; auto.
  destruct (count >? 0); auto. destruct (at_ a _); simpl; auto. rewrite !IH. auto.
Qed.

(** Local boundary property, for any predicate and any slice. *)
Definition boundary (right : T -> bool) a (r : Z) : Prop :=
  0 <= r <= zlen a /\
  (forall x, zget a (r - 1) = Some x -> right x = true) /\
  (forall x, zget a r = Some x -> right x = false).

Lemma bs_loop_ok right a fuel : forall loc count,
  0 <= loc -> 0 <= count -> loc + count <= zlen a ->
  count < 2 ^ Z.of_nat fuel ->
  (forall x, zget a (loc - 1) = Some x -> right x = true) ->
  (forall x, zget a (loc + count) = Some x -> right x = false) ->
  exists r, bs_loop right fuel a loc count = Ok r /\ boundary right a r.
Proof.
  induction fuel as [|f IH]; intros loc count Hl Hc Hb Hf HL HR.
  - simpl in Hf. assert (count = 0) as -> by lia. simpl. exists loc.
    rewrite Z.add_0_r in *. split; auto. split; auto; lia.
  - cbn [bs_loop]. destruct (count >? 0) eqn:E; rewrite Z.gtb_ltb in E.
    2:{ exists loc. assert (count = 0) as -> by lia. rewrite Z.add_0_r in *. split; auto. split; auto; lia. }
    set (step := Z.quot count 2).
    assert (Hstep : step = count / 2) by (unfold step; rewrite Z.quot_div_nonneg; lia).
    rewrite Nat2Z.inj_succ, Z.pow_succ_r in Hf by lia.
    unfold at_. destruct (zget_range a (loc + step)) as [x Hx]; [lia|]. rewrite Hx. simpl.
    destruct (right x) eqn:Er.
    + apply IH; try lia.
      * replace (loc + step + 1 - 1) with (loc + step) by lia. intros y Hy. congruence.
      * replace (loc + step + 1 + (count - (step + 1))) with (loc + count) by lia. auto.
    + apply IH; try lia; auto. intros y Hy. congruence.
Qed.

Lemma bs_ok right a fuel :
  zlen a < 2 ^ Z.of_nat fuel ->
  exists r, bs_loop right fuel a 0 (zlen a) = Ok r /\ boundary right a r.
Proof.
  intros H. pose proof (zlen_nonneg a). apply bs_loop_ok; auto; try lia.
  - intros x Hx. simpl in Hx. rewrite zget_lt0 in Hx by lia. discriminate.
  - intros x Hx. apply zget_Some_range in Hx. lia.
Qed.

Lemma S_lt_pow2 n : Z.of_nat n < 2 ^ Z.of_nat (S n).
Proof.
  induction n as [|n IH]; [reflexivity|].
  rewrite (Nat2Z.inj_succ (S n)), Z.pow_succ_r by lia. lia.
Qed.

(** On a partitioned slice the boundary is unique. *)
Lemma boundary_partition right a p r :
  0 <= p <= zlen a ->
  (forall i x, zget a i = Some x -> right x = (i <? p)) ->
  boundary right a r -> r = p.
Proof.
  intros Hp Hpart (Hr & HL & HR).
  destruct (Z.lt_trichotomy r p) as [H|[H|H]]; auto.
  - destruct (zget_range a r) as [x Hx]; [lia|]. pose proof (HR _ Hx). pose proof (Hpart _ _ Hx).
    destruct (Z.ltb_spec r p); [congruence|lia].
  - destruct (zget_range a (r - 1)) as [x Hx]; [lia|]. pose proof (HL _ Hx). pose proof (Hpart _ _ Hx).
    destruct (Z.ltb_spec (r - 1) p); [lia|congruence].
Qed.

(** Monotone predicate on a slice: the boundary splits it. *)
Lemma boundary_monotone right a r :
  (forall i j x y, 0 <= i < j -> zget a i = Some x -> zget a j = Some y -> right y = true -> right x = true) ->
  boundary right a r -> forall i x, zget a i = Some x -> right x = (i <? r).
Proof.
  intros Hm (Hr & HL & HR) i x Hx. pose proof (zget_Some_range _ _ _ Hx).
  destruct (Z.ltb_spec i r).
  - destruct (zget_range a (r - 1)) as [y Hy]; [lia|]. pose proof (HL _ Hy).
    destruct (Z.eq_dec i (r - 1)) as [->|Hne]; [congruence|]. apply (Hm i (r-1) x y); auto; lia.
  - destruct (zget_range a r) as [y Hy]; [lia|]. pose proof (HR _ Hy).
    destruct (Z.eq_dec i r) as [->|Hne]; [congruence|].
    destruct (right x) eqn:E; auto.
    assert (right y = true) by (apply (Hm r i y x); auto; lia). congruence.
Qed.

Lemma sorted_lower_mono less a v :
  strict_weak less -> sorted_by less a ->
  forall i j x y, 0 <= i < j -> zget a i = Some x -> zget a j = Some y ->
  less y v = true -> less x v = true.
Proof.
  intros [Hi Ht Hn] Hs i j x y Hij Hx Hy Hyv.
  destruct (less x v) eqn:E; auto. pose proof (Hs i j x y Hij Hx Hy) as H.
  rewrite (Hn y x v) in Hyv; auto.
Qed.

Lemma sorted_upper_mono less a v :
  strict_weak less -> sorted_by less a ->
  forall i j x y, 0 <= i < j -> zget a i = Some x -> zget a j = Some y ->
  negb (less v y) = true -> negb (less v x) = true.
Proof.
  intros [Hi Ht Hn] Hs i j x y Hij Hx Hy Hyv. rewrite negb_true_iff in *.
  pose proof (Hs i j x y Hij Hx Hy) as H. apply (Hn v y x); auto.
Qed.

(** Everything about a loop at once. *)
Lemma run_bs right a :
  exists r, bs_loop right (S (length a)) a 0 (zlen a) = Ok r /\ boundary right a r.
Proof. apply bs_ok. apply S_lt_pow2. Qed.

Lemma LowerBound_bs ltb a v :
  LowerBound ltb a v = bs_loop (fun x => ltb x v) (S (length a)) a 0 (zlen a).
Proof. apply LowerBound_loop_bs. Qed.
Lemma LowerBoundFunc_bs less a v :
  LowerBoundFunc a v less = bs_loop (fun x => less x v) (S (length a)) a 0 (zlen a).
Proof. apply LowerBoundFunc_loop_bs. Qed.
Lemma UpperBound_bs ltb a v :
  UpperBound ltb a v = bs_loop (fun x => negb (ltb v x)) (S (length a)) a 0 (zlen a).
Proof. apply UpperBound_loop_bs. Qed.
Lemma UpperBoundFunc_bs less a v :
  UpperBoundFunc a v less = bs_loop (fun x => negb (less v x)) (S (length a)) a 0 (zlen a).
Proof. apply UpperBoundFunc_loop_bs. Qed.

Lemma lower_partition right a p :
  0 <= p <= zlen a ->
  (forall i x, zget a i = Some x -> right x = (i <? p)) ->
  bs_loop right (S (length a)) a 0 (zlen a) = Ok p.
Proof.
  intros Hp Hpart. destruct (run_bs right a) as (r & Hr & Hb).
  now rewrite Hr, (boundary_partition _ _ _ _ Hp Hpart Hb).
Qed.

Lemma lower_sorted less a v :
  strict_weak less -> sorted_by less a ->
  exists r, bs_loop (fun x => less x v) (S (length a)) a 0 (zlen a) = Ok r /\ 0 <= r <= zlen a /\
            forall i x, zget a i = Some x -> less x v = (i <? r).
Proof.
  intros Hw Hs. destruct (run_bs (fun x => less x v) a) as (r & Hr & Hb).
  exists r. split; [auto|]. split; [apply Hb|].
  apply (boundary_monotone (fun x => less x v)); auto. now apply sorted_lower_mono.
Qed.

Lemma upper_sorted less a v :
  strict_weak less -> sorted_by less a ->
  exists r, bs_loop (fun x => negb (less v x)) (S (length a)) a 0 (zlen a) = Ok r /\ 0 <= r <= zlen a /\
            forall i x, zget a i = Some x -> less v x = (r <=? i).
Proof.
  intros Hw Hs. destruct (run_bs (fun x => negb (less v x)) a) as (r & Hr & Hb).
  exists r. split; [auto|]. split; [apply Hb|]. intros i x Hx.
  pose proof (boundary_monotone (fun x => negb (less v x)) a r (sorted_upper_mono _ _ _ Hw Hs) Hb i x Hx).
  simpl in *. destruct (less v x), (Z.ltb_spec i r), (Z.leb_spec r i); simpl in *; try congruence; lia.
Qed.

(** BinarySearch. *)
Lemma bsearch_sorted less a v :
  strict_weak less -> sorted_by less a ->
  exists r, BinarySearchFunc a v less = Ok r /\
    match r with
    | (i, true) => first_index (fun x => negb (less x v) && negb (less v x)) a i
    | (i, false) => i = -1 /\ forall x, In x a -> negb (less x v) && negb (less v x) = false
    end.
Proof.
  intros Hw Hs. unfold BinarySearchFunc. rewrite LowerBoundFunc_bs.
  destruct (lower_sorted less a v Hw Hs) as (r & -> & Hr & Hpart). simpl.
  destruct (Z.ltb_spec r (zlen a)).
  - destruct (zget_range a r) as [x Hx]; [lia|]. unfold at_. rewrite Hx. simpl.
    pose proof (Hpart _ _ Hx) as Hxv. rewrite Z.ltb_irrefl in Hxv.
    destruct (less v x) eqn:E; simpl.
    + exists (-1, false). split; auto. split; auto. intros y Hy.
      apply in_zget in Hy. destruct Hy as (i & Hi & Hy). rewrite (Hpart _ _ Hy).
      destruct (Z.ltb_spec i r); auto. simpl. rewrite negb_false_iff.
      destruct (Z.eq_dec i r) as [->|Hne]; [congruence|].
      assert (less y x = false) by (apply (Hs r i); auto; lia).
      destruct (less v y) eqn:E2; auto. destruct Hw as [_ _ Hn]. rewrite (Hn v y x) in E; auto.
    + exists (r, true). split; auto. split.
      * exists x. split; auto. rewrite Hxv, E. auto.
      * intros i y Hi Hy. rewrite (Hpart _ _ Hy). destruct (Z.ltb_spec i r); auto; lia.
  - exists (-1, false). split; auto. split; auto. intros y Hy. apply in_zget in Hy.
    destruct Hy as (i & Hi & Hy). rewrite (Hpart _ _ Hy). destruct (Z.ltb_spec i r); auto; lia.
Qed.

Lemma bsearch_ordered ltb eqb a v :
  ordered ltb eqb -> sorted_by ltb a ->
  exists r, BinarySearch ltb eqb a v = Ok r /\
    match r with
    | (i, true) => first_index (fun x => eqb x v) a i
    | (i, false) => i = -1 /\ forall x, In x a -> eqb x v = false
    end.
Proof.
  intros [Hw He] Hs.
  assert (BinarySearch ltb eqb a v = BinarySearchFunc a v ltb) as E.
  { unfold BinarySearch, BinarySearchFunc. rewrite LowerBound_bs, LowerBoundFunc_bs.
    destruct (lower_sorted ltb a v Hw Hs) as (r & -> & Hr & Hpart). simpl.
    destruct (Z.ltb_spec r (zlen a)); auto. unfold at_.
    destruct (zget a r) as [x|] eqn:Hx; simpl; auto.
    rewrite He. rewrite (Hpart _ _ Hx), Z.ltb_irrefl. reflexivity. }
  rewrite E. destruct (bsearch_sorted ltb a v Hw Hs) as ([i b] & -> & Hr).
  exists (i, b). split; auto. destruct b.
  - destruct Hr as [(x & Hx & Hp) Hf]. split.
    + exists x. now rewrite He.
    + intros j y Hj Hy. rewrite He. eauto.
  - destruct Hr as [-> Hr]. split; auto. intros x Hx. rewrite He. auto.
Qed.

(** Number of iterations: at most floor(log2 len) + 1. *)
Definition log2_steps (n : Z) : nat := Z.to_nat (Z.log2 n + 1).

Lemma lt_log2_steps n : 0 <= n -> n < 2 ^ Z.of_nat (log2_steps n).
Proof.
  intros H. unfold log2_steps. pose proof (Z.log2_nonneg n).
  rewrite Z2Nat.id by lia. destruct (Z.eq_dec n 0) as [->|]; [reflexivity|].
  replace (Z.log2 n + 1) with (Z.succ (Z.log2 n)) by lia. apply Z.log2_spec. lia.
Qed.

Lemma bs_loop_fuel_mono right a fuel : forall loc count r,
  bs_loop right fuel a loc count = Ok r ->
  forall fuel', (fuel <= fuel')%nat -> bs_loop right fuel' a loc count = Ok r.
Proof.
  induction fuel as [|f IH]; intros loc count r H fuel' Hf.
  - destruct fuel'; auto; simpl in *; destruct (count >? 0); try discriminate; auto.
  - destruct fuel' as [|f']; [lia|]. simpl in *. destruct (count >? 0); auto.
    destruct (at_ a _); simpl in *; try discriminate.
    destruct (right a0); eapply IH; eauto; lia.
Qed.

Lemma bs_steps right a r :
  bs_loop right (S (length a)) a 0 (zlen a) = Ok r ->
  bs_loop right (log2_steps (zlen a)) a 0 (zlen a) = Ok r.
Proof.
  intros H. pose proof (zlen_nonneg a) as Hz.
  destruct (bs_ok right a _ (lt_log2_steps _ Hz)) as (r' & Hr' & _).
  destruct (Nat.le_ge_cases (log2_steps (zlen a)) (S (length a))) as [L|L].
  - rewrite (bs_loop_fuel_mono _ _ _ _ _ _ Hr' _ L) in H. congruence.
  - eapply bs_loop_fuel_mono; eauto.
Qed.

End BS.
